(** Result columns and their labels, component names and extreme values.
    Models Elasticity/Elasticity.C, Elasticity/ElasticBase.C, Elasticity/MaterialBase.h,
    FiniteDeformation/{NeoHookeMaterial,PlasticMaterial,LinearMaterial}.C,
    FiniteDeformation/NonlinearElasticityULMixed.C, Linear/KirchhoffLovePlate.C,
    Shell/KirchhoffLoveShell.C, Beam/ElasticCable.C.
    A stored value is represented by what it is, not by its number: the column list of a
    call is the list of quantities in the order in which the code appends them. *)
From Coq Require Import List String Ascii Arith Bool.
From Coq Require Import Reals.
From Verif Require Import Lib.Base.
Import ListNotations.
Open Scope string_scope.
Open Scope nat_scope.

(** * Quantities *)

Inductive axis := AX | AY | AZ | AR | AT.

Inductive quantity :=
| Comp (a b : axis)      (* tensor component *)
| VonMises
| EqPlastic              (* PlasticPoint::getVariable(6) *)
| MeanStress
| PrnStress (k : nat)    (* principal stress kept by the plastic point, 1-based *)
| Triax
| Lode
| Pressure               (* sigma_p of the hyperelastic material *)
| Nothing                (* constant zero *)
| Principal (k : nat)    (* principal value computed by evalSol, 1-based *)
| Moment (a b : axis)
| Shear (a : axis)
| Curv (a b : axis)      (* second derivative of the deflection *)
| Force (a b : axis)     (* membrane force *)
| SurfComp (top : bool) (a b : axis)
| SurfPrn (top : bool) (k : nat)
| SurfMises (top : bool)
| AxialForce
| BendMoment.

(** * Materials: number of internal variables, their values and labels *)

Inductive material := LinIso | NeoHooke | Plastic | Forward (m : material).

(* MaterialBase.h:115 (0), NeoHookeMaterial.h:68 (1), PlasticMaterial.h:193 (7),
   LinearMaterial.C:99-102 (forwards) *)
Fixpoint noInt (m : material) : nat :=
  match m with LinIso => 0 | NeoHooke => 1 | Plastic => 7 | Forward m => noInt m end.

(* PlasticMaterial.C:234-268, NeoHookeMaterial.C:364-370, MaterialBase.h:137,
   LinearMaterial.C:111-114; the value branch. *)
Fixpoint internalValue (m : material) (idx : nat) : quantity :=
  match m with
  | LinIso => Nothing
  | NeoHooke => Pressure
  | Plastic => match idx with
               | 1 => EqPlastic | 2 => MeanStress
               | 3 | 4 | 5 => PrnStress (idx - 2)   (* getPrnStress(idx-3), 0-based *)
               | 6 => Triax | 7 => Lode | _ => Nothing end
  | Forward m => internalValue m idx
  end.

Definition digit (n : nat) : string := String (ascii_of_nat (48 + n)) EmptyString.

(* the label branch of the same functions; MaterialBase.h:121-126.  The untouched static
   buffer of a material without label is "". *)
Fixpoint internalLabel (m : material) (idx : nat) : string :=
  match m with
  | LinIso => ""
  | NeoHooke => "hydrostatic pressure"
  | Plastic => match idx with
               | 1 => "E_pp" | 2 => "s_h"
               | 3 | 4 | 5 => "s_" ++ digit (idx - 2)
               | 6 => "T" | 7 => "L" | _ => "zero" end
  | Forward m => internalLabel m idx
  end.

(** * Elasticity *)

(* nsd is 2 when axiSymmetry is set (Elasticity.C:43).  [prinOk] is the return value of
   SymmTensor::principal (oracle). *)
Record config := mkConfig {
  nsd : nat; axi : bool; planeStrain : bool; mat : material;
  wantStrain : bool; wantPrincipal : bool; prinOk : bool }.

(* Order of the components in a SymmTensor (IFEM, trusted): Elasticity.C:798, 829.
   The tensor has a third normal component in 2D iff axisymmetric or plane strain. *)
Definition tensorCols (c : config) : list quantity :=
  match nsd c with
  | 1 => [Comp AX AX]
  | 2 => if axi c then [Comp AR AR; Comp AZ AZ; Comp AT AT; Comp AZ AR]
         else if planeStrain c then [Comp AX AX; Comp AY AY; Comp AZ AZ; Comp AX AY]
         else [Comp AX AX; Comp AY AY; Comp AX AY]
  | _ => [Comp AX AX; Comp AY AY; Comp AZ AZ; Comp AX AY; Comp AY AZ; Comp AX AZ]
  end.

(* Elasticity.C:834-840 *)
Definition principalCols (c : config) : list quantity :=
  [Principal 1; Principal 2] ++ (if nsd c =? 3 then [Principal 3] else []).

(* Elasticity::evalSol, Elasticity.C:771-843: tensor, von Mises when toLocal, principal
   values when toLocal && wantPrincipalStress and principal() succeeded. *)
Definition evalSol (c : config) (toLocal : bool) : list quantity :=
  tensorCols c
    ++ (if toLocal then [VonMises] else [])
    ++ (if toLocal && wantPrincipal c && prinOk c then principalCols c else []).

(* Elasticity::evalSol2, Elasticity.C:722-768: nothing in a singular point, otherwise
   evalSol(...,true,...) followed by the internal variables 1..n. *)
Definition evalSol2 (c : config) (singular : bool) : list quantity :=
  if singular then []
  else evalSol c true ++ map (internalValue (mat c)) (seq 1 (noInt (mat c))).

(* Elasticity::evalSol with an analytical stress, Elasticity.C:846-865 *)
Definition evalSolAna (c : config) : list quantity :=
  tensorCols c ++ [VonMises]
    ++ (if wantPrincipal c then repeat Nothing (noInt (mat c)) ++ principalCols c else []).

(* Elasticity::getNoFields, Elasticity.C:932-953 *)
Definition getNoFields (c : config) (fld : nat) : nat :=
  if fld <? 2 then nsd c
  else
    let nf := nsd c * (nsd c + 1) / 2 in
    let nf := if (nsd c =? 2) && (axi c || planeStrain c) then S nf else nf in
    if fld =? 2 then
      let nf := nf + (1 + noInt (mat c)) in
      if wantPrincipal c then nf + nsd c else nf
    else nf.

Definition pfx (prefix : option string) (name : string) : string :=
  match prefix with None => name | Some p => p ++ " " ++ name end.

Definition rTable := ["s_rr"; "s_zz"; "s_tt"; "s_zr"].
Definition sTable := ["s_xx"; "s_yy"; "s_zz"; "s_xy"; "s_yz"; "s_xz"].

(* name[j] = 'e': the character after the prefix *)
Definition strainName (strain : bool) (s : string) : string :=
  if strain then match s with EmptyString => s | String _ r => String "e"%char r end else s.

(* Elasticity::getField2Name, Elasticity.C:967-1002.  A table read past its end is [UB]. *)
Definition getField2Name (c : config) (i : nat) (prefix : option string) : res string :=
  let nVars := getNoFields c 2 in
  if nVars <=? i then Ret "" else
  let nStress := getNoFields c 3 in
  if nsd c =? 1 then Ret (pfx prefix "Axial stress")
  else if (i =? 2) && (nStress =? 3) then Ret (pfx prefix (nth 3 sTable ""))
  else if i <? nStress then
    match nth_error (if axi c then rTable else sTable) i with
    | Some s => Ret (pfx prefix (strainName (wantStrain c) s))
    | None => UB
    end
  else if i =? nStress then
    Ret (pfx prefix ("von Mises " ++ (if wantStrain c then "strain" else "stress")))
  else
    let i := i - nStress in
    if i <=? noInt (mat c) then Ret (pfx prefix (internalLabel (mat c) i))
    else
      let i := i - noInt (mat c) in
      if i <=? nsd c then Ret (pfx prefix ("P" ++ digit i)) else Ret (pfx prefix "").

(* The four components printed by NonlinearDriver.C:435-439, 1-based there. *)
Definition driverMax (c : config) : list nat :=
  let id := getNoFields c 3 + 1 in [id; id + 1; id + 6; id + 7].

(** * Primary solution names *)

Definition uTable := ["u_x"; "u_y"; "u_z"; "u_r"; "displacement"].

(* Elasticity::getField1Name, Elasticity.C:956-964.  [3-i] is a size_t subtraction; for
   i = 4 it wraps around and the table is read out of bounds. *)
Definition getField1Name (c : config) (i : nat) (prefix : option string) : res string :=
  let i := if nsd c <? i then 4 else i in
  let rd (k : nat) := match nth_error uTable k with Some s => Ret s | None => UB end in
  match prefix with
  | None => rd i
  | Some p => if axi c then if 3 <? i then UB
                            else let* s := rd (3 - i) in Ret (p ++ " " ++ s)
              else let* s := rd i in Ret (p ++ " " ++ s)
  end.

Definition bTable := ["u_x"; "u_y"; "u_z"; "r_x"; "r_y"; "r_z"; "displacement"].

(* ElasticBase::getField1Name, ElasticBase.C:230-239 *)
Definition baseField1Name (npv i : nat) (prefix : option string) : res string :=
  let i := if (6 <? i) || (npv <? i) then 6 else i in
  match nth_error bTable i with Some s => Ret (pfx prefix s) | None => UB end.

(* NonlinearElasticityULMixed::getField1Name, NonlinearElasticityULMixed.C:495-515 *)
Definition mixedField1Name (c : config) (i : nat) (prefix : option string) : res string :=
  if (i <? nsd c) || ((S (nsd c) <? i) && negb (i =? 12)) then getField1Name c i prefix
  else Ret (pfx prefix (if i =? 12 then "theta+p" else if i =? nsd c then "theta" else "p")).

(* KirchhoffLovePlate::getField1Name, KirchhoffLovePlate.C:367-373 *)
Definition plateField1Name (prefix : option string) : string := pfx prefix "w".

(* KirchhoffLoveShell::getField1Name, KirchhoffLoveShell.C:359-381 *)
Definition shellField1Name (i : nat) (prefix : option string) : string :=
  if i =? 3 then pfx prefix "sqrt(u^2+v^2+w^2)"
  else if 3 <? i then pfx prefix "displacement"
  else pfx prefix (String (ascii_of_nat (117 + i)) EmptyString).

(** * Plate, shell and cable result columns *)

(* KirchhoffLovePlate::evalSol, KirchhoffLovePlate.C:272-324; [d3] : third derivatives
   are available (l.298).  In 1D the moment tensor has one component. *)
Definition plateCols (version nsd : nat) (d3 : bool) : list quantity :=
  if version =? 1 then
    (if nsd =? 1 then [Moment AX AX] else [Moment AX AX; Moment AY AY; Moment AX AY])
    ++ (if d3 then (if nsd =? 1 then [Shear AX] else [Shear AX; Shear AY]) else [])
  else
    (if nsd =? 1 then [Curv AX AX] else [Curv AX AX; Curv AY AY])
    ++ (if (version =? 2) && (nsd =? 2) then [Curv AX AY] else []).

(* KirchhoffLovePlate::getField2Name, KirchhoffLovePlate.C:376-389 *)
Definition plateField2Name (version nsd i : nat) (prefix : option string) : res string :=
  let i := if (i =? 1) && (version =? 1) && (nsd =? 1) then 3 else i in
  if (if version =? 1 then 5 else 3) <=? i then Ret ""
  else
    let s := if version =? 1 then ["m_xx"; "m_yy"; "m_xy"; "q_x"; "q_y"]
             else ["d2w/dx2"; "d2w/dy2"; "d2w/dxy"] in
    match nth_error s i with Some s => Ret (pfx prefix s) | None => UB end.

(* KirchhoffLovePlate::getNoFields, KirchhoffLovePlate.C:351-364; [rec] : the mode is INIT
   or at least RECOVERY. *)
Definition plateNoFields (version nsd : nat) (rec : bool) (fld : nat) : nat :=
  if fld <? 2 then 1
  else if 2 <? version then nsd
  else nsd * (nsd + 1) / 2 + (if (version =? 1) && rec then nsd else 0).

(* KirchhoffLoveShell::evalSol, KirchhoffLoveShell.C:248-278: the two surfaces in the order
   isurf = -1, +1; which surface each of them is, is the subject of C52.  Here the first is
   called bottom, as the header of the loop does. *)
Definition shellCols : list quantity :=
  [Force AX AX; Force AY AY; Force AX AY; Moment AX AX; Moment AY AY; Moment AX AY]
  ++ flat_map (fun top => [SurfComp top AX AX; SurfComp top AY AY; SurfComp top AX AY;
                           SurfPrn top 1; SurfPrn top 2; SurfMises top]) [false; true].

Definition shTable :=
  ["n_xx"; "n_yy"; "n_xy"; "m_xx"; "m_yy"; "m_xy";
   "sigma_x"; "sigma_y"; "tau_xy"; "sigma_1"; "sigma_2"; "sigma_m"].

(* KirchhoffLoveShell::getField2Name, KirchhoffLoveShell.C:384-401 *)
Definition shellField2Name (i : nat) (prefix : option string) : res string :=
  match nth_error shTable (if i <? 6 then i else 6 + i mod 6) with
  | Some s => Ret (pfx prefix (if 12 <=? i then "Top " ++ s
                               else if 6 <=? i then "Bottom " ++ s else s))
  | None => UB
  end.

(* ElasticCable::evalSol, ElasticCable.C:664-666, and getField2Name, 671-686 *)
Definition cableCols : list quantity := [AxialForce; BendMoment].
Definition cableField2Name (i : nat) (prefix : option string) : string :=
  match i with 0 => pfx prefix "Axial force" | 1 => pfx prefix "Bending moment" | _ => "" end.

(** * Extreme values *)

(* PointValue is a pair of a point and a value; maxVal[j][p] (Elasticity.h). *)
Section Extreme.
Context {P : Type} (origin : P).
Open Scope R_scope.

Definition cellv := (P * R)%type.
Definition maxvals := list (list cellv).

(* Elasticity::initMaxVals, Elasticity.C:1011-1027 *)
Definition initMaxVals (nf : nat) (mv : maxvals) (nP : nat) : maxvals * bool :=
  match mv with
  | _ :: _ => (map (map (fun _ => (origin, 0))) mv, Nat.eqb nP 1)
  | [] => (if Nat.ltb 0 nP then repeat (repeat (origin, 0) nP) nf else [], false)
  end.

(* one comparison of Elasticity.C:763 *)
Definition upd (X : P) (v : R) (c : cellv) : cellv :=
  if Rlt_dec (Rabs (snd c)) (Rabs v) then (X, v) else c.

Fixpoint updAt (k : nat) (X : P) (v : R) (cells : list cellv) : list cellv :=
  match cells, k with
  | [], _ => []
  | c :: r, O => upd X v c :: r
  | c :: r, S k => c :: updAt k X v r
  end.

(* the loop over components, Elasticity.C:760-765; [patch] is LocalSystem::patch *)
Fixpoint updAll (patch : nat) (X : P) (s : list R) (mv : maxvals) : maxvals :=
  match s, mv with
  | v :: s, cells :: mv =>
      updAt (if Nat.ltb 1 (length cells) then patch else 0%nat) X v cells
        :: updAll patch X s mv
  | _, _ => mv
  end.

(* A visit: the patch, the point and the result vector evaluated there.  The update of
   the shared array is in a critical section, so an execution is a sequence of visits. *)
Record visitv := mkVisit { vpatch : nat; vpoint : P; vres : list R }.

Definition visitMax (mv : maxvals) (w : visitv) : maxvals :=
  updAll (vpatch w) (vpoint w) (vres w) mv.
Definition visitsMax (mv : maxvals) (ws : list visitv) : maxvals :=
  fold_left visitMax ws mv.

Definition cellAt (mv : maxvals) (j p : nat) : cellv :=
  nth p (nth j mv []) (origin, 0).
End Extreme.
Arguments mkVisit {P}.
