(** Pressures and materials in text input files.
    Models SIMElasticity::parse(char*,istream&), Elasticity/SIMElasticity.C 472-639 (keywords ISOTROPIC, PRESSURE, MATERIAL,
    CONSTANT_PRESSURE, LINEAR_PRESSURE), Elasticity::parseMatProp, Elasticity/Elasticity.C 90-100, and initMaterial and
    initNeumann, Elasticity/SIMElasticity.C 809-849.
    A line is the list of its words as split by strtok; reading a word that is not there passes a null pointer to atoi or
    atof (undefined behaviour).  Lines beyond the announced number, and missing lines, end a section without an error.
    IFEM: Property (its local index is a char), setPropertyType, getLocalPatchIndex, parseRealFunc, and the loops of
    assembleSystem over the properties. *)
From Coq Require Import List ZArith QArith Bool.
From Verif.Lib Require Import Base.
Import ListNotations.
Local Open Scope Z_scope.

Inductive word := Num (q : Q) | Word (w : nat).
Definition ALL : nat := 0%nat.
Definition atoi (t : word) : Z := match t with Num q => Z.quot (Qnum q) (Zpos (Qden q)) | Word _ => 0 end.
Definition atof (t : word) : Q := match t with Num q => q | Word _ => 0%Q end.
(** Conversion of an int to a (signed) char. *)
Definition char8 (z : Z) : Z := (z + 128) mod 256 - 128.

(** PressureField and TractionField. *)
Inductive value := Const (p : Q) | Linear (p : Q) | Func (w : word) (p : Q).
Inductive field := Pressure (v : value) (dir : Z) | StressTraction.
Record mat := mkM { Emod : Q; nu : Q; rho : Q }.
Inductive kind := UNDEFINED | NEUMANN | MATERIAL.
Record prop := mkProp { pcode : kind; pindx : Z; patch : Z; lindx : Z }.
Record state := mkSt { props : list prop; tracs : list (Z * field); mats : list mat; current : option mat }.

(** IFEM: setPropertyType; without an index, the code stays. *)
Definition setPropertyType (code : Z) (k : kind) (idx : option Z) (l : list prop) : list prop :=
  map (fun p => match pcode p with
                | UNDEFINED => if pindx p =? code then mkProp k (match idx with Some i => i | None => code end) (patch p) (lindx p) else p
                | _ => p end) l.
(** std::map: the entry last written. *)
Definition find (code : Z) (l : list (Z * field)) : option field :=
  match List.find (fun e => fst e =? code) l with Some e => Some (snd e) | None => None end.

Section Parse.
Variables (dim : Z) (local : Z -> Z) (stress : bool).   (* getLocalPatchIndex; getStressSol() of the analytical solution *)

(** SIMElasticity.C 527-571, line number [i] from zero. *)
Definition pressureLine (i : nat) (l : list word) (s : state) : res state :=
  match l with
  | [] => UB
  | t1 :: r =>
    let pid := local (atoi t1) in
    if pid <? 0 then Rejected else if pid <? 1 then Ret s else
    match r with
    | [] => UB
    | t2 :: r =>
      let face := char8 (atoi t2) in
      if (face <? 1) || (2 * dim <? face) then Rejected else
      let put f := Ret (mkSt (props s ++ [mkProp NEUMANN (1 + Z.of_nat i) pid face]) ((1 + Z.of_nat i, f) :: tracs s) (mats s) (current s)) in
      if stress then put StressTraction else
      match r with
      | t3 :: t4 :: r => put (Pressure (match r with [] => Const (atof t4) | w :: _ => Func w (atof t4) end) (atoi t3))
      | _ => UB
      end
    end
  end.
(** SIMElasticity.C 614-635. *)
Definition codeLine (lin : bool) (l : list word) (s : state) : res state :=
  match l with
  | t1 :: t2 :: t3 :: _ =>
    let code := atoi t1 in
    Ret (mkSt (setPropertyType code NEUMANN None (props s))
              ((code, Pressure (if lin then Linear (atof t3) else Const (atof t3)) (atoi t2)) :: tracs s) (mats s) (current s))
  | _ => UB
  end.

(** Elasticity.C 90-100. *)
Definition parseMat (l : list word) : res (mat * list word) :=
  match l with e :: n :: r :: t => Ret (mkM (atof e) (atof n) (atof r), t) | _ => UB end.
Definition addMat (m : mat) (s : state) : state := mkSt (props s) (tracs s) (mats s ++ [m]) (Some m).
Definition nMat (s : state) : Z := Z.of_nat (length (mats s)).
(** SIMElasticity.C 484-493. *)
Definition isotropicLine (l : list word) (s : state) : res state :=
  match l with
  | [] => UB
  | t1 :: r =>
    let code := atoi t1 in
    let s := if 0 <? code then mkSt (setPropertyType code MATERIAL (Some (nMat s)) (props s)) (tracs s) (mats s) (current s) else s in
    let* m := parseMat r in Ret (addMat (fst m) s)
  end.
(** SIMElasticity.C 579-596. *)
Fixpoint patches (l : list word) (s : state) : res state :=
  match l with
  | [] => Ret s
  | w :: r =>
    match w with
    | Word 0 => patches r s
    | _ => let pid := local (atoi w) in
           if pid <? 0 then Rejected else if pid <? 1 then patches r s
           else patches r (mkSt (props s ++ [mkProp MATERIAL (nMat s - 1) pid 0]) (tracs s) (mats s) (current s))
    end
  end.
Definition materialLine (l : list word) (s : state) : res state :=
  let* m := parseMat l in patches (snd m) (addMat (fst m) s).

(** A keyword with the number it announces and the lines that follow. *)
Inductive keyword := PRESSURE | CONSTANT_PRESSURE | LINEAR_PRESSURE | ISOTROPIC | MATERIALS.
Record section := mkSec { key : keyword; count : nat; body : list (list word) }.
(** One line of a section. *)
Definition line (k : keyword) (i : nat) (l : list word) (s : state) : res state :=
  match k with
  | PRESSURE => pressureLine i l s
  | CONSTANT_PRESSURE => codeLine false l s
  | LINEAR_PRESSURE => codeLine true l s
  | ISOTROPIC => isotropicLine l s
  | MATERIALS => materialLine l s
  end.
Fixpoint linesOf (k : keyword) (i : nat) (ls : list (list word)) : list (keyword * nat * list word) :=
  match ls with [] => [] | l :: ls => (k, i, l) :: linesOf k (S i) ls end.
Definition secLines (s : section) : list (keyword * nat * list word) := linesOf (key s) 0 (firstn (count s) (body s)).
Definition fileLines (f : list section) : list (keyword * nat * list word) := flat_map secLines f.
Fixpoint parseLines (ls : list (keyword * nat * list word)) (s : state) : res state :=
  match ls with [] => Ret s | (k, i, l) :: ls => let* s1 := line k i l s in parseLines ls s1 end.
Definition parseFile (f : list section) (s : state) : res state := parseLines (fileLines f) s.
End Parse.

(** IFEM: assembleSystem visits the boundary properties; SIMElasticity::initNeumann, 833-849. *)
Definition loads (s : state) : list (Z * Z * field) :=
  flat_map (fun p => match pcode p with
                     | NEUMANN => match find (pindx p) (tracs s) with Some f => [(patch p, lindx p, f)] | None => [] end
                     | _ => [] end) (props s).
(** SIMElasticity::initMaterial, 809-818; [None]: reads outside the table. *)
Definition initMaterial (s : state) (ind : Z) : option mat :=
  let ind := if nMat s <=? ind then nMat s - 1 else ind in
  if ind <? 0 then None else nth_error (mats s) (Z.to_nat ind).
(** IFEM: assembleSystem integrates the patches of the material properties, or, if there are none, all patches with the
    current material. *)
Definition isMat (p : prop) : bool := match pcode p with MATERIAL => true | _ => false end.
Definition integrated (nPatch : nat) (s : state) : list (Z * option mat) :=
  match filter isMat (props s) with
  | [] => map (fun k => (Z.of_nat k, current s)) (seq 1 nPatch)
  | l => map (fun p => (patch p, initMaterial s (pindx p))) l
  end.
