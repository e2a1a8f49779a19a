(** Beam element evaluation: which matrices and vectors the element delivers.
    Models Beam/ElasticBeam.C:514-649 (evalInt) and 658-735 (finalizeElement).  The element
    matrices and vectors are addressed by slot number from 1; slot 0 is "not wanted".  The
    ranges of the slots are the subject of Model/Modes.  The section values are those of
    Model/Section at the integration point; [tol] is the tolerance of IFEM's Vec3::isZero. *)
From Verif Require Import Lib.Base Lib.Script Lib.Vec3 Model.Beam Model.Section.
From Verif Require Model.Modes.
Local Open Scope nat_scope.

(* ElasticBase::eKm, eKg, eM, eS, iS *)
Record slots := mkSlots { eKm : nat; eKg : nat; eM : nat; eS : nat; iS : nat }.
Record beam := mkBeam { bL : R; bT : nat -> nat -> R; bE1 : v3; bE2 : v3; bP : eprop; bGrav : v3; bLump : Z; bTol : R }.
(* elMat.A and elMat.b *)
Record elm := mkElm { eA : nat -> fmat; eB : nat -> nat -> R }.
Definition noElm : elm := mkElm (fun _ => zero) (fun _ _ => 0%R).

Definition put {X : Type} (k : nat) (x : X) (f : nat -> X) (i : nat) : X := if i =? k then x else f i.
Definition gtb (a b : R) : bool := if Rlt_dec b a then true else false.
(* Vec3::isZero *)
Definition isZero (tol : R) (v : v3) : bool := negb (gtb (Rabs (vx v)) tol || gtb (Rabs (vy v)) tol || gtb (Rabs (vz v)) tol).
(* eVg.normInf() > t *)
Definition larger (u : nat -> R) (t : R) : bool := existsb (fun i => gtb (Rabs (u i)) t) (seq 1 12).
Definition hasEcc (d : beam) : bool := negb (isZero (bTol d) (bE1 d)) || negb (isZero (bTol d) (bE2 d)).
Definition hasDis (d : beam) (u : nat -> R) : bool := larger u (/ 10 ^ 16 * bL d).
Definition hasGrF (F : slots) (d : beam) : bool := if isZero (bTol d) (bGrav d) then false else 1 <=? eS F.

Definition Km (d : beam) : fmat := let p := bP d in
  stiffness (bL d) (pEA p) (pGIt p) (pEIy p) (pEIz p) (pAly p) (pAlz p) (pSy p) (pSz p).
Definition Kg (N : R) (d : beam) : fmat := let p := bP d in geometric N (bL d) (pAly p) (pAlz p) (pItoA p) (pSy p) (pSz p).
Definition Mm (d : beam) : fmat := let p := bP d in
  massNA (Z.compare (bLump d) 0) (pRhoA p) (pIxx p) (pIyy p) (pIzz p) (bL d) (pCGy p) (pCGz p).

(* utl::transform(v,T,true) (IFEM): T^t v *)
Definition toLocalVec (T : nat -> nat -> R) (u : nat -> R) (i : nat) : R := sumf 3 (fun a => rd T a (loc i) * rv u (blk i + a))%R.
(* gravity*T *)
Definition rowTimes (T : nat -> nat -> R) (g : v3) : v3 :=
  (V (vx g * T 1%nat 1%nat + vy g * T 2%nat 1%nat + vz g * T 3%nat 1%nat)
     (vx g * T 1%nat 2%nat + vy g * T 2%nat 2%nat + vz g * T 3%nat 2%nat)
     (vx g * T 1%nat 3%nat + vy g * T 2%nat 3%nat + vz g * T 3%nat 3%nat))%R.

(* evalInt; the myProp test (l.525-529) is left out *)
Definition evalInt (F : slots) (d : beam) (u : nat -> R) (m : elm) : res elm :=
  if negb (gtb (bL d) (/ 10 ^ 8)) then Rejected else                                        (* l.518-524 *)
  let A := if 1 <=? eKm F then put (eKm F) (Km d) (eA m) else eA m in                        (* l.551-552 *)
  if (1 <=? eKg F) && hasDis d u && hasEcc d then Rejected else                             (* l.558-563 *)
  let defd := ((1 <=? iS F) || (1 <=? eKg F)) && hasDis d u && negb (hasEcc d) in
  let v := toLocalVec (bT d) u in                                                           (* l.577-579 *)
  let N := (if defd && (1 <=? eKg F) then pEA (bP d) * (rv v 7 - rv v 1) / bL d else 0)%R in (* l.580-587 *)
  let b := if 1 <=? iS F then put (iS F) (fun _ => 0%R) (eB m) else eB m in                  (* l.589 *)
  let b := if defd && (1 <=? iS F) then put (iS F) (fun i => rv (b (iS F)) i - mv 12 (Km d) v i)%R b else b in (* l.590-602 *)
  let A := if (1 <=? eKg F) && negb (if Req_EM_T N 0 then true else false)                  (* l.604-614 *)
           then if eKg F =? eKm F then put (eKm F) (fun i j => rd (A (eKm F)) i j + rd (Kg N d) i j)%R A else put (eKg F) (Kg N d) A
           else A in
  let A := if 1 <=? eM F then put (eM F) (Mm d) A else A in                                  (* l.616-629 *)
  let b := if hasGrF F d then                                                               (* l.631-646 *)
             let b := if eS F =? iS F then b else put (eS F) (fun _ => 0%R) b in
             put (eS F) (fun i => rv (b (eS F)) i + gravityLoad (Mm d) (rowTimes (bT d) (bGrav d)) i)%R b
           else b in
  Ret (mkElm A b).

(* Diagonal-only transformation of a mass matrix with lumpedMass = 2, l.671-680 and 700-710 *)
Definition finalizeLumped (T : nat -> nat -> R) (ecc : option (v3 * v3)) (A : fmat) : fmat := fun i j =>
  if i =? j then
    let d := lumpedGlobal T (fun k => rd A k k) in
    match ecc with None => d i | Some (e1, e2) => lumpedEcc e1 e2 d i end
  else rd A i j.

(* finalizeElement with inLocalAxes; ElasticBase::finalizeElement (time step size) is left out *)
Definition finalizeElement (F : slots) (d : beam) (u : nat -> R) (m : elm) : res elm :=
  let ecc := if hasEcc d then Some (bE1 d, bE2 d) else None in
  let A := fun k => if (k =? eM F) && (bLump d =? 2)%Z then finalizeLumped (bT d) ecc (eA m k) else finalize (Some (bT d)) ecc (eA m k) in
  let b := fun k => let g := toGlobalVec (bT d) (eB m k) in match ecc with None => g | Some (e1, e2) => eccVec e1 e2 g end in
  if (1 <=? iS F) && hasEcc d && larger u 0 then
    if (eKm F <? 1) || (eKg F =? eKm F) then Rejected
    else Ret (mkElm A (put (iS F) (fun i => rv (b (iS F)) i - mv 12 (A (eKm F)) u i)%R b))
  else Ret (mkElm A b).

Definition beamElement (F : slots) (d : beam) (u : nat -> R) : res elm :=
  let* m := evalInt F d u noElm in finalizeElement F d u m.

(** Slots by solution mode (ElasticBase::setMode, see Model/Modes) *)
Definition slotsOf (s : Modes.slots) : slots :=
  mkSlots (Z.to_nat (Modes.eKm s)) (Z.to_nat (Modes.eKg s)) (Z.to_nat (Modes.eM s)) (Z.to_nat (Modes.eS s)) (Z.to_nat (Modes.iS s)).
Definition beamSlots (c : Modes.config) (m : Modes.mode) : slots := slotsOf (snd (Modes.setMode Modes.Beam c false m)).
