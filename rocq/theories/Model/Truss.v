(** A truss of two-node bars: the elements of Model/Bar.v in a static analysis, Beam/ElasticBar.C 118-310 (the order of the terms
    of evalInt) and 345-363 (fewer than three unknowns in each node), added into the global system.

    Simplifications: real arithmetic; the assembly itself is IFEM's (SIMbase::assembleSystem, SAM::assembleSystem): every element
    matrix and vector is added at the positions of its two nodes, all unknowns are kept and the prescribed ones get a reaction
    (instead of being eliminated).  A linear analysis has no displacements at the elements, which is the case of zero displacements. *)
From Verif Require Import Lib.Base Lib.Writes Lib.Vec3 Model.Bar Model.BeamElm.
From Verif Require Model.Modes Model.LinSystem.
Import ListNotations.

(** The integrand: number of unknowns in each node (npv), strain measure, stiffness, mass per length, gravity and the tolerance
    of Vec3::isZero (IFEM); ElasticBar.C 20-33. *)
Record truss := mkTruss { tD : nat; tM : measure; tK : R; tMass : R; tGrav : v3; tTol : R }.
(** The two nodes of a bar. *)
Record rod := mkRod { rod1 : nat; rod2 : nat }.
Definition rElt (b : rod) : LinSystem.elt := LinSystem.mkElt 2 (fun a => if (a =? 1)%nat then rod1 b else rod2 b) [] None.
(** Vec3(const double*,npv), ElasticBar.C 143-144: components that are not there are zero. *)
Definition disp (d : nat) (u : nat -> R) (n : nat) : v3 :=
  V (u (dof d n 1)) (if (2 <=? d)%nat then u (dof d n 2) else 0) (if (3 <=? d)%nat then u (dof d n 3) else 0).
(** Where the geometric stiffness goes, ElasticBar.C 202-206 with ElasticBase::setMode (Elasticity/ElasticBase.C 64-72). *)
Definition trussSlot (c : Modes.config) : slot :=
  let F := beamSlots c Modes.STATIC in
  if (eKg F =? 0)%nat then Nowhere else if (eKg F =? eKm F)%nat then Same else Separate.
(** ElasticBar.C 345-363. *)
Definition reduceMat (d : nat) (A : nat -> nat -> R) : nat -> nat -> R := if (2 <? d)%nat then A else shrinkMat d A.
Definition reduceVec (d : nat) (b : nat -> R) : nat -> R := if (2 <? d)%nat then b else shrinkVec d 2 b.
(** ElasticBar.C 275-310: weight (if gravity is not negligible) and internal forces in the same vector. *)
Definition rodVec (T : truss) (L0 : R) (S : nat -> R) (i : nat) : R :=
  (if isZero (tTol T) (tGrav T) then 0 else barGravity (tMass T) L0 (tGrav T) i) + S i.

Record tsys := mkTsys { sK : mat; sB : mat }.
Section Truss.
Variables (c : Modes.config) (T : truss) (P : nat -> v3) (u : nat -> R).
Definition rodOut (b : rod) : res barOut :=
  evalBar (tM T) (tK T) (trussSlot c) (P (rod1 b)) (P (rod2 b)) (disp (tD T) u (rod1 b)) (disp (tD T) u (rod2 b)).
Fixpoint assembleTruss (bs : list rod) (S : tsys) : res tsys :=
  match bs with
  | [] => Ret S
  | b :: r =>
    let* o := rodOut b in
    let N := (tD T * 2)%nat in
    let* K := run_add (sK S) (LinSystem.asmMat (tD T) (rElt b) (mkMat N N (reduceMat (tD T) (oKm o)))) in
    let* f := run_add (sB S) (LinSystem.asmVec (tD T) (rElt b)
      (mkMat N 1 (fun i _ => reduceVec (tD T) (rodVec T (vlen (vsub (P (rod2 b)) (P (rod1 b)))) (oS o)) i))) in
    assembleTruss r (mkTsys K f)
  end.
End Truss.
Definition emptyTruss (d nnod : nat) : tsys := mkTsys (zeros (d * nnod) (d * nnod)) (zeros (d * nnod) 1).
Definition trussSystem (c : Modes.config) (T : truss) (nnod : nat) (P : nat -> v3) (bs : list rod) (u : nat -> R) : res tsys :=
  assembleTruss c T P u bs (emptyTruss (tD T) nnod).
