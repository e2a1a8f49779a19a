(** A frame of beam elements: the elements of Model/BeamElm.v in a solution mode with stiffness and forces in the first
    matrix and vector (STATIC, ElasticBase::setMode, Elasticity/ElasticBase.C 64-78), added into the global system.

    Simplifications: real arithmetic; the assembly itself is IFEM's (SIMbase::assembleSystem, SAM::assembleSystem, 6 unknowns in
    each node, Beam/ElasticBeam.C 81-84): every element matrix and vector is added at the positions of its two nodes, all unknowns
    are kept and the prescribed ones get a reaction (instead of being eliminated). *)
From Verif Require Import Lib.Base Lib.Writes Lib.Script Lib.Vec3 Model.Beam Model.Section Model.BeamElm.
From Verif Require Model.Modes Model.LinSystem.

(** A beam and its two nodes. *)
Record member := mkMember { node1 : nat; node2 : nat; mBeam : beam }.
Definition mElt (mb : member) : LinSystem.elt :=
  LinSystem.mkElt 2 (fun a => if (a =? 1)%nat then node1 mb else node2 mb) [] None.
(** The displacements of an element, collected in initElement (Beam/ElasticBeam.C 276-282 and IFEM). *)
Definition mVals (mb : member) (u : nat -> R) : nat -> R :=
  fun i => u (dof 6 (if (i <=? 6)%nat then node1 mb else node2 mb) (if (i <=? 6)%nat then i else i - 6)).

(** Matrix and vector of the system; [F] are the positions set by the solution mode. *)
Record fsys := mkFsys { fK : mat; fB : mat }.
Fixpoint assembleFrame (F : slots) (mbs : list member) (u : nat -> R) (S : fsys) : res fsys :=
  match mbs with
  | [] => Ret S
  | mb :: r =>
    let* m := beamElement F (mBeam mb) (mVals mb u) in
    let* K := run_add (fK S) (LinSystem.asmMat 6 (mElt mb) (mkMat 12 12 (eA m 1))) in
    let* b := run_add (fB S) (LinSystem.asmVec 6 (mElt mb) (mkMat 12 1 (fun i _ => eB m 1 i))) in
    assembleFrame F r u (mkFsys K b)
  end.
Definition emptyFrame (nnod : nat) : fsys := mkFsys (zeros (6 * nnod) (6 * nnod)) (zeros (6 * nnod) 1).
Definition frameSystem (c : Modes.config) (nnod : nat) (mbs : list member) (u : nat -> R) : res fsys :=
  assembleFrame (beamSlots c Modes.STATIC) mbs u (emptyFrame nnod).
