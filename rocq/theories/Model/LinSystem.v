(** The equation system of a linear static analysis: the elements of Model/LinElement.v in the mode set by
    LinearElasticity::setMode (LinearElasticity.C 73-98 for STATIC) and ElasticBase::setMode (ElasticBase.C 64-71),
    added into the global system.

    Simplifications: real arithmetic; the assembly itself is IFEM's (SIMbase::assembleSystem, SAM::assembleSystem): every
    element matrix and vector is added at the positions of its nodes, all unknowns are kept and the prescribed ones get a
    reaction (instead of being eliminated).  Elements may have any number of nodes. *)
From Verif Require Export Model.LinElement.

(** An element: number of nodes, global node of each, integration points, values of the extraction function
    ([None]: outside its domain). *)
Record elt := mkElt { enen : nat; conn : nat -> nat; epts : list lpt; extr : option (nat -> R) }.
(** The positions set for STATIC: stiffness 1, external loads 1, dual loads 2 if there are extraction functions;
    no geometric stiffness, mass or internal forces. *)
Definition linStatic (d : nat) (ax ps tmp dual : bool) (n : nat) : lset :=
  mkLset d ax ps n 1 0 0 0 1 (if dual then 2 else 0)%nat tmp.
(** The element vectors: displacements are not given in a linear static analysis, initElement LinearElasticity.C 120-160. *)
Definition statVecs (dual : bool) (e : elt) : list (option (nat -> R)) := if dual then [None; extr e] else [None].
(** LinearElasticity::getLocalIntegral (Elasticity.C 187-192) gives zero matrices and vectors. *)
Definition freshElm (N : nat) : lst := mkLst (fun _ => zeros N N) (mkLoads (fun _ => zeros N 1) (fun _ => 0) 0).

Definition asmMat (d : nat) (e : elt) (Ke : mat) : list wr :=
  loop (enen e) (fun a => loop d (fun i => loop (enen e) (fun b => loop d (fun j =>
    [(dof d (conn e a) i, dof d (conn e b) j, el Ke (dof d a i) (dof d b j))])))).
Definition asmVec (d : nat) (e : elt) (be : mat) : list wr :=
  loop (enen e) (fun a => loop d (fun i => [(dof d (conn e a) i, 1%nat, el be (dof d a i) 1%nat)])).

(** Matrix, load vector and load vector of the dual problem. *)
Record lsys := mkSys { sK : mat; sF : mat; sQ : mat }.
Fixpoint assembleLin (d : nat) (ax ps tmp dual : bool) (els : list elt) (S : lsys) : res lsys :=
  match els with
  | [] => Ret S
  | e :: r =>
    let* st := linElement (linStatic d ax ps tmp dual (enen e)) (epts e) (statVecs dual e) (freshElm (d * enen e)) in
    let* K := run_add (sK S) (asmMat d e (lA st 1)) in
    let* F := run_add (sF S) (asmVec d e (bvec (lB st) 1)) in
    let* Q := (if dual then run_add (sQ S) (asmVec d e (bvec (lB st) 2)) else Ret (sQ S)) in
    assembleLin d ax ps tmp dual r (mkSys K F Q)
  end.
