(** The matrices of a vibration or linear buckling analysis of a solid: the elements of Model/LinElement.v in the positions set by
    LinearElasticity::setMode (Elasticity/LinearElasticity.C 73-94) and ElasticBase::setMode (Elasticity/ElasticBase.C 88-99) for
    VIBRATION (stiffness 1, mass 2) and BUCKLING (stiffness 1, geometric stiffness 2), added into two global matrices.

    Simplifications: as in Model/LinSystem.v.  The eigenvalue solver is IFEM's: whatever it returns is judged by the equations it solves. *)
From Verif Require Export Model.LinSystem.
From Verif Require Model.Modes.

(** The settings; a solver has no backward differences or dual fields here, [c] holds the remaining configuration. *)
Definition eigSet (c : Modes.config) (m : Modes.mode) (d : nat) (ax ps tmp : bool) (n : nat) : lset :=
  let s := snd (Modes.slotsLin c false m) in
  mkLset d ax ps n (Modes.eKm s) (Modes.eKg s) (Modes.eM s) (Z.to_nat (Modes.iS s)) (Z.to_nat (Modes.eS s)) 0 tmp.
(** utl::gather, the values of the element (LinearElasticity.C 133-134, initElement1). *)
Definition gatherE (d : nat) (e : elt) (u : nat -> R) : nat -> R := fun i => u (dof d (conn e ((i - 1) / d + 1)) ((i - 1) mod d + 1)).
Record esys := mkEsys { eA : mat; eB : mat }.
Fixpoint assembleEig (c : Modes.config) (m : Modes.mode) (d : nat) (ax ps tmp : bool) (u : option (nat -> R)) (els : list elt) (S : esys) : res esys :=
  match els with
  | [] => Ret S
  | e :: r =>
    let* st := linElement (eigSet c m d ax ps tmp (enen e)) (epts e) [option_map (gatherE d e) u] (freshElm (d * enen e)) in
    let* K := run_add (eA S) (asmMat d e (lA st 1)) in
    let* M := run_add (eB S) (asmMat d e (lA st 2)) in
    assembleEig c m d ax ps tmp u r (mkEsys K M)
  end.
Definition eigenSystem (c : Modes.config) (m : Modes.mode) (d : nat) (ax ps tmp : bool) (u : option (nat -> R)) (nnod : nat) (els : list elt) : res esys :=
  assembleEig c m d ax ps tmp u els (mkEsys (zeros (d * nnod) (d * nnod)) (zeros (d * nnod) (d * nnod))).
