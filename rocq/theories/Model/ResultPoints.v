(** Model of the material points of result evaluation, FiniteDeformation/PlasticMaterial.C:103-122, 178-196. *)
From Coq Require Import List.
From Verif.Model Require Import History.
Import ListNotations.

Section ResultPoints.
Context {H T O : Type}.
Variable upd : H -> T -> T -> nat -> bool -> option (H * O).
Variables (h0 : H) (f0 : T).

(** Lines 103-122: [iP2] restarts from zero. *)
Definition initResultPoints (l : list (point H T)) : list (point H T) := map (updateState true) l.

(** Lines 180-195 for one evaluation at the point number [iP2]: a missing point is created, the point is evaluated with
    iteration number 1 of a step which is not the first, and its Fp is updated. *)
Definition resEval (F : T) (p : point H T) : point H T * option O :=
  let '(p, o) := evaluate upd false 1 F p in (mkP (HVc p) (HVp p) F (updated p), o).

(** The evaluations of one sweep, in their order: [iP2] runs through the points. *)
Fixpoint resEvals (Fs : list T) (l : list (point H T)) : list (point H T) * list (option O) :=
  match Fs with
  | [] => (l, [])
  | F :: r =>
    let '(p, rest) := match l with [] => (newPoint h0 f0, []) | p :: q => (p, q) end in
    let '(p', o) := resEval F p in
    let '(l', os) := resEvals r rest in (p' :: l', o :: os)
  end.
(** One sweep over result points: NonlinearElasticityUL::initResultPoints (NonlinearElasticityUL.C:83-89), then the evaluations. *)
Definition sweep (l : list (point H T)) (Fs : list T) : list (point H T) * list (option O) := resEvals Fs (initResultPoints l).

(** The results of a sequence of sweeps. *)
Fixpoint sweeps (l : list (point H T)) (ss : list (list T)) : list (list (option O)) :=
  match ss with
  | [] => []
  | Fs :: r => let '(l', os) := sweep l Fs in os :: sweeps l' r
  end.
End ResultPoints.
