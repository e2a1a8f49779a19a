(** Modal simulations (C66). *)
From Coq Require Import List Bool.
From Verif Require Import Model.Modal Proofs.Modal.
Import ListNotations.

(** For all sequences of steps with any number of iterations and any failures: the loads are assembled and the solution is
    expanded on the full system, the equations solved on the modal one, and after a successful run the full one is active. *)
Theorem C66_active_system : forall eigen ts, let '(ok, s, events) := modalRun eigen ts in
  (forall e, In e events -> match e with Solve a => a = Modal | AssembleEigen a | AssembleLoad a | ExtractLoad a | BuildModal a | Expand a => a = Full end) /\
  (ok = true -> s = Full).
Proof.
  intros g ts. assert (A := run_ok g ts). destruct (modalRun g ts) as [[ok s] e]. destruct A as [A B]. split; [|assumption].
  rewrite Forall_forall in A. intros x X. specialize (A x X). now destruct x.
Qed.
(** Each single step, started on the full system, ends on the full system if it converges. *)
Theorem C66_step : forall t, let '(ok, s, _) := solveStep t Full in ok = true -> s = Full.
Proof. intros t. assert (A := step_ok t). destruct (solveStep t Full) as [[ok s] e]. now destruct A. Qed.
(** The load is assembled once per step, the equations are solved once per iteration. *)
Theorem C66_work : forall ts s, let '(ok, _, e) := simulate ts s in ok = true ->
  length (filter isLoad e) = length ts /\ length (filter isSolve e) = fold_right (fun t n => S (length (others t)) + n) 0 ts.
Proof. exact simulate_counts. Qed.
Example C66_ex : let y := It true true true true in
  modalRun y [Stp y [y; y] true; Stp y [] true] =
  (true, Full, [AssembleEigen Full; AssembleLoad Full; ExtractLoad Full; BuildModal Full; Solve Modal; BuildModal Full; Solve Modal; BuildModal Full; Solve Modal; Expand Full;
                AssembleLoad Full; ExtractLoad Full; BuildModal Full; Solve Modal; Expand Full]).
Proof. reflexivity. Qed.

Print Assumptions C66_active_system.
Print Assumptions C66_step.
Print Assumptions C66_work.
