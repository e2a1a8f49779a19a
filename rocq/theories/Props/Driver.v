(** Load incrementation (C34, C35, C36). *)
From Coq Require Import List QArith Bool Arith Lia Lqa.
From Verif Require Import Model.Driver Spec.Driver Proofs.Driver Proofs.DriverStatus.
Import ListNotations.
Open Scope Q_scope.

(** ** C34: save times
    [accepted tr] lists the accepted steps of a run: the time used in the output, the time
    of the state and whether results were saved. *)
Section Save.
Variable Sol : Type.
Notation log c l := (accepted Sol (trace Sol (stateOf Sol (run Sol c l)))).

(** The first save is made by the first step past one interval ... *)
Theorem C34_first_save_partial : forall c l A tn t b B, 0 < dtSave Sol c ->
  log c l = (A ++ (tn, t, b) :: B)%list -> unsaved A ->
  (b = true <-> t0 Sol c + dtSave Sol c < t + tol Sol c).
Proof. exact (first_save Sol). Qed.
(** ... and each later one by the first step an interval past the output time of the
    previous one, or at the stop time. *)
Theorem C34_next_save_partial : forall c l A tj tj' B tn t b C, 0 < dtSave Sol c ->
  log c l = (A ++ (tj, tj', true) :: B ++ (tn, t, b) :: C)%list -> unsaved B ->
  (b = true <-> due (dtSave Sol c) (stopTime Sol c) tj < t + tol Sol c).
Proof. exact (next_save Sol). Qed.
Theorem C34_next_save_later : forall dt stop t, 0 < dt -> t < stop -> t < due dt stop t.
Proof. intros dt stop t D S. unfold due. destruct (Qle_bool (t + dt) stop); lra. Qed.
(** Without an interval every step is saved. *)
Theorem C34_every_step : forall c l tn t b, dtSave Sol c <= 0 -> In (tn, t, b) (log c l) -> b = true.
Proof. exact (save_all Sol). Qed.
(** The step that reaches the stop time is saved. *)
Theorem C34_final_step_partial : forall c l A tn t b B, 0 < dtSave Sol c -> 0 < tol Sol c ->
  log c l = (A ++ (tn, t, b) :: B)%list -> stopTime Sol c <= t ->
  (~ unsaved A \/ t0 Sol c + dtSave Sol c <= stopTime Sol c) -> b = true.
Proof. exact (final_save Sol). Qed.
(** Equal steps dividing the interval: exactly the multiples are saved. *)
Theorem C34_multiples_partial : forall c l h m, (1 <= m)%nat -> 0 < h -> 0 < tol Sol c -> tol Sol c < h ->
  dtSave Sol c == inject_Z (Z.of_nat m) * h -> uniform Sol c h (log c l) ->
  forall k tn t b, nth_error (log c l) k = Some (tn, t, b) ->
    t + tol Sol c <= stopTime Sol c -> (b = true <-> (S k mod m = 0)%nat).
Proof. exact (multiples Sol). Qed.
End Save.

(* a problem with a scalar solution; everything succeeds *)
Definition conf dt stop : cfg nat := mkCfg nat 0 dt stop (1#1000) true false false false true true true true true true true true 0%nat.
Definition at_ (t : Q) (l : list (attempt nat)) : step nat :=
  mkStep nat t true false 0%nat false true l true true true false true true true true true true true true true true true true.
Definition good (t : Q) (s : nat) : step nat := at_ t [mkAttempt nat None CONVERGED s].
Notation nlog c l := (accepted nat (trace nat (stateOf nat (run nat c l)))).

(** The claim as stated fails: the save times drift away from the multiples of the interval
    when the steps do not divide it.  Steps of 2/5 with interval 1: 2 is reached exactly but not saved. *)
Theorem C34_multiples_drift_refuted : exists c l t, dtSave nat c == 1 /\ t == 2 * dtSave nat c /\
  nth_error (nlog c l) 4 = Some (t, t, false) /\ (forall k x, (k < 4)%nat -> nth_error (nlog c l) k = Some x -> fst (fst x) < t).
Proof.
  exists (conf 1 10), (map (fun k => good (inject_Z (Z.of_nat k) * (2#5)) k) (seq 1 6)), (inject_Z 5 * (2#5)).
  repeat split; try reflexivity.
  intros k x K E. do 4 (destruct k as [|k]; [vm_compute in E; injection E as <-; reflexivity|]). lia.
Qed.
(** A first interval longer than the simulation: nothing is saved, not even the last step. *)
Theorem C34_last_step_refuted : exists c l, solveProblem nat c l = Some 0%nat /\
  nlog c l = [(1, 1, false); (2, 2, false)] /\ stopTime nat c == 2 /\ 0 < dtSave nat c.
Proof. exists (conf 3 2), [good 1 1; good 2 2]. vm_compute. auto. Qed.
(** After a cut-back the output is labelled with the time that was given up, and the next save is counted from it:
    the state at 3/2 is stored as time 2, and the one at 5/2 a full interval later is skipped. *)
Theorem C34_cut_back_time_refuted : exists c l, solveProblem nat c l = Some 0%nat /\ dtSave nat c == 1 /\
  nlog c l = [(2, 3#2, true); (5#2, 5#2, false)].
Proof. exists (conf 1 10), [at_ 2 [mkAttempt nat None DIVERGED 9%nat; mkAttempt nat (Some (3#2)) CONVERGED 1%nat]; good (5#2) 2]. vm_compute. auto. Qed.

Example C34_uniform_example :
  nlog (conf 1 10) (map (fun k => good (inject_Z (Z.of_nat k) * (1#2)) k) (seq 1 4)) =
    [(1#2, 1#2, false); (2#2, 2#2, true); (3#2, 3#2, false); (4#2, 4#2, true)].
Proof. vm_compute. reflexivity. Qed.

(** ** C35: cut-back *)
Section CutBack.
Variable Sol : Type.
Notation tr c l := (trace Sol (stateOf Sol (run Sol c l))).

(** Every solve starts from the last accepted solution (or its image on a refined mesh). *)
Theorem C35_starts_from_accepted : forall c l pre t s o r post,
  tr c l = (pre ++ Solve Sol t s o r :: post)%list -> s = lastGood Sol (sol0 Sol c) pre.
Proof. exact (restart_state Sol). Qed.
(** Its time lies after the last accepted time, and a retry uses a smaller step than the
    attempt before it, provided TimeStep::cutback keeps its contract. *)
Theorem C35_time_after_accepted : forall c l, honest Sol (t0 Sol c) l -> forall pre t s o r post,
  tr c l = (pre ++ Solve Sol t s o r :: post)%list -> lastTime Sol (t0 Sol c) pre < t.
Proof. exact (solve_after_last Sol). Qed.
Theorem C35_retry_is_smaller : forall c l, honest Sol (t0 Sol c) l -> forall pre t s o r t' s' o' r' post,
  tr c l = (pre ++ Solve Sol t s o r :: Solve Sol t' s' o' r' :: post)%list -> t' < t.
Proof. exact (retry_smaller Sol). Qed.
(** Only diverged attempts are retried ... *)
Theorem C35_retry_after_divergence : forall c l pre t s o r t' s' o' r' post,
  tr c l = (pre ++ Solve Sol t s o r :: Solve Sol t' s' o' r' :: post)%list -> o = DIVERGED.
Proof. exact (retry_only_diverged Sol). Qed.
(** ... and an accepted state is the result of a converged attempt at that time. *)
Theorem C35_accepted_is_converged : forall c l pre tn t s b post,
  tr c l = (pre ++ Accept Sol tn t s b :: post)%list ->
  exists pre' st, pre = (pre' ++ [Solve Sol t st CONVERGED s])%list.
Proof. exact (accepted_converged Sol). Qed.
(** Divergence is final only after a refused cut-back. *)
Theorem C35_gives_up_when_refused : forall l stat s o s', cutBack Sol stat s l = (Some o, s') -> o = DIVERGED ->
  exists a, In a l /\ cut Sol a = None.
Proof. exact (cut_gives_up Sol). Qed.
End CutBack.

Example C35_example :
  let l := [good 1 5; at_ 2 [mkAttempt nat None DIVERGED 66%nat; mkAttempt nat (Some (3#2)) DIVERGED 77%nat; mkAttempt nat (Some (5#4)) CONVERGED 6%nat]] in
  honest nat 0 l /\
  trace nat (stateOf nat (run nat (conf 1 10) l)) =
    [Solve nat 1 0 CONVERGED 5; Accept nat 1 1 5 true; Solve nat 2 5 DIVERGED 66; Solve nat (3#2) 5 DIVERGED 77;
     Solve nat (5#4) 5 CONVERGED 6; Accept nat 2 (5#4) 6 false]%nat /\
  run nat (conf 1 10) [at_ 1 [mkAttempt nat None DIVERGED 3%nat; mkAttempt nat None OK 0%nat]] =
    Exit nat 7 (mkState nat 1 3%nat 0%nat (0+1) 0 [Solve nat 1 0%nat DIVERGED 3%nat]).
Proof. vm_compute. repeat split; auto. Qed.

(** ** C36: exit status *)
Section Status.
Variable Sol : Type.
(** Zero: every step converged, was accepted, and all that was requested of it succeeded. *)
Theorem C36_zero_partial : forall c l, solveProblem Sol c l = Some 0%nat ->
  initFine Sol c /\ length (accepted Sol (trace Sol (stateOf Sol (run Sol c l)))) = length l /\
  (forall k x, nth_error l k = Some x -> converges Sol (tries Sol x) = true /\
     exists tn t b, nth_error (accepted Sol (trace Sol (stateOf Sol (run Sol c l)))) k = Some (tn, t, b) /\ served Sol c x b).
Proof. exact (status_zero Sol). Qed.
(** Nonzero: the failure it stands for happened, in the first step that was not completed. *)
Theorem C36_nonzero_partial : forall c l e, solveProblem Sol c l = Some e -> e <> 0%nat ->
  explainsInit Sol e c \/
  exists pre x post, l = (pre ++ x :: post)%list /\ explains Sol e c x /\
    (forall y, In y pre -> converges Sol (tries Sol y) = true /\ exists b, served Sol c y b).
Proof. exact (status_nonzero Sol). Qed.
End Status.

(** Dynamic driver: zero exactly when everything succeeded. *)
Theorem C36_dynamic_zero : forall c l, newmarkSolve c l = 0%nat <->
  (doInitAcc c = true -> initAccOk c = true) /\ (nFormat c = true -> nModelOk c = true) /\ nAllFine c (nT0 c + nDtSave c) l.
Proof.
  intros c l. unfold newmarkSolve.
  destruct (doInitAcc c), (initAccOk c), (nFormat c), (nModelOk c); cbn [andb negb]; rewrite ?newmark_loop; intuition discriminate.
Qed.

Definition bad9a : step nat := mkStep nat 1 true false 0%nat false true [mkAttempt nat None CONVERGED 1%nat] false true true false true true true true true true true true true true true true.
Definition bad9b : step nat := mkStep nat 1 true false 0%nat false true [mkAttempt nat None CONVERGED 1%nat] true true false false true true true true true true true true true true true true.
Definition confA : cfg nat := mkCfg nat 0 1 10 (1#1000) true false true false true true true true true true true true 0%nat.

(** Statuses that do not identify their cause: failure to recover reaction forces and failure of the error norms ... *)
Theorem C36_status_9_refuted : exists c x y, solveProblem nat c [x] = Some 9%nat /\ solveProblem nat c [y] = Some 9%nat /\
  reacOk nat x = false /\ normOk nat x = true /\ reacOk nat y = true /\ normOk nat y = false.
Proof. exists confA, bad9a, bad9b. vm_compute. auto 10. Qed.

(** ... and a state that could not be serialised: status zero although the requested restart data was not written. *)
Definition noSerial : step nat := mkStep nat 1 true false 0%nat false true [mkAttempt nat None CONVERGED 1%nat] true true true false true true true true true true true false true true true true.
Theorem C36_restart_not_written_refuted : exists c x, solveProblem nat c [x] = Some 0%nat /\
  restart nat c = true /\ dumpNow nat x = true /\ serialOk nat x = false.
Proof. exists confA, noSerial. vm_compute. auto. Qed.

(** Dynamic driver: statuses are added up, so 6 + 11 (projection and step output) is the same as 17 (restart output). *)
Definition nconf := mkNCfg 0 1 10 (1#1000) true true true true true true true.
Theorem C36_dynamic_sum_refuted : exists c x y, newmarkSolve c [x] = 17%nat /\ newmarkSolve c [y] = 17%nat /\
  nRestartOk x = false /\ nProjOk x = true /\ nStepOk x = true /\ nRestartOk y = true /\ nProjOk y = false /\ nStepOk y = false.
Proof.
  exists nconf, (mkNStep 1 CONVERGED true true true true true true true false), (mkNStep 1 CONVERGED false false true true true true true true).
  vm_compute. auto 10.
Qed.
(** Divergence of the dynamic driver has a status of its own. *)
Lemma newmark_five : forall c l nx, newmarkLoop c nx l = 5%nat -> exists pre x post, l = (pre ++ x :: post)%list /\ nOut x <> CONVERGED /\ nAllFine c nx pre.
Proof.
  intros c l. induction l as [|x l IH]; intros nx H; cbn [newmarkLoop] in H; [discriminate|].
  assert (Z := newmark_step c nx x).
  destruct (newmarkStep c nx x) as [st n'] eqn:E. cbn [fst] in Z. destruct st as [|st].
  - assert (F := proj1 Z eq_refl). destruct (IH _ H) as [pre [y [post [-> [A B]]]]]. exists (x :: pre), y, post. split; [reflexivity|]. split; [exact A|]. cbn [nAllFine]. split; [exact F|].
    destruct F as [F F']. unfold newmarkStep in E. rewrite F in E. cbn [isConverged negb] in E. injection E as _ <-.
    unfold due, nClamp in *. exact B.
  - exists [], x, l. split; [reflexivity|]. split; [|exact I]. intros O. unfold newmarkStep in E. rewrite O in E. cbn [isConverged negb] in E.
    injection E as E _. rewrite H in E. revert E. unfold add.
    destruct (implb (nProject c) (nProjOk x)), (nReached c (nTime x) nx), (nFormat c), (nStepOk x), (implb (nProject c) (nProjWOk x)),
      (implb (nWriter c) (nHdfOk x)), (nGridOk x), (implb (nRestart c && nDumpNow x && nSerialOk x) (nRestartOk x)); cbn; discriminate.
Qed.
Theorem C36_dynamic_divergence : forall c l, newmarkSolve c l = 5%nat -> exists pre x post,
  l = (pre ++ x :: post)%list /\ nOut x <> CONVERGED /\ nAllFine c (nT0 c + nDtSave c) pre.
Proof.
  intros c l. unfold newmarkSolve. destruct (doInitAcc c && negb (initAccOk c)); [discriminate|].
  destruct (nFormat c && negb (nModelOk c)); [discriminate|]. apply newmark_five.
Qed.

Example C36_example : solveProblem nat confA [good 1 1; good 2 2] = Some 0%nat /\
  newmarkSolve nconf [mkNStep 1 CONVERGED true true true true true true true true; mkNStep 2 DIVERGED true true true true true true true true] = 5%nat.
Proof. vm_compute. auto. Qed.

Print Assumptions C34_first_save_partial.
Print Assumptions C34_next_save_partial.
Print Assumptions C34_next_save_later.
Print Assumptions C34_every_step.
Print Assumptions C34_final_step_partial.
Print Assumptions C34_multiples_partial.
Print Assumptions C34_multiples_drift_refuted.
Print Assumptions C34_last_step_refuted.
Print Assumptions C34_cut_back_time_refuted.
Print Assumptions C35_starts_from_accepted.
Print Assumptions C35_time_after_accepted.
Print Assumptions C35_retry_is_smaller.
Print Assumptions C35_retry_after_divergence.
Print Assumptions C35_accepted_is_converged.
Print Assumptions C35_gives_up_when_refused.
Print Assumptions C36_zero_partial.
Print Assumptions C36_nonzero_partial.
Print Assumptions C36_dynamic_zero.
Print Assumptions C36_status_9_refuted.
Print Assumptions C36_restart_not_written_refuted.
Print Assumptions C36_dynamic_sum_refuted.
Print Assumptions C36_dynamic_divergence.
