(** Restarted simulations (C123) and the availability of restart states (C124). *)
From Coq Require Import List QArith Bool Lia Lqa.
From Verif.Model Require Import History Restart.
From Verif.Proofs Require Import Restart.
Import ListNotations.
Open Scope Q_scope.

(** ** C123: a restarted simulation continues as the interrupted one would have.
    Full statement: times, solutions and saved steps of the run started from a restart state are those of the run that
    wrote it, for every material, solver and save interval. *)

(** Times and solutions, for models without material history: any number of steps before and after. *)
Theorem C123_static_partial : forall (H T X U P : Type) (upd : H -> T -> T -> nat -> bool -> option (H * X)) timeOf advance push due solve c (d0 : P * U) k s l o d n,
  let step := nlStep upd timeOf advance push due solve c in
  runs step k (start timeOf c [] d0) = (s, l ++ [o]) -> oRestart o = Some d ->
  map what (snd (runs step n (start timeOf c [] d))) = map what (snd (runs step n s)).
Proof. intros. eapply nl_resume; eassumption. Qed.
(** The saved steps too, if there are no cut-backs and another save interval fits before the end. *)
Theorem C123_saved_partial : forall (H T X U P : Type) (upd : H -> T -> T -> nat -> bool -> option (H * X)) timeOf advance push due solve c (d0 : P * U) k s l o d n,
  let step := nlStep upd timeOf advance push due solve c in
  runs step k (start timeOf c [] d0) = (s, l ++ [o]) -> oRestart o = Some d ->
  (forall p q u v x a, advance p = Some q -> solve q u v = Some (x, a) -> timeOf (fst x) = timeOf q) -> timeOf (fst d) + dtSave c <= stopTime c ->
  snd (runs step n (start timeOf c [] d)) = snd (runs step n s).
Proof. intros. eapply nl_resume_save; eassumption. Qed.
(** Dynamics: if initial accelerations are not requested, or are those of the restart state. *)
Theorem C123_dynamic_partial : forall (H T X U P : Type) (upd : H -> T -> T -> nat -> bool -> option (H * X)) timeOf advance push due initAcc solve c (d0 : P * U) k s l o d n,
  let step := nmStep upd timeOf advance push due solve c in
  runs step k (nmStart timeOf initAcc c [] d0) = (s, l ++ [o]) -> oRestart o = Some d ->
  (doInitAcc c = true -> initAcc (fst d) (snd d) = snd d) ->
  map what (snd (runs step n (nmStart timeOf initAcc c [] d))) = map what (snd (runs step n s)).
Proof. intros. eapply nm_resume; eassumption. Qed.

(** Steps of length 1 until [stop], time and step number as parameters. *)
Definition tick (stop : Q) (p : Q * nat) : option (Q * nat) := if Qle_bool stop (fst p) then None else Some (Qred (fst p + 1), S (snd p)).
(** A bar of unit length, stiffness and yield stress with unit hardening: plastic strain, and stress at a strain [F]. *)
Definition bar (h : Q) (_ F : Q) (_ : nat) (_ : bool) : option (Q * Q) :=
  let h' := if Qle_bool (F - h) (1 + h) then h else Qred ((F - 1) / 2) in Some (h', Qred (F - h')).
(** The load applied over the time: 2 at the end of the first step, then 0. *)
Definition load (t : Q) : Q := if Qeq_bool t 1 then 2 else 0.
Definition committed (p : point Q Q) : Q := if updated p then HVc p else HVp p.
(** The elongation in equilibrium with the load. *)
Definition pull (p : Q * nat) (_ : Q) (l : list (point Q Q)) : option (Q * nat * Q * list (list (attempt Q))) :=
  match l with
  | [m] => let h := committed m in let f := load (fst p) in
           let h' := if Qle_bool (f - 1) h then h else f - 1 in
           let e := Qred (f + h') in Some (p, e, [[mkA false [e] true]])
  | _ => None
  end.
(** It is in equilibrium: the stress of the material is the load. *)
Example C123_equilibrium : forall h t, 0 <= h -> let e := load t + (if Qle_bool (load t - 1) h then h else load t - 1) in
  exists h' s, bar h 0 e 0 false = Some (h', s) /\ s == load t.
Proof.
  intros h t Hh. unfold bar, load. destruct (Qeq_bool t 1); cbv zeta.
  - destruct (Qle_bool (2 - 1) h) eqn:E.
    + apply Qle_bool_iff in E. exists h, (Qred (2 + h - h)). assert (Qle_bool (2 + h - h) (1 + h) = true) as -> by (apply Qle_bool_iff; lra).
      split; [reflexivity|]. rewrite Qred_correct. ring.
    + assert (h < 1) by (apply Qnot_le_lt; intros K; assert (2 - 1 <= h) as K2 by lra; apply Qle_bool_iff in K2; congruence).
      exists (Qred ((2 + (2 - 1) - 1) / 2)), (Qred (2 + (2 - 1) - Qred ((2 + (2 - 1) - 1) / 2))).
      destruct (Qle_bool (2 + (2 - 1) - h) (1 + h)) eqn:E2; [apply Qle_bool_iff in E2; lra|]. split; reflexivity.
  - assert (Qle_bool (0 - 1) h = true) as -> by (apply Qle_bool_iff; lra). exists h, (Qred (0 + h - h)).
    assert (Qle_bool (0 + h - h) (1 + h) = true) as -> by (apply Qle_bool_iff; lra). split; [reflexivity|]. rewrite Qred_correct. ring.
Qed.
(** The bar is elongated plastically and unloaded; the run restarted after the loading forgets the permanent elongation. *)
Theorem C123_history_refuted : exists c fresh d0 s o d,
  let step := nlStep bar fst (tick 2) (fun u : Q => u) (fun _ => true) pull c in
  runs step 1 (start fst c fresh d0) = (s, [o]) /\ oRestart o = Some d /\
  map what (snd (runs step 1 s)) = [(2, 1)] /\ map what (snd (runs step 1 (start fst c fresh d))) = [(2, 0)].
Proof.
  exists (mkC 0 2 (1 # 100) true false), [newPoint 0 0], (0, O, 0), (mkS (1, 1%nat) 3 [mkP 1 0 3 true] 1), (mkO 1 3 true (Some (1, 1%nat, 3))), (1, 1%nat, 3).
  repeat split; vm_compute; reflexivity.
Qed.
(** The last step is saved by the uninterrupted run, but not by the restarted one. *)
Definition keep (p : Q * nat) (u : Q) (_ : list (point Q Q)) : option (Q * nat * Q * list (list (attempt Q))) := Some (p, u, []).
Theorem C123_final_step_refuted : exists c d0 s l o d,
  let step := nlStep bar fst (tick 3) (fun u : Q => u) (fun _ => true) keep c in
  runs step 2 (start fst c [] d0) = (s, l ++ [o]) /\ oRestart o = Some d /\
  map (fun x => (oTime x, oSaved x)) (snd (runs step 5 s)) = [(3, true)] /\
  map (fun x => (oTime x, oSaved x)) (snd (runs step 5 (start fst c [] d))) = [(3, false)].
Proof.
  exists (mkC 2 3 (1 # 100) true false), (0, O, 0). vm_compute. eexists _, [_], _, _. repeat split.
Qed.
(** Dynamics with initial accelerations requested: they replace the accelerations of the restart state.
    Oscillator with unit mass and stiffness, displacement, velocity and acceleration; with numerical dissipation the
    accelerations are not those of equilibrium at the end of the step. *)
Definition oscAcc (_ : Q * nat) (u : Q * Q * Q) : Q * Q * Q := let '(x, v, a) := u in (x, v, Qred (- x)).
Definition oscStep (p : Q * nat) (u : Q * Q * Q) (_ : list (point Q Q)) : option (Q * nat * (Q * Q * Q) * list (list (attempt Q))) :=
  let '(x, v, a) := u in
  (* HHT with alpha = -1/10, beta = 121/400, gamma = 3/5 and unit step: a' + 9/10 x' + 1/10 x = 0 *)
  let xp := x + v + (79 # 400) * a in
  let a' := - ((9 # 10) * xp + (1 # 10) * x) / (1 + (9 # 10) * (121 # 400)) in
  Some (p, (Qred (xp + (121 # 400) * a'), Qred (v + (2 # 5) * a + (3 # 5) * a'), Qred a'), []).
Theorem C123_acceleration_refuted : exists c d0 s o d,
  let step := nmStep bar fst (tick 9) (fun u : Q * Q * Q => u) (fun _ => true) oscStep c in
  runs step 1 (nmStart fst oscAcc c [] d0) = (s, [o]) /\ oRestart o = Some d /\
  map what (snd (runs step 1 s)) <> map what (snd (runs step 1 (nmStart fst oscAcc c [] d))).
Proof.
  exists (mkC 1 9 (1 # 100) true true), (0, O, (1, 0, 0)), (mkS (1, 1%nat) (3089 # 5089, -4009 # 5089, -3289 # 5089) [] 2),
    (mkO 1 (3089 # 5089, -4009 # 5089, -3289 # 5089) true (Some (1, 1%nat, (3089 # 5089, -4009 # 5089, -3289 # 5089)))),
    (1, 1%nat, (3089 # 5089, -4009 # 5089, -3289 # 5089)).
  split; [vm_compute; reflexivity|]. split; [reflexivity|]. vm_compute. discriminate.
Qed.
(** The dynamic driver writes restart states between saved steps: the save times change with the restart. *)
Theorem C123_save_times_refuted : exists c d0 s o d,
  let step := nmStep bar fst (tick 5) (fun u : Q => u) (fun _ => true) keep c in
  runs step 1 (nmStart fst (fun _ u => u) c [] d0) = (s, [o]) /\ oRestart o = Some d /\
  map (fun x => (oTime x, oSaved x)) (snd (runs step 2 s)) = [(2, true); (3, false)] /\
  map (fun x => (oTime x, oSaved x)) (snd (runs step 2 (nmStart fst (fun _ u => u) c [] d))) = [(2, false); (3, true)].
Proof.
  exists (mkC 2 5 (1 # 100) true false), (0, O, 0). vm_compute. eexists _, _, _. repeat split.
Qed.
(** A run of three steps, restarted after the second. *)
Example C123_case : let c := mkC 0 9 (1 # 100) true false in
  let step := nlStep bar fst (tick 9) (fun u : Q => u) (fun p => Nat.eqb (Nat.modulo (snd p) 2) 0) (fun p u _ => Some (p, Qred (u + fst p), [])) c in
  exists s l o d, runs step 2 (start fst c [] (0, O, 0)) = (s, l ++ [o]) /\ oRestart o = Some d /\ d = (2, 2%nat, 3) /\
  map what (snd (runs step 2 (start fst c [] d))) = [(3, 6); (4, 10)].
Proof. vm_compute. eexists _, [_], _, _. repeat split. Qed.

(** ** C124: with restart output every n-th step, the state of every n-th step can be restarted from. *)
Theorem C124_dynamic : forall (H T X U P : Type) (upd : H -> T -> T -> nat -> bool -> option (H * X)) timeOf advance push due solve c (s s' : state H T U P) o,
  writeRestart c = true -> nmStep upd timeOf advance push due solve c s = Some (s', o) ->
  oRestart o = if due (prm s') then Some (prm s', sol s') else None.
Proof.
  intros H T X U P upd timeOf advance push due solve c s s' o W. unfold nmStep. destruct (advance (prm s)) as [p|]; [|discriminate].
  destruct (solve p (push (sol s)) (pts s)) as [[[p' u] a]|]; [|discriminate]. intros E; inversion E; subst. cbn. now rewrite W.
Qed.
(** Load incrementation: if results are saved at every step. *)
Theorem C124_static_partial : forall (H T X U P : Type) (upd : H -> T -> T -> nat -> bool -> option (H * X)) timeOf advance push due solve c (s s' : state H T U P) o,
  writeRestart c = true -> dtSave c <= 0 -> nlStep upd timeOf advance push due solve c s = Some (s', o) ->
  oRestart o = if due (prm s') then Some (prm s', sol s') else None.
Proof.
  intros H T X U P upd timeOf advance push due solve c s s' o W D. apply Qle_bool_iff in D. unfold nlStep. destruct (advance (prm s)) as [p|]; [|discriminate].
  destruct (solve p (push (sol s)) (pts s)) as [[[p' u] a]|]; [|discriminate]. intros E; inversion E; subst. cbn. now rewrite D, W.
Qed.
(** With results saved every second and restart states wanted every third of five steps, none is written. *)
Theorem C124_static_refuted : exists c d0,
  let step := nlStep bar fst (tick 5) (fun u : Q => u) (fun p => Nat.eqb (Nat.modulo (snd p) 3) 0) keep c in
  writeRestart c = true /\ length (snd (runs step 9 (start fst c [] d0))) = 5%nat /\
  forall o, In o (snd (runs step 9 (start fst c [] d0))) -> oRestart o = None.
Proof.
  exists (mkC 2 5 (1 # 100) true false), (0, O, 0). split; [reflexivity|]. split; [vm_compute; reflexivity|].
  vm_compute. intros o [<-|[<-|[<-|[<-|[<-|[]]]]]]; reflexivity.
Qed.
Example C124_case : let c := mkC 0 5 (1 # 100) true false in
  let step := nlStep bar fst (tick 5) (fun u : Q => u) (fun p => Nat.eqb (Nat.modulo (snd p) 3) 0) keep c in
  map (fun o => match oRestart o with Some d => Some (fst d) | None => None end) (snd (runs step 9 (start fst c [] (0, O, 0)))) =
  [None; None; Some (3, 3%nat); None; None].
Proof. reflexivity. Qed.

Print Assumptions C123_static_partial.
Print Assumptions C123_saved_partial.
Print Assumptions C123_dynamic_partial.
Print Assumptions C123_history_refuted.
Print Assumptions C123_final_step_refuted.
Print Assumptions C123_acceleration_refuted.
Print Assumptions C123_save_times_refuted.
Print Assumptions C124_dynamic.
Print Assumptions C124_static_partial.
Print Assumptions C124_static_refuted.
