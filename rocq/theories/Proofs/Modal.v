From Coq Require Import List Bool Lia.
From Verif Require Import Model.Modal.
Import ListNotations.

Definition right (e : event) : Prop :=
  match e with
  | AssembleEigen s | AssembleLoad s | ExtractLoad s | BuildModal s | Expand s => s = Full
  | Solve s => s = Modal
  end.
Definition entry (n : nat) : sys := match n with O => Full | _ => Modal end.
Lemma assemble_ok n x : let '(ok, s, e) := assembleSystem false n x (entry n) in Forall right e /\ s = if ok then Modal else Full.
Proof.
  unfold assembleSystem. destruct n; cbn; [destruct (loadOk x), (extractOk x), (modalOk x)|destruct (modalOk x)]; cbn; repeat split; repeat constructor.
Qed.
Lemma iterate_ok its : forall n, (n = O -> its <> []) -> let '(ok, s, e) := iterate n its (entry n) in Forall right e /\ (ok = true -> s = Modal).
Proof.
  induction its as [|x r IH]; intros n N.
  - destruct n; [now destruct N|]. cbn. now split.
  - cbn [iterate]. assert (A := assemble_ok n x). destruct (assembleSystem false n x (entry n)) as [[ok s1] e1]. destruct A as [A B].
    destruct ok; cbn [negb]; [|now split]. subst s1. destruct (solveOk x); cbn [negb].
    + assert (C := IH (S n) ltac:(discriminate)). cbn [entry] in C. destruct (iterate (S n) r Modal) as [[ok2 s2] e2]. destruct C as [C D]. split; [|exact D].
      apply Forall_app. split; [assumption|]. now constructor.
    + split; [|discriminate]. apply Forall_app. split; [assumption|]. now repeat constructor.
Qed.
Lemma step_ok t : let '(ok, s, e) := solveStep t Full in Forall right e /\ (ok = true -> s = Full).
Proof.
  unfold solveStep. assert (A := iterate_ok (first t :: others t) 0 ltac:(discriminate)). cbn [entry] in A.
  destruct (iterate 0 (first t :: others t) Full) as [[ok s1] e1]. destruct A as [A B]. destruct ok; cbn [andb]; [|split; [assumption|discriminate]].
  specialize (B eq_refl). subst s1. destruct (conv t); cbn; [|split; [assumption|discriminate]]. split; [|reflexivity]. apply Forall_app. split; [assumption|]. now repeat constructor.
Qed.
Lemma simulate_ok ts : let '(ok, s, e) := simulate ts Full in Forall right e /\ (ok = true -> s = Full).
Proof.
  induction ts as [|t r IH]; cbn; [now split|]. assert (A := step_ok t). destruct (solveStep t Full) as [[ok s1] e1]. destruct A as [A B].
  destruct ok; [|split; [assumption|discriminate]]. rewrite (B eq_refl). destruct (simulate r Full) as [[ok2 s2] e2]. destruct IH as [C D]. split; [now apply Forall_app|assumption].
Qed.
Lemma run_ok g ts : let '(ok, s, e) := modalRun g ts in Forall right e /\ (ok = true -> s = Full).
Proof.
  unfold modalRun. cbn. destruct (loadOk g); [|split; [now repeat constructor|discriminate]].
  assert (A := simulate_ok ts). destruct (simulate ts Full) as [[ok s] e]. destruct A as [A B]. split; [|assumption]. constructor; [reflexivity|assumption].
Qed.
(* the number of load assemblies is one per step *)
Definition isLoad (e : event) : bool := match e with AssembleLoad _ => true | _ => false end.
Definition isSolve (e : event) : bool := match e with Solve _ => true | _ => false end.
Definition countE (p : event -> bool) (l : list event) : nat := length (filter p l).
Lemma count_app p a b : countE p (a ++ b) = countE p a + countE p b.
Proof. unfold countE. now rewrite filter_app, app_length. Qed.
Lemma iterate_counts its : forall n s, let '(ok, _, e) := iterate n its s in
  ok = true -> countE isLoad e = (match n, its with O, _ :: _ => 1 | _, _ => 0 end) /\ countE isSolve e = length its.
Proof.
  induction its as [|x r IH]; intros n s; cbn [iterate]; [intros _; destruct n; now split|].
  destruct (assembleSystem false n x s) as [[ok s1] e1] eqn:E. destruct ok; cbn [negb]; [|discriminate]. destruct (solveOk x); cbn [negb]; [|discriminate].
  assert (L : countE isLoad e1 = (match n with O => 1 | _ => 0 end) /\ countE isSolve e1 = 0).
  { unfold assembleSystem in E. destruct n; cbn in E; [destruct (loadOk x); cbn in E; [destruct (extractOk x); cbn in E|]; try discriminate|]; (destruct (modalOk x); cbn in E; [|discriminate]); injection E as <- <-; now split. }
  specialize (IH (S n) s1). destruct (iterate (S n) r s1) as [[ok2 s2] e2]. intros ->. destruct (IH eq_refl) as [A B]. destruct L as [L1 L2].
  rewrite !count_app. change (countE isLoad (Solve s1 :: e2)) with (countE isLoad e2). change (countE isSolve (Solve s1 :: e2)) with (S (countE isSolve e2)).
  rewrite A, B, L1, L2. destruct n; cbn; split; lia.
Qed.
Lemma simulate_counts ts : forall s, let '(ok, _, e) := simulate ts s in ok = true ->
  countE isLoad e = length ts /\ countE isSolve e = fold_right (fun t n => S (length (others t)) + n) 0 ts.
Proof.
  induction ts as [|t r IH]; intros s; cbn [simulate]; [now split|]. destruct (solveStep t s) as [[ok s1] e1] eqn:E. destruct ok; [|discriminate].
  specialize (IH s1). destruct (simulate r s1) as [[ok2 s2] e2]. intros ->. destruct (IH eq_refl) as [A B].
  unfold solveStep in E. assert (C := iterate_counts (first t :: others t) 0 s). destruct (iterate 0 (first t :: others t) s) as [[ok' s'] e'].
  destruct ok'; cbn [andb] in E; [|discriminate]. destruct (conv t); [|discriminate]. cbn in E. injection E as <- <-. destruct (C eq_refl) as [C1 C2].
  rewrite !count_app, C1, C2, A, B. split; cbn; lia.
Qed.
