From Coq Require Import List QArith Bool Arith Lia Lqa.
From Verif Require Import Model.Driver Spec.Driver Proofs.Driver.
Import ListNotations.
Open Scope Q_scope.

Section Proofs.
Variable Sol : Type.
Notation event := (event Sol). Notation step := (step Sol). Notation cfg := (cfg Sol). Notation attempt := (attempt Sol).
Notation state := (state Sol).
Notation trace := (trace Sol). Notation time := (time Sol). Notation cur := (cur Sol). Notation prev := (prev Sol).
Notation nextSave := (nextSave Sol).

Lemma accepted_solves : forall ev, (forall e, In e ev -> isSolve Sol e) -> accepted Sol ev = [].
Proof.
  induction ev as [|e ev IH]; intros H; auto. assert (X := H e ltac:(now left)). destruct e; try destruct X. cbn.
  apply IH. intros; apply H; now right.
Qed.

(** The cut-back loop ends converged exactly when the attempts say so. *)
Lemma cutBack_converges : forall l stat s o s', cutBack Sol stat s l = (Some o, s') ->
  (isDiverged stat = true -> match l with b :: _ => match cut Sol b with Some _ => converges Sol l | None => false end | [] => false end = isConverged o) /\
  (isDiverged stat = false -> converges Sol l = isConverged o).
Proof.
  induction l as [|a l IH]; intros stat s o s' E; cbn [cutBack] in E; [discriminate|].
  assert (G : forall q : state, 
      (let s0 := mkState Sol (time q) (sol' Sol a) (prev q) (nextSave q) (stepNo _ q)
                  (trace q ++ [Solve Sol (time q) (cur q) (out Sol a) (sol' Sol a)]) in
                if isDiverged (out Sol a) then cutBack Sol (out Sol a) s0 l else (Some (out Sol a), s0)) = (Some o, s') ->
      converges Sol (a :: l) = isConverged o).
  { intros q F. cbv zeta in F. destruct (isDiverged (out Sol a)) eqn:D.
    - assert (O : out Sol a = DIVERGED) by (destruct (out Sol a); auto; discriminate D).
      apply IH in F. destruct F as [F _]. specialize (F D). cbn [converges]. rewrite O. exact F.
    - injection F as <- _. cbn [converges]. destruct (out Sol a); auto; discriminate D. }
  destruct (isDiverged stat) eqn:DS; (split; [intros H; try discriminate H|intros H; try discriminate H]).
  - destruct (cut Sol a) as [t|]; [now apply G in E|]. injection E as <- _. destruct stat; auto; discriminate DS.
  - now apply G in E.
Qed.

Ltac impl H := cbn [fst] in H; unfold implb, whenever in *;
  repeat match goal with
  | X : (if ?b then ?q else true) = true |- _ => destruct b eqn:?; cbn in *
  end; try discriminate; auto.

Lemma post_fine : forall c x, firstFail (checksPost Sol c x) = None ->
  whenever (haveReac Sol c) (reacOk Sol x) /\ whenever (doProject Sol c) (projOk Sol x) /\ whenever (adap Sol c) (normOk Sol x).
Proof.
  intros c x H. unfold checksPost in H. unfold whenever.
  destruct (haveReac Sol c); destruct (reacOk Sol x); cbn in H; try discriminate H;
  destruct (doProject Sol c); destruct (projOk Sol x); cbn in H; try discriminate H;
  destruct (adap Sol c); destruct (normOk Sol x); cbn in H; try discriminate H; auto.
Qed.

Lemma save_fine : forall c x, firstFail (checksSave Sol c x) = None -> servedSave Sol c x.
Proof.
  intros c x H. rewrite firstFail_None in H. unfold checksSave in H.
  assert (A : forall k, nth_error (checksSave Sol c x) k <> None -> fst (nth k (checksSave Sol c x) (true, 0%nat)) = true).
  { intros k K. apply H. apply nth_In. apply nth_error_Some in K. exact K. }
  assert (A0 := A 0%nat ltac:(discriminate)). assert (A1 := A 1%nat ltac:(discriminate)). assert (A2 := A 2%nat ltac:(discriminate)).
  assert (A3 := A 3%nat ltac:(discriminate)). assert (A4 := A 4%nat ltac:(discriminate)). assert (A5 := A 5%nat ltac:(discriminate)).
  assert (A6 := A 6%nat ltac:(discriminate)). assert (A7 := A 7%nat ltac:(discriminate)). clear A H. cbn [checksSave nth fst] in *.
  constructor; unfold whenever.
  - intros F G. now rewrite F, G in A0.
  - intros F. now rewrite F in A1.
  - intros F. now rewrite F in A2.
  - intros F G. now rewrite F, G in A3.
  - intros F. now rewrite F in A4.
  - intros F. now rewrite F in A5.
  - intros F G K. now rewrite F, G, K in A6.
  - exact A7.
Qed.

Lemma skip_fine : forall c x, firstFail (checksSkip Sol c x) = None -> whenever (getMaxVals Sol c) (evalOk Sol x && maxOk Sol x).
Proof.
  intros c x H. unfold checksSkip in H. unfold whenever.
  destruct (getMaxVals Sol c); destruct (evalOk Sol x); cbn in H; try discriminate H; destruct (maxOk Sol x); cbn in H; try discriminate H; auto.
Qed.

Lemma post_fail : forall c x e, firstFail (checksPost Sol c x) = Some e -> explains Sol e c x.
Proof.
  intros c x e H. unfold checksPost in H.
  destruct (haveReac Sol c) eqn:A; destruct (reacOk Sol x) eqn:B; cbn in H; try (injection H as <-; cbn; auto; fail);
  destruct (doProject Sol c) eqn:D; destruct (projOk Sol x) eqn:E; cbn in H; try (injection H as <-; cbn; auto; fail);
  destruct (adap Sol c) eqn:F; destruct (normOk Sol x) eqn:G; cbn in H; try (injection H as <-; cbn; auto; fail); discriminate H.
Qed.

Lemma save_fail : forall c x e, firstFail (checksSave Sol c x) = Some e -> explains Sol e c x.
Proof.
  intros c x e H. unfold checksSave in H.
  assert (I : forall a b k l, firstFail ((implb a b, k) :: l) = Some e -> (a = true /\ b = false /\ e = k) \/ firstFail l = Some e).
  { intros [] [] k l X; cbn in X; auto. injection X as <-. auto. }
  apply I in H. destruct H as [[A [B ->]]|H].
  { apply andb_prop in A. cbn. tauto. }
  apply I in H. destruct H as [[A [B ->]]|H]; [cbn; tauto|].
  apply I in H. destruct H as [[A [B ->]]|H]; [cbn; tauto|].
  apply I in H. destruct H as [[A [B ->]]|H].
  { apply andb_prop in A. cbn. tauto. }
  apply I in H. destruct H as [[A [B ->]]|H]; [cbn; tauto|].
  apply I in H. destruct H as [[A [B ->]]|H]; [cbn; tauto|].
  apply I in H. destruct H as [[A [B ->]]|H].
  { apply andb_prop in A. destruct A as [A _]. apply andb_prop in A. cbn. tauto. }
  destruct (gridOk Sol x) eqn:G; cbn in H; [discriminate H|]. injection H as <-. exact G.
Qed.

Lemma skip_fail : forall c x e, firstFail (checksSkip Sol c x) = Some e -> explains Sol e c x.
Proof.
  intros c x e H. unfold checksSkip in H.
  destruct (getMaxVals Sol c) eqn:A; destruct (evalOk Sol x) eqn:B; cbn in H; try (injection H as <-; cbn; auto; fail);
  destruct (maxOk Sol x) eqn:D; cbn in H; try (injection H as <-; cbn; auto; fail); discriminate H.
Qed.

Lemma oneStep_spec : forall c f s x,
  match oneStep Sol c f s x with
  | Running _ s' => exists b, accepted Sol (trace s') = (accepted Sol (trace s) ++ [(tAdv Sol x, time s', b)])%list /\
      b = (Qle_bool (dtSave Sol c) 0 || hasReached Sol c (time s') (nextSave s)) /\
      nextSave s' = (if b then clamp Sol c (tAdv Sol x + dtSave Sol c) else nextSave s) /\
      stepNo _ s' = (stepNo _ s + (if b then 1 else 0))%nat /\
      converges Sol (tries Sol x) = true /\ served Sol c x b
  | Solving _ s' => accepted Sol (trace s') = accepted Sol (trace s)
  | Exit _ e s' => accepted Sol (trace s') = accepted Sol (trace s) /\ explains Sol e c x
  end.
Proof.
  intros c f s x. unfold oneStep.
  set (s1 := mkState Sol (tAdv Sol x) (cur s) (cur s) (nextSave s) (stepNo _ s) (trace s)).
  destruct (negb f && adap Sol c && negb (adaptOk Sol x)) eqn:A1.
  { cbn. split; auto. apply andb_prop in A1. destruct A1 as [A1 B1]. apply andb_prop in A1. destruct A1 as [_ A1].
    split; auto. now apply negb_true_iff. }
  set (s2 := if negb f && adap Sol c && adapted Sol x then _ else s1).
  assert (H2 : accepted Sol (trace s2) = accepted Sol (trace s) /\ nextSave s2 = nextSave s /\ stepNo _ s2 = stepNo _ s).
  { unfold s2. destruct (negb f && adap Sol c && adapted Sol x); cbn; auto. rewrite accepted_app. cbn. now rewrite app_nil_r. }
  clearbody s2. clear s1. destruct H2 as [H1 [H2 H3]].
  destruct (negb (negb f && adap Sol c && adapted Sol x) && format Sol c && saveE0 Sol c && activE0 Sol x && negb (saveE0Ok Sol x)) eqn:A2.
  { split; auto. repeat (apply andb_prop in A2; destruct A2 as [A2 ?]). cbn. split; auto. left. split; auto. now apply negb_true_iff. }
  destruct (cutBack_trace Sol (tries Sol x) OK s2) as [ev [V1 [V2 [V3 [V4 V5]]]]].
  destruct (cutBack Sol OK s2 (tries Sol x)) as [stat s3] eqn:CB. cbn [snd] in *.
  assert (A3 : accepted Sol (trace s3) = accepted Sol (trace s)).
  { rewrite V2, accepted_app, (accepted_solves ev V1), app_nil_r. auto. }
  destruct stat as [stat|]; [|auto].
  apply cutBack_converges in CB. destruct CB as [_ CB]. specialize (CB eq_refl).
  destruct (isConverged stat) eqn:CV; cbn [negb]; [|split; auto].
  destruct (firstFail (checksPost Sol c x)) as [e|] eqn:F1; [split; auto; now apply post_fail|].
  apply post_fine in F1. destruct F1 as [P1 [P2 P3]].
  assert (NS : nextSave s3 = nextSave s) by congruence. rewrite NS.
  destruct (Qle_bool (dtSave Sol c) 0 || hasReached Sol c (time s3) (nextSave s)) eqn:SV.
  - destruct (firstFail (checksSave Sol c x)) as [e|] eqn:F2; [split; auto; now apply save_fail|].
    exists true. cbn [Driver.trace Driver.time Driver.nextSave stepNo]. rewrite accepted_app, A3. cbn. rewrite SV.
    split; [reflexivity|]. split; [auto|]. split; [auto|]. split; [lia|]. split; [auto|]. constructor; auto.
    + intros _. now apply save_fine.
    + intros X; discriminate X.
  - destruct (firstFail (checksSkip Sol c x)) as [e|] eqn:F2; [split; auto; now apply skip_fail|].
    exists false. cbn [Driver.trace Driver.time Driver.nextSave stepNo]. rewrite accepted_app, A3. cbn. rewrite SV.
    split; [reflexivity|]. split; [auto|]. split; [auto|]. split; [lia|]. split; [auto|]. constructor; auto.
    + intros X; discriminate X.
    + intros _. now apply skip_fine.
Qed.

(** ** Status *)

Lemma loop_status : forall c l f s,
  match loop Sol c f s l with
  | Running _ s' => exists A, accepted Sol (trace s') = (accepted Sol (trace s) ++ A)%list /\ length A = length l /\
      (forall k x, nth_error l k = Some x -> converges Sol (tries Sol x) = true /\ exists tn t b, nth_error A k = Some (tn, t, b) /\ served Sol c x b)
  | Solving _ _ => True
  | Exit _ e s' => exists pre x post, l = (pre ++ x :: post)%list /\ explains Sol e c x /\
      (forall y, In y pre -> converges Sol (tries Sol y) = true /\ exists b, served Sol c y b)
  end.
Proof.
  intros c l. induction l as [|x l IH]; intros f s; cbn [loop].
  - exists []. rewrite app_nil_r. repeat split; auto; destruct k; discriminate.
  - assert (H := oneStep_spec c f s x). destruct (oneStep Sol c f s x) as [s'|s'|e s']; auto.
    + destruct H as [b [H1 [_ [_ [_ [H2 H3]]]]]]. specialize (IH false s'). destruct (loop Sol c false s' l) as [s''|s''|e s'']; auto.
      * destruct IH as [A [I1 [I2 I3]]]. exists ((tAdv Sol x, time s', b) :: A). rewrite I1, H1, <- app_assoc. split; [reflexivity|].
        split; [cbn; lia|]. intros k y K. destruct k as [|k]; cbn in K.
        -- injection K as <-. split; auto. exists (tAdv Sol x), (time s'), b. auto.
        -- apply (I3 k y K).
      * destruct IH as [pre [y [post [I1 [I2 I3]]]]]. exists (x :: pre), y, post. rewrite I1. split; [reflexivity|]. split; auto.
        intros z [<-|Z]; auto. split; eauto.
    + destruct H as [_ H]. exists [], x, l. split; [reflexivity|]. split; auto. intros y [].
Qed.

Theorem status_zero : forall c l, solveProblem Sol c l = Some 0%nat ->
  initFine Sol c /\ length (accepted Sol (trace (stateOf Sol (run Sol c l)))) = length l /\
  (forall k x, nth_error l k = Some x -> converges Sol (tries Sol x) = true /\
     exists tn t b, nth_error (accepted Sol (trace (stateOf Sol (run Sol c l)))) k = Some (tn, t, b) /\ served Sol c x b).
Proof.
  intros c l H. unfold solveProblem, run, init in *. cbn in *.
  destruct (format Sol c && negb (modelOk Sol c)) eqn:A1; [discriminate H|].
  destruct (format Sol c && initStep Sol c && negb (initStepOk Sol c)) eqn:A2; [discriminate H|].
  destruct (adap Sol c && negb (initPrmOk Sol c)) eqn:A3; [destruct (format Sol c && initStep Sol c); discriminate H|].
  split.
  { unfold initFine, whenever. destruct (format Sol c), (modelOk Sol c), (initStep Sol c), (initStepOk Sol c), (adap Sol c), (initPrmOk Sol c);
    cbn in *; try discriminate; auto. }
  match type of H with match loop _ _ _ ?s0 _ with _ => _ end = _ => assert (L := loop_status c l true s0);
    assert (N0 : accepted Sol (trace s0) = []) by (destruct (format Sol c && initStep Sol c); reflexivity);
    destruct (loop Sol c true s0 l) as [s'|s'|e' s'] end.
  - destruct L as [A [L1 [L2 L3]]]. rewrite N0 in L1. cbn in L1. cbn. rewrite L1. auto.
  - discriminate H.
  - destruct L as [pre [x [post [_ [L _]]]]]. injection H as ->. destruct L.
Qed.

Theorem status_nonzero : forall c l e, solveProblem Sol c l = Some e -> e <> 0%nat ->
  explainsInit Sol e c \/
  exists pre x post, l = (pre ++ x :: post)%list /\ explains Sol e c x /\
    (forall y, In y pre -> converges Sol (tries Sol y) = true /\ exists b, served Sol c y b).
Proof.
  intros c l e H N. unfold solveProblem, run, init in *. cbn in *.
  destruct (format Sol c && negb (modelOk Sol c)) eqn:A1.
  { left. injection H as <-. cbn. apply andb_prop in A1. destruct A1 as [A1 B1]. apply negb_true_iff in B1. auto. }
  destruct (format Sol c && initStep Sol c && negb (initStepOk Sol c)) eqn:A2.
  { left. injection H as <-. cbn. apply andb_prop in A2. destruct A2 as [A2 B2]. apply andb_prop in A2. apply negb_true_iff in B2. tauto. }
  destruct (adap Sol c && negb (initPrmOk Sol c)) eqn:A3.
  { left. assert (e = 5%nat) as -> by (destruct (format Sol c && initStep Sol c); congruence). cbn.
    apply andb_prop in A3. destruct A3 as [A3 B3]. apply negb_true_iff in B3. auto. }
  right.
  match type of H with match loop _ _ _ ?s0 _ with _ => _ end = _ => assert (L := loop_status c l true s0); destruct (loop Sol c true s0 l) as [s'|s'|e' s'] end.
  - congruence.
  - discriminate.
  - injection H as ->. exact L.
Qed.

(** ** Save times *)

Fixpoint follows (c : cfg) (next : Q) (A : list (Q * Q * bool)) : Prop :=
  match A with
  | [] => True
  | (tn, t, b) :: A => b = (Qle_bool (dtSave Sol c) 0 || hasReached Sol c t next) /\
                       follows c (if b then due (dtSave Sol c) (stopTime Sol c) tn else next) A
  end.

Lemma run_follows : forall c l, follows c (t0 Sol c + dtSave Sol c) (accepted Sol (trace (stateOf Sol (run Sol c l)))).
Proof.
  intros c l.
  assert (L : forall l f s, exists A, accepted Sol (trace (stateOf Sol (loop Sol c f s l))) = (accepted Sol (trace s) ++ A)%list /\ follows c (nextSave s) A).
  { clear l. induction l as [|x l IH]; intros f s; cbn [loop].
    - exists []. rewrite app_nil_r. cbn. auto.
    - assert (H := oneStep_spec c f s x). destruct (oneStep Sol c f s x) as [s'|s'|e s'].
      + destruct H as [b [H1 [H2 [H3 _]]]]. destruct (IH false s') as [A [I1 I2]].
        exists ((tAdv Sol x, time s', b) :: A). rewrite I1, H1, <- app_assoc. split; auto. cbn [follows]. split; auto.
        rewrite H3 in I2. exact I2.
      + exists []. cbn. rewrite H, app_nil_r. auto.
      + destruct H as [H _]. exists []. cbn. rewrite H, app_nil_r. auto. }
  unfold run, init. cbn.
  destruct (format Sol c && negb (modelOk Sol c)); [cbn; auto|].
  destruct (format Sol c && initStep Sol c && negb (initStepOk Sol c)); [cbn; auto|].
  destruct (adap Sol c && negb (initPrmOk Sol c)); [destruct (format Sol c && initStep Sol c); cbn; auto|].
  match goal with |- context [loop Sol c true ?s0 l] => destruct (L l true s0) as [A [L1 L2]]; rewrite L1 end.
  destruct (format Sol c && initStep Sol c); cbn in *; auto.
Qed.

Lemma follows_app : forall c A next B, follows c next (A ++ B) -> exists next', follows c next' B /\ (unsaved A -> next' = next).
Proof.
  induction A as [|[[tn t] b] A IH]; intros next B F; cbn in F; [eauto|].
  destruct F as [F1 F2]. destruct (IH _ _ F2) as [n' [G1 G2]]. exists n'. split; auto. intros U.
  rewrite G2 by (intros x X; apply U; now right). assert (X := U _ (or_introl eq_refl)). cbn in X. now rewrite X.
Qed.

Lemma reached_iff : forall c t n, hasReached Sol c t n = true <-> n < t + tol Sol c.
Proof.
  intros. unfold hasReached. rewrite negb_true_iff. destruct (Qle_bool (t + tol Sol c) n) eqn:E.
  - apply Qle_bool_iff in E. split; [discriminate|lra].
  - split; auto. intros _. apply Qnot_le_lt. intros X. apply Qle_bool_iff in X. congruence.
Qed.

Theorem first_save : forall c l A tn t b B, 0 < dtSave Sol c ->
  accepted Sol (trace (stateOf Sol (run Sol c l))) = (A ++ (tn, t, b) :: B)%list -> unsaved A ->
  (b = true <-> t0 Sol c + dtSave Sol c < t + tol Sol c).
Proof.
  intros c l A tn t b B D E U. assert (F := run_follows c l). rewrite E in F. destruct (follows_app c A _ _ F) as [n [[G1 _] G2]].
  rewrite (G2 U) in G1. rewrite <- reached_iff. rewrite G1.
  assert (X : Qle_bool (dtSave Sol c) 0 = false). { destruct (Qle_bool (dtSave Sol c) 0) eqn:Q; auto. apply Qle_bool_iff in Q. lra. }
  rewrite X. cbn [orb]. tauto.
Qed.

Theorem next_save : forall c l A tj tj' B tn t b C, 0 < dtSave Sol c ->
  accepted Sol (trace (stateOf Sol (run Sol c l))) = (A ++ (tj, tj', true) :: B ++ (tn, t, b) :: C)%list -> unsaved B ->
  (b = true <-> due (dtSave Sol c) (stopTime Sol c) tj < t + tol Sol c).
Proof.
  intros c l A tj tj' B tn t b C D E U. assert (F := run_follows c l). rewrite E in F. destruct (follows_app c A _ _ F) as [n [[_ G1] _]].
  destruct (follows_app c B _ _ G1) as [m [[K1 _] K2]]. rewrite (K2 U) in K1. rewrite <- reached_iff, K1.
  assert (X : Qle_bool (dtSave Sol c) 0 = false). { destruct (Qle_bool (dtSave Sol c) 0) eqn:Q; auto. apply Qle_bool_iff in Q. lra. }
  rewrite X. cbn [orb]. tauto.
Qed.

Theorem save_all : forall c l tn t b, dtSave Sol c <= 0 ->
  In (tn, t, b) (accepted Sol (trace (stateOf Sol (run Sol c l)))) -> b = true.
Proof.
  intros c l tn t b D I. apply in_split in I. destruct I as [A [B E]]. assert (F := run_follows c l). rewrite E in F.
  destruct (follows_app c A _ _ F) as [n [[G _] _]]. rewrite G. apply Qle_bool_iff in D. now rewrite D.
Qed.

Lemma last_saved : forall A : list (Q * Q * bool), unsaved A \/ exists P tj tj' B, A = (P ++ (tj, tj', true) :: B)%list /\ unsaved B.
Proof.
  induction A as [|[[a b] s] A IH]; [left; intros x []|].
  destruct IH as [U|[P [tj [tj' [B [E U]]]]]].
  - destruct s; [right; exists [], a, b, A; auto|left; intros x [<-|X]; auto].
  - right. exists ((a, b, s) :: P), tj, tj', B. rewrite E. auto.
Qed.

(** The step that reaches the stop time is saved, once the first save has been made or the
    first interval ends by the stop time. *)
Theorem final_save : forall c l A tn t b B, 0 < dtSave Sol c -> 0 < tol Sol c ->
  accepted Sol (trace (stateOf Sol (run Sol c l))) = (A ++ (tn, t, b) :: B)%list -> stopTime Sol c <= t ->
  (~ unsaved A \/ t0 Sol c + dtSave Sol c <= stopTime Sol c) -> b = true.
Proof.
  intros c l A tn t b B D T E S H. destruct (last_saved A) as [U|[P [tj [tj' [C [EA U]]]]]].
  - destruct H as [H|H]; [contradiction|]. apply (first_save c l A tn t b B D E U). lra.
  - subst A. rewrite <- app_assoc in E. cbn in E. apply (next_save c l P tj tj' C tn t b B D E U).
    unfold due. destruct (Qle_bool (tj + dtSave Sol c) (stopTime Sol c)) eqn:X; [apply Qle_bool_iff in X|]; lra.
Qed.

(** Equal steps that divide the interval: exactly the multiples are saved. *)
Lemma mult_pos : forall x y h : Q, 0 < h -> x * h < y * h -> x < y.
Proof. intros x y h H L. apply (Qmult_lt_r x y h H). exact L. Qed.

Theorem multiples : forall c l h m, (1 <= m)%nat -> 0 < h -> 0 < tol Sol c -> tol Sol c < h ->
  dtSave Sol c == inject_Z (Z.of_nat m) * h ->
  uniform Sol c h (accepted Sol (trace (stateOf Sol (run Sol c l)))) ->
  forall k tn t b, nth_error (accepted Sol (trace (stateOf Sol (run Sol c l)))) k = Some (tn, t, b) ->
    t + tol Sol c <= stopTime Sol c -> (b = true <-> (S k mod m = 0)%nat).
Proof.
  intros c l h m M H T1 T2 DT U.
  assert (MM : (0 < Z.of_nat m)%Z) by lia.
  assert (D : 0 < dtSave Sol c). { rewrite DT. apply Qmult_lt_0_compat; auto. unfold Qlt. cbn. lia. }
  set (A := accepted Sol (trace (stateOf Sol (run Sol c l)))) in *.
  assert (Zc : forall a b : nat, inject_Z (Z.of_nat a) * h < inject_Z (Z.of_nat b) * h + h -> (a <= b)%nat).
  { intros a b L. assert (X : inject_Z (Z.of_nat a) < inject_Z (Z.of_nat b) + 1).
    { apply (mult_pos _ _ h H). lra. }
    change 1 with (inject_Z 1) in X. rewrite <- inject_Z_plus in X. rewrite <- Zlt_Qlt in X. lia. }
  assert (Zm : forall a b : nat, (a <= b)%nat -> inject_Z (Z.of_nat a) * h <= inject_Z (Z.of_nat b) * h).
  { intros a b L. apply Qmult_le_compat_r; [|lra]. rewrite <- Zle_Qle. lia. }
  intros k. induction k as [k IH] using lt_wf_ind. intros tn t b E ST.
  destruct (U k tn t b E) as [U1 U2].
  assert (SP := nth_error_split A k E). destruct SP as [A1 [A2 [EA LA]]].
  destruct (last_saved A1) as [N|[P [tj [tj' [B [EP N]]]]]].
  - rewrite (first_save c l A1 tn t b A2 D EA N).
    assert (NoMult : forall j, (j < k)%nat -> (S j mod m <> 0)%nat).
    { intros j J. destruct (nth_error A1 j) as [[[aj bj] sj]|] eqn:Ej; [|apply nth_error_None in Ej; lia].
      assert (Ej' : nth_error A j = Some (aj, bj, sj)) by (rewrite EA, nth_error_app1; auto; lia).
      destruct (U j aj bj sj Ej') as [V1 V2].
      assert (sj = false) by (apply (N (aj, bj, sj)); eapply nth_error_In; eauto). subst sj.
      intros X. apply (IH j J aj bj false Ej') in X; [discriminate X|].
      assert (Y := Zm (Datatypes.S j) (Datatypes.S k) ltac:(lia)). lra. }
    split.
    + intros L. assert (X : (m <= Datatypes.S k)%nat). { apply Zc. lra. }
      destruct (Nat.eq_dec m (Datatypes.S k)) as [->|NE]; [apply Nat.mod_same; lia|].
      exfalso. apply (NoMult (m - 1)%nat ltac:(lia)). replace (Datatypes.S (m - 1)) with m by lia. apply Nat.mod_same. lia.
    + intros X. apply Nat.mod_divide in X; [|lia]. destruct X as [q Q]. assert (q <> 0)%nat by lia.
      assert (Y := Zm m (Datatypes.S k) ltac:(nia)). lra.
  - set (i := length P).
    assert (EA' : A = (P ++ (tj, tj', true) :: B ++ (tn, t, b) :: A2)%list) by (rewrite EA, EP, <- app_assoc; reflexivity).
    rewrite (next_save c l P tj tj' B tn t b A2 D EA' N).
    assert (Ei : nth_error A i = Some (tj, tj', true)).
    { rewrite EA'. rewrite nth_error_app2 by (unfold i; lia). unfold i. now rewrite Nat.sub_diag. }
    assert (ik : (i < k)%nat) by (rewrite <- LA, EP, app_length; cbn; unfold i; lia).
    destruct (U i tj tj' true Ei) as [V1 V2].
    assert (YI := Zm (Datatypes.S i) (Datatypes.S k) ltac:(lia)).
    assert (Mi : (Datatypes.S i mod m = 0)%nat) by (apply (IH i ik tj tj' true Ei); [lra|reflexivity]).
    apply Nat.mod_divide in Mi; [|lia]. destruct Mi as [q Q].
    assert (NoMult : forall j, (i < j < k)%nat -> (Datatypes.S j mod m <> 0)%nat).
    { intros j J. destruct (nth_error A j) as [[[aj bj] sj]|] eqn:Ej'; [|apply nth_error_None in Ej'; assert (nth_error A k <> None) by congruence; apply nth_error_Some in H0; lia].
      destruct (U j aj bj sj Ej') as [W1 W2].
      assert (sj = false).
      { apply (N (aj, bj, sj)). rewrite EA' in Ej'. rewrite nth_error_app2 in Ej' by (unfold i in J; lia).
        destruct (j - length P)%nat as [|d] eqn:DD; [unfold i in J; lia|]. cbn in Ej'.
        rewrite nth_error_app1 in Ej'; [eapply nth_error_In; eauto|].
        assert (LB : length A1 = (length P + S (length B))%nat) by (rewrite EP, app_length; reflexivity). lia. }
      subst sj. intros X. apply (IH j ltac:(lia) aj bj false Ej') in X; [discriminate X|].
      assert (Y := Zm (Datatypes.S j) (Datatypes.S k) ltac:(lia)). lra. }
    assert (SM : inject_Z (Z.of_nat (Datatypes.S i + m)) * h == inject_Z (Z.of_nat (Datatypes.S i)) * h + inject_Z (Z.of_nat m) * h).
    { rewrite Nat2Z.inj_add, inject_Z_plus. ring. }
    unfold due. split.
    + intros L. assert (X : (Datatypes.S i + m <= Datatypes.S k)%nat).
      { apply Zc. destruct (Qle_bool (tj + dtSave Sol c) (stopTime Sol c)); lra. }
      destruct (Nat.eq_dec (Datatypes.S i + m) (Datatypes.S k)) as [<-|NE].
      * rewrite Q. replace (q * m + m)%nat with ((q + 1) * m)%nat by lia. apply Nat.mod_mul. lia.
      * exfalso. apply (NoMult (i + m)%nat ltac:(lia)). replace (Datatypes.S (i + m)) with ((q + 1) * m)%nat by lia. apply Nat.mod_mul. lia.
    + intros X. apply Nat.mod_divide in X; [|lia]. destruct X as [r R].
      assert (QR : (q + 1 <= r)%nat) by nia. assert (MU := Nat.mul_le_mono_r _ _ m QR).
      assert (Y := Zm (Datatypes.S i + m)%nat (Datatypes.S k) ltac:(lia)).
      destruct (Qle_bool (tj + dtSave Sol c) (stopTime Sol c)) eqn:CL; [lra|].
      assert (CL' : ~ (tj + dtSave Sol c <= stopTime Sol c)) by (rewrite <- Qle_bool_iff; congruence). apply Qnot_le_lt in CL'. lra.
Qed.

(** ** Times *)

Lemma lastTime_solves : forall ev t, (forall e, In e ev -> isSolve Sol e) -> lastTime Sol t ev = t.
Proof.
  induction ev as [|e ev IH]; intros t H; auto. assert (X := H e ltac:(now left)). destruct e; try destruct X. cbn.
  apply IH. intros; apply H; now right.
Qed.

Definition timely (t : Q) (pre : list event) (e : event) : Prop :=
  match e with
  | Solve _ u _ _ _ => lastTime Sol t pre < u /\ forall p v a b d, pre = (p ++ [Solve Sol v a b d])%list -> u < v
  | _ => True end.

Lemma cut_times : forall c l stat s tl, every Sol (timely (t0 Sol c)) (trace s) -> lastTime Sol (t0 Sol c) (trace s) = tl ->
  (isDiverged stat = true -> honestTries Sol tl (time s) l /\ forall p v a b d, trace s = (p ++ [Solve Sol v a b d])%list -> v = time s) ->
  (isDiverged stat = false -> tl < time s /\ honestTries Sol tl (time s) (List.tl l) /\ forall p v a b d, trace s <> (p ++ [Solve Sol v a b d])%list) ->
  every Sol (timely (t0 Sol c)) (trace (snd (cutBack Sol stat s l))) /\
  (fst (cutBack Sol stat s l) = Some CONVERGED ->
    time (snd (cutBack Sol stat s l)) = if isDiverged stat then finalTime Sol (time s) l
      else match l with a :: l => if isDiverged (out Sol a) then finalTime Sol (time s) l else time s | [] => time s end).
Proof.
  intros c l. induction l as [|a l IH]; intros stat s tl E L D N; cbn [cutBack].
  - cbn. split; auto. discriminate.
  - assert (G : forall q : state, trace q = trace s -> tl < time q -> honestTries Sol tl (time q) l ->
        (forall p v a b d, trace s = (p ++ [Solve Sol v a b d])%list -> time q < v) ->
        let r := (let s0 := mkState Sol (time q) (sol' Sol a) (prev q) (nextSave q) (stepNo _ q)
                    (trace q ++ [Solve Sol (time q) (cur q) (out Sol a) (sol' Sol a)]) in
                  if isDiverged (out Sol a) then cutBack Sol (out Sol a) s0 l else (Some (out Sol a), s0)) in
        every Sol (timely (t0 Sol c)) (trace (snd r)) /\
        (fst r = Some CONVERGED -> time (snd r) = if isDiverged (out Sol a) then finalTime Sol (time q) l else time q)).
    { intros q T HT HH F r. unfold r. cbv zeta.
      assert (Y : every Sol (timely (t0 Sol c)) (trace q ++ [Solve Sol (time q) (cur q) (out Sol a) (sol' Sol a)])).
      { rewrite T. apply every_snoc; auto. split; [now rewrite L|]. intros p v x y z W. now apply (F p v x y z). }
      destruct (isDiverged (out Sol a)) eqn:DA.
      - destruct (IH (out Sol a) (mkState Sol (time q) (sol' Sol a) (prev q) (nextSave q) (stepNo _ q)
                    (trace q ++ [Solve Sol (time q) (cur q) (out Sol a) (sol' Sol a)])) tl) as [I1 I2]; auto.
        + cbn. rewrite T, lastTime_app, L. reflexivity.
        + intros _. split; [exact HH|]. cbn. intros p v x y z W. apply app_inj_tail in W. destruct W as [_ W]. now injection W as <- _ _ _.
        + rewrite DA. discriminate.
        + split; auto. intros X. rewrite (I2 X), DA. reflexivity.
      - cbn. split; auto. }
    destruct (isDiverged stat) eqn:DS.
    + destruct (D eq_refl) as [D1 D2]. cbn [honestTries] in D1. destruct (cut Sol a) as [t|] eqn:CA.
      * destruct D1 as [[D3 D4] D5].
        destruct (G (mkState Sol t (prev s) (prev s) (nextSave s) (stepNo _ s) (trace s)) eq_refl D3 D5) as [G1 G2].
        { intros p v x y z W. cbn. rewrite (D2 p v x y z W). exact D4. }
        split; [exact G1|]. intros X. etransitivity; [exact (G2 X)|]. cbn [finalTime Driver.time]. rewrite CA. reflexivity.
      * cbn. split; auto. intros X. injection X as ->. discriminate DS.
    + destruct (N eq_refl) as [N1 [N2 N3]].
      destruct (G s eq_refl N1 N2) as [G1 G2].
      { intros p v x y z W. exfalso. now apply (N3 p v x y z). }
      split; auto.
Qed.

Lemma run_timely : forall c l, honest Sol (t0 Sol c) l -> every Sol (timely (t0 Sol c)) (trace (stateOf Sol (run Sol c l))).
Proof.
  intros c l H.
  pose (ok := fun s : state => every Sol (timely (t0 Sol c)) (trace s) /\ lastTime Sol (t0 Sol c) (trace s) = time s /\
     forall p v a b d, trace s <> (p ++ [Solve Sol v a b d])%list).
  assert (STEP : forall f s x, ok s -> time s < tAdv Sol x -> honestTries Sol (time s) (tAdv Sol x) (List.tl (tries Sol x)) ->
     match oneStep Sol c f s x with Running _ s' => ok s' /\ time s' = stepTime Sol x | Solving _ s' | Exit _ _ s' => every Sol (timely (t0 Sol c)) (trace s') end).
  { intros f s x [O1 [O2 O3]] T HT. unfold oneStep.
    set (s1 := mkState Sol (tAdv Sol x) (cur s) (cur s) (nextSave s) (stepNo _ s) (trace s)).
    destruct (negb f && adap Sol c && negb (adaptOk Sol x)); [cbn; auto|].
    set (s2 := if negb f && adap Sol c && adapted Sol x then _ else s1).
    assert (H2 : every Sol (timely (t0 Sol c)) (trace s2) /\ lastTime Sol (t0 Sol c) (trace s2) = time s /\ time s2 = tAdv Sol x /\
      forall p v a b d, trace s2 <> (p ++ [Solve Sol v a b d])%list).
    { unfold s2. destruct (negb f && adap Sol c && adapted Sol x); cbn; auto. split; [apply every_snoc; cbn; auto|]. split; [now rewrite lastTime_app|].
      split; auto. intros p v a b d X. apply app_inj_tail in X. destruct X as [_ X]. discriminate X. }
    clearbody s2. clear s1. destruct H2 as [H1 [H2 [H3 H4]]].
    destruct (negb (negb f && adap Sol c && adapted Sol x) && format Sol c && saveE0 Sol c && activE0 Sol x && negb (saveE0Ok Sol x)); [cbn; auto|].
    destruct (cut_times c (tries Sol x) OK s2 (time s) H1 H2) as [C1 C2].
    { discriminate. }
    { intros _. rewrite H3. auto. }
    destruct (cutBack_trace Sol (tries Sol x) OK s2) as [ev [V1 [V2 _]]].
    destruct (cutBack Sol OK s2 (tries Sol x)) as [stat s3] eqn:CB. cbn [snd fst] in *.
    destruct stat as [stat|]; [|auto]. destruct (isConverged stat) eqn:CV; cbn [negb]; [|auto].
    assert (stat = CONVERGED) by (destruct stat; auto; discriminate CV). subst stat. specialize (C2 eq_refl).
    assert (TS : time s3 = stepTime Sol x).
    { rewrite C2, H3. unfold stepTime. cbn [isDiverged]. destruct (tries Sol x); reflexivity. }
    destruct (firstFail (checksPost Sol c x)); [auto|].
    destruct (Qle_bool (dtSave Sol c) 0 || hasReached Sol c (time s3) (nextSave s3));
    [destruct (firstFail (checksSave Sol c x)); [auto|]|destruct (firstFail (checksSkip Sol c x)); [auto|]];
    (split; [|exact TS]; split; [|split]; cbn;
      [apply every_snoc; cbn; auto|now rewrite lastTime_app|intros p v a b d X; apply app_inj_tail in X; destruct X as [_ X]; discriminate X]). }
  assert (LOOP : forall l f s, ok s -> honest Sol (time s) l -> every Sol (timely (t0 Sol c)) (trace (stateOf Sol (loop Sol c f s l)))).
  { clear l H. induction l as [|x l IH]; intros f s O HN; cbn [loop]; [apply O|]. destruct HN as [N1 [N2 N3]].
    assert (X := STEP f s x O N1 N2). destruct (oneStep Sol c f s x); cbn; auto. destruct X as [X1 X2]. apply IH; auto. now rewrite X2. }
  assert (Z : every Sol (timely (t0 Sol c)) []) by (intros p e q X; destruct p; discriminate X).
  unfold run, init. cbn.
  destruct (format Sol c && negb (modelOk Sol c)); [auto|].
  destruct (format Sol c && initStep Sol c && negb (initStepOk Sol c)); [auto|].
  destruct (adap Sol c && negb (initPrmOk Sol c)); [destruct (format Sol c && initStep Sol c); auto|].
  apply LOOP.
  - split; [|split]; destruct (format Sol c && initStep Sol c); cbn; auto; intros p v a b d X; destruct p; discriminate X.
  - destruct (format Sol c && initStep Sol c); cbn; auto.
Qed.

Theorem solve_after_last : forall c l, honest Sol (t0 Sol c) l -> forall pre t s o r post,
  trace (stateOf Sol (run Sol c l)) = (pre ++ Solve Sol t s o r :: post)%list -> lastTime Sol (t0 Sol c) pre < t.
Proof. intros c l H pre t s o r post E. apply (run_timely c l H pre _ post E). Qed.

Theorem retry_smaller : forall c l, honest Sol (t0 Sol c) l -> forall pre t s o r t' s' o' r' post,
  trace (stateOf Sol (run Sol c l)) = (pre ++ Solve Sol t s o r :: Solve Sol t' s' o' r' :: post)%list -> t' < t.
Proof.
  intros c l H pre t s o r t' s' o' r' post E.
  destruct (run_timely c l H (pre ++ [Solve Sol t s o r])%list (Solve Sol t' s' o' r') post) as [_ A]; [now rewrite E, <- app_assoc|].
  now apply (A pre t s o r).
Qed.

(** Giving up: the last attempt failed for good, or a cut-back was refused. *)
Lemma cut_gives_up : forall l stat s o s', cutBack Sol stat s l = (Some o, s') -> o = DIVERGED ->
  exists a, In a l /\ cut Sol a = None.
Proof.
  induction l as [|a l IH]; intros stat s o s' E O; cbn [cutBack] in E; [discriminate|].
  assert (G : forall q : state,
      (let s0 := mkState Sol (time q) (sol' Sol a) (prev q) (nextSave q) (stepNo _ q)
                  (trace q ++ [Solve Sol (time q) (cur q) (out Sol a) (sol' Sol a)]) in
                if isDiverged (out Sol a) then cutBack Sol (out Sol a) s0 l else (Some (out Sol a), s0)) = (Some o, s') ->
      exists a0, In a0 (a :: l) /\ cut Sol a0 = None).
  { intros q F. cbv zeta in F. destruct (isDiverged (out Sol a)) eqn:D.
    - destruct (IH _ _ _ _ F O) as [b [B1 B2]]. exists b. split; auto. now right.
    - injection F as F _. rewrite <- F in O. rewrite O in D. discriminate D. }
  destruct (isDiverged stat).
  - destruct (cut Sol a) eqn:CA; [now apply G in E|]. exists a. split; auto. now left.
  - now apply G in E.
Qed.
End Proofs.

(** ** Newmark driver *)

Lemma add_zero : forall b k, add b (S k) = 0%nat <-> b = true.
Proof. intros [] k; cbn; split; auto; discriminate. Qed.
Lemma implb_iff : forall a b, implb a b = true <-> (a = true -> b = true).
Proof. intros [] []; cbn; intuition. Qed.
Lemma sum_zero : forall a b, (a + b = 0)%nat <-> a = 0%nat /\ b = 0%nat.
Proof. lia. Qed.

Lemma newmark_step : forall c nx x, fst (newmarkStep c nx x) = 0%nat <-> nFine c x (nReached c (nTime x) nx).
Proof.
  intros c nx x. unfold newmarkStep, nFine. destruct (nOut x) eqn:O; cbn [isConverged negb fst];
    try (split; [discriminate|intros [X _]; discriminate X]).
  assert (V : (if nFormat c then if negb (nStepOk x) then 11 else add (implb (nProject c) (nProjWOk x)) 14 else 0)%nat = 0%nat <->
    (nFormat c = true -> nStepOk x = true /\ (nProject c = true -> nProjWOk x = true))).
  { destruct (nFormat c); [|split; auto; intros _ X; discriminate X]. destruct (nStepOk x); cbn [negb].
    - rewrite add_zero, implb_iff. tauto.
    - split; [discriminate|]. intros H. destruct (H eq_refl) as [X _]. discriminate X. }
  assert (W : implb (nRestart c && nDumpNow x && nSerialOk x) (nRestartOk x) = true <->
    (nRestart c = true -> nDumpNow x = true -> nSerialOk x = true -> nRestartOk x = true)).
  { rewrite implb_iff, !andb_true_iff. tauto. }
  destruct (nReached c (nTime x) nx); cbn [fst]; rewrite !sum_zero, ?V, !add_zero, W, !implb_iff; intuition discriminate.
Qed.

Lemma newmark_loop : forall c l nx, newmarkLoop c nx l = 0%nat <-> nAllFine c nx l.
Proof.
  intros c l. induction l as [|x l IH]; intros nx; cbn [newmarkLoop nAllFine]; [tauto|].
  assert (S := newmark_step c nx x). destruct (newmarkStep c nx x) as [st n'] eqn:E. cbn [fst] in S.
  destruct st as [|st].
  - assert (F := proj1 S eq_refl). rewrite IH.
    assert (n' = if nReached c (nTime x) nx then due (nDtSave c) (nStop c) (nTime x) else nx) as ->.
    { unfold newmarkStep in E. destruct F as [F _]. rewrite F in E. cbn [isConverged negb] in E. injection E as _ <-. reflexivity. }
    tauto.
  - split; [discriminate|]. intros [X _]. apply S in X. discriminate X.
Qed.
