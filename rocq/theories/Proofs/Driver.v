From Coq Require Import List QArith Bool Arith Lia Lqa.
From Verif Require Import Model.Driver Spec.Driver.
Import ListNotations.
Open Scope Q_scope.

Section Proofs.
Variable Sol : Type.
Notation event := (event Sol). Notation step := (step Sol). Notation cfg := (cfg Sol). Notation attempt := (attempt Sol).
Notation state := (state Sol).
Notation trace := (trace Sol). Notation time := (time Sol). Notation cur := (cur Sol). Notation prev := (prev Sol).
Notation nextSave := (nextSave Sol).

Lemma accepted_app : forall a b, accepted Sol (a ++ b) = (accepted Sol a ++ accepted Sol b)%list.
Proof. induction a as [|e a IH]; intros b; auto. destruct e; cbn; rewrite ?IH; auto. Qed.
Lemma lastGood_app : forall a b s, lastGood Sol s (a ++ b) = lastGood Sol (lastGood Sol s a) b.
Proof. induction a as [|e a IH]; intros b s; auto. destruct e; cbn; auto. Qed.
Lemma lastTime_app : forall a b s, lastTime Sol s (a ++ b) = lastTime Sol (lastTime Sol s a) b.
Proof. induction a as [|e a IH]; intros b s; auto. destruct e; cbn; auto. Qed.

(** ** The cut-back loop *)

Definition isSolve (e : event) : Prop := match e with Solve _ _ _ _ _ => True | _ => False end.

Lemma cutBack_trace : forall l stat s, exists ev, (forall e, In e ev -> isSolve e) /\
  trace (snd (cutBack Sol stat s l)) = (trace s ++ ev)%list /\ prev (snd (cutBack Sol stat s l)) = prev s /\
  nextSave (snd (cutBack Sol stat s l)) = nextSave s /\ stepNo _ (snd (cutBack Sol stat s l)) = stepNo _ s.
Proof.
  induction l as [|a l IH]; intros stat s; cbn [cutBack].
  - exists []. cbn. rewrite app_nil_r. repeat split; auto; intros e [].
  - assert (G : forall s' : state, prev s' = prev s -> nextSave s' = nextSave s -> stepNo _ s' = stepNo _ s -> trace s' = trace s ->
      let r := (let s0 := mkState Sol (time s') (sol' Sol a) (prev s') (nextSave s') (stepNo _ s')
                  (trace s' ++ [Solve Sol (time s') (cur s') (out Sol a) (sol' Sol a)]) in
                if isDiverged (out Sol a) then cutBack Sol (out Sol a) s0 l else (Some (out Sol a), s0)) in
      exists ev, (forall e, In e ev -> isSolve e) /\ trace (snd r) = (trace s ++ ev)%list /\ prev (snd r) = prev s /\
        nextSave (snd r) = nextSave s /\ stepNo _ (snd r) = stepNo _ s).
    { intros s' P N C T r. unfold r. destruct (isDiverged (out Sol a)).
      - destruct (IH (out Sol a) (mkState Sol (time s') (sol' Sol a) (prev s') (nextSave s') (stepNo _ s')
          (trace s' ++ [Solve Sol (time s') (cur s') (out Sol a) (sol' Sol a)]))) as [ev [E1 [E2 [E3 [E4 E5]]]]].
        exists (Solve Sol (time s') (cur s') (out Sol a) (sol' Sol a) :: ev). cbn in *. rewrite E2, E3, E4, E5, <- app_assoc, T. cbn.
        repeat split; auto. intros e [<-|I]; cbn; auto.
      - exists [Solve Sol (time s') (cur s') (out Sol a) (sol' Sol a)]. cbn. rewrite T. repeat split; auto. intros e [<-|[]]; cbn; auto. }
    destruct (isDiverged stat).
    + destruct (cut Sol a) as [t|].
      * apply (G (mkState Sol t (prev s) (prev s) (nextSave s) (stepNo _ s) (trace s))); auto.
      * exists []. cbn. rewrite app_nil_r. repeat split; auto; intros e [].
    + apply (G s); auto.
Qed.

(** Restart: every solve of the loop starts from [prev]. *)
Definition startsFrom (g : Sol) (e : event) : Prop := match e with Solve _ _ s _ _ => s = g | _ => True end.

Lemma cutBack_start : forall l stat s, (isDiverged stat = false -> cur s = prev s) ->
  exists ev, trace (snd (cutBack Sol stat s l)) = (trace s ++ ev)%list /\ (forall e, In e ev -> isSolve e /\ startsFrom (prev s) e).
Proof.
  induction l as [|a l IH]; intros stat s H; cbn [cutBack].
  - exists []. cbn. rewrite app_nil_r. split; auto; intros e [].
  - assert (G : forall s' : state, prev s' = prev s -> trace s' = trace s -> cur s' = prev s ->
      let r := (let s0 := mkState Sol (time s') (sol' Sol a) (prev s') (nextSave s') (stepNo _ s')
                  (trace s' ++ [Solve Sol (time s') (cur s') (out Sol a) (sol' Sol a)]) in
                if isDiverged (out Sol a) then cutBack Sol (out Sol a) s0 l else (Some (out Sol a), s0)) in
      exists ev, trace (snd r) = (trace s ++ ev)%list /\ (forall e, In e ev -> isSolve e /\ startsFrom (prev s) e)).
    { intros s' P T C r. unfold r. destruct (isDiverged (out Sol a)) eqn:D.
      - destruct (IH (out Sol a) (mkState Sol (time s') (sol' Sol a) (prev s') (nextSave s') (stepNo _ s')
          (trace s' ++ [Solve Sol (time s') (cur s') (out Sol a) (sol' Sol a)]))) as [ev [E1 E2]]; [congruence|].
        exists (Solve Sol (time s') (cur s') (out Sol a) (sol' Sol a) :: ev). cbn in *. rewrite E1, <- app_assoc, T. cbn.
        split; auto. intros e [<-|I]; cbn; auto. destruct (E2 e I) as [A B]. split; auto. now rewrite <- P.
      - exists [Solve Sol (time s') (cur s') (out Sol a) (sol' Sol a)]. cbn. rewrite T. split; auto. intros e [<-|[]]; cbn; auto. }
    destruct (isDiverged stat).
    + destruct (cut Sol a) as [t|].
      * apply (G (mkState Sol t (prev s) (prev s) (nextSave s) (stepNo _ s) (trace s))); auto.
      * exists []. cbn. rewrite app_nil_r. split; auto; intros e [].
    + apply (G s); auto.
Qed.

(** Before the last attempt all diverged; a converged end comes from the last solve. *)
Lemma cutBack_last : forall l stat s o s', cutBack Sol stat s l = (Some o, s') ->
  (o = DIVERGED -> stat = DIVERGED \/ exists ev, trace s' = (trace s ++ ev)%list) /\
  (isDiverged o = false -> exists ev t st, trace s' = (trace s ++ ev ++ [Solve Sol t st o (cur s')])%list /\ time s' = t /\
     (forall e, In e ev -> match e with Solve _ _ _ x _ => x = DIVERGED | _ => False end)).
Proof.
  induction l as [|a l IH]; intros stat s o s' E; cbn [cutBack] in E; [discriminate|].
  assert (G : forall q : state, trace q = trace s -> 
      (let s0 := mkState Sol (time q) (sol' Sol a) (prev q) (nextSave q) (stepNo _ q)
                  (trace q ++ [Solve Sol (time q) (cur q) (out Sol a) (sol' Sol a)]) in
                if isDiverged (out Sol a) then cutBack Sol (out Sol a) s0 l else (Some (out Sol a), s0)) = (Some o, s') ->
      (exists ev, trace s' = (trace s ++ ev)%list) /\
      (isDiverged o = false -> exists ev t st, trace s' = (trace s ++ ev ++ [Solve Sol t st o (cur s')])%list /\ time s' = t /\
        (forall e, In e ev -> match e with Solve _ _ _ x _ => x = DIVERGED | _ => False end))).
  { intros q T F. cbv zeta in F. destruct (isDiverged (out Sol a)) eqn:D.
    - assert (O : out Sol a = DIVERGED) by (destruct (out Sol a); auto; discriminate D).
      destruct (cutBack_trace l (out Sol a) (mkState Sol (time q) (sol' Sol a) (prev q) (nextSave q) (stepNo _ q)
          (trace q ++ [Solve Sol (time q) (cur q) (out Sol a) (sol' Sol a)]))) as [ev0 [_ [T0 _]]].
      rewrite F in T0. cbn in T0. apply IH in F. cbn in F. destruct F as [_ F2]. split.
      + rewrite T0, T, <- app_assoc. eauto.
      + intros X. destruct (F2 X) as [ev [t [st [A [B C]]]]].
        exists (Solve Sol (time q) (cur q) (out Sol a) (sol' Sol a) :: ev), t, st. rewrite A, T, <- app_assoc. cbn. repeat split; auto.
        intros e [<-|I]; [exact O | now apply C].
    - injection F as <- <-. cbn. rewrite T. split; eauto. intros _. exists [], (time q), (cur q). cbn. repeat split; auto. intros e []. }
  destruct (isDiverged stat) eqn:DS.
  - assert (S0 : stat = DIVERGED) by (destruct stat; auto; discriminate DS). destruct (cut Sol a) as [t|].
    + apply G in E; [|reflexivity]. destruct E as [_ E2]. split; auto.
    + injection E as <- <-. split; auto. rewrite DS. discriminate.
  - apply G in E; [|reflexivity]. destruct E as [E1 E2]. split; auto.
Qed.

(** ** Whole runs *)

Lemma firstFail_None : forall l, firstFail l = None <-> forall x, In x l -> fst x = true.
Proof.
  induction l as [|[b c] l IH]; cbn [firstFail].
  - split; [intros _ x []|reflexivity].
  - destruct b.
    + rewrite IH. split; intros H x.
      * intros [<-|I]; auto.
      * intros I. apply H. now right.
    + split; [discriminate|]. intros H. discriminate (H (false, c) ltac:(now left)).
Qed.

(** Everything proved about traces is an invariant of this shape. *)
Section Invariant.
Variable c : cfg.
Variable P : list event -> Prop.
Variable Pnil : P [].
Hypothesis Pref : forall tr g, P tr -> P (tr ++ [Refined Sol g]).
Hypothesis Pcut : forall x (s : state) stat s', P (trace s) -> cur s = prev s -> cutBack Sol OK s (tries Sol x) = (stat, s') ->
  prev s = lastGood Sol (sol0 Sol c) (trace s) -> P (trace s').
Hypothesis Pacc : forall x (s : state) s' tn b, P (trace s) -> P (trace s') -> cutBack Sol OK s (tries Sol x) = (Some CONVERGED, s') ->
  P (trace s' ++ [Accept Sol tn (time s') (cur s') b]).

Definition good (s : state) : Prop := P (trace s) /\ cur s = lastGood Sol (sol0 Sol c) (trace s).

Lemma lastGood_solves : forall ev g, (forall e, In e ev -> isSolve e) -> lastGood Sol g ev = g.
Proof.
  induction ev as [|e ev IH]; intros g H; auto. assert (X := H e ltac:(now left)). destruct e; try destruct X. cbn.
  apply IH. intros; apply H; now right.
Qed.

Lemma oneStep_inv : forall f s x, good s ->
  match oneStep Sol c f s x with Running _ s' => good s' | Solving _ s' | Exit _ _ s' => P (trace s') end.
Proof.
  intros f s x [G1 G2]. unfold oneStep.
  set (s1 := mkState Sol (tAdv Sol x) (cur s) (cur s) (nextSave s) (stepNo _ s) (trace s)).
  destruct (negb f && adap Sol c && negb (adaptOk Sol x)); [cbn; auto|].
  set (s2 := if negb f && adap Sol c && adapted Sol x then mkState Sol (time s1) (solA Sol x) (solA Sol x) (nextSave s1) (stepNo Sol s1) (trace s1 ++ [Refined Sol (solA Sol x)]) else s1).
  assert (H2 : P (trace s2) /\ cur s2 = prev s2 /\ prev s2 = lastGood Sol (sol0 Sol c) (trace s2)).
  { unfold s2. destruct (negb f && adap Sol c && adapted Sol x); cbn; auto. rewrite lastGood_app. cbn. auto. }
  clearbody s2. clear s1 G1 G2 s. destruct H2 as [H1 [H2 H3]].
  destruct (negb (negb f && adap Sol c && adapted Sol x) && format Sol c && saveE0 Sol c && activE0 Sol x && negb (saveE0Ok Sol x)); [cbn; auto|].
  destruct (cutBack_trace (tries Sol x) OK s2) as [ev [V1 [V2 [V3 _]]]].
  destruct (cutBack Sol OK s2 (tries Sol x)) as [stat s3] eqn:CB. cbn [snd] in *.
  assert (P3 := Pcut x s2 stat s3 H1 H2 CB H3).
  destruct stat as [stat|]; [|auto].
  destruct (isConverged stat) eqn:CV; cbn [negb]; [|auto].
  assert (stat = CONVERGED) by (destruct stat; auto; discriminate CV). subst stat.
  destruct (firstFail (checksPost Sol c x)); [auto|].
  destruct (Qle_bool (dtSave Sol c) 0 || hasReached Sol c (time s3) (nextSave s3)).
  - destruct (firstFail (checksSave Sol c x)); [auto|]. split; cbn.
    + now apply (Pacc x s2 s3).
    + now rewrite lastGood_app.
  - destruct (firstFail (checksSkip Sol c x)); [auto|]. split; cbn.
    + now apply (Pacc x s2 s3).
    + now rewrite lastGood_app.
Qed.

Lemma loop_inv : forall l f s, good s -> P (trace (stateOf Sol (loop Sol c f s l))).
Proof.
  induction l as [|x l IH]; intros f s G; cbn [loop]; [apply G|].
  assert (H := oneStep_inv f s x G). destruct (oneStep Sol c f s x); cbn; auto.
Qed.

Lemma run_inv : forall l, P (trace (stateOf Sol (run Sol c l))).
Proof.
  intros l. unfold run, init. cbn.
  destruct (format Sol c && negb (modelOk Sol c)); [auto|].
  destruct (format Sol c && initStep Sol c && negb (initStepOk Sol c)); [auto|].
  destruct (adap Sol c && negb (initPrmOk Sol c)); [destruct (format Sol c && initStep Sol c); auto|].
  apply loop_inv. split; destruct (format Sol c && initStep Sol c); cbn; auto.
Qed.
End Invariant.

(** Statements about every occurrence of an event are such invariants. *)
Definition every (Q : list event -> event -> Prop) (tr : list event) : Prop :=
  forall pre e post, tr = (pre ++ e :: post)%list -> Q pre e.

Lemma every_snoc : forall Q tr e, every Q tr -> Q tr e -> every Q (tr ++ [e]).
Proof.
  intros Q tr e H E pre x post X. destruct (exists_last (l := x :: post)) as [p [y Y]]; [discriminate|].
  rewrite Y, app_assoc in X. apply app_inj_tail in X. destruct X as [X1 X2]. subst y.
  destruct p as [|z p]; cbn in Y.
  - injection Y as -> ->. rewrite app_nil_r in X1. now subst.
  - injection Y as -> Y. apply (H pre z p). now rewrite X1.
Qed.

Lemma every_app : forall (Q : list event -> event -> Prop) ev tr, every Q tr ->
  (forall pre e post, ev = (pre ++ e :: post)%list -> Q (tr ++ pre)%list e) -> every Q (tr ++ ev).
Proof.
  intros Q. induction ev as [|x ev IH]; intros tr H E; [now rewrite app_nil_r|].
  replace (tr ++ x :: ev)%list with ((tr ++ [x]) ++ ev)%list by (now rewrite <- app_assoc).
  apply IH.
  - apply every_snoc; auto. rewrite <- (app_nil_r tr) at 1. now apply (E [] x ev).
  - intros pre e post Y. rewrite <- app_assoc. apply (E (x :: pre) e post). cbn. now rewrite Y.
Qed.

Theorem restart_state : forall c l pre t s o r post,
  trace (stateOf Sol (run Sol c l)) = (pre ++ Solve Sol t s o r :: post)%list -> s = lastGood Sol (sol0 Sol c) pre.
Proof.
  intros c l pre t s o r post E.
  assert (I : every (fun pre e => startsFrom (lastGood Sol (sol0 Sol c) pre) e) (trace (stateOf Sol (run Sol c l)))).
  { apply run_inv.
    - intros p e q X. destruct p; discriminate X.
    - intros tr g H. apply every_snoc; auto. exact I.
    - intros x st stat s' H CP CB LG. destruct (cutBack_start (tries Sol x) OK st) as [ev [A B]]; auto.
      rewrite CB in A. cbn [snd] in A. rewrite A. apply every_app; auto.
      intros p e q Y. rewrite lastGood_app, lastGood_solves.
      + rewrite <- LG. apply B. rewrite Y. apply in_elt.
      + intros z Z. apply B. rewrite Y. apply in_or_app. now left.
    - intros. apply every_snoc; auto. exact I. }
  apply (I pre _ post E).
Qed.

Theorem accepted_converged : forall c l pre tn t s b post,
  trace (stateOf Sol (run Sol c l)) = (pre ++ Accept Sol tn t s b :: post)%list ->
  exists pre' st, pre = (pre' ++ [Solve Sol t st CONVERGED s])%list.
Proof.
  intros c l pre tn t s b post E.
  assert (I : every (fun pre e => match e with Accept _ _ t s _ => exists pre' st, pre = (pre' ++ [Solve Sol t st CONVERGED s])%list | _ => True end)
                (trace (stateOf Sol (run Sol c l)))).
  { apply run_inv.
    - intros p e q X. destruct p; discriminate X.
    - intros tr g H. apply every_snoc; auto.
    - intros x st stat s' H CP CB LG. destruct (cutBack_trace (tries Sol x) OK st) as [ev [A [B _]]].
      rewrite CB in B. cbn [snd] in B. rewrite B. apply every_app; auto.
      intros p e q Y. assert (X := A e). rewrite Y in X. specialize (X (in_elt _ _ _)). destruct e; auto; destruct X.
    - intros x st s' tn' b' H1 H2 CB. apply every_snoc; auto.
      apply cutBack_last in CB. destruct CB as [_ CB]. destruct (CB eq_refl) as [ev [u [v [A [B C]]]]]. subst u.
      exists (trace st ++ ev)%list, v. now rewrite <- app_assoc. }
  apply (I pre _ post E).
Qed.

(** A solve that is followed by another one in the same step diverged. *)
Theorem retry_only_diverged : forall c l pre t s o r t' s' o' r' post,
  trace (stateOf Sol (run Sol c l)) = (pre ++ Solve Sol t s o r :: Solve Sol t' s' o' r' :: post)%list -> o = DIVERGED.
Proof.
  intros c l pre t s o r t' s' o' r' post E.
  pose (Q := fun (pre : list event) (e : event) => match e with Solve _ _ _ _ _ =>
         forall p t s o r, pre = (p ++ [Solve Sol t s o r])%list -> o = DIVERGED | _ => True end).
  assert (I : every Q (trace (stateOf Sol (run Sol c l))) /\
     match run Sol c l with Running _ s => forall p t u o r, trace s <> (p ++ [Solve Sol t u o r])%list | _ => True end).
  { clear E. unfold run, init. cbn.
    assert (Q0 : every Q []) by (intros p e q X; destruct p; discriminate X).
    destruct (format Sol c && negb (modelOk Sol c)); [auto|].
    destruct (format Sol c && initStep Sol c && negb (initStepOk Sol c)); [auto|].
    destruct (adap Sol c && negb (initPrmOk Sol c)); [destruct (format Sol c && initStep Sol c); auto|].
    set (s0 := if format Sol c && initStep Sol c then _ else _).
    assert (G : every Q (trace s0) /\ forall p t u o r, trace s0 <> (p ++ [Solve Sol t u o r])%list).
    { unfold s0. destruct (format Sol c && initStep Sol c); cbn; split; auto; intros p ? ? ? ? X; destruct p; discriminate X. }
    clearbody s0. generalize true as f. revert s0 G. induction l as [|x l IH]; intros s0 [G1 G2] f; cbn [loop]; [split; auto|].
    assert (H : match oneStep Sol c f s0 x with
        | Running _ s => every Q (trace s) /\ forall p t u o r, trace s <> (p ++ [Solve Sol t u o r])%list
        | Solving _ s | Exit _ _ s => every Q (trace s) end).
    { unfold oneStep.
      set (s1 := mkState Sol (tAdv Sol x) (cur s0) (cur s0) (nextSave s0) (stepNo _ s0) (trace s0)).
      destruct (negb f && adap Sol c && negb (adaptOk Sol x)); [cbn; auto|].
      set (s2 := if negb f && adap Sol c && adapted Sol x then _ else s1).
      assert (H2 : every Q (trace s2) /\ forall p t u o r, trace s2 <> (p ++ [Solve Sol t u o r])%list).
      { unfold s2. destruct (negb f && adap Sol c && adapted Sol x); cbn; auto. split.
        - apply every_snoc; cbn; auto.
        - intros p t0 u o0 r0 X. apply app_inj_tail in X. destruct X as [_ X]. discriminate X. }
      clearbody s2. clear s1. destruct H2 as [H1 H2].
      destruct (negb (negb f && adap Sol c && adapted Sol x) && format Sol c && saveE0 Sol c && activE0 Sol x && negb (saveE0Ok Sol x)); [cbn; auto|].
      assert (K : forall l stat s, every Q (trace s) -> (isDiverged stat = false -> forall p t u o r, trace s <> (p ++ [Solve Sol t u o r])%list) ->
         (isDiverged stat = true -> forall p t u o r, trace s = (p ++ [Solve Sol t u o r])%list -> o = DIVERGED) ->
         every Q (trace (snd (cutBack Sol stat s l)))).
      { clear. induction l as [|a l IH]; intros stat s G N D; cbn [cutBack]; auto.
        assert (X : forall q : state, trace q = trace s ->
           every Q (trace (snd (let s0 := mkState Sol (time q) (sol' Sol a) (prev q) (nextSave q) (stepNo _ q)
                  (trace q ++ [Solve Sol (time q) (cur q) (out Sol a) (sol' Sol a)]) in
                if isDiverged (out Sol a) then cutBack Sol (out Sol a) s0 l else (Some (out Sol a), s0))))).
        { intros q T. cbv zeta.
          assert (Y : every Q (trace q ++ [Solve Sol (time q) (cur q) (out Sol a) (sol' Sol a)])).
          { rewrite T. apply every_snoc; auto. cbn. intros p t u o r W. destruct (isDiverged stat) eqn:DS.
            - now apply (D eq_refl p t u o r).
            - exfalso. now apply (N eq_refl p t u o r). }
          destruct (isDiverged (out Sol a)) eqn:DA; [|exact Y]. apply IH; auto; [rewrite DA; discriminate|].
          intros _ p t u o r W. cbn in W. apply app_inj_tail in W. destruct W as [_ W]. injection W as _ _ <- _.
          destruct (out Sol a); auto; discriminate DA. }
        destruct (isDiverged stat); [destruct (cut Sol a)|]; try apply X; auto. }
      assert (K' := K (tries Sol x) OK s2 H1 ltac:(auto) ltac:(discriminate)).
      destruct (cutBack Sol OK s2 (tries Sol x)) as [stat s3] eqn:CB. cbn [snd] in *.
      destruct stat as [stat|]; [|auto]. destruct (isConverged stat) eqn:CV; cbn [negb]; [|auto].
      destruct (firstFail (checksPost Sol c x)); [auto|].
      destruct (Qle_bool (dtSave Sol c) 0 || hasReached Sol c (time s3) (nextSave s3));
      [destruct (firstFail (checksSave Sol c x)); [auto|]|destruct (firstFail (checksSkip Sol c x)); [auto|]];
      (split; cbn; [apply every_snoc; cbn; auto|intros p t0 u o0 r0 X; apply app_inj_tail in X; destruct X as [_ X]; discriminate X]). }
    destruct (oneStep Sol c f s0 x); auto. }
  destruct I as [I _].
  apply (I (pre ++ [Solve Sol t s o r])%list (Solve Sol t' s' o' r') post) with (p := pre) (t := t) (s := s) (r := r); auto.
  rewrite E, <- app_assoc. reflexivity.
Qed.
End Proofs.
