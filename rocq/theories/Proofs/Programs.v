From Coq Require Import List Bool Arith ZArith Lia.
From Verif Require Import Model.Programs.
From Verif Require Model.Driver.
Import ListNotations.

Lemma proj_exact p o steps : projUB p o steps = true <->
  (p = LinDynamic \/ p = LinMultiLoad) /\ nProject o <> 0 /\ steps <> [] \/
  newmark p = false /\ nProject o = 0 /\ isElasticity o = true /\ vtf o = true /\ pSolOnly o = false /\ In false steps.
Proof.
  destruct o as [np v ps el]. unfold projUB, frontCalls, getMaxVals. cbn [nProject vtf pSolOnly isElasticity]. rewrite andb_true_iff, Nat.eqb_eq, existsb_exists. split.
  - intros [A (s & IN & B)]. apply Nat.ltb_lt in B. destruct np as [|np]; cbn in A, B.
    + right. destruct (newmark p); [destruct (s && v); cbn in B; rewrite ?andb_false_r in B; lia|]. rewrite ?andb_false_r in B. destruct s; [lia|]. destruct el, v, ps; cbn in B; try lia. tauto.
    + left. destruct p; cbn in A; try discriminate; (split; [tauto|]; split; [discriminate|]; destruct steps; [destruct IN|discriminate]).
  - intros [(P & N & E)|(P & -> & -> & -> & -> & IN)].
    + split; [destruct P as [->| ->]; reflexivity|]. destruct steps as [|s r]; [congruence|]. exists s. split; [now left|]. destruct np; [congruence|]. reflexivity.
    + split; [destruct p; try reflexivity; discriminate|]. exists false. split; [assumption|]. rewrite P. reflexivity.
Qed.
Lemma exit_zero z : (0 <= z < 256)%Z -> exitCode z = z.
Proof. intros H. unfold exitCode. now apply Z.mod_small. Qed.
Lemma nonlin_exit s solve : (0 <= solve < 256)%Z ->
  (mainNonLin s solve = 0%Z <-> readOk s = true /\ prepOk s = true /\ glvOk s = true /\
     if checkOnly s then checkOk s = true else eqOk s = true /\ restartOk s = true /\ solve = 0%Z).
Proof.
  intros H. destruct s as [a b c d e f g]. unfold mainNonLin, runNonLin. cbn. destruct a, b, c, d, e, f, g; cbn; rewrite ?(exit_zero solve) by assumption; cbn; intuition (try discriminate; auto).
Qed.
Lemma firstFail_max l m e : (forall b c, In (b, c) l -> c <= m) -> Driver.firstFail l = Some e -> e <= m.
Proof.
  induction l as [|[b c] l IH]; [discriminate|]. intros H. cbn. destruct b; [apply IH; intros; eapply H; right; eauto|]. intros [= <-]. eapply H. now left.
Qed.
Lemma one_range Sol c f s x e s' : Driver.oneStep Sol c f s x = Driver.Exit Sol e s' -> e <= 15.
Proof.
  unfold Driver.oneStep. cbv zeta. destruct (_ && _ && _); [intros [= <- _]; lia|].
  match goal with |- (if ?b then _ else _) = _ -> _ => destruct b end; [intros [= <- _]; lia|].
  match goal with |- match ?m with _ => _ end = _ -> _ => destruct m as [[stat|] s1] end; [|discriminate].
  destruct (negb _); [intros [= <- _]; lia|].
  destruct (Driver.firstFail (Driver.checksPost Sol c x)) as [k|] eqn:F.
  - intros [= <- _]. eapply (firstFail_max _ 15) in F; [exact F|]. unfold Driver.checksPost. cbn [In]. intros b k' H. repeat destruct H as [H|H]; try (injection H as <- <-; lia). destruct H.
  - match goal with |- (if ?b then _ else _) = _ -> _ => destruct b end.
    + destruct (Driver.firstFail (Driver.checksSave Sol c x)) as [k|] eqn:G; [|discriminate]. intros [= <- _].
      eapply (firstFail_max _ 15) in G; [exact G|]. unfold Driver.checksSave. cbn [In]. intros b k' H. repeat destruct H as [H|H]; try (injection H as <- <-; lia). destruct H.
    + destruct (Driver.firstFail (Driver.checksSkip Sol c x)) as [k|] eqn:G; [|discriminate]. intros [= <- _].
      eapply (firstFail_max _ 15) in G; [exact G|]. unfold Driver.checksSkip. cbn [In]. intros b k' H. repeat destruct H as [H|H]; try (injection H as <- <-; lia). destruct H.
Qed.
Lemma loop_range Sol c l : forall f s e s', Driver.loop Sol c f s l = Driver.Exit Sol e s' -> e <= 15.
Proof.
  induction l as [|x l IH]; intros f s e s' H; [discriminate|]. cbn in H. destruct (Driver.oneStep Sol c f s x) eqn:E; [eapply IH; eassumption|discriminate|].
  injection H as <- <-. eapply one_range; eassumption.
Qed.
Lemma static_range Sol c l e : Driver.solveProblem Sol c l = Some e -> e < 256.
Proof.
  unfold Driver.solveProblem. destruct (Driver.run Sol c l) eqn:R; [intros [= <-]; lia|discriminate|]. intros [= <-].
  unfold Driver.run in R. destruct (Driver.init Sol c) eqn:N; [apply loop_range in R; lia|discriminate|]. injection R as <- <-.
  unfold Driver.init in N. cbv zeta in N.
  destruct (Driver.format Sol c && negb (Driver.modelOk Sol c)); [injection N as <- _; lia|].
  destruct (Driver.format Sol c && Driver.initStep Sol c && negb (Driver.initStepOk Sol c)); [injection N as <- _; lia|].
  destruct (Driver.adap Sol c && negb (Driver.initPrmOk Sol c)); [injection N as <- _; lia|discriminate].
Qed.
Lemma add_le b k : Driver.add b k <= k. Proof. destruct b; cbn; lia. Qed.
Lemma nstep_range c nx x : fst (Driver.newmarkStep c nx x) <= 100.
Proof.
  unfold Driver.newmarkStep. cbv zeta. destruct (negb _); [cbn; lia|]. cbn [fst].
  pose proof (add_le (implb (Driver.nProject c) (Driver.nProjOk x)) 6). pose proof (add_le (implb (Driver.nProject c) (Driver.nProjWOk x)) 14).
  pose proof (add_le (implb (Driver.nWriter c) (Driver.nHdfOk x)) 15). pose proof (add_le (Driver.nGridOk x) 16).
  pose proof (add_le (implb (Driver.nRestart c && Driver.nDumpNow x && Driver.nSerialOk x) (Driver.nRestartOk x)) 17).
  destruct (Driver.nReached c _ _), (Driver.nFormat c), (negb (Driver.nStepOk x)); lia.
Qed.
Lemma nloop_range c l : forall nx, Driver.newmarkLoop c nx l <= 100.
Proof.
  induction l as [|x l IH]; intros nx; cbn [Driver.newmarkLoop]; [lia|]. assert (H := nstep_range c nx x). destruct (Driver.newmarkStep c nx x) as [[|st] n']; cbn [fst] in H; [apply IH|exact H].
Qed.
Lemma newmark_range c l : Driver.newmarkSolve c l < 256.
Proof.
  unfold Driver.newmarkSolve. destruct (_ && _); [lia|]. destruct (_ && _); [lia|]. eapply Nat.le_lt_trans; [apply nloop_range|lia].
Qed.
Lemma firstBad_none l : firstBad l = None <-> Forall (fun f => fst f = true) l.
Proof.
  induction l as [|[[] c] l IH]; cbn; [split; auto|rewrite IH; split; [now constructor|now inversion 1]|split; [discriminate|inversion 1; discriminate]].
Qed.
Lemma firstBad_in l c : firstBad l = Some c -> In (false, c) l.
Proof. induction l as [|[[] d] l IH]; cbn; [discriminate|auto|intros [= ->]; now left]. Qed.
Lemma Forall_map_true (l : list bool) k : Forall (fun f : bool * Z => fst f = true) (map (fun b => (b, k)) l) <-> Forall (eq true) l.
Proof. rewrite Forall_map. cbn. split; intros H; (eapply Forall_impl; [|exact H]); cbn; auto. Qed.
Lemma lin_exit r : (forall b c, In (b, c) (lFields r) -> (12 <= c <= 19)%Z) ->
  (mainLin r = 0%Z <-> lRead r = true /\ lPrep r = true /\ lAssemble r = true /\ lSolve r = true /\ Forall (eq true) (lProject r) /\
     (forall l, lNorms r = Some l -> Forall (eq true) l) /\ Forall (fun f => fst f = true) (lFields r)).
Proof.
  intros H. transitivity (firstBad (checks r) = None).
  - unfold mainLin. destruct (firstBad (checks r)) as [c|] eqn:F; [|now split]. apply firstBad_in in F. assert (C : (1 <= c <= 19)%Z).
    { unfold checks in F. cbn [app In] in F. rewrite !in_app_iff, !in_map_iff in F.
      repeat (destruct F as [F|F]; [first [injection F as _ <-; lia|destruct F as (b & E & _); injection E as _ <-; lia]|]). apply H in F. lia. }
    rewrite exit_zero by lia. split; [lia|discriminate].
  - rewrite firstBad_none. unfold checks. cbn [app]. rewrite !Forall_cons_iff, !Forall_app, !Forall_map_true. cbn [fst].
    destruct (lNorms r) as [l|].
    + split; [intros (A & B & C & D & E & F & G); repeat split; auto; now intros ? [= <-]|intros (A & B & C & D & E & F & G); repeat split; auto].
    + split; [intros (A & B & C & D & E & F & G); repeat split; auto; discriminate|intros (A & B & C & D & E & F & G); repeat split; auto].
Qed.
Lemma release adap multi hdf5 : let '(new, deleted) := linObjects adap multi hdf5 in
  NoDup deleted /\ incl deleted new /\ (forall o, In o new -> o = Exporter \/ In o deleted) /\ ~ In Exporter deleted.
Proof.
  destruct adap, multi, hdf5; cbn; (split; [repeat constructor; cbn; intuition discriminate|]); (split; [intros o; cbn; tauto|]); split; try (intros o; cbn; intuition); intuition discriminate.
Qed.
