(** Lemmas on the coupled static solver: what each phase records. *)
From Coq Require Import List ZArith QArith Bool Ascii String Lia.
From Verif.Lib Require Import Base.
From Verif.Model Require Import McStatic.
From Verif.Spec Require Import McStatic.
Import ListNotations.

Definition pairs (i : nat) (ss : list sim) : list (nat * sim) := combine (seq i (List.length ss)) ss.
Lemma pairs_cons i a r : pairs i (a :: r) = (i, a) :: pairs (S i) r.
Proof. reflexivity. Qed.
Fixpoint upto {A} (ok : A -> bool) (l : list A) : list A := match l with [] => [] | a :: r => a :: if ok a then upto ok r else [] end.
Lemma upto_all {A} (ok : A -> bool) l : forallb ok l = true -> upto ok l = l.
Proof. induction l as [|a l IH]; cbn; [reflexivity|]. intros H. apply andb_prop in H as [-> H]. rewrite IH by exact H. reflexivity. Qed.
Lemma forallb_pairs f i ss : forallb (fun p : nat * sim => f (snd p)) (pairs i ss) = forallb f ss.
Proof. revert i. induction ss as [|a r IH]; intros i; [reflexivity|]. rewrite pairs_cons. cbn [forallb snd]. rewrite IH. reflexivity. Qed.
Lemma rev_step {A} (x : A) l m : rev l ++ x :: m = rev (x :: l) ++ m.
Proof. cbn. rewrite <- app_assoc. reflexivity. Qed.

Lemma fields_run ss : forall c i s, tol (fields c i ss s) = tol s /\ sys (fields c i ss s) = sys s /\ att (fields c i ss s) = att s /\
  log (fields c i ss s) = rev (map (fun k => EField (String "u" (String (ascii_of_nat (S c + k)) EmptyString)) (i + k)) (seq 0 (List.length ss))) ++ log s.
Proof.
  induction ss as [|a r IH]; intros c i s; [auto|]. cbn [fields List.length seq map]. destruct (IH (S c) (S i) (record (EField (String "u" (String (ascii_of_nat (S c)) EmptyString)) i) s)) as (A & B & C & D).
  rewrite A, B, C, D. repeat split. cbn [record log]. rewrite rev_step. rewrite !Nat.add_0_r, <- seq_shift, map_map. do 3 f_equal. apply map_ext. intros k. f_equal; [do 3 f_equal|]; lia.
Qed.
Lemma asm_run ss : forall i s, (i = 0%nat \/ sys s 0%nat = 0%nat) ->
  snd (assembleAll i ss s) = forallb asmOk ss /\ tol (fst (assembleAll i ss s)) = tol s /\ att (fst (assembleAll i ss s)) = att s /\
  (i = 0%nat -> ss = [] \/ sys (fst (assembleAll i ss s)) 0%nat = 0%nat) /\ (i <> 0%nat -> sys (fst (assembleAll i ss s)) 0%nat = 0%nat) /\
  log (fst (assembleAll i ss s)) = rev (map (fun p => EAsm (fst p) 0 STATIC) (upto (fun p => asmOk (snd p)) (pairs i ss))) ++ log s.
Proof.
  induction ss as [|a r IH]; intros i s H.
  - repeat split; auto. intros Hi. destruct H; [contradiction|assumption].
  - cbn [assembleAll]. set (s1 := record _ _).
    assert (Z : sys s1 0%nat = 0%nat).
    { unfold s1. cbn [record setSys setMode sys]. unfold upd. destruct (Nat.eqb_spec 0 i) as [<-|N]; [reflexivity|]. destruct H; [congruence|assumption]. }
    assert (L : log s1 = EAsm i 0 STATIC :: log s).
    { unfold s1. cbn [record setSys setMode sys log md]. unfold upd. rewrite !Nat.eqb_refl. destruct (Nat.eqb_spec i 0) as [->|N]; [reflexivity|]. destruct H as [H|H]; [contradiction|]. rewrite H. reflexivity. }
    rewrite pairs_cons. cbn [upto snd forallb map fst]. destruct (asmOk a) eqn:OK.
    + destruct (IH (S i) s1 (or_intror Z)) as (A & B & C & _ & E & F). rewrite A, B, C, F, L. split; [reflexivity|]. split; [reflexivity|]. split; [reflexivity|].
      split; [intros _; right; apply E; discriminate|]. split; [intros _; apply E; discriminate|]. apply rev_step.
    + cbn [fst snd andb]. split; [reflexivity|]. split; [reflexivity|]. split; [reflexivity|]. split; [intros _; right; exact Z|]. split; [intros _; exact Z|]. rewrite L. reflexivity.
Qed.
Definition usedTol (zt t : Q) : Q := if Qlt_le_dec 0 zt then zt else t.
Lemma dump_run zt ss : forall i s, tol (dumpAll zt i ss s) = tol s /\ sys (dumpAll zt i ss s) = sys s /\ att (dumpAll zt i ss s) = att s /\
  log (dumpAll zt i ss s) = rev (map (fun p => EDump (fst p) RECOVERY (usedTol zt (tol s))) (filter (fun p => hasPts (snd p)) (pairs i ss))) ++ log s.
Proof.
  induction ss as [|a r IH]; intros i s; [auto|]. cbn [dumpAll]. rewrite pairs_cons. cbn [filter snd]. destruct (hasPts a); [|apply IH].
  set (s1 := setTol _ _). assert (L : log s1 = EDump i RECOVERY (usedTol zt (tol s)) :: log s).
  { unfold s1, usedTol. destruct (Qlt_le_dec 0 zt); cbn; unfold upd; rewrite Nat.eqb_refl; reflexivity. }
  assert (T : tol s1 = tol s) by reflexivity. assert (Y : sys s1 = sys s /\ att s1 = att s) by (unfold s1; destruct (Qlt_le_dec 0 zt); split; reflexivity). destruct Y as [Y1 Y2].
  destruct (IH (S i) s1) as (A & B & C & D). rewrite A, B, C, D, L, T. split; [reflexivity|]. split; [exact Y1|]. split; [exact Y2|]. cbn [map fst]. apply rev_step.
Qed.
Fixpoint geoEv (i g : nat) (ss : list sim) : list event :=
  match ss with [] => [] | a :: r => EGeo i g (nGeo a) :: if geoOk a then geoEv (S i) (g + nGeo a) r else [] end.
Lemma geo_run ss : forall i s, snd (geoRest i ss s) = forallb geoOk ss /\ tol (fst (geoRest i ss s)) = tol s /\ log (fst (geoRest i ss s)) = rev (geoEv i (geoBlk s) ss) ++ log s /\
  (forall j, (j < i)%nat -> startB (fst (geoRest i ss s)) j = startB s j) /\
  (forallb geoOk ss = true -> forall j, (j < List.length ss)%nat -> startB (fst (geoRest i ss s)) (i + j)%nat = (geoBlk s + blocksBefore ss j)%nat).
Proof.
  induction ss as [|a r IH]; intros i s; [repeat split; auto; intros _ j Hj; cbn in Hj; lia|]. cbn [geoRest]. set (s1 := writeG _ _ _).
  assert (L : log s1 = EGeo i (geoBlk s) (nGeo a) :: log s) by reflexivity. assert (G : geoBlk s1 = (geoBlk s + nGeo a)%nat) by reflexivity.
  assert (SB : forall j, startB s1 j = if (j =? i)%nat then geoBlk s else startB s j) by reflexivity. cbn [forallb geoEv].
  destruct (geoOk a).
  - destruct (IH (S i) s1) as (A & B & C & D & E). cbn [andb]. rewrite A, B, C, L, G. split; [reflexivity|]. split; [reflexivity|]. split; [apply rev_step|]. split.
    + intros j Hj. rewrite D, SB by lia. destruct (Nat.eqb_spec j i); [lia|reflexivity].
    + intros HO j Hj. destruct j as [|j]; [rewrite Nat.add_0_r, D, SB, Nat.eqb_refl by lia; change (blocksBefore (a :: r) 0) with 0%nat; lia|]. cbn [List.length] in Hj.
      replace (i + S j)%nat with (S i + j)%nat by lia. rewrite E, G by (exact HO || lia). change (blocksBefore (a :: r) (S j)) with (nGeo a + blocksBefore r j)%nat. lia.
  - cbn [fst snd andb]. split; [reflexivity|]. split; [reflexivity|]. split; [exact L|]. split; [|discriminate]. intros j Hj. rewrite SB. destruct (Nat.eqb_spec j i); [lia|reflexivity].
Qed.
Lemma res_run ss : forall i s, snd (resAll i ss s) = forallb solOk ss /\ tol (fst (resAll i ss s)) = tol s /\
  log (fst (resAll i ss s)) = rev (map (fun p => ERes (fst p) RECOVERY (startB s (fst p)) (nGeo (snd p))) (upto (fun p => solOk (snd p)) (pairs i ss))) ++ log s.
Proof.
  induction ss as [|a r IH]; intros i s; [auto|]. cbn [resAll]. set (s1 := record _ _). rewrite pairs_cons. cbn [upto snd map fst forallb].
  assert (L : log s1 = ERes i RECOVERY (startB s i) (nGeo a) :: log s) by (unfold s1; cbn; unfold upd; rewrite Nat.eqb_refl; reflexivity).
  destruct (solOk a).
  - destruct (IH (S i) s1) as (A & B & C). rewrite A, B, C, L. split; [reflexivity|]. split; [reflexivity|]. apply rev_step.
  - cbn [fst snd andb]. split; [reflexivity|]. split; [reflexivity|]. exact L.
Qed.
Lemma clear_run ss : forall i s, tol (clearAll i ss s) = tol s /\ log (clearAll i ss s) = log s /\
  (forall j, att (clearAll i ss s) j = if ((i <=? j) && (j <? i + List.length ss))%nat%bool then false else att s j).
Proof.
  induction ss as [|a r IH]; intros i s.
  - split; [reflexivity|]. split; [reflexivity|]. intros j. cbn [clearAll List.length]. destruct (Nat.leb_spec i j), (Nat.ltb_spec j (i + 0)); cbn; try reflexivity; lia.
  - cbn [clearAll]. destruct (IH (S i) (setAtt i false s)) as (A & B & C). rewrite A, B. split; [reflexivity|]. split; [reflexivity|]. intros j. rewrite C. cbn [setAtt att List.length]. unfold upd.
    destruct (Nat.eqb_spec j i), (Nat.leb_spec (S i) j), (Nat.ltb_spec j (S i + List.length r)), (Nat.leb_spec i j), (Nat.ltb_spec j (i + S (List.length r))); cbn; try reflexivity; lia.
Qed.
Lemma first_all l c r : firstFailure (map (fun b : bool => (b, c)) l ++ r) = if forallb (fun b => b) l then firstFailure r else c.
Proof. induction l as [|b l IH]; cbn; [reflexivity|]. destruct b; [exact IH|reflexivity]. Qed.
Lemma first_sims f ss c r : firstFailure (map (fun a : sim => (f a, c)) ss ++ r) = if forallb f ss then firstFailure r else c.
Proof. induction ss as [|b l IH]; cbn; [reflexivity|]. destruct (f b); [exact IH|reflexivity]. Qed.

(** Everything recorded, in order. *)
Definition asmEvs (ss : list sim) : list event := map (fun p => EAsm (fst p) 0 STATIC) (upto (fun p => asmOk (snd p)) (pairs 0 ss)).
Definition dumpEvs (zt t : Q) (ss : list sim) : list event := map (fun p => EDump (fst p) RECOVERY (usedTol zt t)) (filter (fun p => hasPts (snd p)) (pairs 0 ss)).
Definition resEvs (ss : list sim) : list event := map (fun p => ERes (fst p) RECOVERY (blocksBefore ss (fst p)) (nGeo (snd p))) (upto (fun p => solOk (snd p)) (pairs 0 ss)).
Definition fieldEvs (ss : list sim) : list event := map (fun k => EField (String "u" (String (ascii_of_nat (49 + k)) EmptyString)) k) (seq 0 (List.length ss)).
Definition outEvs (ss : list sim) : list event :=
  geoEv 0 0 ss ++ if forallb geoOk ss then resEvs ss ++ (if forallb solOk ss then [EStep; EClose] else []) else [].
Lemma output_run ss s : ss <> [] -> geoBlk s = 0%nat ->
  snd (output ss s) = (if forallb geoOk ss then if forallb solOk ss then 0%Z else 16%Z else 12%Z) /\ tol (fst (output ss s)) = tol s /\ log (fst (output ss s)) = rev (outEvs ss) ++ log s.
Proof.
  intros HN HG. destruct ss as [|a r]; [congruence|]. unfold output. set (s1 := writeG _ _ _). assert (L : log s1 = EGeo 0 0 (nGeo a) :: log s) by (unfold s1, writeG; cbn; rewrite HG; reflexivity).
  assert (G : geoBlk s1 = nGeo a) by (unfold s1, writeG; cbn; rewrite HG; reflexivity). unfold outEvs. cbn [forallb geoEv]. destruct (geoOk a); cbn [negb andb].
  2: { cbn [fst snd app]. split; [reflexivity|]. split; [reflexivity|]. exact L. }
  destruct (geo_run r 1 s1) as (A & B & C & D & E). destruct (geoRest 1 r s1) as [s2 ok]. cbn [fst snd] in *. rewrite A in *. destruct (forallb geoOk r); cbn [negb].
  2: { cbn [fst snd]. split; [reflexivity|]. split; [exact B|]. rewrite C, L, G, app_nil_r. apply rev_step. }
  destruct (res_run (a :: r) 0 s2) as (F & H & K). destruct (resAll 0 (a :: r) s2) as [s3 ok2]. cbn [fst snd] in *. rewrite F.
  assert (RE : map (fun p => ERes (fst p) RECOVERY (startB s2 (fst p)) (nGeo (snd p))) (upto (fun p => solOk (snd p)) (pairs 0 (a :: r))) = resEvs (a :: r)).
  { unfold resEvs. apply map_ext_in. intros [j b] Hj. f_equal. cbn [fst]. assert (Hp : In (j, b) (pairs 0 (a :: r))).
    { revert Hj. generalize (pairs 0 (a :: r)). intros l. induction l as [|p l IHl]; [auto|]. cbn [upto]. intros [->|Hj]; [left; reflexivity|right]. destruct (solOk (snd p)); [exact (IHl Hj)|destruct Hj]. }
    apply in_combine_l, in_seq in Hp. cbn [List.length] in Hp. destruct j as [|j]; [rewrite D by lia; reflexivity|].
    change (S j) with (1 + j)%nat at 1. rewrite E, G by (reflexivity || lia). unfold blocksBefore. cbn. reflexivity. }
  rewrite RE in K. change (solOk a && forallb solOk r)%bool with (forallb solOk (a :: r)). destruct (forallb solOk (a :: r)); cbn [negb fst snd].
  - split; [reflexivity|]. split; [cbn [record tol]; rewrite H, B; reflexivity|]. cbn [record log]. rewrite K, C, L, G. cbn [app rev]. rewrite !rev_app_distr. cbn [rev app]. rewrite <- !app_assoc. reflexivity.
  - split; [reflexivity|]. split; [rewrite H, B; reflexivity|]. rewrite K, C, L, G, app_nil_r. cbn [rev app]. rewrite !rev_app_distr, <- !app_assoc. reflexivity.
Qed.
Lemma solve_run ss solved exporter zt format s : ss <> [] -> log s = [] ->
  exists s' c, solveStatic ss solved exporter zt format s = Ret (s', c) /\ c = firstFailure (checks ss solved format) /\ tol s' = tol s /\
    log s' = rev ((if exporter then fieldEvs ss else []) ++ asmEvs ss ++ if forallb asmOk ss then [ESolve 0] ++ if solved then dumpEvs zt (tol s) ss ++ (if exporter then [EExport] else []) ++ (if (format <? 0)%Z then [] else outEvs ss) else [] else []) /\
    (forallb asmOk ss = true -> solved = true -> (0 <= format)%Z -> forall i, (i < List.length ss)%nat -> att s' i = false).
Proof.
  intros HN HL. unfold solveStatic. set (s1 := if exporter then _ else _).
  assert (F : tol s1 = tol s /\ log s1 = rev (if exporter then fieldEvs ss else [])).
  { unfold s1. destruct exporter; [|split; [reflexivity|exact HL]]. destruct (fields_run ss 48 0 s) as (A & _ & _ & B). rewrite A, B, HL, app_nil_r. split; reflexivity. }
  destruct F as [F1 F2]. destruct (asm_run ss 0 s1 (or_introl eq_refl)) as (A & B & _ & D & _ & E). destruct (assembleAll 0 ss s1) as [s2 ok]. cbn [fst snd] in *. rewrite A.
  unfold checks. rewrite first_sims. fold (asmEvs ss) in E. rewrite F2 in E. destruct (forallb asmOk ss); cbn [negb].
  2: { exists s2, 4%Z. split; [reflexivity|]. split; [reflexivity|]. split; [congruence|]. split; [rewrite E, app_nil_r, rev_app_distr; reflexivity|discriminate]. }
  destruct (D eq_refl) as [X|D']; [contradiction|]. rewrite D'. destruct ss as [|a r] eqn:SS; [contradiction|]. rewrite <- SS in *. cbn [app firstFailure].
  destruct solved; cbn [negb].
  2: { eexists _, _. split; [reflexivity|]. split; [reflexivity|]. split; [cbn; congruence|]. split; [cbn [record log]; rewrite E, !rev_app_distr, <- app_assoc; reflexivity|discriminate]. }
  destruct (dump_run zt ss 0 (record (ESolve 0) s2)) as (G1 & _ & _ & G4). cbn [record tol log] in G1, G4. set (s3 := dumpAll _ _ _ _) in *. set (s4 := if exporter then record EExport s3 else s3).
  assert (T4 : tol s4 = tol s) by (unfold s4; destruct exporter; cbn; congruence).
  assert (TS : tol s2 = tol s) by congruence. rewrite TS in G4. fold (dumpEvs zt (tol s) ss) in G4.
  assert (L4 : log s4 = rev ((if exporter then fieldEvs ss else []) ++ asmEvs ss ++ [ESolve 0] ++ dumpEvs zt (tol s) ss ++ if exporter then [EExport] else [])).
  { unfold s4. rewrite !rev_app_distr. destruct exporter; cbn [record log rev app]; rewrite G4, E, <- ?app_assoc; reflexivity. }
  destruct (Z.ltb_spec format 0) as [HF|HF].
  - exists s4, 0%Z. split; [reflexivity|]. split; [reflexivity|]. split; [exact T4|]. split; [rewrite L4, app_nil_r; reflexivity|]. intros; lia.
  - set (s5 := mkSt _ _ _ _ _ 0%nat _). destruct (output_run ss s5 HN eq_refl) as (O1 & O2 & O3). destruct (output ss s5) as [s6 c]. cbn [fst snd] in *.
    destruct (clear_run ss 0 s6) as (C1 & C2 & C3). exists (clearAll 0 ss s6), c. split; [reflexivity|]. split.
    + rewrite O1, first_sims, <- (app_nil_r (map _ ss)), first_sims. reflexivity.
    + split; [rewrite C1, O2; exact T4|]. split; [|intros _ _ _ i Hi; rewrite C3; destruct (Nat.ltb_spec i (0 + List.length ss)); [reflexivity|lia]].
      rewrite C2, O3. unfold s5. cbn [log]. rewrite L4. rewrite <- rev_app_distr. f_equal. rewrite <- !app_assoc. reflexivity.
Qed.
