From Coq Require Import List String Ascii Arith Bool Reals Lra Lia.
From Verif Require Import Lib.Base Lib.Sums Model.Labels Model.Norms Spec.Norms Proofs.Norms.
Import ListNotations.
Open Scope nat_scope.

(** * Plates: interior *)

Lemma list3 : forall (v : list R), length v = 3 -> exists a b c, v = [a; b; c].
Proof. intros [|a [|b [|c [|]]]] E; try discriminate E. eauto. Qed.

Definition doubles (d : plate) (n : nat) : bool := (1 <? version d) && (n =? 3).

Lemma twice_not : forall d n v, doubles d n = false -> twice (version d) n v = v.
Proof. intros d n v E. unfold twice, doubles in *. now rewrite E. Qed.

Lemma doubles_3 : forall d n, doubles d n = true -> n = 3 /\ (version d =? 1) = false.
Proof.
  intros d n E. unfold doubles in E. apply andb_prop in E. destruct E as [A B]. apply Nat.eqb_eq in B. apply Nat.ltb_lt in A.
  split; auto. apply Nat.eqb_neq. lia.
Qed.

Lemma penergy_twice : forall d n v, length v = n -> n <= 3 -> 1 <= version d -> penergy d (twice (version d) n v) = wEnergy d v.
Proof.
  intros d n v L N V. destruct (doubles d n) eqn:D.
  - destruct (doubles_3 d n D) as [E W]. subst n. rewrite E in *. destruct (list3 v E) as [a [b [c ->]]].
    unfold twice, doubles, penergy, wEnergy in *. rewrite D, W. cbn. ring.
  - rewrite (twice_not d n v D). unfold penergy, wEnergy, energy. destruct (version d =? 1) eqn:W; auto.
    apply Nat.eqb_neq in W. unfold doubles in D. assert (T : (1 <? version d) = true) by (apply Nat.ltb_lt; lia). rewrite T in D.
    cbn [andb] in D. apply Nat.eqb_neq in D. destruct v as [|a [|b [|c [|]]]]; auto. cbn in L. lia.
Qed.

Lemma subl_length : forall a b, length (subl a b) = length a.
Proof. induction a as [|x a IH]; intros [|y b]; cbn; auto. Qed.

Lemma subl_twice : forall d n a b, length a = n -> length b = n ->
  subl (twice (version d) n a) (twice (version d) n b) = twice (version d) n (subl a b).
Proof.
  intros d n a b A B. destruct (doubles d n) eqn:D; [|now rewrite !twice_not].
  destruct (doubles_3 d n D) as [E W]. subst n. rewrite E in *. destruct (list3 a E) as [x [y [z ->]]]. destruct (list3 b B) as [x' [y' [z' ->]]].
  unfold twice, doubles in *. rewrite D. reflexivity.
Qed.

Lemma dotl_twice : forall d n a, length a = n -> dotl (twice (version d) n a) (firstn n (twice (version d) n a)) = dotl a a.
Proof.
  intros d n a A. destruct (doubles d n) eqn:D.
  - destruct (doubles_3 d n D) as [E W]. subst n. rewrite E in *. destruct (list3 a E) as [x [y [z ->]]].
    unfold twice, doubles in *. rewrite D. cbn. ring.
  - rewrite twice_not by auto. now rewrite firstn_all2 by lia.
Qed.

Lemma overwrite_same : forall mr v, length mr = length v -> overwrite mr v = v.
Proof. induction mr as [|x mr IH]; intros [|y v] L; try discriminate L; cbn; auto. f_equal. auto. Qed.

Definition wOrder : list wq := [WEnergyR; WErrorR; WL2R; WL2ErrR; WResR; WJumpR; WErrorUR; WEffect; WEffectRes].

(** The state of the reused vector before a pass: still of the original length, or irrelevant. *)
Lemma pass_block : forall withAna d mr p j, wfits withAna d -> 1 <= version d -> In p (pprj d) -> wpresent p = true ->
  (length mr = length (mh d) \/ nodal p = false) -> j < wgroup withAna ->
  nth j (snd (platePass d mr p)) 0%R = wIntegrand d p (nth j wOrder WEffect).
Proof.
  intros withAna d mr p j [W1 [W2 [W3 [W4 W5]]]] V I P M J.
  assert (X : exists v r, length v = length (mh d) /\ wProjected d p = (v, r) /\
     platePass d mr p = (twice (version d) (length (mh d)) v,
       ([penergy d (twice (version d) (length (mh d)) v) * pJW d;
         penergy d (subl (twice (version d) (length (mh d)) v) (twice (version d) (length (mh d)) (mh d))) * pJW d;
         dotl (twice (version d) (length (mh d)) v) (firstn (length (mh d)) (twice (version d) (length (mh d)) v)) * pJW d;
         dotl (subl (twice (version d) (length (mh d)) v) (twice (version d) (length (mh d)) (mh d)))
           (firstn (length (mh d)) (subl (twice (version d) (length (mh d)) v) (twice (version d) (length (mh d)) (mh d)))) * pJW d;
         hk4 d * r * r * pJW d; 0]%R ++
        match anaP d with
        | Some (m, _) => [penergy d (subl (twice (version d) (length (mh d)) m) (twice (version d) (length (mh d)) v)) * pJW d; 0; 0]%R
        | None => [] end)%list)).
  { destruct p as [v r|v r|]; [| |discriminate P].
    - destruct M as [M|M]; [|discriminate M]. exists v, r. assert (L := W4 v r I). repeat split; auto.
      unfold platePass. rewrite (overwrite_same mr v) by lia. reflexivity.
    - exists (firstn (length (mh d)) v), r. assert (L := W5 v r I). repeat split; auto. apply firstn_length_le. lia. }
  destruct X as [v [r [Lv [PR PP]]]]. rewrite PP. cbn [snd]. unfold wIntegrand. rewrite PR. cbn [fst snd].
  assert (Ls : length (subl v (mh d)) = length (mh d)) by (rewrite subl_length; auto).
  rewrite (subl_twice d (length (mh d)) v (mh d)) by auto.
  rewrite !dotl_twice by auto. rewrite !penergy_twice by auto.
  destruct (anaP d) as [[m q]|] eqn:A.
  - assert (withAna = true) as -> by (apply W1; discriminate). assert (Lm := W3 m q eq_refl).
    rewrite (subl_twice d (length (mh d)) m v) by auto.
    assert (Lm2 : length (subl m v) = length (mh d)) by (rewrite subl_length; auto). rewrite penergy_twice by auto.
    cbn [wgroup] in J. do 9 (destruct j as [|j]; [cbn [nth app wOrder]; ring|]). exfalso; lia.
  - destruct withAna; [exfalso; now apply W1|]. cbn [wgroup] in J. do 6 (destruct j as [|j]; [cbn [nth app wOrder]; ring|]). exfalso; lia.
Qed.

Lemma pass_length : forall withAna d mr p, wfits withAna d -> length (snd (platePass d mr p)) = if wpresent p then wgroup withAna else 0.
Proof.
  intros withAna d mr p [W1 _]. unfold platePass. destruct p; cbn [wpresent snd]; auto;
  (destruct (anaP d) as [[m q]|]; [assert (withAna = true) as -> by (apply W1; discriminate)|destruct withAna; [exfalso; now apply W1|]]; reflexivity).
Qed.

Lemma pass_state : forall withAna d mr p, wfits withAna d -> In p (pprj d) -> doubles d (length (mh d)) = false ->
  length mr = length (mh d) -> length (fst (platePass d mr p)) = length (mh d).
Proof.
  intros withAna d mr p [W1 [W2 [W3 [W4 W5]]]] I D M. unfold platePass. destruct p as [v r|v r|]; cbn [fst]; auto; rewrite twice_not by auto.
  - rewrite overwrite_same; [apply (W4 v r I)|]. rewrite (W4 v r I). auto.
  - apply firstn_length_le, (W5 v r I).
Qed.

Lemma loop_block : forall withAna d ps mr k p j, wfits withAna d -> 1 <= version d -> (forall x, In x ps -> In x (pprj d)) ->
  nth_error ps k = Some p -> wpresent p = true -> j < wgroup withAna ->
  (nodal p = false \/ (length mr = length (mh d) /\ (doubles d (length (mh d)) = false \/ filter wpresent (firstn k ps) = []))) ->
  nth (wgroup withAna * length (filter wpresent (firstn k ps)) + j) (plateLoop d mr ps) 0%R = wIntegrand d p (nth j wOrder WEffect).
Proof.
  intros withAna d ps. induction ps as [|x ps IH]; intros mr k p j F V I E P J C; [destruct k; discriminate E|].
  destruct k as [|k].
  - injection E as ->. cbn [firstn filter length plateLoop]. rewrite Nat.mul_0_r. cbn [Nat.add].
    rewrite app_nth1 by (rewrite (pass_length withAna d mr p F), P; auto).
    apply (pass_block withAna); auto; [apply I; now left|]. destruct C as [C|[C _]]; auto.
  - cbn in E. cbn [firstn filter plateLoop].
    assert (IX := I x ltac:(now left)). assert (IR : forall y, In y ps -> In y (pprj d)) by (intros; apply I; now right).
    destruct (wpresent x) eqn:PX; cbn [length].
    + rewrite app_nth2 by (rewrite (pass_length withAna d mr x F), PX; lia). rewrite (pass_length withAna d mr x F), PX.
      match goal with |- nth ?a _ _ = _ => replace a with (wgroup withAna * length (filter wpresent (firstn k ps)) + j) by lia end.
      apply IH; auto. destruct C as [C|[C D]]; auto. right. cbn [firstn filter] in D. rewrite PX in D.
      destruct D as [D|D]; [|discriminate D]. split; auto. now apply (pass_state withAna).
    + rewrite app_nth2 by (rewrite (pass_length withAna d mr x F), PX; lia). rewrite (pass_length withAna d mr x F), PX, Nat.sub_0_r.
      apply IH; auto. destruct C as [C|[C D]]; auto. right. cbn [firstn filter] in D. rewrite PX in D.
      destruct x; try discriminate PX. cbn [platePass fst]. auto.
Qed.

Definition plateHead (d : plate) : list R :=
  let n := length (mh d) in
  let m2 := twice (version d) n (mh d) in
  ([penergy d m2 * pJW d; pw d * pJW d]%R ++
  match anaP d with
  | Some (m, res) => [penergy d (twice (version d) n m) * pJW d;
                      penergy d (subl (twice (version d) n m) m2) * pJW d;
                      hk4 d * res * res * pJW d]%R
  | None => []
  end ++ [pJW d])%list.

Lemma plateInt_blocks : forall d, plateInt d = (plateHead d ++ plateLoop d (repeat 0%R (length (mh d))) (pprj d))%list.
Proof. intros d. unfold plateInt, plateHead. rewrite <- !app_assoc. reflexivity. Qed.

Lemma plateHead_length : forall withAna d, wfits withAna d -> length (plateHead d) = wfirst withAna.
Proof.
  intros withAna d [W1 _]. unfold plateHead. destruct (anaP d) as [[m q]|].
  - assert (withAna = true) as -> by (apply W1; discriminate). reflexivity.
  - destruct withAna; [exfalso; now apply W1|]. reflexivity.
Qed.

Definition wHead (withAna : bool) : list wq :=
  if withAna then [WEnergyH; WExternal; WEnergyU; WErrorU; WResU; WArea] else [WEnergyH; WExternal; WArea].

Theorem plate_first : forall withAna j prefix, 1 <= j <= wfirst withAna -> exists q,
  (forall d p, wfits withAna d -> 1 <= version d -> nth (j - 1) (plateInt d) 0%R = wIntegrand d p q) /\
  plateName withAna 1 j prefix = Some (Ret (pfx prefix (describeW q))).
Proof.
  intros withAna j prefix J. exists (nth (j - 1) (wHead withAna) WArea). split.
  - intros d p F V. rewrite plateInt_blocks. rewrite app_nth1 by (rewrite (plateHead_length withAna d F); lia).
    assert (F' := F). destruct F' as [W1 [W2 [W3 _]]]. unfold plateHead, wIntegrand. destruct (anaP d) as [[m q]|] eqn:A.
    + assert (withAna = true) as -> by (apply W1; discriminate). assert (Lm := W3 m q eq_refl).
      rewrite (subl_twice d (length (mh d)) m (mh d)) by auto.
      assert (Lm2 : length (subl m (mh d)) = length (mh d)) by (rewrite subl_length; auto). rewrite !penergy_twice by auto.
      cbn [wfirst] in J. idx j; cbn [nth app Nat.sub wHead]; ring.
    + destruct withAna; [exfalso; now apply W1|]. cbn [wfirst] in J. rewrite penergy_twice by auto. idx j; cbn [nth app Nat.sub wHead]; ring.
  - destruct withAna; cbn [wfirst] in J; idx j; reflexivity.
Qed.

Theorem plate_proj : forall withAna g j prefix, 2 <= g -> 1 <= j <= wgroup withAna -> exists q,
  (forall d k p, wfits withAna d -> 1 <= version d -> nth_error (pprj d) k = Some p -> wpresent p = true ->
     (version d = 1 \/ length (mh d) <> 3 \/ nodal p = false \/ filter wpresent (firstn k (pprj d)) = []) ->
     nth (wslot withAna k (pprj d) + (j - 1)) (plateInt d) 0%R = wIntegrand d p q) /\
  plateName withAna g j prefix = Some (Ret (pfx prefix (describeW q))).
Proof.
  intros withAna g j prefix G J. exists (nth (j - 1) wOrder WEffect). split.
  - intros d k p F V E P C. rewrite plateInt_blocks. unfold wslot.
    rewrite app_nth2 by (rewrite (plateHead_length withAna d F); lia). rewrite (plateHead_length withAna d F).
    match goal with |- nth ?a _ _ = _ => replace a with (wgroup withAna * length (filter wpresent (firstn k (pprj d))) + (j - 1)) by lia end.
    apply (loop_block withAna); auto; [lia|]. rewrite repeat_length.
    destruct C as [C|[C|[C|C]]]; auto; right; split; auto; left; unfold doubles.
    + rewrite C. reflexivity.
    + apply andb_false_intro2, Nat.eqb_neq. auto.
  - unfold plateName. assert (E0 : (g =? 0) = false) by (apply Nat.eqb_neq; lia). assert (E1 : (g =? 1) = false) by (apply Nat.eqb_neq; lia).
    assert (E2 : (1 <? g) = true) by (apply Nat.ltb_lt; lia). rewrite E0, E1, E2. cbn [orb andb].
    destruct withAna; cbn [wgroup] in J; idx j; reflexivity.
Qed.

(** * Plates: boundary *)

Lemma wslot_S : forall a k p ps, wslot a (S k) (p :: ps) = (if wpresent p then wgroup a else 0) + wslot a k ps.
Proof. intros a k p ps. unfold wslot. cbn [firstn filter]. destruct (wpresent p); cbn [length]; lia. Qed.

Definition bterm (a : bool) (ps : list (pproj * R)) (off i k : nat) : R :=
  match nth_error ps k with
  | Some (PNodal _ _, v) =>
    let s := off + wslot a k (map fst ps) in if ((i =? s + 4) || (i =? s + 5)) then v else 0%R
  | _ => 0%R end.

Definition jumpsOf (ps : list (pproj * R)) : list (option R) := map (fun x => if nodal (fst x) then Some (snd x) else None) ps.

Lemma seq_shift1 : forall n, seq 1 n = map S (seq 0 n).
Proof. intros. now rewrite seq_shift. Qed.

Lemma sumL_map : forall (A B : Type) (f : B -> R) (g : A -> B) l, sumL f (map g l) = sumL (fun x => f (g x)) l.
Proof. intros A B f g l. unfold sumL. induction l as [|x l IH]; cbn; auto. now rewrite IH. Qed.

Lemma bouLoop_spec : forall a ps ip pn i off, (forall x, In x ps -> nodal (fst x) = true \/ fst x = PNone) ->
  ip + 1 = off + wfirst a ->
  bouLoop a ip (jumpsOf ps) pn i = (pn i + sumL (bterm a ps off i) (seq 0 (length ps)))%R.
Proof.
  intros a ps. induction ps as [|[p v] ps IH]; intros ip pn i off H O; [cbn; lra|].
  assert (H' : forall x, In x ps -> nodal (fst x) = true \/ fst x = PNone) by (intros; apply H; now right).
  assert (SP : sumL (bterm a ((p, v) :: ps) off i) (seq 0 (length ((p, v) :: ps)))
    = (bterm a ((p, v) :: ps) off i 0%nat + sumL (fun x => bterm a ((p, v) :: ps) off i (S x)) (seq 0 (length ps)))%R).
  { cbn [length seq]. rewrite seq_shift1. rewrite <- (sumL_map _ _ (bterm a ((p, v) :: ps) off i) S). reflexivity. }
  rewrite SP. clear SP.
  destruct (H (p, v) ltac:(now left)) as [N|N]; cbn [fst] in N.
  - destruct p as [w r|w r|]; try discriminate N. cbn [jumpsOf map fst snd nodal bouLoop].
    rewrite (IH _ _ _ (off + wgroup a) H') by (destruct a; cbn [wgroup wfirst] in *; lia).
    rewrite (sumL_ext (fun x => bterm a ((PNodal w r, v) :: ps) off i (S x)) (bterm a ps (off + wgroup a) i)).
    2:{ intros k _. unfold bterm. cbn [nth_error map fst]. rewrite wslot_S. cbn [wpresent].
        replace (off + (wgroup a + wslot a k (map fst ps))) with (off + wgroup a + wslot a k (map fst ps)) by lia. reflexivity. }
    assert (B : bterm a ((PNodal w r, v) :: ps) off i 0 = if ((i =? ip + 5) || (i =? ip + 6)) then v else 0%R).
    { unfold bterm. cbn [nth_error map fst]. unfold wslot. cbn [firstn filter length]. rewrite Nat.mul_0_r, Nat.add_0_r.
      replace (off + wfirst a + 4) with (ip + 5) by lia. replace (off + wfirst a + 5) with (ip + 6) by lia. reflexivity. }
    rewrite B. assert (X6 : ip + 6 - 1 = ip + 5) by lia. rewrite ?X6. destruct ((i =? ip + 5) || (i =? ip + 6)); lra.
  - subst p. cbn [jumpsOf map fst snd nodal bouLoop]. fold (jumpsOf ps). rewrite (IH _ _ _ off H' O).
    assert (X : sumL (fun x => bterm a ((PNone, v) :: ps) off i (S x)) (seq 0 (length ps)) = sumL (bterm a ps off i) (seq 0 (length ps))).
    { apply sumL_ext. intros k _. unfold bterm. cbn [nth_error map fst]. rewrite wslot_S. cbn [wpresent]. reflexivity. }
    rewrite X. change (bterm a ((PNone, v) :: ps) off i 0) with 0%R. lra.
Qed.

Theorem plate_boundary : forall ver withAna ps tw jana pn i, ver = 1 \/ withAna = false ->
  (forall x, In x ps -> nodal (fst x) = true \/ fst x = PNone) ->
  plateBou ver withAna false tw jana (jumpsOf ps) pn i = (pn i + wBoundary withAna ps tw jana i)%R.
Proof.
  intros ver withAna ps tw jana pn i C H. unfold plateBou, wBoundary. rewrite andb_false_r, orb_false_r.
  destruct withAna.
  - destruct C as [-> | C]; [|discriminate C]. cbn [Nat.eqb andb].
    rewrite (bouLoop_spec true ps 5 _ i 0 H eq_refl). unfold bterm. cbn [Nat.add].
    destruct (i =? 1) eqn:E1; destruct (i =? 4) eqn:E4; lra.
  - rewrite andb_false_r. rewrite (bouLoop_spec false ps 2 _ i 0 H eq_refl). unfold bterm. cbn [Nat.add andb].
    destruct (i =? 1); lra.
Qed.

(** * Plates: effectivity indices *)
Lemma plateFin_spec : forall fuel ip size pn, 14 <= ip -> size <= ip + fuel -> (exists m, size + 8 = ip + 9 * m) ->
  (forall i, i + 1 < ip -> plateFinLoop fuel ip size pn i = pn i) /\
  (forall t, ip + 9 * t < size ->
     plateFinLoop fuel ip size pn (ip + 9 * t - 1) = Rdiv (pn (ip + 9 * t - 7)) (pn 3) /\
     plateFinLoop fuel ip size pn (ip + 9 * t) = Rdiv (pn (ip + 9 * t - 7) + pn (ip + 9 * t - 4)) (pn 3)) /\
  (forall i, (forall t, ip + 9 * t < size -> i <> ip + 9 * t - 1 /\ i <> ip + 9 * t) -> plateFinLoop fuel ip size pn i = pn i).
Proof.
  induction fuel as [|fuel IH]; intros ip size pn Hip Hs [m Hm]; cbn [plateFinLoop].
  - repeat split; auto; intros; exfalso; lia.
  - destruct (ip <? size) eqn:E.
    + apply Nat.ltb_lt in E. assert (Hm' : exists m', size + 8 = ip + 9 + 9 * m') by (exists (m - 1); lia).
      set (pn1 := fun k => if k =? ip - 1 then Rdiv (pn (ip - 7)) (pn 3) else pn k).
      set (pn2 := fun k => if k =? ip then Rdiv (pn1 (ip - 7) + pn1 (ip - 4)) (pn1 3) else pn1 k).
      destruct (IH (ip + 9) size pn2 ltac:(lia) ltac:(lia) Hm') as [A [B C]].
      assert (N1 : forall k, k <> ip - 1 -> pn1 k = pn k) by (intros k K; unfold pn1; apply Nat.eqb_neq in K; now rewrite K).
      assert (N2 : forall k, k <> ip - 1 -> k <> ip -> pn2 k = pn k).
      { intros k K1 K2. unfold pn2. apply Nat.eqb_neq in K2. rewrite K2. auto. }
      assert (V1 : pn2 (ip - 1) = Rdiv (pn (ip - 7)) (pn 3)).
      { unfold pn2, pn1. assert (X : (ip - 1 =? ip) = false) by (apply Nat.eqb_neq; lia). now rewrite X, Nat.eqb_refl. }
      assert (V2 : pn2 ip = Rdiv (pn (ip - 7) + pn (ip - 4)) (pn 3)).
      { unfold pn2. rewrite Nat.eqb_refl, !N1 by lia. reflexivity. }
      split; [|split].
      * intros i Hi. rewrite A by lia. apply N2; lia.
      * intros t Ht. destruct t as [|t].
        -- rewrite Nat.mul_0_r, Nat.add_0_r. rewrite !A by lia. auto.
        -- assert (Q : ip + 9 * S t = ip + 9 + 9 * t) by lia. rewrite Q in *. destruct (B t Ht) as [B1 B2]. assert (P3 : pn2 3 = pn 3) by (apply N2; lia). assert (P7 : pn2 (ip + 9 + 9 * t - 7) = pn (ip + 9 + 9 * t - 7)) by (apply N2; lia).
           assert (P4 : pn2 (ip + 9 + 9 * t - 4) = pn (ip + 9 + 9 * t - 4)) by (apply N2; lia).
           rewrite P3, P7 in B1. rewrite P3, P7, P4 in B2. split; [exact B1 | exact B2].
      * intros i H. rewrite C.
        -- destruct (H 0 ltac:(lia)) as [H1 H2]. apply N2; lia.
        -- intros t Ht. specialize (H (S t)). lia.
    + apply Nat.ltb_ge in E. repeat split; auto; intros; exfalso; lia.
Qed.

Theorem plate_effectivity : forall m pn, let size := 6 + 9 * m in
  (forall k, k < m ->
    plateFinalize true size pn (6 + 9 * k + 7) = Rdiv (pn (6 + 9 * k + 1)) (pn 3) /\
    plateFinalize true size pn (6 + 9 * k + 8) = Rdiv (pn (6 + 9 * k + 1) + pn (6 + 9 * k + 4)) (pn 3)) /\
  (forall i, (forall k, k < m -> i <> 6 + 9 * k + 7 /\ i <> 6 + 9 * k + 8) -> plateFinalize true size pn i = pn i).
Proof.
  intros m pn size. unfold plateFinalize.
  assert (X : exists m', size + 8 = 14 + 9 * m') by (exists m; unfold size; lia).
  destruct (plateFin_spec size 14 size pn ltac:(lia) ltac:(lia) X) as [A [B C]].
  split.
  - intros k Hk. destruct (B k ltac:(unfold size; lia)) as [B1 B2].
    replace (6 + 9 * k + 7) with (14 + 9 * k - 1) by lia. replace (6 + 9 * k + 8) with (14 + 9 * k) by lia.
    rewrite B1, B2. replace (14 + 9 * k - 7) with (6 + 9 * k + 1) by lia. replace (14 + 9 * k - 4) with (6 + 9 * k + 4) by lia. auto.
  - intros i H. apply C. intros t Ht. unfold size in Ht. destruct (H t ltac:(lia)). lia.
Qed.

(** * Shells *)

Definition sOrder := [SEnergyR; SErrorR; SNR; SMR; SErrN; SErrM].

Theorem shell_first : forall j prefix, 1 <= j <= 2 -> exists q,
  (forall d p, nth (j - 1) (shellInt d) 0%R = sIntegrand d p q) /\ shellName 1 j prefix = Some (Ret (pfx prefix (describeS q))).
Proof.
  intros j prefix J. exists (nth (j - 1) [SEnergyH; SExternal] SExternal). split.
  - intros d [n m]. unfold shellInt, sIntegrand, energy. idx j; reflexivity.
  - idx j; reflexivity.
Qed.

Theorem shell_proj : forall g j prefix, 2 <= g -> 1 <= j <= 6 -> exists q,
  (forall d k p, nth_error (sprj d) k = Some (Some p) ->
     nth (2 + 6 * length (filter spresent (firstn k (sprj d))) + (j - 1)) (shellInt d) 0%R = sIntegrand d p q) /\
  shellName g j prefix = Some (Ret (pfx prefix (describeS q))).
Proof.
  intros g j prefix G J. exists (nth (j - 1) sOrder SErrM). split.
  - intros d k [nr mr] E. unfold shellInt. cbn [app]. 
    replace (2 + 6 * length (filter spresent (firstn k (sprj d))) + (j - 1)) with (S (S (6 * length (filter spresent (firstn k (sprj d))) + (j - 1)))) by lia.
    cbn [nth]. rewrite (flat_block0 _ _ spresent 6 (sprj d) k (Some (nr, mr)) (j - 1)); auto; [| |lia].
    + unfold sIntegrand, energy. idx j; reflexivity.
    + intros [[a b]|] _; reflexivity.
  - unfold shellName. assert (E0 : (g =? 0) = false) by (apply Nat.eqb_neq; lia). assert (E1 : (g =? 1) = false) by (apply Nat.eqb_neq; lia).
    assert (E2 : (1 <? g) = true) by (apply Nat.ltb_lt; lia). rewrite E0, E1, E2. cbn [orb andb]. idx j; reflexivity.
Qed.

(** * Path integral of the external work *)

Lemma path_work : forall h s, Ux (fold_left (fun s x => pathStep s (fst x) (snd x)) h s) = (Ux s + work (tp s) (up s) h)%R.
Proof.
  induction h as [|[t u] h IH]; intros s; cbn [fold_left work fst snd]; [lra|]. rewrite IH. cbn [pathStep Ux tp up]. lra.
Qed.

Lemma dotl_subl_self : forall a t, dotl t (subl a a) = 0%R.
Proof. induction a as [|x a IH]; intros [|y t]; cbn; auto. rewrite IH. ring. Qed.

(** Evaluating again in the same configuration changes nothing. *)
Theorem path_repeat : forall s t u, pathStep (pathStep s t u) t u = pathStep s t u.
Proof. intros s t u. unfold pathStep. cbn [tp up Ux]. rewrite dotl_subl_self. f_equal. lra. Qed.
