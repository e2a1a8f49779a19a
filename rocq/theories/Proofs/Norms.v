From Coq Require Import List String Ascii Arith Bool Reals Lra Lia Decimal DecimalNat DecimalString.
From Verif Require Import Lib.Base Lib.Sums Model.Labels Model.Norms Spec.Norms.
Import ListNotations.
Open Scope string_scope.
Open Scope nat_scope.

(** * Text *)

Lemma dec_inj : forall a b, dec a = dec b -> a = b.
Proof.
  intros a b E. apply Unsigned.to_uint_inj. unfold dec in E.
  assert (Some (Nat.to_uint a) = Some (Nat.to_uint b)) by (rewrite <- !NilEmpty.usu, E; reflexivity). congruence.
Qed.

Lemma append_cancel : forall s t u, s ++ u = t ++ u -> s = t.
Proof.
  assert (L : forall s u, String.length (s ++ u) = String.length s + String.length u).
  { intros s u. induction s; cbn; auto. }
  induction s as [|x s IH]; intros [|y t] u E; auto.
  - exfalso. apply (f_equal String.length) in E. rewrite !L in E. cbn in E. lia.
  - exfalso. apply (f_equal String.length) in E. rewrite !L in E. cbn in E. lia.
  - cbn in E. injection E as -> E. f_equal. eauto.
Qed.

Lemma describeNorm_inj : forall n q1 q2, n <> 1 -> describeNorm n q1 = describeNorm n q2 -> q1 = q2.
Proof.
  intros n q1 q2 N. unfold describeNorm. apply Nat.eqb_neq in N. rewrite N.
  destruct q1; destruct q2; cbn; intros E; try reflexivity; try discriminate E;
  injection E as E; apply append_cancel, dec_inj in E; now subst.
Qed.

(** * Blocks *)

Lemma flat_block : forall (A : Type) (f : A -> list R) (pr : A -> bool) L l rest k a i,
  (forall x, In x l -> length (f x) = if pr x then L else 0) ->
  nth_error l k = Some a -> pr a = true -> i < L ->
  nth (L * length (filter pr (firstn k l)) + i) (flat_map f l ++ rest)%list 0%R = nth i (f a) 0%R.
Proof.
  intros A f pr L l rest. induction l as [|x l IH]; intros [|k] a i H E P Hi; try discriminate E.
  - injection E as ->. cbn. rewrite Nat.mul_0_r, <- app_assoc. cbn. rewrite app_nth1; auto.
    rewrite (H a ltac:(now left)), P. auto.
  - cbn [firstn filter flat_map]. cbn in E.
    rewrite <- app_assoc. assert (G := H x ltac:(now left)). assert (H' : forall y, In y l -> length (f y) = if pr y then L else 0) by (intros; apply H; now right).
    destruct (pr x).
    + cbn [length]. rewrite app_nth2 by lia. rewrite <- (IH k a i H' E P Hi). f_equal. lia.
    + rewrite app_nth2 by lia. rewrite G, Nat.sub_0_r. auto.
Qed.

Lemma flat_block0 : forall (A : Type) (f : A -> list R) (pr : A -> bool) L l k a i,
  (forall x, In x l -> length (f x) = if pr x then L else 0) ->
  nth_error l k = Some a -> pr a = true -> i < L ->
  nth (L * length (filter pr (firstn k l)) + i) (flat_map f l) 0%R = nth i (f a) 0%R.
Proof. intros A f pr L l k a i H E P Hi. rewrite <- (flat_block A f pr L l [] k a i H E P Hi). now rewrite app_nil_r. Qed.

Lemma flat_const_length : forall (A : Type) (f : A -> list R) L l, (forall x, In x l -> length (f x) = L) -> length (flat_map f l) = L * length l.
Proof.
  intros A f L l. induction l as [|x l IH]; intros H; cbn; [lia|].
  rewrite app_length, IH by (intros; apply H; now right). rewrite (H x ltac:(now left)). lia.
Qed.

Lemma filter_true : forall (A : Type) (l : list A), filter (fun _ => true) l = l.
Proof. intros A l. induction l; cbn; congruence. Qed.

(** * Continuum *)

Lemma weight_eq : forall d, detJW d = weight d.
Proof. intros d. unfold detJW, weight. destruct (axiN d); lra. Qed.

Lemma reduce_active : forall d v, reduce (Cinv d) v = active d v.
Proof.
  intros d v. unfold reduce, removed, active. destruct ((length v =? 4) && (length (Cinv d) =? 3)) eqn:E; auto.
  apply andb_prop in E. destruct E as [E _]. apply Nat.eqb_eq in E.
  do 4 (destruct v as [|? v]; try discriminate E). destruct v; try discriminate E. reflexivity.
Qed.

Lemma map_seq_ext : forall (f g : nat -> R) a n, (forall k, a <= k < a + n -> f k = g k) -> map f (seq a n) = map g (seq a n).
Proof. intros f g a n H. apply map_ext_in. intros k I. apply in_seq in I. apply H. lia. Qed.

Lemma projected_active : forall d psol, length (sigh d) <= nrcmp d -> projected d psol = active d (interp d psol).
Proof.
  intros d psol N. unfold projected, active, interp, reduce. rewrite map_length, seq_length.
  unfold removed. destruct ((length (sigh d) =? 4) && (length (Cinv d) =? 3)) eqn:E.
  - apply andb_prop in E. destruct E as [E _]. apply Nat.eqb_eq in E. rewrite E in *.
    destruct (sigh d) as [|s0 [|s1 [|s2 [|s3 [|]]]]]; try discriminate E. cbn [removeZZ length seq map].
    cbn [andb Nat.leb]. 
    assert (T : forall k, k < 4 -> (k <? nrcmp d) = true) by (intros k Hk; apply Nat.ltb_lt; lia).
    rewrite !T by lia. reflexivity.
  - cbn [andb]. apply map_seq_ext. intros k Hk. assert (T : (k <? nrcmp d) = true) by (apply Nat.ltb_lt; lia). now rewrite T.
Qed.

Definition headBlock (d : point) : list R :=
  let sh := reduce (Cinv d) (sigh d) in
  ([energy (Cinv d) sh * detJW d; match loads d with Some fu => fu * detJW d | None => 0 end]%R ++
  match ana d with
  | Some s => let s := reduce (Cinv d) s in
              [energy (Cinv d) s * detJW d; energy (Cinv d) (subl s sh) * detJW d]%R
  | None => []
  end ++ [detJW d])%list.
Definition dualBlock (d : point) (eps : list R) : list R :=
  (dotl (reduce (Cinv d) (sigh d)) eps * detJW d)%R ::
     match ana d with Some s => [dotl (reduce (Cinv d) s) eps * detJW d]%R | None => [] end.
Definition prjBlock (d : point) (p : option (nat -> R)) : list R := match p with Some p => projIncr d p | None => [] end.

Lemma evalInt_blocks : forall d, evalInt d = (headBlock d ++ flat_map (dualBlock d) (duals d) ++ flat_map (prjBlock d) (prj d))%list.
Proof. intros d. unfold evalInt, headBlock, dualBlock, prjBlock. rewrite <- !app_assoc. reflexivity. Qed.

Lemma ana_some : forall anasol n d, fits anasol n d -> if anasol then exists s, ana d = Some s else ana d = None.
Proof.
  intros [] n d [[A B] _]; destruct (ana d) as [s|]; eauto; try discriminate (A ltac:(discriminate)).
  exfalso. now apply (B eq_refl).
Qed.

Lemma head_length : forall anasol n d, fits anasol n d -> length (headBlock d) = if anasol then 5 else 3.
Proof. intros [] n d F; apply ana_some in F; unfold headBlock; [destruct F as [s ->]|rewrite F]; reflexivity. Qed.
Lemma dual_length : forall anasol n d e, fits anasol n d -> length (dualBlock d e) = if anasol then 2 else 1.
Proof. intros [] n d e F; apply ana_some in F; unfold dualBlock; [destruct F as [s ->]|rewrite F]; reflexivity. Qed.
Lemma prj_length : forall anasol n d p, fits anasol n d -> length (prjBlock d p) = if present p then projFields anasol else 0.
Proof. intros [] n d [p|] F; auto; apply ana_some in F; unfold prjBlock, projIncr; [destruct F as [s ->]|rewrite F]; reflexivity. Qed.

Lemma first_length : forall anasol n d, fits anasol n d -> length (headBlock d ++ flat_map (dualBlock d) (duals d))%list = firstFields anasol n.
Proof.
  intros anasol n d F. rewrite app_length, (head_length anasol n d F).
  rewrite (flat_const_length _ _ (if anasol then 2 else 1)) by (intros; now apply (dual_length anasol n)).
  destruct F as [_ [L _]]. rewrite L. unfold firstFields. destruct anasol; lia.
Qed.

Lemma head_entry : forall anasol n d psol j, fits anasol n d -> 1 <= j <= (if anasol then 5 else 3) ->
  firstEntry d j = integrand d psol (if anasol then nth (j - 1) [EnergyH; External; EnergyU; ErrorU; Volume] Volume
                                     else nth (j - 1) [EnergyH; External; Volume] Volume).
Proof.
  intros anasol n d psol j F J. unfold firstEntry. rewrite evalInt_blocks.
  rewrite app_nth1 by (rewrite (head_length anasol n d F); destruct anasol; lia).
  assert (A := ana_some anasol n d F). unfold headBlock, integrand, energy, compl.
  destruct anasol; [destruct A as [s ->]|rewrite A]; rewrite weight_eq, !reduce_active; idx j; cbn [nth Nat.sub app];
  try reflexivity; destruct (loads d); lra.
Qed.

Lemma dual_entry : forall (anasol : bool) n d psol k i, fits anasol n d -> k < n -> i < (if anasol then 2 else 1) ->
  firstEntry d ((if anasol then 5 + 2 * k else 3 + k) + i + 1) = integrand d psol (if i =? 0 then VirtH (S k) else VirtU (S k)).
Proof.
  intros anasol n d psol k i F Hk Hi. unfold firstEntry. rewrite evalInt_blocks.
  assert (L := proj1 (proj2 F)).
  rewrite app_nth2 by (rewrite (head_length anasol n d F); destruct anasol; lia).
  rewrite (head_length anasol n d F).
  destruct (nth_error (duals d) k) as [e|] eqn:E; [|apply nth_error_None in E; lia].
  replace ((if anasol then 5 + 2 * k else 3 + k) + i + 1 - 1 - (if anasol then 5 else 3)) with ((if anasol then 2 else 1) * k + i) by (destruct anasol; lia).
  assert (LK : length (filter (fun _ : list R => true) (firstn k (duals d))) = k).
  { rewrite filter_true, firstn_length_le; lia. }
  rewrite <- LK at 1.
  rewrite (flat_block _ (dualBlock d) (fun _ => true) (if anasol then 2 else 1) (duals d) _ k e i); auto;
    [|intros; now apply (dual_length anasol n)].
  assert (A := ana_some anasol n d F). unfold dualBlock, integrand.
  assert (K : S k - 1 = k) by lia.
  destruct anasol; [destruct A as [s ->]|rewrite A]; idx i; cbn [nth Nat.eqb]; rewrite K, (nth_error_nth _ _ _ E), !reduce_active, weight_eq; reflexivity.
Qed.

Definition projOrder : list nq := [EnergyR; ErrorR; L2R; L2ErrR; ErrorUR; Effectivity].

Lemma proj_entry : forall anasol n d k psol j, fits anasol n d -> nth_error (prj d) k = Some (Some psol) ->
  1 <= j <= projFields anasol -> projEntry anasol n d k j = integrand d psol (nth (j - 1) projOrder Effectivity).
Proof.
  intros anasol n d k psol j F E J. unfold projEntry. rewrite evalInt_blocks, app_assoc.
  unfold slotOf. rewrite app_nth2 by (rewrite (first_length anasol n d F); lia). rewrite (first_length anasol n d F).
  match goal with |- nth ?a _ _ = _ => replace a with (projFields anasol * length (filter present (firstn k (prj d))) + (j - 1)) by lia end.
  rewrite (flat_block0 _ (prjBlock d) present (projFields anasol) (prj d) k (Some psol) (j - 1)); auto; [|intros; now apply (prj_length anasol n)|lia].
  assert (A := ana_some anasol n d F). destruct F as [_ [_ [N S]]].
  unfold prjBlock, projIncr, integrand, energy, compl. rewrite S, (projected_active d psol N), !reduce_active, weight_eq.
  destruct anasol; [destruct A as [s ->]|rewrite A]; cbn [projFields] in J; idx j; cbn [nth Nat.sub app projOrder]; rewrite ?reduce_active; try reflexivity; lra.
Qed.

(** Names of group 1 with an analytical solution. *)
Lemma name_ana : forall n j prefix, 1 <= j <= firstFields true n -> (prefix = None \/ n <= 1 \/ j <= 5) ->
  getName true n 1 j prefix = Some (Ret (pfx prefix (describeNorm n
    (if j <=? 5 then nth (j - 1) [EnergyH; External; EnergyU; ErrorU; Volume] Volume
     else if (j - 6) mod 2 =? 0 then VirtH (S ((j - 6) / 2)) else VirtU (S ((j - 6) / 2)))))).
Proof.
  intros n j prefix J P. unfold firstFields in J. unfold getName. change (1 <? 1) with false. change (1 =? 1) with true. change (1 =? 0) with false. cbn [andb negb orb].
  assert (E0 : (j =? 0) = false) by (apply Nat.eqb_neq; lia). rewrite E0. cbn [orb].
  destruct (5 + n * 2 <? j) eqn:E1; [apply Nat.ltb_lt in E1; lia|]. cbn [orb]. f_equal.
  rewrite Nat.div_mul by lia.
  destruct (j <=? 5) eqn:L.
  - apply Nat.leb_le in L. idx j; reflexivity.
  - apply Nat.leb_gt in L.
    assert (T : (5 <? j) = true) by (apply Nat.ltb_lt; lia). rewrite T. cbn [andb].
    assert (DM := Nat.div_mod (j - 6) 2 ltac:(lia)). assert (MB := Nat.mod_upper_bound (j - 6) 2 ltac:(lia)).
    set (k := (j - 6) / 2) in *. set (r := (j - 6) mod 2) in *.
    destruct (1 <? n) eqn:B.
    + apply Nat.ltb_lt in B. destruct P as [-> | [P|P]]; [|lia|lia].
      assert (NB : (n =? 1) = false) by (apply Nat.eqb_neq; lia). unfold describeNorm. rewrite NB.
      destruct (r =? 0) eqn:R.
      * apply Nat.eqb_eq in R. replace (j - 5) with (1 + 2 * k) by lia. rewrite Nat.odd_add_mul_2.
        cbn [Nat.odd Nat.even negb]. replace ((1 + 2 * k) / 2) with k by (rewrite Nat.mul_comm, Nat.div_add by lia; reflexivity).
        rewrite Nat.add_1_r. reflexivity.
      * apply Nat.eqb_neq in R. replace (j - 5) with (0 + 2 * (S k)) by lia. rewrite Nat.odd_add_mul_2.
        cbn [Nat.odd Nat.even negb]. replace ((0 + 2 * S k) / 2) with (S k) by (rewrite Nat.mul_comm, Nat.div_add by lia; reflexivity).
        reflexivity.
    + apply Nat.ltb_ge in B. assert (n = 1) as -> by lia. assert (j = 6 \/ j = 7) as [-> | ->] by lia; reflexivity.
Qed.

Theorem first_ana : forall n j prefix, 1 <= j <= firstFields true n -> (prefix = None \/ n <= 1 \/ j <= 5) ->
  exists q, (forall d psol, fits true n d -> firstEntry d j = integrand d psol q) /\
            getName true n 1 j prefix = Some (Ret (pfx prefix (describeNorm n q))).
Proof.
  intros n j prefix J P. rewrite (name_ana n j prefix J P). eexists. split; [|reflexivity].
  intros d psol F. destruct (j <=? 5) eqn:L.
  - apply Nat.leb_le in L. apply (head_entry true n d psol j F). lia.
  - apply Nat.leb_gt in L. unfold firstFields in J.
    assert (DM := Nat.div_mod (j - 6) 2 ltac:(lia)). assert (MB := Nat.mod_upper_bound (j - 6) 2 ltac:(lia)).
    assert (K : (j - 6) / 2 < n) by lia.
    rewrite <- (dual_entry true n d psol ((j - 6) / 2) ((j - 6) mod 2) F K MB). f_equal. lia.
Qed.

Theorem first_plain : forall n j prefix, 1 <= j <= 3 -> (n = 0 \/ prefix = None \/ j <= 3) ->
  exists q, (forall d psol, fits false n d -> firstEntry d j = integrand d psol q) /\
            getName false n 1 j prefix = Some (Ret (pfx prefix (describeNorm n q))).
Proof.
  intros n j prefix J _. exists (nth (j - 1) [EnergyH; External; Volume] Volume). split.
  - intros d psol F. now apply (head_entry false n d psol j).
  - unfold getName. change (1 <? 1) with false. change (1 =? 1) with true. change (1 =? 0) with false. cbn [andb negb orb].
    assert (E0 : (j =? 0) = false) by (apply Nat.eqb_neq; lia). rewrite E0.
    assert (E1 : (5 + n <? j) = false) by (apply Nat.ltb_ge; lia). rewrite E1. cbn [orb].
    idx j; reflexivity.
Qed.

(** Without analytical solution every extraction entry is misnamed. *)
Theorem plain_wrong : forall n j, 4 <= j <= firstFields false n ->
  (forall d psol, fits false n d -> firstEntry d j = integrand d psol (VirtH (j - 3))) /\
  exists s, getName false n 1 j None = Some (Ret s) /\ s <> describeNorm n (VirtH (j - 3)).
Proof.
  intros n j J. unfold firstFields in J. split.
  - intros d psol F. replace (VirtH (j - 3)) with (if 0 =? 0 then VirtH (S (j - 4)) else VirtU (S (j - 4))) by (cbn; f_equal; lia).
    rewrite <- (dual_entry false n d psol (j - 4) 0 F) by lia. f_equal. lia.
  - unfold getName. change (1 <? 1) with false. change (1 =? 1) with true. change (1 =? 0) with false. cbn [andb negb orb].
    assert (E0 : (j =? 0) = false) by (apply Nat.eqb_neq; lia). rewrite E0.
    assert (E1 : (5 + n <? j) = false) by (apply Nat.ltb_ge; lia). rewrite E1. cbn [orb].
    assert (E2 : ((2 <? j) && (j <? 4)) = false) by (apply andb_false_intro2, Nat.ltb_ge; lia).
    destruct (le_lt_dec j 5) as [L|L].
    + assert (j = 4 \/ j = 5) as [-> | ->] by lia; eexists; (split; [reflexivity|]); unfold describeNorm; destruct (n =? 1); discriminate.
    + assert (B : (1 <? n) = true) by (apply Nat.ltb_lt; lia). assert (NB : (n =? 1) = false) by (apply Nat.eqb_neq; lia).
      assert (T : (5 <? j) = true) by (apply Nat.ltb_lt; lia).
      rewrite E2, T, B. cbn [andb]. eexists. split; [reflexivity|].
      unfold describeNorm. rewrite NB. cbn. intros E. injection E as E. apply append_cancel, dec_inj in E. lia.
Qed.

Theorem proj_named : forall anasol n g j prefix, 2 <= g -> 1 <= j <= projFields anasol ->
  exists q, (forall d k psol, fits anasol n d -> nth_error (prj d) k = Some (Some psol) ->
               projEntry anasol n d k j = integrand d psol q) /\
            getName anasol n g j prefix = Some (Ret (pfx prefix (describeNorm n q))).
Proof.
  intros anasol n g j prefix G J. exists (nth (j - 1) projOrder Effectivity). split.
  - intros d k psol F E. now apply proj_entry.
  - unfold getName. assert (E0 : (g =? 0) = false) by (apply Nat.eqb_neq; lia). assert (E1 : (g =? 1) = false) by (apply Nat.eqb_neq; lia).
    assert (E2 : (1 <? g) = true) by (apply Nat.ltb_lt; lia). rewrite E0, E1, E2. cbn [orb andb].
    destruct anasol; cbn [projFields] in J; idx j; reflexivity.
Qed.

(** Effectivity indices. *)
Lemma finLoop_spec : forall fuel ip size pn, 4 <= ip -> size <= ip + fuel ->
  forall i, finLoop fuel ip size pn i =
    (if (ip + 5 <=? i) && (i <? size) && ((i - (ip + 5)) mod 6 =? 0) then Rdiv (pn (i - 4)) (pn 3) else pn i).
Proof.
  induction fuel as [|fuel IH]; intros ip size pn Hip Hs i; cbn [finLoop].
  - destruct ((ip + 5 <=? i) && (i <? size)) eqn:E; auto.
    apply andb_prop in E. destruct E as [E1 E2]. apply Nat.leb_le in E1. apply Nat.ltb_lt in E2. lia.
  - destruct (ip + 5 <? size) eqn:E.
    + apply Nat.ltb_lt in E. rewrite IH by lia.
      destruct (ip + 6 + 5 <=? i) eqn:A; cbn [andb].
      * apply Nat.leb_le in A. assert (B : (ip + 5 <=? i) = true) by (apply Nat.leb_le; lia). rewrite B. cbn [andb].
        destruct (i <? size) eqn:C; cbn [andb].
        -- replace (i - (ip + 5)) with (i - (ip + 6 + 5) + 1 * 6) by lia. rewrite Nat.mod_add by lia.
           destruct ((i - (ip + 6 + 5)) mod 6 =? 0) eqn:D.
           ++ assert (X : (i - 4 =? ip + 5) = false) by (apply Nat.eqb_neq; apply Nat.eqb_eq in D; intros Q; assert (i = ip + 9) by lia; lia).
              assert (Y : (3 =? ip + 5) = false) by (apply Nat.eqb_neq; lia). rewrite X, Y. reflexivity.
           ++ assert (X : (i =? ip + 5) = false) by (apply Nat.eqb_neq; lia). now rewrite X.
        -- assert (X : (i =? ip + 5) = false) by (apply Nat.eqb_neq; lia). now rewrite X.
      * apply Nat.leb_gt in A. destruct (i =? ip + 5) eqn:X.
        -- apply Nat.eqb_eq in X. subst i. rewrite Nat.leb_refl, Nat.sub_diag. change (0 mod 6 =? 0) with true. cbn [andb].
           assert (C : (ip + 5 <? size) = true) by (apply Nat.ltb_lt; lia). rewrite C. cbn [andb]. f_equal. f_equal. lia.
        -- apply Nat.eqb_neq in X. destruct (ip + 5 <=? i) eqn:B; cbn [andb]; auto. apply Nat.leb_le in B.
           destruct (i <? size); cbn [andb]; auto. assert (M : (i - (ip + 5)) mod 6 = i - (ip + 5)) by (apply Nat.mod_small; lia).
           rewrite M. assert (Z : (i - (ip + 5) =? 0) = false) by (apply Nat.eqb_neq; lia). now rewrite Z.
    + apply Nat.ltb_ge in E. destruct ((ip + 5 <=? i) && (i <? size)) eqn:A; auto.
      apply andb_prop in A. destruct A as [E1 E2]. apply Nat.leb_le in E1. apply Nat.ltb_lt in E2. lia.
Qed.

Theorem effectivity : forall n m pn, let size := firstFields true n + 6 * m in
  (forall k, k < m -> finalizeElement true n size pn (firstFields true n + 6 * k + 5) = Rdiv (pn (firstFields true n + 6 * k + 1)) (pn 3)) /\
  (forall i, (forall k, k < m -> i <> firstFields true n + 6 * k + 5) -> finalizeElement true n size pn i = pn i).
Proof.
  intros n m pn size. unfold finalizeElement. set (f := firstFields true n). assert (F : 5 <= f) by (unfold f, firstFields; lia).
  assert (S : size = f + 6 * m) by reflexivity. split.
  - intros k Hk. rewrite finLoop_spec by lia.
    assert (A : (f + 5 <=? f + 6 * k + 5) = true) by (apply Nat.leb_le; lia).
    assert (B : (f + 6 * k + 5 <? size) = true) by (apply Nat.ltb_lt; lia). rewrite A, B. cbn [andb].
    replace (f + 6 * k + 5 - (f + 5)) with (0 + k * 6) by lia. rewrite Nat.mod_add by lia. change (0 mod 6 =? 0) with true. cbn iota.
    f_equal. f_equal. lia.
  - intros i H. rewrite finLoop_spec by lia. destruct (f + 5 <=? i) eqn:A; cbn [andb]; auto. apply Nat.leb_le in A.
    destruct (i <? size) eqn:B; cbn [andb]; auto. apply Nat.ltb_lt in B.
    destruct ((i - (f + 5)) mod 6 =? 0) eqn:D; auto. apply Nat.eqb_eq in D. exfalso.
    assert (DM := Nat.div_mod (i - (f + 5)) 6 ltac:(lia)). apply (H ((i - (f + 5)) / 6)); lia.
Qed.
