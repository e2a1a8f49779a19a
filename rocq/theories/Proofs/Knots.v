From Coq Require Import QArith Qpower List ZArith Lia Lqa Sorting.Sorted.
From Verif Require Import Model.Knots.
Import ListNotations.
Local Open Scope Q_scope.

Definition inQ (x : Q) (l : list Q) : Prop := exists y, In y l /\ x == y.
Lemma inQ_cons x y l : inQ x (y :: l) <-> x == y \/ inQ x l.
Proof.
  unfold inQ. split; [intros (z & [<-|H] & E); [now left|right; eauto]|]. intros [E|(z & H & E)]; [exists y; split; [now left|assumption]|exists z; split; [now right|assumption]].
Qed.
Lemma inQ_nil x : inQ x [] <-> False. Proof. split; [now intros (y & [] & _)|tauto]. Qed.
Lemma insert_in x y l : inQ y (insertQ x l) <-> y == x \/ inQ y l.
Proof.
  induction l as [|z l IH]; cbn; [rewrite inQ_cons; tauto|]. destruct (Qcompare_spec x z) as [E|E|E].
  - rewrite inQ_cons. split; [tauto|]. intros [F|F]; [left; now rewrite F|assumption].
  - rewrite !inQ_cons. tauto.
  - rewrite !inQ_cons, IH. tauto.
Qed.
Lemma insert_sorted x l : StronglySorted Qlt l -> StronglySorted Qlt (insertQ x l).
Proof.
  induction 1 as [|z l SS IH F]; cbn; [repeat constructor|]. destruct (Qcompare_spec x z) as [E|E|E].
  - now constructor.
  - constructor; [now constructor|]. constructor; [assumption|]. eapply Forall_impl; [|exact F]. cbn. intros a A. now apply Qlt_trans with z.
  - constructor; [assumption|]. rewrite Forall_forall in *. intros a A.
    assert (K : inQ a (insertQ x l)) by (exists a; split; [assumption|reflexivity]). apply insert_in in K. destruct K as [K|(b & B & K)]; [now rewrite K|]. rewrite K. now apply F.
Qed.
Lemma inject_S k : inject_Z (Z.of_nat (Datatypes.S k)) == inject_Z (Z.of_nat k) + 1.
Proof. rewrite Nat2Z.inj_succ, <- Z.add_1_r, inject_Z_plus. reflexivity. Qed.
Lemma even_spec h N : 0 < h -> inject_Z (Z.of_nat N) * h == 1 -> forall n k x s fuel,
  (k + n = N)%nat -> x == inject_Z (Z.of_nat k) * h -> (n < fuel)%nat -> StronglySorted Qlt s ->
  exists r, evenLoop fuel h x s = Some r /\ StronglySorted Qlt r /\
    forall y, inQ y r <-> inQ y s \/ exists j, (k <= j < N)%nat /\ y == inject_Z (Z.of_nat j) * h.
Proof.
  intros Hh HN. induction n as [|n IH]; intros k x s fuel Hk Hx Hf SS; (destruct fuel as [|fuel]; [lia|]); cbn.
  - assert (k = N) by lia. subst k. destruct (Qcompare_spec x 1) as [E|E|E]; [|exfalso; rewrite Hx, HN in E; now apply Qlt_irrefl in E|exfalso; rewrite Hx, HN in E; now apply Qlt_irrefl in E].
    exists s. repeat split; auto. intros [H|(j & J & _)]; [assumption|lia].
  - destruct (Qcompare_spec x 1) as [E|E|E].
    + exfalso. assert (L : inject_Z (Z.of_nat k) * h < inject_Z (Z.of_nat N) * h) by (apply Qmult_lt_compat_r; [assumption|]; rewrite <- Zlt_Qlt; lia). lra.
    + destruct (IH (Datatypes.S k) (x + h) (insertQ x s) fuel) as (r & R1 & R2 & R3); [lia| |lia|now apply insert_sorted|].
      { rewrite Hx, inject_S. ring. }
      exists r. split; [assumption|]. split; [assumption|]. intros y. rewrite R3, insert_in. split.
      * intros [[H|H]|(j & J & H)]; [right; exists k; split; [lia|now rewrite H]|now left|right; exists j; split; [lia|assumption]].
      * intros [H|(j & J & H)]; [tauto|]. destruct (Nat.eq_dec j k) as [->|N1]; [left; left; now rewrite H, Hx|right; exists j; split; [lia|assumption]].
    + exfalso. assert (L : inject_Z (Z.of_nat k) * h < inject_Z (Z.of_nat N) * h) by (apply Qmult_lt_compat_r; [assumption|]; rewrite <- Zlt_Qlt; lia). lra.
Qed.
Lemma pow_half (j : Z) : 2 ^ (- (j + 1)) == 2 ^ (- j) * (1#2).
Proof. replace (- (j + 1))%Z with (- j + -1)%Z by lia. rewrite Qpower_plus by discriminate. reflexivity. Qed.
Lemma pow_pos j : 0 < 2 ^ j. Proof. apply Qpower_0_lt. reflexivity. Qed.
Lemma pow_lt a b : (a < b)%Z -> 2 ^ a < 2 ^ b. Proof. intros H. apply Qpower_lt_compat_l; [assumption|reflexivity]. Qed.
Lemma focus_spec M : forall n j h s fuel, (j + Z.of_nat n = M)%Z -> h == 2 ^ (- j) -> (n < fuel)%nat -> StronglySorted Qlt s ->
  exists r, focusLoop fuel (2 ^ (- M)) h s = Some r /\ StronglySorted Qlt r /\
    forall y, inQ y r <-> inQ y s \/ exists i, (j <= i < M)%Z /\ (y == (1#2) - 2 ^ (- i) \/ y == (1#2) + 2 ^ (- i)).
Proof.
  induction n as [|n IH]; intros j h s fuel Hj Hh Hf SS; (destruct fuel as [|fuel]; [lia|]); cbn [focusLoop].
  - assert (j = M) by lia. subst j. assert (E : (h ?= 2 ^ (- M)) = Eq) by now apply Qeq_alt. rewrite E.
    exists s. repeat split; auto. intros [H|(i & I1 & _)]; [assumption|lia].
  - assert (L : 2 ^ (- M) < h) by (rewrite Hh; apply pow_lt; lia). apply Qgt_alt in L. rewrite L.
    destruct (IH (j + 1)%Z (h * (1#2)) (insertQ ((1#2) + h) (insertQ ((1#2) - h) s)) fuel) as (r & R1 & R2 & R3); [lia| |lia|now repeat apply insert_sorted|].
    { rewrite pow_half, Hh. reflexivity. }
    exists r. split; [assumption|]. split; [assumption|]. intros y. rewrite R3, !insert_in. split.
    + intros [[H|[H|H]]|(i & I1 & H)]; [right; exists j; split; [lia|right; now rewrite H, Hh]|right; exists j; split; [lia|left; now rewrite H, Hh]|now left|right; exists i; split; [lia|assumption]].
    + intros [H|(i & I1 & H)]; [tauto|]. destruct (Z.eq_dec i j) as [->|N1]; [left; rewrite Hh; tauto|right; exists i; split; [lia|assumption]].
Qed.
Lemma focus_ext m m' : m == m' -> forall fuel h s, focusLoop fuel m h s = focusLoop fuel m' h s.
Proof. intros E. induction fuel; intros; [reflexivity|]. cbn [focusLoop]. rewrite (Qcompare_comp _ _ (Qeq_refl h) _ _ E). destruct (h ?= m'); auto. Qed.
Definition knotAt (L : Z) (y : Q) : Prop :=
  (exists k, (1 <= k < 2 ^ L)%Z /\ y == inject_Z k * 2 ^ (- L)) \/
  (exists i, (L < i < 2 * L)%Z /\ (y == (1#2) - 2 ^ (- i) \/ y == (1#2) + 2 ^ (- i))).
Lemma pow_inject L : (0 <= L)%Z -> inject_Z (2 ^ L) == 2 ^ L.
Proof. intros H. rewrite Zpower_Qpower by assumption. reflexivity. Qed.
Lemma pow_inv L : (0 <= L)%Z -> inject_Z (2 ^ L) * 2 ^ (- L) == 1.
Proof. intros H. rewrite pow_inject by assumption. rewrite <- Qpower_plus by discriminate. now rewrite Z.add_opp_diag_r. Qed.
Lemma parse_spec L xi fuel : (1 <= L)%Z -> (Z.to_nat (2 ^ L) < fuel)%nat -> (Z.to_nat L < fuel)%nat ->
  exists s, parseXi fuel true L xi = Some (true, xi ++ s) /\ StronglySorted Qlt s /\ forall y, inQ y s <-> knotAt L y.
Proof.
  intros HL F1 F2. unfold parseXi. destruct (Z.ltb_spec L 1); [lia|]. cbv zeta.
  assert (P : (0 < 2 ^ L)%Z) by (apply Z.pow_pos_nonneg; lia).
  destruct (even_spec (2 ^ (- L)) (Z.to_nat (2 ^ L)) (pow_pos _)) with (n := (Z.to_nat (2 ^ L) - 1)%nat) (k := 1%nat) (x := 2 ^ (- L)) (s := @nil Q) (fuel := fuel) as (s & E & S1 & S2).
  { rewrite Z2Nat.id by lia. apply pow_inv. lia. } { lia. } { cbn [Z.of_nat Pos.of_succ_nat]. change (inject_Z 1) with 1. ring. } { lia. } { constructor. }
  rewrite E. rewrite (focus_ext _ (2 ^ (- (2 * L)))) by (rewrite <- Qpower_plus by discriminate; now replace (- L + - L)%Z with (- (2 * L))%Z by lia).
  destruct (focus_spec (2 * L) (Z.to_nat (L - 1)) (L + 1) (2 ^ (- L) * (1#2)) s fuel) as (r & R1 & R2 & R3); [lia|now rewrite pow_half|lia|assumption|].
  rewrite R1. exists r. split; [reflexivity|]. split; [assumption|]. intros y. rewrite R3, S2, inQ_nil. unfold knotAt. split.
  - intros [[[]|(j & J & H2)]|(i & I1 & H2)]; [left; exists (Z.of_nat j); split; [|assumption]; lia|right; exists i; split; [lia|assumption]].
  - intros [(k & K & H2)|(i & I1 & H2)]; [left; right; exists (Z.to_nat k); rewrite Z2Nat.id by lia; split; [lia|assumption]|right; exists i; split; [lia|assumption]].
Qed.
Lemma knot_interior L y : (1 <= L)%Z -> knotAt L y -> 0 < y /\ y < 1.
Proof.
  intros HL [(k & K & H)|(i & I1 & H)].
  - rewrite H. assert (P := pow_pos (- L)). split.
    + apply Qmult_lt_0_compat; [change 0 with (inject_Z 0); rewrite <- Zlt_Qlt; lia|assumption].
    + rewrite <- (pow_inv L) by lia. apply Qmult_lt_compat_r; [assumption|]. rewrite <- Zlt_Qlt. lia.
  - assert (P := pow_pos (- i)). assert (Q1 : 2 ^ (- i) < 2 ^ (- 1)) by (apply pow_lt; lia). change (2 ^ (- 1)) with (1#2) in Q1. destruct H as [H|H]; rewrite H; lra.
Qed.
Lemma knot_sym L y : (1 <= L)%Z -> knotAt L y -> knotAt L (1 - y).
Proof.
  intros HL [(k & K & H)|(i & I1 & [H|H])].
  - left. exists (2 ^ L - k)%Z. split; [lia|]. unfold Z.sub. rewrite inject_Z_plus, inject_Z_opp, H. rewrite <- (pow_inv L) by lia. ring.
  - right. exists i. split; [assumption|right]. rewrite H. ring.
  - right. exists i. split; [assumption|left]. rewrite H. ring.
Qed.
Lemma focus_not_even L i : (1 <= L < i)%Z -> forall k, ~ ((1#2) - 2 ^ (- i) == inject_Z k * 2 ^ (- L)) /\ ~ ((1#2) + 2 ^ (- i) == inject_Z k * 2 ^ (- L)).
Proof.
  intros H k.
  assert (A : forall e, (1#2) + inject_Z e * 2 ^ (- i) == inject_Z k * 2 ^ (- L) -> (2 ^ (i - 1) + e = k * 2 ^ (i - L))%Z).
  { intros e E. apply inject_Z_injective. rewrite inject_Z_plus, inject_Z_mult, !pow_inject by lia.
    assert (B : inject_Z k * 2 ^ (i - L) == 2 ^ i * ((1#2) + inject_Z e * 2 ^ (- i))).
    { rewrite E. replace (i - L)%Z with (i + - L)%Z by lia. rewrite Qpower_plus by discriminate. ring. }
    rewrite B. replace (i - 1)%Z with (i + - 1)%Z by lia. rewrite Qpower_plus by discriminate. change (2 ^ (- 1)) with (1#2).
    assert (C : 2 ^ i * 2 ^ (- i) == 1) by (rewrite <- Qpower_plus by discriminate; now rewrite Z.add_opp_diag_r).
    setoid_replace (2 ^ i * ((1 # 2) + inject_Z e * 2 ^ (- i))) with (2 ^ i * (1#2) + inject_Z e * (2 ^ i * 2 ^ (- i))) by ring. rewrite C. ring. }
  assert (E1 : (2 ^ (i - 1) = 2 * 2 ^ (i - 2))%Z) by (rewrite <- Z.pow_succ_r by lia; f_equal; lia).
  assert (E2 : (2 ^ (i - L) = 2 * 2 ^ (i - L - 1))%Z) by (rewrite <- Z.pow_succ_r by lia; f_equal; lia).
  split; intros E.
  - assert (F := A (-1)%Z). rewrite E1, E2 in F. assert (G : (2 * 2 ^ (i - 2) + -1 = k * (2 * 2 ^ (i - L - 1)))%Z) by (apply F; rewrite <- E; change (inject_Z (-1)) with (-(1)); ring).
    generalize (2 ^ (i - 2))%Z (k * 2 ^ (i - L - 1))%Z (eq_refl (k * 2 ^ (i - L - 1))%Z). intros u v V. lia.
  - assert (F := A 1%Z). rewrite E1, E2 in F. assert (G : (2 * 2 ^ (i - 2) + 1 = k * (2 * 2 ^ (i - L - 1)))%Z) by (apply F; rewrite <- E; change (inject_Z 1) with 1; ring). lia.
Qed.
(* more fuel gives the same *)
Lemma even_mono : forall f f' h x s r, (f <= f')%nat -> evenLoop f h x s = Some r -> evenLoop f' h x s = Some r.
Proof. induction f as [|f IH]; intros f' h x s r H E; [discriminate|]. destruct f' as [|f']; [lia|]. cbn in *. destruct (x ?= 1); try assumption. apply IH; [lia|assumption]. Qed.
Lemma focus_mono : forall f f' m h s r, (f <= f')%nat -> focusLoop f m h s = Some r -> focusLoop f' m h s = Some r.
Proof. induction f as [|f IH]; intros f' m h s r H E; [discriminate|]. destruct f' as [|f']; [lia|]. cbn [focusLoop] in *. destruct (h ?= m); try assumption. apply IH; [lia|assumption]. Qed.
Lemma parse_mono f f' L xi r : (f <= f')%nat -> parseXi f true L xi = Some r -> parseXi f' true L xi = Some r.
Proof.
  intros H. unfold parseXi. destruct (L <? 1)%Z; [trivial|]. cbv zeta. destruct (evenLoop f _ _ _) as [s|] eqn:E; [|discriminate].
  rewrite (even_mono f f' _ _ _ _ H E). destruct (focusLoop f _ _ _) as [t|] eqn:G; [|discriminate]. now rewrite (focus_mono f f' _ _ _ _ H G).
Qed.
(* count *)
Lemma insert_length x l : ~ inQ x l -> length (insertQ x l) = Datatypes.S (length l).
Proof.
  induction l as [|y l IH]; intros H; [reflexivity|]. cbn. destruct (Qcompare_spec x y) as [E|E|E]; [|reflexivity|].
  - destruct H. apply inQ_cons. now left.
  - cbn. rewrite IH; [reflexivity|]. intros K. apply H, inQ_cons. now right.
Qed.
Lemma even_count h N : 0 < h -> inject_Z (Z.of_nat N) * h == 1 -> forall n k x s fuel r,
  (k + n = N)%nat -> x == inject_Z (Z.of_nat k) * h -> (forall y, inQ y s -> y < x) -> evenLoop fuel h x s = Some r -> length r = (length s + n)%nat.
Proof.
  intros Hh HN. induction n as [|n IH]; intros k x s fuel r Hk Hx Hs E; (destruct fuel as [|fuel]; [discriminate|]); cbn in E.
  - assert (k = N) by lia. subst k. assert (X : (x ?= 1) = Eq) by (apply Qeq_alt; now rewrite Hx). rewrite X in E. injection E as <-. lia.
  - assert (X : (x ?= 1) = Lt). { apply Qlt_alt. rewrite Hx, <- HN. apply Qmult_lt_compat_r; [assumption|]. rewrite <- Zlt_Qlt. lia. }
    rewrite X in E. assert (N1 : ~ inQ x s) by (intros K; apply Hs in K; now apply Qlt_irrefl in K).
    rewrite (IH (Datatypes.S k) (x + h) (insertQ x s) fuel r) ; [rewrite insert_length by assumption; lia|lia| | |assumption].
    + rewrite Hx, inject_S. ring.
    + intros y Y. apply insert_in in Y. destruct Y as [Y|Y]; [rewrite Y; lra|]. apply Hs in Y. lra.
Qed.
Lemma focus_count M : forall n j h s fuel r, (j + Z.of_nat n = M)%Z -> h == 2 ^ (- j) ->
  (forall i, (j <= i)%Z -> ~ inQ ((1#2) - 2 ^ (- i)) s /\ ~ inQ ((1#2) + 2 ^ (- i)) s) ->
  focusLoop fuel (2 ^ (- M)) h s = Some r -> length r = (length s + 2 * n)%nat.
Proof.
  induction n as [|n IH]; intros j h s fuel r Hj Hh Hs E; (destruct fuel as [|fuel]; [discriminate|]); cbn [focusLoop] in E.
  - assert (j = M) by lia. subst j. assert (X : (h ?= 2 ^ (- M)) = Eq) by now apply Qeq_alt. rewrite X in E. injection E as <-. lia.
  - assert (L : 2 ^ (- M) < h) by (rewrite Hh; apply pow_lt; lia). apply Qgt_alt in L. rewrite L in E.
    assert (P := pow_pos (- j)). destruct (Hs j (Z.le_refl j)) as [A B].
    assert (A1 : ~ inQ ((1#2) - h) s) by (intros (y & Y & K); apply A; exists y; split; [assumption|now rewrite <- K, Hh]).
    assert (B1 : ~ inQ ((1#2) + h) (insertQ ((1#2) - h) s)).
    { intros K. apply insert_in in K. destruct K as [K|(y & Y & K)]; [rewrite Hh in K; lra|]. apply B. exists y. split; [assumption|now rewrite <- K, Hh]. }
    rewrite (IH (j + 1)%Z (h * (1#2)) (insertQ ((1#2) + h) (insertQ ((1#2) - h) s)) fuel r); [rewrite !insert_length by assumption; lia|lia| | |assumption].
    + rewrite pow_half, Hh. reflexivity.
    + intros i I1. destruct (Hs i) as [A2 B2]; [lia|]. assert (Q1 : 2 ^ (- i) < 2 ^ (- j)) by (apply pow_lt; lia). assert (P1 := pow_pos (- i)).
      split; intros K; apply insert_in in K; (destruct K as [K|K]; [rewrite Hh in K; lra|]); apply insert_in in K; (destruct K as [K|K]; [rewrite Hh in K; lra|]); tauto.
Qed.
Lemma knot_count L xi : (1 <= L)%Z -> exists s, (exists n, forall fuel, (n <= fuel)%nat -> parseXi fuel true L xi = Some (true, xi ++ s)) /\ Z.of_nat (length s) = (2 ^ L - 1 + 2 * (L - 1))%Z.
Proof.
  intros HL. set (f := Datatypes.S (Z.to_nat (2 ^ L) + Z.to_nat L)). assert (P : (0 < 2 ^ L)%Z) by (apply Z.pow_pos_nonneg; lia).
  assert (HN : inject_Z (Z.of_nat (Z.to_nat (2 ^ L))) * 2 ^ (- L) == 1) by (rewrite Z2Nat.id by lia; apply pow_inv; lia).
  destruct (even_spec (2 ^ (- L)) (Z.to_nat (2 ^ L)) (pow_pos _) HN) with (n := (Z.to_nat (2 ^ L) - 1)%nat) (k := 1%nat) (x := 2 ^ (- L)) (s := @nil Q) (fuel := f) as (s & E & S1 & S2);
    [lia|cbn [Z.of_nat Pos.of_succ_nat]; change (inject_Z 1) with 1; ring|lia|constructor|].
  destruct (focus_spec (2 * L) (Z.to_nat (L - 1)) (L + 1) (2 ^ (- L) * (1#2)) s f) as (r & R1 & R2 & R3); [lia|now rewrite pow_half|lia|assumption|].
  exists r. split.
  - exists f. intros fuel F. apply (parse_mono f); [assumption|]. unfold parseXi. destruct (Z.ltb_spec L 1); [lia|]. cbv zeta. rewrite E.
    rewrite (focus_ext _ (2 ^ (- (2 * L)))) by (rewrite <- Qpower_plus by discriminate; now replace (- L + - L)%Z with (- (2 * L))%Z by lia). now rewrite R1.
  - rewrite (focus_count (2 * L) (Z.to_nat (L - 1)) (L + 1) (2 ^ (- L) * (1#2)) s f r); [|lia|now rewrite pow_half| |assumption].
    + rewrite (even_count (2 ^ (- L)) (Z.to_nat (2 ^ L)) (pow_pos _) HN (Z.to_nat (2 ^ L) - 1) 1 (2 ^ (- L)) [] f s); [cbn [length]; lia|lia|cbn [Z.of_nat Pos.of_succ_nat]; change (inject_Z 1) with 1; ring| |assumption].
      intros y Y. now apply inQ_nil in Y.
    + intros i I1. assert (Z1 : (1 <= L < i)%Z) by lia. split; intros K; apply S2 in K; (destruct K as [K|(j & J & K)]; [now apply inQ_nil in K|]); now apply (focus_not_even L i Z1) in K.
Qed.
