(** Plate reference solutions (C56). *)
From Coquelicot Require Import Coquelicot.
From Coq Require Import Lia.
From Verif Require Import Lib.Base Lib.Sums Spec.Analytic Spec.PlateSol Model.Analytic Proofs.Analytic.

(** ** Finite double sums *)
Lemma derive_sumf n (f : nat -> R -> R) (d : nat -> R) t : (forall i, (1 <= i <= n)%nat -> is_derive (f i) t (d i)) -> is_derive (fun s => sumf n (fun i => f i s)) t (sumf n d).
Proof.
  induction n as [|n IH]; cbn; intros H; [exact (is_derive_const (V := R_NormedModule) 0 t)|].
  apply (is_derive_plus (fun s => sumf n (fun i => f i s)) (f (S n))); [apply IH; intros; apply H; lia|apply H; lia].
Qed.
Definition square (n : nat) (f : nat -> nat -> R) : R := sumf n (fun p => sumf n (fun q => f p q)).
Lemma square_derive n (f : nat -> nat -> R -> R) d t : (forall i j, is_derive (f i j) t (d i j)) -> is_derive (fun s => square n (fun i j => f i j s)) t (square n d).
Proof.
  intros H. unfold square. apply (derive_sumf n (fun i s => sumf n (fun j => f i j s)) (fun i => sumf n (d i))). intros i _.
  apply (derive_sumf n (f i) (d i)). intros; apply H.
Qed.
Lemma square_ext n f g : (forall i j, f i j = g i j) -> square n f = square n g.
Proof. intros H. apply sumf_ext. intros i _. apply sumf_ext. intros j _. apply H. Qed.
Lemma square_scal n c f : square n (fun i j => c * f i j) = c * square n f.
Proof. unfold square. rewrite <- sumf_scal. apply sumf_ext. intros. apply sumf_scal. Qed.
Lemma square_plus n f g : square n (fun i j => f i j + g i j) = square n f + square n g.
Proof. unfold square. rewrite <- sumf_plus. apply sumf_ext. intros. apply sumf_plus. Qed.
Lemma square_S n f : square (S n) f = square n f + sumf n (fun q => f (S n) q + f q (S n)) + f (S n) (S n).
Proof. unfold square. cbn [sumf]. rewrite (sumf_plus n (fun p => sumf n (fun q => f p q)) (fun p => f p (S n))), (sumf_plus n (fun q => f (S n) q) (fun q => f q (S n))). ring. Qed.

Section Nav.
Variable s : navier.
Hypothesis INC : (1 <= inc s)%nat.
Lemma idx_pos k : (1 <= idxOf s k)%nat. Proof. unfold idxOf. generalize ((k - 1) * inc s)%nat. lia. Qed.
Lemma idx_count n k : (1 <= k)%nat -> (idxOf s k <= n)%nat <-> (k <= countOf s n)%nat.
Proof.
  intros K. unfold idxOf, countOf. set (i := inc s) in *. assert (D := Nat.div_mod (n + i - 1) i ltac:(lia)). assert (M := Nat.mod_upper_bound (n + i - 1) i ltac:(lia)). fold i.
  set (c := ((n + i - 1) / i)%nat) in *. split; intros H.
  - destruct (le_lt_dec k c); [assumption|exfalso]. assert (c * i <= (k - 1) * i)%nat by (apply Nat.mul_le_mono_r; lia). nia.
  - assert ((k - 1) * i <= (c - 1) * i)%nat by (apply Nat.mul_le_mono_r; lia). assert ((c - 1) * i + i = c * i)%nat by nia. nia.
Qed.
(* listing the harmonics by number or by test *)
Lemma list_harmonics n (g : nat -> R) : sumf n (fun m => if harmonic (inc s) m then g m else 0) = sumf (countOf s n) (fun p => g (idxOf s p)).
Proof.
  induction n as [|n IH].
  - assert (countOf s 0 = 0)%nat as -> by (unfold countOf; apply Nat.div_small; lia). reflexivity.
  - cbn [sumf]. rewrite IH. unfold harmonic. replace (S n - 1)%nat with n by lia. unfold countOf.
    assert (D := Nat.div_mod n (inc s) ltac:(lia)). assert (M := Nat.mod_upper_bound n (inc s) ltac:(lia)). set (q := (n / inc s)%nat) in *. set (r := (n mod inc s)%nat) in *.
    destruct (Nat.eqb_spec r 0) as [Z|Z].
    + assert (E1 : ((n + inc s - 1) / inc s = q)%nat) by (symmetry; apply (Nat.div_unique _ _ q (inc s - 1)); [lia|lia]).
      assert (E2 : ((S n + inc s - 1) / inc s = S q)%nat) by (symmetry; apply (Nat.div_unique _ _ (S q) 0); [lia|lia]).
      rewrite E1, E2. cbn [sumf]. do 2 f_equal. unfold idxOf. replace (S q - 1)%nat with q by lia. lia.
    + assert (E1 : ((n + inc s - 1) / inc s = S q)%nat) by (symmetry; apply (Nat.div_unique _ _ (S q) (r - 1)); [lia|lia]).
      assert (E2 : ((S n + inc s - 1) / inc s = S q)%nat) by (symmetry; apply (Nat.div_unique _ _ (S q) r); [lia|lia]).
      rewrite E1, E2. ring.
Qed.
Lemma double_square n f : double (inc s) n f = square (countOf s n) (fun p q => f (idxOf s p) (idxOf s q)).
Proof.
  unfold double, square. rewrite <- (list_harmonics n (fun i => sumf (countOf s n) (fun q => f i (idxOf s q)))).
  apply sumf_ext. intros i _. destruct (harmonic (inc s) i); cbn [andb].
  - apply list_harmonics.
  - apply sumf_0. reflexivity.
Qed.

(** the summation loop *)
Definition sq3 (x y : R) (d k : nat) : R * R * R :=
  let f p q := addTerms s x y (idxOf s p) (idxOf s q) d in
  (square k (fun p q => fst (fst (f p q))), square k (fun p q => snd (fst (f p q))), square k (fun p q => snd (f p q))).
Lemma inner_proj (pr : R * R * R -> R) x y d k n M : (forall a b, pr (plus3 a b) = pr a + pr b) ->
  pr (inner s x y d k n M) = pr M + sumf n (fun q => pr (addTerms s x y (idxOf s k) (idxOf s q) d) + pr (addTerms s x y (idxOf s q) (idxOf s k) d)).
Proof. intros L. induction n as [|n IH]; cbn [inner sumf]; [ring|]. rewrite !L, IH. ring. Qed.
Lemma row_sq3 x y d k : (1 <= k)%nat -> row s x y d k (sq3 x y d (k - 1)) = sq3 x y d k.
Proof.
  intros K. destruct k as [|k]; [lia|]. replace (S k - 1)%nat with k by lia.
  assert (P : forall pr : R * R * R -> R, (forall a b, pr (plus3 a b) = pr a + pr b) -> pr (sq3 x y d k) = square k (fun p q => pr (addTerms s x y (idxOf s p) (idxOf s q) d)) ->
    pr (row s x y d (S k) (sq3 x y d k)) = square (S k) (fun p q => pr (addTerms s x y (idxOf s p) (idxOf s q) d))).
  { intros pr L E. unfold row. rewrite L, inner_proj by assumption. replace (S k - 1)%nat with k by lia. rewrite E, square_S. ring. }
  assert (P0 := P (fun a => fst (fst a)) ltac:(reflexivity) eq_refl). assert (P1 := P (fun a => snd (fst a)) ltac:(reflexivity) eq_refl). assert (P2 := P (fun a => snd a) ltac:(reflexivity) eq_refl). cbv beta in *.
  destruct (row s x y d (S k) (sq3 x y d k)) as [[a b] c]. cbn [fst snd] in *. unfold sq3. now subst.
Qed.
Variable norm : R * R * R -> R.
(* the loop may stop at row k: k is odd and the norm changed little since the previous odd row *)
Definition settled (x y : R) (d k : nat) : Prop := Nat.odd (idxOf s k) = true /\ exists j, (j < k)%nat /\ (j = 0%nat \/ Nat.odd (idxOf s j) = true) /\
  (forall i, (j < i < k)%nat -> Nat.odd (idxOf s i) = false) /\
  Rabs (norm (sq3 x y d k) - (if (j =? 0)%nat then 0 else norm (sq3 x y d j))) < eps * norm (sq3 x y d k).
Lemma outer_spec x y d fuel : forall k j, (1 <= k)%nat -> (k <= countOf s (mxmn s) + 1)%nat -> (countOf s (mxmn s) < fuel + k)%nat ->
  (j < k)%nat -> (j = 0%nat \/ Nat.odd (idxOf s j) = true) -> (forall i, (j < i < k)%nat -> Nat.odd (idxOf s i) = false) ->
  let '(M, n) := outer s norm x y d fuel k (if (j =? 0)%nat then 0 else norm (sq3 x y d j)) (sq3 x y d (k - 1)) in
  M = sq3 x y d n /\ (n <= countOf s (mxmn s))%nat /\ (n = countOf s (mxmn s) \/ settled x y d n).
Proof.
  induction fuel as [|f IH]; intros k j K1 K2 F J1 J2 J3; cbn [outer].
  - split; [reflexivity|]. split; [lia|left; lia].
  - destruct (Nat.leb_spec (idxOf s k) (mxmn s)) as [L|L].
    + apply idx_count in L; [|assumption]. rewrite row_sq3 by assumption. destruct (Nat.odd (idxOf s k)) eqn:OD.
      * destruct (Rlt_dec _ _) as [Q|Q].
        -- split; [reflexivity|]. split; [assumption|]. right. split; [assumption|]. exists j. auto.
        -- specialize (IH (k + 1)%nat k). replace (k + 1 - 1)%nat with k in IH by lia. destruct (Nat.eqb_spec k 0); [lia|]. apply IH; try lia. now right.
      * specialize (IH (k + 1)%nat j). replace (k + 1 - 1)%nat with k in IH by lia. apply IH; try lia; [assumption|].
        intros i Hi. destruct (Nat.eq_dec i k) as [->|]; [assumption|apply J3; lia].
    + assert (~ (k <= countOf s (mxmn s))%nat) by (rewrite <- idx_count by assumption; lia). split; [reflexivity|]. split; [lia|left; lia].
Qed.
Lemma sq3_0 x y d : sq3 x y d 0 = (0, 0, 0). Proof. reflexivity. Qed.
Lemma count_le n : (countOf s n <= n)%nat.
Proof.
  destruct (Nat.eq_dec (countOf s n) 0) as [->|Z]; [lia|]. assert (H := proj2 (idx_count n (countOf s n) ltac:(lia)) (Nat.le_refl _)). unfold idxOf in H. nia.
Qed.
Lemma summed_spec x y d : let '(M, n) := summed s norm x y d in
  M = sq3 x y d n /\ (n <= countOf s (mxmn s))%nat /\ (n = countOf s (mxmn s) \/ settled x y d n).
Proof.
  unfold summed. assert (H := outer_spec x y d (mxmn s) 1 0). cbn [Nat.eqb] in H. change (1 - 1)%nat with 0%nat in H. rewrite sq3_0 in H. apply H; try lia.
  assert (C := count_le (mxmn s)). lia.
Qed.

(** ** Derivatives *)
Definition tx (d m n : nat) (pr : R * R * R -> R) x y := pr (addTerms s x y m n d).
Ltac der := unfold tx, addTerms; cbv zeta; cbn [fst snd]; auto_derive; [easy|unfold Rminus, Rdiv; ring].
Lemma add_dx m n x y : forall pr, (pr = (fun a => fst (fst a)) \/ pr = (fun a => snd (fst a)) \/ pr = (fun a : R * R * R => snd a)) ->
  is_derive (fun x => tx 0 m n pr x y) x (tx 1 m n pr x y) /\ is_derive (fun y => tx 0 m n pr x y) y (tx 2 m n pr x y) /\
  is_derive (fun x => tx 1 m n pr x y) x (tx 11 m n pr x y) /\ is_derive (fun y => tx 2 m n pr x y) y (tx 22 m n pr x y) /\
  is_derive (fun y => tx 1 m n pr x y) y (tx 12 m n pr x y) /\ is_derive (fun x => tx 2 m n pr x y) x (tx 21 m n pr x y).
Proof. intros pr [->|[->| ->]]; refine (conj _ (conj _ (conj _ (conj _ (conj _ _))))); der. Qed.
(** the complete series up to the cut-off *)
Definition c0 (a : R * R * R) := fst (fst a).
Definition c1 (a : R * R * R) := snd (fst a).
Definition c2' (a : R * R * R) := snd a.
Definition series3 (x y : R) (d n : nat) : R * R * R :=
  (double (inc s) n (fun p q => c0 (addTerms s x y p q d)), double (inc s) n (fun p q => c1 (addTerms s x y p q d)), double (inc s) n (fun p q => c2' (addTerms s x y p q d))).
Lemma series_sq3 x y d n : series3 x y d n = sq3 x y d (countOf s n).
Proof. unfold series3. rewrite !double_square. reflexivity. Qed.
Lemma count_idx k : (1 <= k)%nat -> countOf s (idxOf s k) = k.
Proof.
  intros K. apply Nat.le_antisymm.
  - destruct (le_lt_dec (countOf s (idxOf s k)) k); [assumption|]. assert (H := proj2 (idx_count (idxOf s k) (countOf s (idxOf s k)) ltac:(lia)) (Nat.le_refl _)). unfold idxOf in H at 1 3. exfalso. nia.
  - now apply idx_count.
Qed.
Definition settledAt (x y : R) (d n : nat) : Prop := Nat.odd n = true /\ exists j, (j < n)%nat /\ (j = 0%nat \/ Nat.odd j = true) /\
  Rabs (norm (series3 x y d n) - (if (j =? 0)%nat then 0 else norm (series3 x y d j))) < eps * norm (series3 x y d n).
Lemma evaluate_spec x y d : exists n, (n <= mxmn s)%nat /\ evaluate s norm x y d = scal3 (factor s) (series3 x y d n) /\ (series3 x y d n = series3 x y d (mxmn s) \/ settledAt x y d n).
Proof.
  assert (H := summed_spec x y d). unfold evaluate. destruct (summed s norm x y d) as [M k]. cbn [fst]. destruct H as [-> [K1 K2]].
  destruct K2 as [K2|K2].
  - exists (mxmn s). rewrite series_sq3, <- K2. auto.
  - destruct (Nat.eq_dec k 0) as [->|Z]; [destruct K2 as [_ [j [J _]]]; lia|]. exists (idxOf s k). rewrite series_sq3, count_idx by lia. split; [apply idx_count; lia|]. split; [reflexivity|]. right.
    destruct K2 as [O [j [J1 [J2 [_ J3]]]]]. split; [assumption|]. destruct (Nat.eq_dec j 0) as [->|Zj].
    + exists 0%nat. split; [apply idx_pos|]. split; [now left|]. rewrite series_sq3, count_idx by lia. exact J3.
    + exists (idxOf s j). split; [unfold idxOf; assert (G := proj1 (Nat.mul_lt_mono_pos_r (inc s) (j - 1) (k - 1) ltac:(lia)) ltac:(lia)); lia|]. split; [right; destruct J2; [lia|assumption]|]. destruct (Nat.eqb_spec (idxOf s j) 0) as [E|E]; [generalize (idx_pos j); lia|].
      rewrite !series_sq3, !count_idx by lia. destruct (Nat.eqb_spec j 0); [lia|]. exact J3.
Qed.
Lemma double_derive n (f : nat -> nat -> R -> R) d t : (forall i j, is_derive (f i j) t (d i j)) -> is_derive (fun u => double (inc s) n (fun i j => f i j u)) t (double (inc s) n d).
Proof.
  intros H. apply (is_derive_ext (fun u => square (countOf s n) (fun p q => f (idxOf s p) (idxOf s q) u))); [intros; symmetry; apply double_square|].
  rewrite double_square. apply (square_derive (countOf s n) (fun p q u => f (idxOf s p) (idxOf s q) u)). intros; apply H.
Qed.
Definition ser (pr : R * R * R -> R) (x y : R) (d n : nat) : R := factor s * double (inc s) n (fun p q => pr (addTerms s x y p q d)).
Definition proj (pr : R * R * R -> R) : Prop := pr = c0 \/ pr = c1 \/ pr = c2'.
Lemma series_derive pr n x y : proj pr ->
  is_derive (fun x => ser pr x y 0 n) x (ser pr x y 1 n) /\ is_derive (fun y => ser pr x y 0 n) y (ser pr x y 2 n) /\
  is_derive (fun x => ser pr x y 1 n) x (ser pr x y 11 n) /\ is_derive (fun y => ser pr x y 2 n) y (ser pr x y 22 n) /\
  is_derive (fun y => ser pr x y 1 n) y (ser pr x y 12 n) /\ is_derive (fun x => ser pr x y 2 n) x (ser pr x y 21 n).
Proof.
  intros P. assert (A : forall m k, _) by (intros m k; exact (add_dx m k x y pr P)). unfold ser.
  refine (conj _ (conj _ (conj _ (conj _ (conj _ _))))); (apply is_derive_scal).
  - apply (double_derive n (fun p q x => tx 0 p q pr x y) (fun p q => tx 1 p q pr x y)). intros; apply A.
  - apply (double_derive n (fun p q y => tx 0 p q pr x y) (fun p q => tx 2 p q pr x y)). intros; apply A.
  - apply (double_derive n (fun p q x => tx 1 p q pr x y) (fun p q => tx 11 p q pr x y)). intros; apply A.
  - apply (double_derive n (fun p q y => tx 2 p q pr x y) (fun p q => tx 22 p q pr x y)). intros; apply A.
  - apply (double_derive n (fun p q y => tx 1 p q pr x y) (fun p q => tx 12 p q pr x y)). intros; apply A.
  - apply (double_derive n (fun p q x => tx 2 p q pr x y) (fun p q => tx 21 p q pr x y)). intros; apply A.
Qed.
Lemma double_ext n f g : (forall i j, (1 <= i)%nat -> (1 <= j)%nat -> f i j = g i j) -> double (inc s) n f = double (inc s) n g.
Proof. intros H. rewrite !double_square. apply square_ext. intros. apply H; apply idx_pos. Qed.
Lemma double_scal n c f : double (inc s) n (fun i j => c * f i j) = c * double (inc s) n f.
Proof. rewrite !double_square. apply (square_scal (countOf s n) c (fun p q => f (idxOf s p) (idxOf s q))). Qed.
Lemma double_plus n f g : double (inc s) n (fun i j => f i j + g i j) = double (inc s) n f + double (inc s) n g.
Proof. rewrite !double_square. apply (square_plus (countOf s n) (fun p q => f (idxOf s p) (idxOf s q)) (fun p q => g (idxOf s p) (idxOf s q))). Qed.

(** ** Load and deflection *)
Hypothesis AL : 0 < alpha s.
Hypothesis BE : 0 < beta s.
Lemma am_pos m : (1 <= m)%nat -> 0 < alpha s * INR m. Proof. intros H. apply Rmult_lt_0_compat; [assumption|]. apply lt_0_INR. lia. Qed.
Lemma bn_pos m : (1 <= m)%nat -> 0 < beta s * INR m. Proof. intros H. apply Rmult_lt_0_compat; [assumption|]. apply lt_0_INR. lia. Qed.
Definition loadSeries (n : nat) (x y : R) : R := double (inc s) n (fun p q => factor s * pzmn s p q * (sin (alpha s * INR p * x) * sin (beta s * INR q * y))).
Lemma moments_equilibrium n x y : momentEquilibrium (fun x y => ser c0 x y 0 n) (fun x y => ser c1 x y 0 n) (fun x y => ser c2' x y 0 n) (loadSeries n x y) x y.
Proof.
  assert (P0 : proj c0) by now left. assert (P1 : proj c1) by (right; now left). assert (P2 : proj c2') by (right; now right).
  exists (fun x y => ser c0 x y 1 n), (fun x y => ser c2' x y 1 n), (fun x y => ser c1 x y 2 n), (ser c0 x y 11 n), (ser c2' x y 12 n), (ser c1 x y 22 n).
  refine (conj (fun u v => proj1 (series_derive c0 n u v P0)) (conj (proj1 (proj2 (proj2 (series_derive c0 n x y P0))))
    (conj (fun u v => proj1 (series_derive c2' n u v P2)) (conj (proj1 (proj2 (proj2 (proj2 (proj2 (series_derive c2' n x y P2))))))
    (conj (fun u v => proj1 (proj2 (series_derive c1 n u v P1))) (conj (proj1 (proj2 (proj2 (proj2 (series_derive c1 n x y P1))))) _)))))).
  unfold ser, loadSeries. rewrite <- !double_scal. rewrite <- !double_plus. replace (- double (inc s) n (fun p q : nat => factor s * pzmn s p q * (sin (alpha s * INR p * x) * sin (beta s * INR q * y)))) with ((-1) * double (inc s) n (fun p q : nat => factor s * pzmn s p q * (sin (alpha s * INR p * x) * sin (beta s * INR q * y)))) by ring.
  rewrite <- double_scal. apply double_ext. intros i j I J. assert (A := am_pos i I). assert (B := bn_pos j J).
  unfold c0, c1, c2', addTerms; cbv zeta; cbn [fst snd]. set (a := alpha s * INR i) in *. set (b := beta s * INR j) in *. field. nra.
Qed.
Definition dispFactor (D : R) : R := if (typ s =? 1)%nat then 4 * (pz s / D) / (c2 s * d2 s) else 16 * (pz s / D) / (PI * PI).
Definition coef (i j : nat) : R := pzmn s i j / ((alpha s * INR i * (alpha s * INR i) + beta s * INR j * (beta s * INR j)) * (alpha s * INR i * (alpha s * INR i) + beta s * INR j * (beta s * INR j))).
Hypothesis TY : (typ s <= 2)%nat.
Lemma disp_form D x y : displ s D x y = dispFactor D * double (inc s) (dispMax s) (fun i j => coef i j * (sin (alpha s * INR i * x) * sin (beta s * INR j * y))).
Proof.
  unfold displ, dispSum. fold (dispFactor D). rewrite Rmult_comm. f_equal. rewrite double_square. apply square_ext. intros p q.
  assert (I : (1 <= idxOf s p)%nat) by apply idx_pos. assert (J : (1 <= idxOf s q)%nat) by apply idx_pos. set (i := idxOf s p) in *. set (j := idxOf s q) in *.
  assert (A := am_pos i I). assert (B := bn_pos j J). assert (Pi := lt_0_INR i ltac:(lia)). assert (Pj := lt_0_INR j ltac:(lia)). unfold dispTerm, coef, pzmn. cbv zeta.
  set (a := alpha s * INR i) in *. set (b := beta s * INR j) in *. assert (0 < a * a + b * b) by nra.
  destruct (typ s) as [|[|[|z]]]; [..|lia]; field; repeat split; lra.
Qed.
Lemma disp_curvatures D x y : let g f n := dispFactor D * double (inc s) (dispMax s) (fun i j => coef i j * f i j n) in
  curvatures (displ s D) x y
    (g (fun i j (_ : nat) => - (alpha s * INR i * (alpha s * INR i)) * (sin (alpha s * INR i * x) * sin (beta s * INR j * y))) 0%nat)
    (g (fun i j (_ : nat) => - (beta s * INR j * (beta s * INR j)) * (sin (alpha s * INR i * x) * sin (beta s * INR j * y))) 0%nat)
    (g (fun i j (_ : nat) => alpha s * INR i * (beta s * INR j) * (cos (alpha s * INR i * x) * cos (beta s * INR j * y))) 0%nat).
Proof.
  cbv zeta. set (N := dispMax s).
  exists (fun x y => dispFactor D * double (inc s) N (fun i j => coef i j * (alpha s * INR i * (cos (alpha s * INR i * x) * sin (beta s * INR j * y))))),
         (fun x y => dispFactor D * double (inc s) N (fun i j => coef i j * (beta s * INR j * (sin (alpha s * INR i * x) * cos (beta s * INR j * y))))).
  refine (conj _ (conj _ (conj _ (conj _ _)))).
  - intros u v. apply (is_derive_ext (fun u => dispFactor D * double (inc s) N (fun i j => coef i j * (sin (alpha s * INR i * u) * sin (beta s * INR j * v))))); [intros; symmetry; apply disp_form|].
    apply is_derive_scal. apply (double_derive N (fun i j u => coef i j * (sin (alpha s * INR i * u) * sin (beta s * INR j * v)))). intros i j. apply is_derive_scal. auto_derive; [easy|ring].
  - intros u v. apply (is_derive_ext (fun v => dispFactor D * double (inc s) N (fun i j => coef i j * (sin (alpha s * INR i * u) * sin (beta s * INR j * v))))); [intros; symmetry; apply disp_form|].
    apply is_derive_scal. apply (double_derive N (fun i j v => coef i j * (sin (alpha s * INR i * u) * sin (beta s * INR j * v)))). intros i j. apply is_derive_scal. auto_derive; [easy|ring].
  - apply is_derive_scal. apply (double_derive N (fun i j u => coef i j * (alpha s * INR i * (cos (alpha s * INR i * u) * sin (beta s * INR j * y))))). intros i j. apply is_derive_scal. auto_derive; [easy|ring].
  - apply is_derive_scal. apply (double_derive N (fun i j u => coef i j * (beta s * INR j * (sin (alpha s * INR i * x) * cos (beta s * INR j * u))))). intros i j. apply is_derive_scal. auto_derive; [easy|ring].
  - apply is_derive_scal. apply (double_derive N (fun i j u => coef i j * (alpha s * INR i * (cos (alpha s * INR i * x) * sin (beta s * INR j * u))))). intros i j. apply is_derive_scal. auto_derive; [easy|ring].
Qed.
Hypothesis PT : typ s = 1%nat -> c2 s * alpha s = PI /\ d2 s * beta s = PI.
Lemma factors D : D <> 0 -> factor s = D * dispFactor D.
Proof.
  intros HD. unfold factor, dispFactor. assert (P := PI_RGT_0). destruct (Nat.eqb_spec (typ s) 1) as [E|E]; [|field; lra].
  destruct (PT E) as [E1 E2]. assert (c2 s <> 0) by (intros Z; rewrite Z in E1; lra). assert (d2 s <> 0) by (intros Z; rewrite Z in E2; lra).
  assert (A : alpha s = PI / c2 s) by (rewrite <- E1; field; assumption). assert (B : beta s = PI / d2 s) by (rewrite <- E2; field; assumption). rewrite A, B. field. repeat split; lra.
Qed.
Lemma moments_of_deflection D x y : D <> 0 -> exists wxx wyy wxy, curvatures (displ s D) x y wxx wyy wxy /\
  plateMoments D (nuN s) wxx wyy wxy (ser c0 x y 0 (dispMax s)) (ser c1 x y 0 (dispMax s)) (ser c2' x y 0 (dispMax s)).
Proof.
  intros HD. do 3 eexists. split; [apply disp_curvatures|]. cbv beta. unfold plateMoments, ser. rewrite (factors D HD). set (K := dispFactor D). set (N := dispMax s).
  assert (L : forall f g, (forall i j, (1 <= i)%nat -> (1 <= j)%nat -> f i j = g i j) -> D * K * double (inc s) N f = D * (K * double (inc s) N g)) by (intros f g H; rewrite (double_ext N f g H); ring).
  refine (conj _ (conj _ _)).
  - transitivity (D * (K * double (inc s) N (fun i j => - (1) * (coef i j * (- (alpha s * INR i * (alpha s * INR i)) * (sin (alpha s * INR i * x) * sin (beta s * INR j * y))) + nuN s * (coef i j * (- (beta s * INR j * (beta s * INR j)) * (sin (alpha s * INR i * x) * sin (beta s * INR j * y)))))))).
    + apply L. intros. unfold c0, addTerms, coef; cbv zeta; cbn [fst snd]. ring.
    + rewrite double_scal, double_plus, double_scal. ring.
  - transitivity (D * (K * double (inc s) N (fun i j => - (1) * (coef i j * (- (beta s * INR j * (beta s * INR j)) * (sin (alpha s * INR i * x) * sin (beta s * INR j * y))) + nuN s * (coef i j * (- (alpha s * INR i * (alpha s * INR i)) * (sin (alpha s * INR i * x) * sin (beta s * INR j * y)))))))).
    + apply L. intros. unfold c1, addTerms, coef; cbv zeta; cbn [fst snd]. ring.
    + rewrite double_scal, double_plus, double_scal. ring.
  - transitivity (D * (K * double (inc s) N (fun i j => - (1 - nuN s) * (coef i j * (alpha s * INR i * (beta s * INR j) * (cos (alpha s * INR i * x) * cos (beta s * INR j * y))))))).
    + apply L. intros. unfold c2', addTerms, coef; cbv zeta; cbn [fst snd]. ring.
    + rewrite double_scal. ring.
Qed.
End Nav.
