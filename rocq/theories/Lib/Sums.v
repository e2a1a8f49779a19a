(** Algebra of finite sums. *)
From Verif.Lib Require Import Base.

Lemma sumf_ext n f g : (forall i, (1 <= i <= n)%nat -> f i = g i) -> sumf n f = sumf n g.
Proof. induction n; cbn; intros H; [reflexivity|]. rewrite IHn, H by (intros; try apply H; lia). reflexivity. Qed.

Lemma sumf_plus n f g : sumf n (fun i => f i + g i) = sumf n f + sumf n g.
Proof. induction n; cbn; [ring|rewrite IHn; ring]. Qed.

Lemma sumf_minus n f g : sumf n (fun i => f i - g i) = sumf n f - sumf n g.
Proof. induction n; cbn; [ring|rewrite IHn; ring]. Qed.

Lemma sumf_scal n c f : sumf n (fun i => c * f i) = c * sumf n f.
Proof. induction n; cbn; [ring|rewrite IHn; ring]. Qed.

Lemma sumf_scal_r n c f : sumf n (fun i => f i * c) = sumf n f * c.
Proof. induction n; cbn; [ring|rewrite IHn; ring]. Qed.

Lemma sumf_opp n f : sumf n (fun i => - f i) = - sumf n f.
Proof. induction n; cbn; [ring|rewrite IHn; ring]. Qed.

Lemma sumf_0 n f : (forall i, (1 <= i <= n)%nat -> f i = 0) -> sumf n f = 0.
Proof. intros H; induction n; cbn; [reflexivity|]. rewrite IHn, H by (intros; try apply H; lia). ring. Qed.

Lemma sumf_const n c : sumf n (fun _ => c) = INR n * c.
Proof. induction n; [cbn; ring|]. rewrite S_INR. cbn [sumf]. rewrite IHn; ring. Qed.

Lemma sumf_swap n m f :
  sumf n (fun i => sumf m (fun j => f i j)) = sumf m (fun j => sumf n (fun i => f i j)).
Proof.
  induction n; cbn.
  - symmetry; apply sumf_0; reflexivity.
  - rewrite IHn, <- sumf_plus. reflexivity.
Qed.

Lemma sumf_nonneg n f : (forall i, (1 <= i <= n)%nat -> 0 <= f i) -> 0 <= sumf n f.
Proof.
  induction n; cbn; intros H; [lra|].
  assert (0 <= sumf n f) by (apply IHn; intros; apply H; lia).
  assert (0 <= f (S n)) by (apply H; lia). lra.
Qed.

Lemma sumf_kron n k f : (1 <= k <= n)%nat -> sumf n (fun i => kron i k * f i) = f k.
Proof.
  induction n; intros H; [lia|]. cbn [sumf].
  destruct (Nat.eq_dec k (S n)) as [->|Hk].
  - rewrite sumf_0; [unfold kron; rewrite Nat.eqb_refl; ring|].
    intros i Hi; unfold kron. replace (Nat.eqb i (S n)) with false; [ring|].
    symmetry; apply Nat.eqb_neq; lia.
  - rewrite IHn by lia. unfold kron. replace (Nat.eqb (S n) k) with false; [ring|].
    symmetry; apply Nat.eqb_neq; lia.
Qed.

Lemma sumf_split n m f : sumf (n + m) f = sumf n f + sumf m (fun i => f (n + i)%nat).
Proof.
  induction m; [rewrite Nat.add_0_r; cbn; ring|].
  rewrite Nat.add_succ_r. cbn [sumf]. rewrite IHm. rewrite Nat.add_succ_r. ring.
Qed.

Lemma sumL_app {A} (f : A -> R) l1 l2 : sumL f (l1 ++ l2) = sumL f l1 + sumL f l2.
Proof. induction l1 as [|a l1 IH]; [unfold sumL; cbn; ring|]. cbn [app]. unfold sumL in *; cbn; rewrite IH; ring. Qed.

Lemma sumL_plus {A} (f g : A -> R) l : sumL (fun a => f a + g a) l = sumL f l + sumL g l.
Proof. induction l as [|a l IH]; unfold sumL in *; cbn; [ring|rewrite IH; ring]. Qed.

Lemma sumL_scal {A} c (f : A -> R) l : sumL (fun a => c * f a) l = c * sumL f l.
Proof. induction l as [|a l IH]; unfold sumL in *; cbn; [ring|rewrite IH; ring]. Qed.

Lemma sumL_ext {A} (f g : A -> R) l : (forall a, In a l -> f a = g a) -> sumL f l = sumL g l.
Proof.
  induction l as [|a l IH]; intros H; [reflexivity|]. unfold sumL in *; cbn.
  rewrite H by (left; reflexivity). rewrite IH; [reflexivity|]. intros; apply H; right; assumption.
Qed.

Lemma sumL_nonneg {A} (f : A -> R) l : (forall a, In a l -> 0 <= f a) -> 0 <= sumL f l.
Proof.
  induction l as [|a l IH]; intros H; [unfold sumL; cbn; lra|]. unfold sumL in *; cbn.
  assert (0 <= f a) by (apply H; left; reflexivity).
  assert (0 <= fold_right (fun b s => f b + s) 0 l) by (apply IH; intros; apply H; right; assumption). lra.
Qed.

Lemma sumL_sumf_swap {A} n (f : A -> nat -> R) l :
  sumL (fun a => sumf n (f a)) l = sumf n (fun i => sumL (fun a => f a i) l).
Proof.
  induction l as [|a l IH]; unfold sumL in *; cbn.
  - symmetry; apply sumf_0; reflexivity.
  - rewrite IH, <- sumf_plus; reflexivity.
Qed.
