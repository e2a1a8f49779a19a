(** Congruence products B^T C B (B has m rows and n columns), used by all stiffness kernels. *)
From Verif.Lib Require Import Base Sums.

Definition cong (m : nat) (B C : nat -> nat -> R) (i j : nat) : R :=
  sumf m (fun k => B k i * sumf m (fun l => C k l * B l j)).

Lemma mv_ext n A A' x x' i : (forall j, (1 <= j <= n)%nat -> A i j = A' i j) -> (forall j, (1 <= j <= n)%nat -> x j = x' j) ->
  mv n A x i = mv n A' x' i.
Proof. intros HA Hx. unfold mv. apply sumf_ext. intros j Hj. rewrite HA, Hx by assumption. reflexivity. Qed.

Lemma quad_ext n A A' x x' : (forall i j, (1 <= i <= n)%nat -> (1 <= j <= n)%nat -> A i j = A' i j) ->
  (forall j, (1 <= j <= n)%nat -> x j = x' j) -> quad n A x = quad n A' x'.
Proof.
  intros HA Hx. unfold quad. apply sumf_ext. intros i Hi. rewrite Hx by assumption. f_equal.
  apply mv_ext; [intros; apply HA; assumption|assumption].
Qed.

(** (B^T C B) x = B^T (C (B x)) *)
Lemma cong_mv n m B C x i : mv n (cong m B C) x i = sumf m (fun k => B k i * mv m C (mv n B x) k).
Proof.
  unfold mv, cong.
  transitivity (sumf n (fun j => sumf m (fun k => B k i * (sumf m (fun l => C k l * B l j) * x j)))).
  { apply sumf_ext. intros j _. rewrite <- sumf_scal_r. apply sumf_ext. intros k _. ring. }
  rewrite sumf_swap. apply sumf_ext. intros k _. rewrite sumf_scal. f_equal.
  transitivity (sumf n (fun j => sumf m (fun l => C k l * (B l j * x j)))).
  { apply sumf_ext. intros j _. rewrite <- sumf_scal_r. apply sumf_ext. intros l _. ring. }
  rewrite sumf_swap. apply sumf_ext. intros l _. rewrite sumf_scal. reflexivity.
Qed.

Lemma bilinear_swap n m B x y : sumf n (fun i => x i * sumf m (fun k => B k i * y k)) = sumf m (fun k => mv n B x k * y k).
Proof.
  transitivity (sumf n (fun i => sumf m (fun k => B k i * x i * y k))).
  { apply sumf_ext. intros i _. rewrite <- sumf_scal. apply sumf_ext. intros k _. ring. }
  rewrite sumf_swap. apply sumf_ext. intros k _. unfold mv. rewrite <- sumf_scal_r. reflexivity.
Qed.

Lemma cong_quad n m B C x : quad n (cong m B C) x = quad m C (mv n B x).
Proof.
  unfold quad. rewrite <- (bilinear_swap n m B x (mv m C (mv n B x))). apply sumf_ext. intros i _. rewrite cong_mv. reflexivity.
Qed.

Lemma cong_symm n m B C : symm m C -> symm n (cong m B C).
Proof.
  intros HC i j Hi Hj. unfold cong.
  transitivity (sumf m (fun k => sumf m (fun l => B k i * (C k l * B l j)))).
  { apply sumf_ext. intros k _. rewrite sumf_scal. reflexivity. }
  rewrite sumf_swap. apply sumf_ext. intros l Hl. rewrite <- sumf_scal. apply sumf_ext. intros k Hk.
  rewrite (HC k l) by assumption. ring.
Qed.

Lemma cong_psd n m B C x : (forall y, 0 <= quad m C y) -> 0 <= quad n (cong m B C) x.
Proof. intros H. rewrite cong_quad. apply H. Qed.
