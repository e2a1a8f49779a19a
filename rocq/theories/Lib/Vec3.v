(** Vectors in three dimensions. *)
From Verif Require Import Lib.Base.

Record v3 := V { vx : R; vy : R; vz : R }.
Definition vadd a b := V (vx a + vx b) (vy a + vy b) (vz a + vz b).
Definition vsub a b := V (vx a - vx b) (vy a - vy b) (vz a - vz b).
Definition vscal k a := V (k * vx a) (k * vy a) (k * vz a).
Definition vdot a b := vx a * vx b + vy a * vy b + vz a * vz b.
Definition vcross a b := V (vy a * vz b - vz a * vy b) (vz a * vx b - vx a * vz b) (vx a * vy b - vy a * vx b).
Definition vlen a := sqrt (vdot a a).
Definition vzero := V 0 0 0.
(** Component 1..3. *)
Definition vc (a : v3) (i : nat) : R := match i with 1%nat => vx a | 2%nat => vy a | _ => vz a end.

Ltac vring := intros; repeat match goal with a : v3 |- _ => destruct a end;
  unfold vadd, vsub, vscal, vdot, vcross, vzero in *; cbn [vx vy vz] in *; try ring.
Ltac veq := intros; repeat match goal with a : v3 |- _ => destruct a end;
  unfold vadd, vsub, vscal, vdot, vcross, vzero in *; cbn [vx vy vz] in *; f_equal; try ring.

Lemma v_ext a b : vx a = vx b -> vy a = vy b -> vz a = vz b -> a = b.
Proof. destruct a, b; cbn; intros -> -> ->; reflexivity. Qed.
Lemma vdot_sym a b : vdot a b = vdot b a. Proof. vring. Qed.
Lemma vdot_add_r a b c : vdot a (vadd b c) = vdot a b + vdot a c. Proof. vring. Qed.
Lemma vdot_add_l a b c : vdot (vadd b c) a = vdot b a + vdot c a. Proof. vring. Qed.
Lemma vdot_sub_r a b c : vdot a (vsub b c) = vdot a b - vdot a c. Proof. vring. Qed.
Lemma vdot_sub_l a b c : vdot (vsub b c) a = vdot b a - vdot c a. Proof. vring. Qed.
Lemma vdot_scal_r a b k : vdot a (vscal k b) = k * vdot a b. Proof. vring. Qed.
Lemma vdot_scal_l a b k : vdot (vscal k a) b = k * vdot a b. Proof. vring. Qed.
Lemma vdot_pos a : 0 <= vdot a a.
Proof. destruct a as [x y z]. unfold vdot; cbn. assert (H1 := Rle_0_sqr x). assert (H2 := Rle_0_sqr y). assert (H3 := Rle_0_sqr z). unfold Rsqr in *. lra. Qed.
Lemma vlen_pos a : 0 <= vlen a. Proof. apply sqrt_pos. Qed.
Lemma vlen_sq a : vlen a * vlen a = vdot a a.
Proof. apply sqrt_sqrt, vdot_pos. Qed.
Lemma lagrange a b : vdot (vcross a b) (vcross a b) = vdot a a * vdot b b - vdot a b * vdot a b.
Proof. vring. Qed.
Lemma cross_dot_l a b : vdot a (vcross a b) = 0. Proof. vring. Qed.
Lemma cross_dot_r a b : vdot b (vcross a b) = 0. Proof. vring. Qed.
Lemma triple a b c : vcross a (vcross b c) = vsub (vscal (vdot a c) b) (vscal (vdot a b) c).
Proof. veq. Qed.
Lemma cauchy_sq a b : vdot a b * vdot a b <= vdot a a * vdot b b.
Proof. assert (H := vdot_pos (vcross a b)). rewrite lagrange in H. lra. Qed.
Lemma cauchy a b : vdot a b <= vlen a * vlen b.
Proof.
  destruct (Rle_lt_dec (vdot a b) 0) as [H|H]; [assert (P := vlen_pos a); assert (Q := vlen_pos b); nra|].
  apply Rsqr_incr_0_var; [|apply Rmult_le_pos; apply vlen_pos]. unfold Rsqr.
  replace (vlen a * vlen b * (vlen a * vlen b)) with ((vlen a * vlen a) * (vlen b * vlen b)) by ring. rewrite !vlen_sq. apply cauchy_sq.
Qed.
Lemma vlen_scal k a : vlen (vscal k a) = Rabs k * vlen a.
Proof.
  unfold vlen. rewrite vdot_scal_l, vdot_scal_r, <- Rmult_assoc, sqrt_mult_alt by apply Rle_0_sqr.
  change (k * k) with (Rsqr k). rewrite sqrt_Rsqr_abs. reflexivity.
Qed.
Lemma vlen_eq_sq a k : 0 <= k -> vdot a a = k * k -> vlen a = k.
Proof. intros K E. unfold vlen. rewrite E. apply sqrt_square, K. Qed.
Lemma triangle a b : Rabs (vlen a - vlen b) <= vlen (vsub a b).
Proof.
  assert (Pa := vlen_pos a). assert (Pb := vlen_pos b). assert (C := cauchy a b). assert (P := vlen_pos (vsub a b)).
  assert (S := vlen_sq (vsub a b)). rewrite vdot_sub_l, !vdot_sub_r, (vdot_sym b a), <- (vlen_sq a), <- (vlen_sq b) in S.
  apply Rabs_le. split.
  - apply Rnot_lt_le. intros L. nra.
  - apply Rnot_lt_le. intros L. nra.
Qed.
Lemma vlen_zero a : vlen a = 0 -> a = vzero.
Proof.
  intros H. assert (S := vlen_sq a). rewrite H in S. destruct a as [x y z]. unfold vdot in S; cbn in S.
  assert (H1 := Rle_0_sqr x). assert (H2 := Rle_0_sqr y). assert (H3 := Rle_0_sqr z). unfold Rsqr in *.
  assert (X : x * x = 0) by lra. assert (Y : y * y = 0) by lra. assert (Z : z * z = 0) by lra.
  apply Rsqr_0_uniq in X. apply Rsqr_0_uniq in Y. apply Rsqr_0_uniq in Z. subst. reflexivity.
Qed.
