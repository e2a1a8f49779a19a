(** Tractions on the edges of the L-shape reference solution: enclosures of pi, sine and cosine. *)
From Coq Require Import Machin Ratan.
From Coquelicot Require Import Coquelicot.
From Verif Require Import Lib.Base Model.Analytic Spec.Analytic Proofs.Lshape.

Lemma pi_bounds : 3.14159265358 <= PI <= 3.14159265360.
Proof.
  destruct (PI_2_3_7_ineq 6) as [H1 H2]. unfold PI_2_3_7_tg, tg_alt, Ratan_seq in *. cbn [sum_f_R0 Nat.mul Nat.add] in *.
  rewrite ?INR_IZR_INZ in *. cbn -[IZR pow Rdiv Rmult] in *. cbn [pow] in *. split; lra.
Qed.

Definition phi : R := 455516263 / 1000000000 * 3 / 4 * PI.
Definition plo : R := 1.07328490907.
Definition phh : R := 1.07328490908.
Lemma phi_bounds : plo <= phi <= phh.
Proof. unfold phi, plo, phh. destruct pi_bounds. split; lra. Qed.
(* factorials without large unary numbers *)
Lemma fact_S n : INR (fact (S n)) = INR (S n) * INR (fact n). Proof. now rewrite fact_simpl, mult_INR. Qed.
Lemma fact_0 : INR (fact 0) = 1. Proof. reflexivity. Qed.
Ltac taylor H := unfold sin_approx, sin_term, cos_approx, cos_term in H; cbn [sum_f_R0 Nat.mul Nat.add] in H; rewrite ?fact_S, ?fact_0, ?INR_IZR_INZ in H;
  cbn [Z.of_nat Pos.of_succ_nat Pos.succ pow] in H.
Lemma sin_phi : 0.8787729331 <= sin phi <= 0.8787729332.
Proof.
  destruct phi_bounds as [L U]. destruct pi_bounds as [P1 P2].
  assert (S1 : sin plo <= sin phi) by (apply sin_incr_1; unfold plo, phh in *; lra).
  assert (S2 : sin phi <= sin phh) by (apply sin_incr_1; unfold plo, phh in *; lra).
  destruct (sin_bound plo 3) as [A _]; [unfold plo; lra..|]. destruct (sin_bound phh 3) as [_ B]; [unfold phh; lra..|].
  taylor A. taylor B. unfold plo, phh in *. split; lra.
Qed.
Lemma cos_phi : 0.4772401198 <= cos phi <= 0.4772401200.
Proof.
  destruct phi_bounds as [L U]. destruct pi_bounds as [P1 P2].
  assert (S1 : cos phi <= cos plo) by (apply cos_decr_1; unfold plo, phh in *; lra).
  assert (S2 : cos phh <= cos phi) by (apply cos_decr_1; unfold plo, phh in *; lra).
  destruct (cos_bound phh 3) as [A _]; [unfold phh; lra..|]. destruct (cos_bound plo 3) as [_ B]; [unfold plo; lra..|].
  taylor A. taylor B. unfold plo, phh in *. split; lra.
Qed.
(* the edges: angle 3 pi / 4 on both sides of the symmetry line *)
Lemma edge_angle t : 0 < t -> atan2 (ey t 0) (ex t 0) = 3 * (PI / 4) /\ atan2 (ey 0 t) (ex 0 t) = - (3 * (PI / 4)).
Proof.
  intros P. assert (K : 0 < sqrt (5 / 10)) by (apply sqrt_lt_R0; lra). unfold ex, ey, mh, ph, atan2.
  assert (M1 : - (t * sqrt (5 / 10)) < 0) by nra. assert (M2 : 0 < t * sqrt (5 / 10)) by nra.
  replace (t * - sqrt (5 / 10) + 0 * - sqrt (5 / 10)) with (- (t * sqrt (5 / 10))) by ring. replace (t * sqrt (5 / 10) + 0 * - sqrt (5 / 10)) with (t * sqrt (5 / 10)) by ring.
  replace (0 * - sqrt (5 / 10) + t * - sqrt (5 / 10)) with (- (t * sqrt (5 / 10))) by ring. replace (0 * sqrt (5 / 10) + t * - sqrt (5 / 10)) with (- (t * sqrt (5 / 10))) by ring.
  revert M1 M2. generalize (t * sqrt (5 / 10)). intros z M1 M2.
  destruct (Rlt_dec 0 (- z)); [lra|]. destruct (Rlt_dec (- z) 0); [|lra]. destruct (Rle_dec 0 z); [|lra]. destruct (Rle_dec 0 (- z)); [lra|].
  replace (z / - z) with (- (1)) by (field; lra). replace (- z / - z) with 1 by (field; lra). rewrite atan_opp, atan_1. split; lra.
Qed.
Lemma edge_values : let w := 3 * (PI / 4) in
  cos ((lambda - 1) * w) = cos phi /\ sin ((lambda - 1) * w) = - sin phi /\ cos ((lambda - 3) * w) = sin phi /\ sin ((lambda - 3) * w) = cos phi.
Proof.
  cbv zeta. replace ((lambda - 1) * (3 * (PI / 4))) with (- phi) by (unfold lambda, phi; field).
  replace ((lambda - 3) * (3 * (PI / 4))) with ((PI / 2 - phi) - 2 * PI) by (unfold lambda, phi; field).
  rewrite cos_neg, sin_neg. repeat split.
  - rewrite cos_minus, cos_2PI, sin_2PI, cos_shift. ring.
  - rewrite sin_minus, cos_2PI, sin_2PI, sin_shift. ring.
Qed.
Lemma edge_values' : let w := - (3 * (PI / 4)) in
  cos ((lambda - 1) * w) = cos phi /\ sin ((lambda - 1) * w) = sin phi /\ cos ((lambda - 3) * w) = sin phi /\ sin ((lambda - 3) * w) = - cos phi.
Proof.
  cbv zeta. destruct edge_values as [A [B [C D]]]. rewrite <- !Ropp_mult_distr_r, !cos_neg, !sin_neg, A, B, C, D. repeat split; ring.
Qed.
Lemma small c k e : 0 <= e -> Rabs c <= e -> Rabs (k * c) <= e * Rabs k.
Proof. intros E C. rewrite Rabs_mult, Rmult_comm. apply Rmult_le_compat_r; [apply Rabs_pos|exact C]. Qed.
Lemma residual1 : Rabs (lambda * (lambda + 1) * (cos phi - qL * sin phi)) <= / 10 ^ 9.
Proof. destruct sin_phi, cos_phi. unfold lambda, qL. apply Rabs_le. cbn [pow]. split; lra. Qed.
Lemma residual2 : Rabs (lambda * (- qL * (lambda + 1) * cos phi - (lambda - 1) * sin phi)) <= / 10 ^ 9.
Proof. destruct sin_phi, cos_phi. unfold lambda, qL. apply Rabs_le. cbn [pow]. split; lra. Qed.
Lemma lshape_edges a F0 nu t : 0 <= a -> a * / 10 ^ 32 < t ->
  let bound := / 10 ^ 9 * Rabs (F0 * Rpower t (lambda - 1)) in
  (Rabs (sxy (lshape a F0 nu t 0)) <= bound /\ Rabs (syy (lshape a F0 nu t 0)) <= bound) /\
  (Rabs (sxx (lshape a F0 nu 0 t)) <= bound /\ Rabs (sxy (lshape a F0 nu 0 t)) <= bound).
Proof.
  intros A H bound. assert (P0 : 0 <= a * / 10 ^ 32) by (apply Rmult_le_pos; [lra|left; apply Rinv_0_lt_compat, pow_lt; lra]). assert (P : 0 < t) by lra.
  assert (H1 : hypot t 0 = t) by (unfold hypot; replace (t * t + 0 * 0) with (t * t) by ring; apply sqrt_square; lra).
  assert (H2 : hypot 0 t = t) by (unfold hypot; replace (0 * 0 + t * t) with (t * t) by ring; apply sqrt_square; lra).
  rewrite (lshape_far a F0 nu t 0), (lshape_far a F0 nu 0 t) by (rewrite ?H1, ?H2; lra). unfold lshapeG. rewrite !rotation, H1, H2.
  destruct (edge_angle t P) as [E1 E2]. rewrite E1, E2. destruct edge_values as [V1 [V2 [V3 V4]]]. destruct edge_values' as [W1 [W2 [W3 W4]]].
  assert (Q := half_sq). assert (Z : 0 <= / 10 ^ 9) by (left; apply Rinv_0_lt_compat, pow_lt; lra).
  unfold lshapeLocal, transform; cbn [sxx syy sxy szz]. rewrite V1, V2, V3, V4, W1, W2, W3, W4, ph_mh. unfold bound. generalize (Rpower t (lambda - 1)). intros rr.
  assert (R1 := small _ (F0 * rr) _ Z residual1). assert (R2 := small _ (F0 * rr) _ Z residual2). revert R1 R2. generalize (/ 10 ^ 9) (cos phi) (sin phi). intros e c s R1 R2.
  assert (N1 : F0 * rr * (lambda * (lambda + 1) * (c - qL * s)) = 2 * (mh * mh) * (F0 * rr * (lambda * (lambda + 1) * (c - qL * s)))) by (rewrite Q; field).
  assert (N2 : F0 * rr * (lambda * (- qL * (lambda + 1) * c - (lambda - 1) * s)) = 2 * (mh * mh) * (F0 * rr * (lambda * (- qL * (lambda + 1) * c - (lambda - 1) * s)))) by (rewrite Q; field).
  rewrite N1 in R1. rewrite N2 in R2. clear N1 N2. split; split.
  - eapply Rle_trans; [|exact R2]. right. f_equal. ring.
  - eapply Rle_trans; [|exact R1]. right. f_equal. ring.
  - eapply Rle_trans; [|exact R1]. right. f_equal. ring.
  - eapply Rle_trans; [|exact R2]. right. f_equal. ring.
Qed.
(* the tractions of the rounded constants do not vanish *)
Lemma residual_nonzero : lambda * (- qL * (lambda + 1) * cos phi - (lambda - 1) * sin phi) < 0.
Proof. destruct sin_phi, cos_phi. unfold lambda, qL. lra. Qed.
Lemma along : 1 <= lambda * ((3 - lambda) * cos phi + qL * (lambda + 1) * sin phi).
Proof. destruct sin_phi, cos_phi. unfold lambda, qL. lra. Qed.
Lemma lshape_along a F0 nu t : 0 <= a -> a * / 10 ^ 32 < t ->
  Rabs (F0 * Rpower t (lambda - 1)) <= Rabs (sxx (lshape a F0 nu t 0)) /\ Rabs (F0 * Rpower t (lambda - 1)) <= Rabs (syy (lshape a F0 nu 0 t)).
Proof.
  intros A H. assert (P0 : 0 <= a * / 10 ^ 32) by (apply Rmult_le_pos; [lra|left; apply Rinv_0_lt_compat, pow_lt; lra]). assert (P : 0 < t) by lra.
  assert (H1 : hypot t 0 = t) by (unfold hypot; replace (t * t + 0 * 0) with (t * t) by ring; apply sqrt_square; lra).
  assert (H2 : hypot 0 t = t) by (unfold hypot; replace (0 * 0 + t * t) with (t * t) by ring; apply sqrt_square; lra).
  rewrite (lshape_far a F0 nu t 0), (lshape_far a F0 nu 0 t) by (rewrite ?H1, ?H2; lra). unfold lshapeG. rewrite !rotation, H1, H2.
  destruct (edge_angle t P) as [E1 E2]. rewrite E1, E2. destruct edge_values as [V1 [V2 [V3 V4]]]. destruct edge_values' as [W1 [W2 [W3 W4]]].
  assert (Q := half_sq). unfold lshapeLocal, transform; cbn [sxx syy sxy szz]. rewrite V1, V2, V3, V4, W1, W2, W3, W4, ph_mh. generalize (Rpower t (lambda - 1)). intros rr.
  assert (K := along). revert K. generalize (cos phi) (sin phi). intros c s K.
  assert (B : Rabs (F0 * rr) <= Rabs (2 * (mh * mh) * (F0 * rr) * (lambda * ((3 - lambda) * c + qL * (lambda + 1) * s)))).
  { rewrite Q. replace (2 * (5 / 10) * (F0 * rr)) with (F0 * rr) by field. rewrite (Rabs_mult (F0 * rr)). rewrite <- (Rmult_1_r (Rabs (F0 * rr))) at 1. apply Rmult_le_compat_l; [apply Rabs_pos|]. rewrite Rabs_pos_eq; lra. }
  split; (eapply Rle_trans; [exact B|]; right; f_equal; ring).
Qed.
