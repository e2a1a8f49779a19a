(** Load coefficients, early termination, circular plate (C56) and heated pipe (C87). *)
From Coquelicot Require Import Coquelicot.
From Coq Require Import Lia.
From Verif Require Import Lib.Base Lib.Sums Spec.Analytic Spec.PlateSol Model.Analytic Proofs.Analytic Proofs.PlateSol.

Lemma cos_mPI m : cos (INR m * PI) = if Nat.odd m then - (1) else 1.
Proof.
  induction m as [|m IH]; [rewrite Rmult_0_l; apply cos_0|]. rewrite S_INR, Rmult_plus_distr_r, Rmult_1_l, neg_cos, IH, Nat.odd_succ, <- Nat.negb_odd. destruct (Nat.odd m); cbn; ring.
Qed.
Lemma sin_int a m x1 x2 : 0 < a -> (1 <= m)%nat ->
  is_RInt (fun x => sin (INR m * PI * x / a)) x1 x2 (a / (INR m * PI) * (cos (INR m * PI * x1 / a) - cos (INR m * PI * x2 / a))).
Proof.
  intros A M. assert (P := PI_RGT_0). assert (Q := lt_0_INR m ltac:(lia)). assert (Z : INR m * PI <> 0) by nra.
  evar_last. apply (poly_int (fun x => - (a / (INR m * PI)) * cos (INR m * PI * x / a)) (fun x => sin (INR m * PI * x / a))).
  - intros z. auto_derive; [easy|]. unfold Rdiv. field. repeat split; lra.
  - intros z. auto_derive. easy.
  - ring.
Qed.
(* uniform pressure *)
Lemma uniform_load a b nu P N m n : 0 < a -> 0 < b -> (1 <= m)%nat -> (1 <= n)%nat -> Nat.odd m = true -> Nat.odd n = true ->
  let s := navierUniform a b nu P N in fourier a b P 0 a 0 b m n (factor s * pzmn s m n).
Proof.
  intros A B M Nn OM ON s. exists (2 * a / (INR m * PI)), (2 * b / (INR n * PI)). assert (PP := PI_RGT_0). assert (Q := lt_0_INR m ltac:(lia)). assert (Q' := lt_0_INR n ltac:(lia)).
  split; [|split].
  - evar_last. now apply sin_int. replace (INR m * PI * 0 / a) with 0 by (field; lra). replace (INR m * PI * a / a) with (INR m * PI) by (field; lra). rewrite cos_0, cos_mPI, OM. field. split; nra.
  - evar_last. now apply sin_int. replace (INR n * PI * 0 / b) with 0 by (field; lra). replace (INR n * PI * b / b) with (INR n * PI) by (field; lra). rewrite cos_0, cos_mPI, ON. field. split; nra.
  - unfold s, factor, pzmn, navierUniform; cbn. field. repeat split; lra.
Qed.
Lemma uniform_skipped a b P m n : 0 < a -> 0 < b -> (1 <= m)%nat -> (1 <= n)%nat -> Nat.odd m = false \/ Nat.odd n = false -> fourier a b P 0 a 0 b m n 0.
Proof.
  intros A B M Nn O. assert (PP := PI_RGT_0). assert (Q := lt_0_INR m ltac:(lia)). assert (Q' := lt_0_INR n ltac:(lia)).
  assert (HX : is_RInt (fun x => sin (INR m * PI * x / a)) 0 a (a / (INR m * PI) * (1 - (if Nat.odd m then - (1) else 1)))).
  { evar_last. now apply sin_int. replace (INR m * PI * 0 / a) with 0 by (field; lra). replace (INR m * PI * a / a) with (INR m * PI) by (field; lra). now rewrite cos_0, cos_mPI. }
  assert (HY : is_RInt (fun x => sin (INR n * PI * x / b)) 0 b (b / (INR n * PI) * (1 - (if Nat.odd n then - (1) else 1)))).
  { evar_last. now apply sin_int. replace (INR n * PI * 0 / b) with 0 by (field; lra). replace (INR n * PI * b / b) with (INR n * PI) by (field; lra). now rewrite cos_0, cos_mPI. }
  do 2 eexists. split; [exact HX|]. split; [exact HY|]. destruct O as [O|O]; rewrite O; ring.
Qed.
(* pressure on a rectangle *)
Lemma partial_fields a b nu P xi_ eta_ c d N : c <> 0 -> d <> 0 -> let s := navierPartial a b nu P xi_ eta_ c d N in
  typ s = 2%nat /\ alpha s = PI / a /\ beta s = PI / b /\ pz s = P /\ xi s = xi_ * a /\ eta s = eta_ * b /\ c2 s = 5 / 10 * c /\ d2 s = 5 / 10 * d.
Proof. intros C D s. unfold s, navierPartial. destruct (Req_EM_T c 0); [contradiction|]. destruct (Req_EM_T d 0); [contradiction|]. now cbn. Qed.
Lemma point_fields a b nu P xi_ eta_ c d N : c = 0 \/ d = 0 -> let s := navierPartial a b nu P xi_ eta_ c d N in
  typ s = 1%nat /\ alpha s = PI / a /\ beta s = PI / b /\ pz s = P /\ xi s = xi_ * a /\ eta s = eta_ * b /\ c2 s = a /\ d2 s = b.
Proof. intros C s. unfold s, navierPartial. destruct (Req_EM_T c 0); [now cbn|]. destruct (Req_EM_T d 0); [now cbn|]. tauto. Qed.
Lemma partial_load a b nu P xi_ eta_ c d N m n : 0 < a -> 0 < b -> c <> 0 -> d <> 0 -> (1 <= m)%nat -> (1 <= n)%nat ->
  let s := navierPartial a b nu P xi_ eta_ c d N in
  fourier a b P (xi_ * a - c / 2) (xi_ * a + c / 2) (eta_ * b - d / 2) (eta_ * b + d / 2) m n (factor s * pzmn s m n).
Proof.
  intros A B C D M Nn s. assert (PP := PI_RGT_0). assert (Q := lt_0_INR m ltac:(lia)). assert (Q' := lt_0_INR n ltac:(lia)).
  assert (G : forall a k x h, 0 < a -> (1 <= k)%nat -> is_RInt (fun z => sin (INR k * PI * z / a)) (x - h / 2) (x + h / 2) (2 * a / (INR k * PI) * (sin (PI / a * INR k * x) * sin (PI / a * INR k * (5 / 10 * h))))).
  { clear - PP. intros a k x h A K. assert (Q := lt_0_INR k ltac:(lia)). evar_last. now apply sin_int.
    replace (INR k * PI * (x - h / 2) / a) with (PI / a * INR k * x - PI / a * INR k * (5 / 10 * h)) by (field; lra).
    replace (INR k * PI * (x + h / 2) / a) with (PI / a * INR k * x + PI / a * INR k * (5 / 10 * h)) by (field; lra). rewrite cos_minus, cos_plus. field. lra. }
  do 2 eexists. split; [now apply G|]. split; [now apply G|].
  destruct (partial_fields a b nu P xi_ eta_ c d N C D) as [T [F1 [F2 [F3 [F4 [F5 [F6 F7]]]]]]]. fold s in T, F1, F2, F3, F4, F5, F6, F7.
  unfold factor, pzmn. rewrite T, F1, F2, F3, F4, F5, F6, F7. cbn [Nat.eqb]. field. repeat split; lra.
Qed.
Lemma point_load a b nu P xi_ eta_ c d N m n : 0 < a -> 0 < b -> c = 0 \/ d = 0 ->
  let s := navierPartial a b nu P xi_ eta_ c d N in factor s * pzmn s m n = fourierPoint a b P (xi_ * a) (eta_ * b) m n.
Proof.
  intros A B C s. assert (PP := PI_RGT_0). destruct (point_fields a b nu P xi_ eta_ c d N C) as [T [F1 [F2 [F3 [F4 [F5 [F6 F7]]]]]]]. fold s in T, F1, F2, F3, F4, F5, F6, F7.
  unfold factor, pzmn, fourierPoint. rewrite T, F1, F2, F3, F4, F5. cbn [Nat.eqb].
  replace (PI / a * INR m * (xi_ * a)) with (INR m * PI * (xi_ * a) / a) by (field; lra). replace (PI / b * INR n * (eta_ * b)) with (INR n * PI * (eta_ * b) / b) by (field; lra). field. repeat split; lra.
Qed.
(* the harmonics skipped for a centred load carry nothing *)
Lemma sin_half m : Nat.odd m = false -> sin (INR m * PI / 2) = 0.
Proof.
  intros H. rewrite <- Nat.negb_even in H. destruct (Nat.even m) eqn:E; [|discriminate]. apply Nat.even_spec in E. destruct E as [k ->]. rewrite mult_INR. cbn [INR].
  replace ((1 + 1) * INR k * PI / 2) with (INR k * PI) by field. clear. induction k as [|k IH]; [rewrite Rmult_0_l; apply sin_0|].
  rewrite S_INR, Rmult_plus_distr_r, Rmult_1_l, neg_sin, IH. ring.
Qed.
Lemma centred_skipped a b nu P c d N m n : 0 < a -> 0 < b -> Nat.odd m = false \/ Nat.odd n = false ->
  let s := navierPartial a b nu P (5 / 10) (5 / 10) c d N in pzmn s m n = 0.
Proof.
  intros A B O s. assert (E : alpha s = PI / a /\ beta s = PI / b /\ xi s = 5 / 10 * a /\ eta s = 5 / 10 * b) by (unfold s, navierPartial; now cbn).
  destruct E as [F1 [F2 [F3 F4]]]. assert (T : typ s = 1%nat \/ typ s = 2%nat).
  { destruct (Req_EM_T c 0); [left; apply point_fields; tauto|]. destruct (Req_EM_T d 0); [left; apply point_fields; tauto|]. right. apply partial_fields; assumption. }
  assert (Z : sin (alpha s * INR m * xi s) * sin (beta s * INR n * eta s) = 0).
  { rewrite F1, F2, F3, F4. destruct O as [O|O].
    - replace (PI / a * INR m * (5 / 10 * a)) with (INR m * PI / 2) by (field; lra). rewrite sin_half by assumption. ring.
    - replace (PI / b * INR n * (5 / 10 * b)) with (INR n * PI / 2) by (field; lra). rewrite (sin_half n) by assumption. ring. }
  unfold pzmn. destruct T as [T|T]; rewrite T; [exact Z|]. rewrite Z. unfold Rdiv. ring.
Qed.
Lemma centred_inc a b nu P c d N : inc (navierPartial a b nu P (5 / 10) (5 / 10) c d N) = 2%nat.
Proof. unfold navierPartial. cbn [inc]. destruct (Req_EM_T (5 / 10) (5 / 10)); [reflexivity|contradiction]. Qed.

(** ** Early termination *)
Section Early.
Variables (a b nu P : R) (N : nat).
Hypothesis A : 0 < a.
Hypothesis B : 0 < b.
Hypothesis HN : (3 <= N)%nat.
(* centred load on two thirds of the length and of the width *)
Definition patch : navier := navierPartial a b nu P (5 / 10) (5 / 10) (2 / 3 * a) (2 / 3 * b) N.
Lemma patch_fields : typ patch = 2%nat /\ alpha patch = PI / a /\ beta patch = PI / b /\ pz patch = P /\ xi patch = 5 / 10 * a /\ eta patch = 5 / 10 * b /\ c2 patch = 5 / 10 * (2 / 3 * a) /\ d2 patch = 5 / 10 * (2 / 3 * b).
Proof. apply partial_fields; nra. Qed.
Lemma third_zero m n : m = 3%nat \/ n = 3%nat -> pzmn patch m n = 0.
Proof.
  intros O. destruct patch_fields as [T [F1 [F2 [F3 [F4 [F5 [F6 F7]]]]]]]. unfold pzmn. rewrite T, F1, F2, F4, F5, F6, F7.
  assert (E : forall l, 0 < l -> sin (PI / l * INR 3 * (5 / 10 * (2 / 3 * l))) = 0) by (intros l L; replace (PI / l * INR 3 * (5 / 10 * (2 / 3 * l))) with PI by (cbn; field; lra); apply sin_PI).
  destruct O as [-> | ->]; rewrite E by assumption; unfold Rdiv; ring.
Qed.
Lemma third_terms x y m n d : m = 3%nat \/ n = 3%nat -> (d = 0 \/ d = 1 \/ d = 2 \/ d = 11 \/ d = 22 \/ d = 12 \/ d = 21)%nat -> addTerms patch x y m n d = (0, 0, 0).
Proof.
  intros O D. unfold addTerms. rewrite third_zero by assumption. unfold Rdiv. rewrite !Rmult_0_l. 
  destruct D as [->|[->|[->|[->|[->|[->| ->]]]]]]; cbv zeta; repeat (f_equal; try ring).
Qed.
Variable norm : R * R * R -> R.
Lemma stops_early x y : 0 < norm (addTerms patch x y 1 1 0) -> evaluate patch norm x y 0 = scal3 (factor patch) (addTerms patch x y 1 1 0).
Proof.
  intros H. assert (I2 : inc patch = 2%nat) by apply centred_inc. assert (MN : mxmn patch = N) by reflexivity.
  assert (INC : (1 <= inc patch)%nat) by (rewrite I2; lia).
  assert (I : idxOf patch 1 = 1%nat) by reflexivity. assert (I' : idxOf patch 2 = 3%nat) by (unfold idxOf; now rewrite I2).
  set (T := addTerms patch x y 1 1 0) in *.
  assert (S1 : sq3 patch x y 0 1 = T). { unfold sq3, square. cbn [sumf]. rewrite I. fold T. destruct T as [[t1 t2] t3]. cbn. repeat f_equal; ring. }
  assert (S2 : sq3 patch x y 0 2 = T).
  { unfold sq3, square. cbn [sumf]. rewrite I, I'. fold T. rewrite (third_terms x y 1 3 0), (third_terms x y 3 1 0), (third_terms x y 3 3 0) by auto. destruct T as [[t1 t2] t3]. cbn. repeat f_equal; ring. }
  unfold evaluate, summed. rewrite MN. destruct N as [|[|[|n]]]; [lia..|]. 
  assert (R1 : row patch x y 0 1 (0, 0, 0) = T) by (rewrite <- S1; exact (row_sq3 patch INC x y 0 1 (le_n 1))).
  assert (R2 : row patch x y 0 2 T = T) by (rewrite <- S2 at 2; rewrite <- S1 at 1; exact (row_sq3 patch INC x y 0 2 ltac:(lia))).
  cbn [outer]. rewrite I, MN. cbn [Nat.leb Nat.odd Nat.even negb]. rewrite R1.
  assert (E8 : 0 < eps < 1) by (unfold eps; split; [apply Rinv_0_lt_compat; lra|]; apply (Rmult_lt_reg_r (10 ^ 8)); [lra|]; rewrite Rinv_l; lra).
  destruct (Rlt_dec _ _) as [Q|_]; [exfalso; rewrite Rminus_0_r, Rabs_right in Q by lra; nra|]. cbn [outer]. change (1 + 1)%nat with 2%nat. rewrite I'. cbn [Nat.leb Nat.odd Nat.even negb]. rewrite R2.
  destruct (Rlt_dec _ _) as [_|Q]; [reflexivity|]. exfalso. apply Q. rewrite Rminus_diag_eq, Rabs_R0 by reflexivity. nra.
Qed.
End Early.
Lemma sin_quarters : sin (PI * INR 5 * (5 / 10)) = 1 /\ sin (PI * INR 1 * (5 / 10)) = 1 /\ sin (PI * INR 1 * (1 / 3)) = sqrt 3 / 2 /\ sin (PI * INR 5 * (1 / 3)) = - (sqrt 3 / 2).
Proof.
  split; [|split; [|split]].
  - replace (PI * INR 5 * (5 / 10)) with (PI / 2 + 2 * PI) by (cbn; field). rewrite sin_plus, cos_2PI, sin_2PI, sin_PI2. ring.
  - replace (PI * INR 1 * (5 / 10)) with (PI / 2) by (cbn; field). apply sin_PI2.
  - replace (PI * INR 1 * (1 / 3)) with (PI / 3) by (cbn; field). apply sin_PI3.
  - replace (PI * INR 5 * (1 / 3)) with (- (PI / 3) + 2 * PI) by (cbn; field). rewrite sin_plus, cos_2PI, sin_2PI, sin_neg, sin_PI3. ring.
Qed.
Lemma patch_differs norm : (forall M, c0 M <> 0 -> 0 < norm M) ->
  let s := patch 1 1 0 1 5 in c0 (evaluate s norm (5 / 10) (5 / 10) 0) <> ser s c0 (5 / 10) (5 / 10) 0 5.
Proof.
  intros NP s. assert (PP := PI_RGT_0). assert (I2 : inc s = 2%nat) by apply centred_inc. assert (INC : (1 <= inc s)%nat) by (rewrite I2; lia).
  destruct (patch_fields 1 1 0 1 5 Rlt_0_1 Rlt_0_1) as [T [F1 [F2 [F3 [F4 [F5 [F6 F7]]]]]]]. fold s in T, F1, F2, F3, F4, F5, F6, F7.
  assert (F0 : 0 < factor s). { unfold factor. rewrite T, F3. cbn. apply Rdiv_lt_0_compat; nra. }
  assert (S3 := sqrt_sqrt 3 ltac:(lra)). destruct sin_quarters as [Q1 [Q2 [Q3 Q4]]].
  assert (V : forall m n sm sn cm cn, sin (PI * INR m * (5 / 10)) = sm -> sin (PI * INR n * (5 / 10)) = sn -> sin (PI * INR m * (1 / 3)) = cm -> sin (PI * INR n * (1 / 3)) = cn -> 
    c0 (addTerms s (5 / 10) (5 / 10) m n 0) = sm * sn * cm * cn / (INR m * INR n) / ((PI * INR m * (PI * INR m) + PI * INR n * (PI * INR n)) * (PI * INR m * (PI * INR m) + PI * INR n * (PI * INR n))) * (PI * INR m * (PI * INR m)) * sm * sn).
  { intros m n sm sn cm cn <- <- <- <-. unfold c0, addTerms, pzmn. cbv zeta. rewrite T, F1, F2, F4, F5, F6, F7. change (nuN s) with 0. cbn [fst snd].
    replace (PI / 1) with PI by field. replace (5 / 10 * 1) with (5 / 10) by field. replace (5 / 10 * (2 / 3 * 1)) with (1 / 3) by field. ring. }
  assert (V11 := V _ _ _ _ _ _ Q2 Q2 Q3 Q3). assert (V15 := V _ _ _ _ _ _ Q2 Q1 Q3 Q4). assert (V51 := V _ _ _ _ _ _ Q1 Q2 Q4 Q3). assert (V55 := V _ _ _ _ _ _ Q1 Q1 Q4 Q4). clear V.
  assert (P2 : 0 < PI * PI) by nra. assert (I2p : 0 < / (PI * PI)) by now apply Rinv_0_lt_compat.
  assert (W11 : c0 (addTerms s (5 / 10) (5 / 10) 1 1 0) = 3 / 16 * / (PI * PI)). { rewrite V11. cbn [INR]. transitivity (sqrt 3 * sqrt 3 / 16 * / (PI * PI)); [field; lra|rewrite S3; ring]. }
  assert (W15 : c0 (addTerms s (5 / 10) (5 / 10) 1 5 0) = - 3 / 20 / 676 * / (PI * PI)). { rewrite V15. cbn [INR]. transitivity (- (sqrt 3 * sqrt 3) / 20 / 676 * / (PI * PI)); [field; lra|rewrite S3; field; lra]. }
  assert (W51 : c0 (addTerms s (5 / 10) (5 / 10) 5 1 0) = - 75 / 20 / 676 * / (PI * PI)). { rewrite V51. cbn [INR]. transitivity (- (sqrt 3 * sqrt 3) * 25 / 20 / 676 * / (PI * PI)); [field; lra|rewrite S3; field; lra]. }
  assert (W55 : c0 (addTerms s (5 / 10) (5 / 10) 5 5 0) = 3 / 10000 * / (PI * PI)). { rewrite V55. cbn [INR]. transitivity (sqrt 3 * sqrt 3 / 10000 * / (PI * PI)); [field; lra|rewrite S3; field; lra]. }
  assert (EV : evaluate s norm (5 / 10) (5 / 10) 0 = scal3 (factor s) (addTerms s (5 / 10) (5 / 10) 1 1 0)).
  { apply stops_early; try lra; try lia. apply NP. fold s. rewrite W11. lra. }
  rewrite EV. unfold ser. rewrite double_square by assumption.
  assert (C : countOf s 5 = 3%nat) by (unfold countOf; rewrite I2; reflexivity). rewrite C. unfold square. cbn [sumf].
  assert (J : idxOf s 1 = 1%nat /\ idxOf s 2 = 3%nat /\ idxOf s 3 = 5%nat) by (unfold idxOf; rewrite I2; auto). destruct J as [-> [-> ->]].
  assert (Z3 : forall m n, m = 3%nat \/ n = 3%nat -> addTerms s (5 / 10) (5 / 10) m n 0 = (0, 0, 0)) by (intros; apply third_terms; try lra; auto).
  rewrite (Z3 1%nat 3%nat), (Z3 3%nat 1%nat), (Z3 3%nat 3%nat), (Z3 3%nat 5%nat), (Z3 5%nat 3%nat), W11, W15, W51, W55 by auto.
  change (c0 (scal3 (factor s) (addTerms s (5 / 10) (5 / 10) 1 1 0))) with (factor s * c0 (addTerms s (5 / 10) (5 / 10) 1 1 0)). rewrite W11.
  change (c0 (0, 0, 0)) with 0. intros E. apply Rmult_eq_reg_l in E; [|lra]. lra.
Qed.

(** ** Circular plate *)
Lemma ln10 : 1 < ln 10.
Proof. rewrite <- (ln_exp 1) at 1. apply ln_increasing; [apply exp_pos|]. assert (H := exp_le_3). lra. Qed.
Lemma circ_equilibrium P R0 nu r d : 0 < R0 -> 0 < r -> is_derive (fun t => t * fst (circPolar P R0 nu t)) r d -> 
  d - snd (circPolar P R0 nu r) = P / (4 * PI) * ((1 + nu) / ln 10 - (1 - nu)).
Proof.
  intros A Pr H. assert (L := ln10). assert (PP := PI_RGT_0).
  assert (K : is_derive (fun t => t * fst (circPolar P R0 nu t)) r (25 / 100 * P / PI * (1 + nu) * (ln (r / R0) / ln 10) + 25 / 100 * P / PI * (1 + nu) / ln 10)).
  { unfold circPolar, log10; cbn [fst]. auto_derive; [repeat split; try easy; apply Rdiv_lt_0_compat; lra|]. unfold Rdiv. field. repeat split; lra. }
  assert (E := is_derive_unique _ _ _ H). rewrite (is_derive_unique _ _ _ K) in E. rewrite <- E. unfold circPolar, log10; cbn [snd]. field. lra.
Qed.
Lemma circ_refuted P R0 nu r : 0 < R0 -> 0 < r -> P <> 0 -> - 1 < nu <= 5 / 10 ->
  ~ axisymmetric (fun t => fst (circPolar P R0 nu t)) (fun t => snd (circPolar P R0 nu t)) (P / (2 * PI * r)) r /\
  ~ axisymmetric (fun t => fst (circPolar P R0 nu t)) (fun t => snd (circPolar P R0 nu t)) (- (P / (2 * PI * r))) r.
Proof.
  intros A Pr HP N. assert (L := ln10). assert (PP := PI_RGT_0). assert (LI : 0 < / ln 10 < 1) by (split; [apply Rinv_0_lt_compat; lra|rewrite <- Rinv_1; apply Rinv_lt_contravar; lra]).
  split; intros [d [H E]]; rewrite (circ_equilibrium P R0 nu r d A Pr H) in E.
  - assert (E' : (1 + nu) * / ln 10 - (1 - nu) = 2). { apply (Rmult_eq_reg_l (P / (4 * PI))); [|apply Rmult_integral_contrapositive_currified; [assumption|apply Rinv_neq_0_compat; lra]]. unfold Rdiv at 2 in E. rewrite E. field. lra. } nra.
  - assert (E' : (1 + nu) * / ln 10 - (1 - nu) = - (2)). { apply (Rmult_eq_reg_l (P / (4 * PI))); [|apply Rmult_integral_contrapositive_currified; [assumption|apply Rinv_neq_0_compat; lra]]. unfold Rdiv at 2 in E. rewrite E. field. lra. } nra.
Qed.
(* at the edge: the moment given by the code vanishes, the moment of the deflection given by the code does not *)
Lemma circ_edge P R0 D nu : 0 < R0 -> circDispl P R0 D nu R0 0 = 0 /\ fst (circPolar P R0 nu R0) = 0.
Proof.
  intros A. assert (H0 : hypot R0 0 = R0) by (unfold hypot; rewrite Rmult_0_l, Rplus_0_r; apply sqrt_square; lra).
  unfold circDispl, circPolar, log10. cbv zeta. rewrite H0. replace (R0 / R0) with 1 by (field; lra). destruct (Rlt_dec 1 (1 / 10000)); [lra|]. rewrite ln_1. cbn [fst]. unfold Rdiv. rewrite !Rmult_0_l, !Rmult_0_r. split; ring.
Qed.
Lemma circ_deflection P R0 D nu : 0 < R0 -> P <> 0 -> D <> 0 -> - 1 < nu ->
  forall mt, ~ radialMoments D nu (fun r => circDispl P R0 D nu r 0) R0 (fst (circPolar P R0 nu R0)) mt.
Proof.
  intros A HP HD N mt [f [k [F1 [F2 [M _]]]]]. rewrite (proj2 (circ_edge P R0 D nu A)) in M. assert (L := ln10). assert (PP := PI_RGT_0).
  set (U0 := - P * R0 * R0 / (16 * PI * D)). set (C0 := (3 + nu) / (1 + nu)).
  assert (FX : forall r, R0 / 2 < r -> is_derive (fun r => circDispl P R0 D nu r 0) r (U0 / R0 * (- 2 * C0 * (r / R0) - 4 * (r / R0) * (ln (r / R0) / ln 10) - 2 * (r / R0) / ln 10))).
  { intros r Hr. apply (is_derive_ext_loc (fun r => U0 * (C0 * (1 - r / R0 * (r / R0)) - 2 * (r / R0 * (r / R0)) * (ln (r / R0) / ln 10)))).
    - assert (LO : locally r (fun t => R0 / 2 < t)) by now apply (open_gt (R0 / 2)). revert LO. apply filter_imp. intros t Ht. unfold circDispl. cbv zeta.
      assert (hypot t 0 = t) as -> by (unfold hypot; rewrite Rmult_0_l, Rplus_0_r; apply sqrt_square; lra).
      destruct (Rlt_dec (t / R0) (1 / 10000)) as [Q|Q]; [exfalso; apply (Rmult_lt_compat_r R0) in Q; [|assumption]; unfold Rdiv in Q; rewrite (Rmult_assoc t), Rinv_l in Q by lra; lra|]. reflexivity.
    - clearbody U0 C0. auto_derive; [repeat split; try easy; apply Rdiv_lt_0_compat; lra|]. unfold Rdiv. field. repeat split; lra. }
  assert (LF : locally R0 (fun t => f t = U0 / R0 * (- 2 * C0 * (t / R0) - 4 * (t / R0) * (ln (t / R0) / ln 10) - 2 * (t / R0) / ln 10))).
  { assert (LO : locally R0 (fun t => R0 / 2 < t)) by (apply (open_gt (R0 / 2)); lra). generalize (filter_and _ _ F1 LO). apply filter_imp. intros t [H1 H2].
    rewrite <- (is_derive_unique _ _ _ H1). apply is_derive_unique, FX, H2. }
  assert (K : k = U0 / (R0 * R0) * (- 2 * C0 - 4 / ln 10 - 2 / ln 10)).
  { apply (is_derive_ext_loc _ _ _ _ LF) in F2. rewrite <- (is_derive_unique _ _ _ F2). apply is_derive_unique. clearbody U0 C0. auto_derive; [repeat split; try easy; apply Rdiv_lt_0_compat; lra|].
    replace (R0 * / R0) with 1 by (field; lra). rewrite ln_1. field. repeat split; lra. }
  assert (FR := locally_singleton _ _ LF). cbv beta in FR. replace (R0 / R0) with 1 in FR by (field; lra). rewrite ln_1 in FR.
  rewrite FR, K in M. assert (LI : 0 < / ln 10) by (apply Rinv_0_lt_compat; lra).
  assert (M' : U0 * (2 * (3 + nu) * (1 + / ln 10)) = 0).
  { apply (Rmult_eq_reg_l (D / (R0 * R0))); [|unfold Rdiv; apply Rmult_integral_contrapositive_currified; [assumption|apply Rinv_neq_0_compat; nra]].
    rewrite Rmult_0_r, M. unfold C0. field. repeat split; lra. }
  apply Rmult_integral in M'. destruct M' as [Z|Z].
  - unfold U0 in Z. apply (Rmult_eq_compat_r (16 * PI * D)) in Z. unfold Rdiv in Z. rewrite Rmult_assoc, Rinv_l, Rmult_0_l, Rmult_1_r in Z; [|apply Rmult_integral_contrapositive_currified; [apply Rmult_integral_contrapositive_currified; lra|assumption]].
    assert (P * (R0 * R0) = 0) by lra. apply Rmult_integral in H. destruct H; [contradiction|nra].
  - nra.
Qed.

(** ** Heated pipe *)
Definition pipeT (ra rb Tin Tex r : R) : R := Tin + (Tex - Tin) * ln (r / ra) / ln (rb / ra).
Lemma pipe_conduction ra rb Ti Te : 0 < ra -> ra < rb -> conduction ra rb Ti Te (pipeT ra rb Ti Te).
Proof.
  intros A B. assert (L := log_ratio_pos ra rb A B). unfold conduction, pipeT. refine (conj _ (conj _ _)).
  - replace (ra / ra) with 1 by (field; lra). rewrite ln_1. field. lra.
  - field. lra.
  - exists ((Te - Ti) / ln (rb / ra)). intros r Pr. auto_derive; [repeat split; try easy; apply Rdiv_lt_0_compat; lra|]. field. repeat split; lra.
Qed.
Lemma pipe_szz ra rb Ti Te T0 E nu al r : szz (pipePolar ra rb Ti Te T0 E nu al r) = nu * (sxx (pipePolar ra rb Ti Te T0 E nu al r) + syy (pipePolar ra rb Ti Te T0 E nu al r)) - E * al * (pipeT ra rb Ti Te r - T0).
Proof. reflexivity. Qed.
Definition pipeHoopD (ra rb Ti Te T0 E nu al be r : R) : R :=
  let s := pipePolar ra rb Ti Te T0 E nu al r in strainHoop E nu be (syy s) (sxx s) (pipeT ra rb Ti Te r - T0) + (be - al) * (Te - Ti) / ln (rb / ra).
Lemma pipe_hoop ra rb Ti Te T0 E nu al be r : 0 < ra -> ra < rb -> 0 < r -> 0 < E -> - 1 < nu < 1 ->
  let s t := pipePolar ra rb Ti Te T0 E nu al t in
  is_derive (fun t => t * strainHoop E nu be (sxx (s t)) (syy (s t)) (pipeT ra rb Ti Te t - T0)) r (pipeHoopD ra rb Ti Te T0 E nu al be r).
Proof.
  intros A B Pr PE N s. assert (L := log_ratio_pos ra rb A B). assert (S' := sq_pos ra rb A B). assert (0 < rb / r) by (apply Rdiv_lt_0_compat; lra). assert (0 < r / ra) by (apply Rdiv_lt_0_compat; lra).
  assert (B2 : rb * rb - ra * ra <> 0) by nra. unfold s, pipeHoopD, strainHoop, pipePolar, pipeT; cbn [sxx syy].
  auto_derive; [repeat split; lra|]. unfold Rdiv in *. revert L S'. generalize (ln (rb * / ra)). intros l2 L S'. field. repeat split; try lra; nra.
Qed.
Lemma pipe_compatible ra rb Ti Te T0 E nu al be r : 0 < ra -> ra < rb -> 0 < r -> 0 < E -> - 1 < nu < 1 ->
  let s t := pipePolar ra rb Ti Te T0 E nu al t in
  compatible E nu be (fun t => sxx (s t)) (fun t => syy (s t)) (fun t => pipeT ra rb Ti Te t - T0) r <-> (be = al \/ Te = Ti).
Proof.
  intros A B Pr PE N s. assert (L := log_ratio_pos ra rb A B). assert (H := pipe_hoop ra rb Ti Te T0 E nu al be r A B Pr PE N). cbv zeta in H. unfold compatible. split.
  - intros K. assert (Eq := eq_trans (eq_sym (is_derive_unique _ _ _ K)) (is_derive_unique _ _ _ H)). unfold pipeHoopD in Eq. cbv zeta in Eq. fold (s r) in Eq.
    assert (Z : (be - al) * (Te - Ti) / ln (rb / ra) = 0) by lra. assert (Z' : (be - al) * (Te - Ti) = 0) by (apply (Rmult_eq_reg_r (/ ln (rb / ra))); [rewrite Rmult_0_l; exact Z|apply Rinv_neq_0_compat; lra]).
    apply Rmult_integral in Z'. destruct Z'; [left; lra|right; lra].
  - intros O. evar_last; [exact H|]. unfold pipeHoopD. cbv zeta. fold (s r). assert (Z : (be - al) * (Te - Ti) = 0) by (destruct O as [-> | ->]; ring). unfold Rdiv. rewrite Z. ring.
Qed.
