(** Displacement fields of the reference solutions. *)
From Coq Require Import Nsatz.
From Coquelicot Require Import Coquelicot.
From Verif Require Import Lib.Base Model.Analytic Spec.Analytic Proofs.Analytic Proofs.Lshape.

Lemma q2_pos x y : x <> 0 \/ y <> 0 -> 0 < q2 x y.
Proof. intros Z. unfold q2. now apply hypot_pos. Qed.

(** ** Hole *)
Definition holeU (k : R) (a x y : R) : R :=
  (k + 1) * x + 2 * (a * a) / q2 x y * ((1 + k) * x + (x * x * x - 3 * x * y * y) / q2 x y) - 2 * (a * a * a * a) * (x * x * x - 3 * x * y * y) / (q2 x y * q2 x y * q2 x y).
Definition holeV (k : R) (a x y : R) : R :=
  (k - 3) * y + 2 * (a * a) / q2 x y * ((1 - k) * y + (3 * x * x * y - y * y * y) / q2 x y) - 2 * (a * a * a * a) * (3 * x * x * y - y * y * y) / (q2 x y * q2 x y * q2 x y).
Lemma hole_disp a F0 E nu : 0 < a -> E <> 0 -> exists u v, forall x y, a < hypot x y ->
  let s := hole a F0 nu x y in planeStrainState E nu (sxx s) (syy s) (sxy s) (szz s) u v x y.
Proof.
  intros A NE. set (g := F0 * (1 + nu) / (4 * E)). set (k := 3 - 4 * nu).
  exists (fun x y => g * holeU k a x y), (fun x y => g * holeV k a x y). intros x y H s.
  assert (Z := outside_nz a x y A (Rlt_le _ _ H)). assert (P := q2_pos x y Z). assert (Q : x * x + y * y <> 0) by (unfold q2 in P; lra).
  unfold s. rewrite hole_strain by lra. rewrite hole_rat by lra. unfold planeStrainState, hasStrain, holeRat, holeU, holeV, q2; cbn [sxx syy sxy szz].
  refine (conj (conj _ (conj _ _)) _).
  - auto_derive; [repeat split; nzm|]. unfold g, k. field. split; assumption.
  - auto_derive; [repeat split; nzm|]. unfold g, k. field. split; assumption.
  - do 2 eexists. refine (conj _ (conj _ _)); [auto_derive; [repeat split; nzm|reflexivity]..|]. unfold g, k. field. split; assumption.
  - field. split; assumption.
Qed.

(** ** Cantilevers *)
Lemma canTS_disp L H F0 E nu : 0 < L -> 0 < H -> E <> 0 -> exists u v, (forall x y, let s := canTS L H F0 x y in planeStressState E nu (sxx s) (syy s) (sxy s) u v x y) /\
  u 0 (H / 2) = 0 /\ v 0 (H / 2) = 0.
Proof.
  intros PL PH NE. set (k := 12 * F0 / (H * H * H) / E).
  exists (fun x y => k * ((x * x / 2 - L * x) * (y - H / 2) + nu * (y - H / 2) ^ 3 / 6 + (1 + nu) * (H * H * (y - H / 2) / 4 - (y - H / 2) ^ 3 / 3))).
  exists (fun x y => k * (- (nu * (x - L) * (y - H / 2) ^ 2 / 2) - (x ^ 3 / 6 - L * x ^ 2 / 2))).
  split; [|split; field].
  intros x y s. unfold s, planeStressState, hasStrain, canTS; cbn [sxx syy sxy]. refine (conj _ (conj _ _)).
  - auto_derive; [easy|]. unfold k. field. lra.
  - auto_derive; [easy|]. unfold k. field. lra.
  - do 2 eexists. refine (conj _ (conj _ _)); [auto_derive; [easy|reflexivity]..|]. unfold k. field. lra.
Qed.
Lemma canTM_disp H M0 E nu : 0 < H -> E <> 0 -> exists u v, (forall x y, let s := canTM H M0 y in planeStressState E nu (sxx s) (syy s) (sxy s) u v x y) /\
  (forall y, u 0 y = 0) /\ v 0 (H / 2) = 0.
Proof.
  intros PH NE. set (k := 12 * M0 / (H * H * H) / E).
  exists (fun x y => k * (x * (y - H / 2))). exists (fun x y => k * (- (nu * (y - H / 2) ^ 2 / 2) - x ^ 2 / 2)).
  split; [|split; [intros y; ring|field]].
  intros x y s. unfold s, planeStressState, hasStrain, canTM; cbn [sxx syy sxy]. refine (conj _ (conj _ _)).
  - auto_derive; [easy|]. unfold k. field. lra.
  - auto_derive; [easy|]. unfold k. field. lra.
  - do 2 eexists. refine (conj _ (conj _ _)); [auto_derive; [easy|reflexivity]..|]. unfold k. field. lra.
Qed.

(** ** Heated pipe *)
Definition pipeTemp (ra rb Ti Te r : R) : R := Ti + (Te - Ti) * ln (r / ra) / ln (rb / ra).
Lemma ln_div x y : 0 < x -> 0 < y -> ln (x / y) = ln x - ln y.
Proof. intros X Y. unfold Rdiv. rewrite ln_mult, ln_Rinv by (try apply Rinv_0_lt_compat; lra). ring. Qed.
Lemma pipe_disp ra rb Ti Te T0 E nu al : 0 < ra -> ra < rb -> E <> 0 -> 1 - nu * nu <> 0 ->
  exists w, forall r, 0 < r -> let s := pipePolar ra rb Ti Te T0 E nu al r in let th := al * (pipeTemp ra rb Ti Te r - T0) in
    is_derive w r ((1 + nu) / E * ((1 - nu) * sxx s - nu * syy s) + th) /\ w r / r = (1 + nu) / E * ((1 - nu) * syy s - nu * sxx s) + th.
Proof.
  intros A B NE NN. assert (LP := log_ratio_pos ra rb A B). assert (S' := sq_pos ra rb A B).
  exists (fun r => r * ((1 + nu) / E * ((1 - nu) * syy (pipePolar ra rb Ti Te T0 E nu al r) - nu * sxx (pipePolar ra rb Ti Te T0 E nu al r)) + al * (pipeTemp ra rb Ti Te r - T0))).
  intros r P. cbv zeta. split; [|field; split; [assumption|lra]].
  assert (0 < rb / r) by (apply Rdiv_lt_0_compat; lra). assert (0 < r / ra) by (apply Rdiv_lt_0_compat; lra).
  unfold pipePolar, pipeTemp; cbn [sxx syy].
  auto_derive; [repeat split; try lra|]. unfold Rdiv in *.
  assert (L1 := ln_div rb r ltac:(lra) P). assert (L2 := ln_div r ra P A). assert (L3 := ln_div rb ra ltac:(lra) A). unfold Rdiv in *. rewrite L1, L2, L3 in *.
  revert LP. generalize (ln rb) (ln ra) (ln r). intros lb l_a lr LP. field.
  assert (rb * rb - ra * ra <> 0) by nra. repeat split; try lra; try nra; try assumption.
Qed.
(* with the thermal strain of the material law there is none *)
Lemma pipe_none ra rb Ti Te T0 E nu al : 0 < ra -> ra < rb -> E <> 0 -> 1 - nu * nu <> 0 -> nu <> 0 -> al <> 0 -> Te <> Ti ->
  ~ exists w, forall r, ra < r < rb -> let s := pipePolar ra rb Ti Te T0 E nu al r in
    heatedState E nu (al * (pipeTemp ra rb Ti Te r - T0)) (sxx s) (syy s) (szz s) w r.
Proof.
  intros A B NE NN Nn Na NT [w H]. destruct (pipe_disp ra rb Ti Te T0 E nu al A B NE NN) as [w0 H0]. assert (LP := log_ratio_pos ra rb A B).
  set (r := (ra + rb) / 2). assert (I : ra < r < rb) by (unfold r; lra).
  set (th := fun r => al * (pipeTemp ra rb Ti Te r - T0)).
  assert (D : is_derive (fun t => w t - w0 t) r (nu * th r)).
  { destruct (H r I) as [D1 [_ Z]]. destruct (H0 r ltac:(lra)) as [D2 _]. evar_last; [apply (is_derive_minus w w0); eassumption|]. match goal with |- minus ?a ?b = _ => change (a - b = nu * th r) end. cbv zeta in Z. fold (th r) in *.
    set (a := sxx (pipePolar ra rb Ti Te T0 E nu al r)) in *. set (b := syy (pipePolar ra rb Ti Te T0 E nu al r)) in *. set (c := szz (pipePolar ra rb Ti Te T0 E nu al r)) in *.
    assert (c = nu * (a + b) - E * th r) by (apply (Rmult_eq_reg_r (/ E)); [|now apply Rinv_neq_0_compat]; transitivity (nu * (a + b) / E - th r); [unfold Rdiv in Z |- *; lra|field; assumption]).
    rewrite H1. field. assumption. }
  assert (L : locally r (fun t => w t - w0 t = nu * (t * th t))).
  { assert (L : locally r (fun t => ra < t < rb)).
    { apply filter_and; [apply (open_gt ra)|apply (open_lt rb)]; lra. }
    revert L. apply filter_imp. intros t J. destruct (H t J) as [_ [W1 Z]]. destruct (H0 t ltac:(lra)) as [_ W2]. cbv zeta in *. fold (th t) in *.
    set (a := sxx (pipePolar ra rb Ti Te T0 E nu al t)) in *. set (b := syy (pipePolar ra rb Ti Te T0 E nu al t)) in *. set (c := szz (pipePolar ra rb Ti Te T0 E nu al t)) in *.
    assert (c = nu * (a + b) - E * th t) by (apply (Rmult_eq_reg_r (/ E)); [|now apply Rinv_neq_0_compat]; transitivity (nu * (a + b) / E - th t); [unfold Rdiv in Z |- *; lra|field; assumption]).
    rewrite H1 in W1. replace (w t) with (t * (w t / t)) by (field; lra). replace (w0 t) with (t * (w0 t / t)) by (field; lra). rewrite W1, W2. field. assumption. }
  assert (D' : is_derive (fun t => nu * (t * th t)) r (nu * (th r + r * (al * ((Te - Ti) * / r * / ln (rb / ra)))))).
  { unfold th, pipeTemp. assert (0 < r / ra) by (apply Rdiv_lt_0_compat; lra). auto_derive; [repeat split; lra|]. unfold Rdiv in *. revert LP. generalize (ln (rb * / ra)) (ln (r * / ra)). intros l1 l2 LP. field. lra. }
  assert (U1 := is_derive_unique _ _ _ (is_derive_ext_loc _ _ _ _ L D)). assert (U2 := is_derive_unique _ _ _ D'). assert (U := eq_trans (eq_sym U2) U1). clear U1 U2.
  assert (K : nu * al * (Te - Ti) * / ln (rb / ra) = 0).
  { transitivity (nu * (th r + r * (al * ((Te - Ti) * / r * / ln (rb / ra)))) - nu * th r); [field; lra|]. rewrite U. ring. }
  revert K. repeat apply Rmult_integral_contrapositive_currified; try assumption; try lra. apply Rinv_neq_0_compat. lra.
Qed.

(** ** Curved beam *)
Definition beamU (E nu A B D x y : R) : R := x * y / E * (A * (6 - 2 * nu) + 2 * B * (1 + nu) / (q2 x y * q2 x y) - D * (1 + nu) / q2 x y).
Definition beamV (E nu A B D x y : R) : R :=
  D * (1 - nu) / E * (ln (q2 x y) / 2) + A * ((1 - 3 * nu) * (y * y) - (5 + nu) * (x * x)) / E + B * (1 + nu) * (y * y - x * x) / (q2 x y * q2 x y) / E + D * (1 + nu) / E * (x * x / q2 x y).
Lemma angle_x x y : offCut x y -> is_derive (fun t => atan2 y t) x (- y / q2 x y).
Proof.
  intros O. assert (Q := hypot_sq x y). fold (q2 x y) in Q. rewrite <- Q. evar_last.
  - apply (atan2_dir (fun t => t) (fun _ => y) x 1 0); [auto_derive; [easy|ring]|auto_derive; [easy|ring]|exact O].
  - f_equal. ring.
Qed.
Lemma angle_y x y : offCut x y -> is_derive (fun t => atan2 t x) y (x / q2 x y).
Proof.
  intros O. assert (Q := hypot_sq x y). fold (q2 x y) in Q. rewrite <- Q. evar_last.
  - apply (atan2_dir (fun _ => x) (fun t => t) y 0 1); [auto_derive; [easy|ring]|auto_derive; [easy|ring]|exact O].
  - f_equal. ring.
Qed.
Lemma affine_derive (th U : R -> R) c k x d1 d2 : is_derive th x d1 -> is_derive U x d2 -> is_derive (fun t => c * th t + U t + k) x (c * d1 + d2).
Proof.
  intros D1 D2. auto_derive; [repeat split; now eexists; eassumption|].
  replace (Derive (fun x0 : R => th x0) x) with d1 by (symmetry; now apply is_derive_unique). replace (Derive (fun x0 : R => U x0) x) with d2 by (symmetry; now apply is_derive_unique). ring.
Qed.
Lemma curved_disp u0 E a b nu : 0 < a -> 0 < b -> E <> 0 -> exists u v,
  (forall x y, offCut x y -> let s := curvedBeam u0 E a b x y in planeStressState E nu (sxx s) (syy s) (sxy s) u v x y) /\
  (forall x, 0 < x -> u x 0 = u0) /\ (forall y, 0 < y -> u 0 y = 0).
Proof.
  intros PA PB NE. set (PN := beamPN u0 E a b). set (A := PN / 2). set (B := - (PN * (a * a * b * b) / 2)). set (D := - (PN * (a * a + b * b))).
  assert (DE : D * PI / E = u0) by (unfold D, PN, beamPN; field; repeat split; [nra|apply PI_neq0|assumption]).
  exists (fun x y => - (2 * D / E) * atan2 y x + beamU E nu A B D x y + D * PI / E), (fun x y => beamV E nu A B D x y). split; [|split].
  - intros x y O s. assert (Z := offCut_nz x y O). assert (P := q2_pos x y Z). assert (Q : x * x + y * y <> 0) by (unfold q2 in P; lra).
    unfold s. rewrite curved_rat by exact Z. fold PN. unfold planeStressState, hasStrain.
    assert (X := angle_x x y O). assert (Y := angle_y x y O).
    refine (conj _ (conj _ _)).
    + evar_last; [apply affine_derive; [exact X|]|]; unfold beamU, q2.
      * auto_derive; [repeat split; nzm|reflexivity].
      * unfold curvedRat, q2; cbn [sxx syy sxy]. unfold A, B, D. field. split; assumption.
    + unfold beamV, q2. auto_derive; [repeat split; try nzm; try assumption; unfold q2 in P; lra|]. unfold curvedRat, q2; cbn [sxx syy sxy]. unfold A, B, D. field. split; assumption.
    + do 2 eexists. refine (conj _ (conj _ _)).
      * apply affine_derive; [exact Y|]. unfold beamU, q2. auto_derive; [repeat split; nzm|reflexivity].
      * unfold beamV, q2. auto_derive; [repeat split; try nzm; try assumption; unfold q2 in P; lra|reflexivity].
      * unfold curvedRat, q2; cbn [sxx syy sxy]. unfold A, B, D. field. split; assumption.
  - intros x Px. unfold beamU. unfold atan2. destruct (Rlt_dec 0 x); [|lra]. replace (0 / x) with 0 by (field; lra). rewrite atan_0, <- DE. field. repeat split; try assumption. unfold q2. nra.
  - intros y Py. unfold beamU, atan2. destruct (Rlt_dec 0 0); [lra|]. destruct (Rlt_dec 0 0); [lra|]. destruct (Rlt_dec 0 y); [|lra]. field. repeat split; try assumption. unfold q2. nra.
Qed.

(** ** L-shape *)
Section Wedge.
Variables (la q nu : R).
Definition wU th := (3 - 4 * nu - q * (la + 1)) * cos (la * th) - la * cos ((la - 2) * th).
Definition wV th := (3 - 4 * nu + q * (la + 1)) * sin (la * th) + la * sin ((la - 2) * th).
Definition wU' th := - ((3 - 4 * nu - q * (la + 1)) * la * sin (la * th)) + la * (la - 2) * sin ((la - 2) * th).
Definition wV' th := (3 - 4 * nu + q * (la + 1)) * la * cos (la * th) + la * (la - 2) * cos ((la - 2) * th).
Lemma w_derive th : is_derive wU th (wU' th) /\ is_derive wV th (wV' th).
Proof. unfold wU, wV, wU', wV'. split; auto_derive; try easy; ring. Qed.
(* Hooke's law of the angular functions in the local system *)
Lemma w_hooke th : let c := cos th in let s := sin th in
  c * la * wU th - s * wU' th = la * (a11 la q th - nu * (a11 la q th + a22 la q th)) /\
  s * la * wV th + c * wV' th = la * (a22 la q th - nu * (a11 la q th + a22 la q th)) /\
  (s * la * wU th + c * wU' th) + (c * la * wV th - s * wV' th) = 2 * la * a12 la q th.
Proof.
  cbv zeta. unfold wU, wV, wU', wV', a11, a22, a12. assert (K3 : (la - 3) * th = (la - 1) * th - 2 * th) by ring. assert (K2 : (la - 2) * th = (la - 1) * th - th) by ring. assert (K : la * th = (la - 1) * th + th) by ring. rewrite K3, K2, K.
  rewrite (cos_minus ((la - 1) * th) (2 * th)), (sin_minus ((la - 1) * th) (2 * th)), (cos_minus ((la - 1) * th) th), (sin_minus ((la - 1) * th) th), (cos_plus ((la - 1) * th)), (sin_plus ((la - 1) * th)), (cos_2a th), (sin_2a th). assert (Q := sin2_cos2 th). unfold Rsqr in Q.
  generalize dependent (cos th). intros c. generalize (sin th). intros s Q. generalize (cos ((la - 1) * th)) (sin ((la - 1) * th)). intros a b.
  assert (S2 : s * s = 1 - c * c) by lra. clear Q K K2 K3. refine (conj _ (conj _ _)); nsatz.
Qed.
End Wedge.
Lemma lshape_disp a F0 E nu : 0 <= a -> E <> 0 -> exists u v, forall X Y, a * / 10 ^ 32 < hypot X Y -> X + Y < 0 \/ X <> Y ->
  let s := lshape a F0 nu X Y in planeStrainState E nu (sxx s) (syy s) (sxy s) (szz s) u v X Y.
Proof.
  intros A NE. set (g := F0 * (1 + nu) / E). set (C := fun r => g * Rpower r lambda). set (U := wU lambda qL nu). set (V := wV lambda qL nu).
  exists (fun X Y => C (hypot (ex X Y) (ey X Y)) * ((fun th => mh * U th + - mh * V th) (atan2 (ey X Y) (ex X Y)))), (fun X Y => C (hypot (ex X Y) (ey X Y)) * ((fun th => mh * U th + mh * V th) (atan2 (ey X Y) (ex X Y)))).
  intros X Y H O' s. unfold s. rewrite lshape_far by assumption.
  assert (O : offCut (ex X Y) (ey X Y)).
  { assert (P : 0 < sqrt (5 / 10)) by (apply sqrt_lt_R0; lra). unfold ex, ey, mh, ph. destruct O' as [O'|O']; [left; nra|right]. intros Z. apply O'. nra. }
  assert (Z := offCut_nz _ _ O). assert (P := hypot_gt0 _ _ Z). destruct (atan2_spec _ _ Z) as [CO SI].
  assert (UX : is_derive (fun t => ex t Y) X mh) by (unfold ex; auto_derive; [easy|ring]).
  assert (VX : is_derive (fun t => ey t Y) X ph) by (unfold ey; auto_derive; [easy|ring]).
  assert (UY : is_derive (fun t => ex X t) Y mh) by (unfold ex; auto_derive; [easy|ring]).
  assert (VY : is_derive (fun t => ey X t) Y mh) by (unfold ey; auto_derive; [easy|ring]).
  unfold lshapeG. rewrite local_form. set (x := ex X Y) in *. set (y := ey X Y) in *. set (r := hypot x y) in *. set (th := atan2 y x) in *.
  destruct (w_derive lambda qL nu th) as [DU DV]. destruct (w_hooke lambda qL nu th) as [E1 [E2 E3]]. fold U in DU. fold V in DV.
  assert (DC : is_derive C r (lambda * C r / r)).
  { unfold C. evar_last. apply (is_derive_scal (fun t => Rpower t lambda)), Rpower_derive, P. unfold scal; cbn. unfold mult; cbn. field. lra. }
  assert (LL : forall p q, is_derive (fun th => p * U th + q * V th) th (p * wU' lambda qL nu th + q * wV' lambda qL nu th)).
  { intros p q'. apply (is_derive_plus (fun th => p * U th) (fun th => q' * V th)); now apply is_derive_scal. }
  assert (RC : radial lambda F0 r * (1 + nu) / E = lambda * (C r / r)).
  { unfold radial, C, g. replace (Rpower r lambda) with (r * Rpower r (lambda - 1)); [field; lra|]. rewrite <- (Rpower_1 r P) at 1. rewrite <- Rpower_plus. f_equal. ring. }
  assert (Ec : cos th = x / r) by exact CO. assert (Es : sin th = y / r) by exact SI.
  assert (XC : x = r * cos th) by (rewrite Ec; field; lra). assert (YS : y = r * sin th) by (rewrite Es; field; lra).
  unfold planeStrainState, hasStrain, transform; cbn [sxx syy sxy szz].
  set (z1 := a11 lambda qL th) in *. set (z2 := a22 lambda qL th) in *. set (z3 := a12 lambda qL th) in *.
  set (B1 := wU' lambda qL nu th) in *. set (B2 := wV' lambda qL nu th) in *. fold U in E1, E3. fold V in E2, E3.
  assert (PX := fun p q => polar_dir (fun t => ex t Y) (fun t => ey t Y) X mh ph UX VX O C _ _ _ DC (LL p q)).
  assert (PY := fun p q => polar_dir (fun t => ex X t) (fun t => ey X t) Y mh mh UY VY O C _ _ _ DC (LL p q)).
  cbv beta in PX, PY. fold x y in PX, PY. fold r th in PX, PY. assert (HS := half_sq).
  assert (TR : (z1 + z2) * (mh * mh) * 2 = z1 + z2) by (rewrite HS; field).
  set (rr := radial lambda F0 r) in *. set (cr := C r) in *.
  assert (KE : forall k, k * rr * (1 + nu) / E = k * lambda * (cr / r)) by (intros k; transitivity (k * (rr * (1 + nu) / E)); [field; assumption|rewrite RC; field; lra]).
  assert (FIN : forall k k', k * (1 + nu) = k' + nu * nu * ((z1 + z2) - (z1 + z2) * (mh * mh) * 2) -> k * lambda * (cr / r) = rr * k' / E).
  { intros k k' EQ. rewrite <- KE. rewrite TR in EQ. transitivity (rr * (k * (1 + nu)) / E); [field; assumption|rewrite EQ; field; assumption]. }
  refine (conj (conj _ (conj _ _)) _).
  - evar_last; [apply (PX mh (- mh))|]. transitivity (mh * mh * (cr / r) * ((cos th * lambda * U th - sin th * B1) + (sin th * lambda * V th + cos th * B2) - (sin th * lambda * U th + cos th * B1 + (cos th * lambda * V th - sin th * B2)))).
    { rewrite ph_mh, XC, YS. field. lra. }
    rewrite E1, E2, E3, ph_mh. transitivity (mh * mh * ((1 - 2 * nu) * (z1 + z2) - 2 * z3) * lambda * (cr / r)); [ring|]. rewrite (FIN _ (mh * mh * (z1 + z2 - 2 * z3) - nu * (mh * mh * (z1 + z2 + 2 * z3)) - nu * nu * (z1 + z2))) by ring. field. assumption.
  - evar_last; [apply (PY mh mh)|]. transitivity (mh * mh * (cr / r) * ((cos th * lambda * U th - sin th * B1) + (sin th * lambda * V th + cos th * B2) + (sin th * lambda * U th + cos th * B1 + (cos th * lambda * V th - sin th * B2)))).
    { rewrite XC, YS. field. lra. }
    rewrite E1, E2, E3, ph_mh. transitivity (mh * mh * ((1 - 2 * nu) * (z1 + z2) + 2 * z3) * lambda * (cr / r)); [ring|]. rewrite (FIN _ (mh * mh * (z1 + z2 + 2 * z3) - nu * (mh * mh * (z1 + z2 - 2 * z3)) - nu * nu * (z1 + z2))) by ring. field. assumption.
  - do 2 eexists. refine (conj (PY mh (- mh)) (conj (PX mh mh) _)).
    transitivity (2 * (mh * mh) * (cr / r) * ((cos th * lambda * U th - sin th * B1) - (sin th * lambda * V th + cos th * B2))).
    { rewrite ph_mh, XC, YS. field. lra. }
    rewrite E1, E2, ph_mh. transitivity (2 * (mh * mh) * (z1 - z2) * lambda * (cr / r)); [ring|]. rewrite <- KE. field. assumption.
  - rewrite ph_mh. transitivity (nu * rr * ((z1 + z2) - (z1 + z2) * (mh * mh) * 2) / E); [field; assumption|rewrite TR; field; assumption].
Qed.
