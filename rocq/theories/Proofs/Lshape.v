(** The L-shaped domain: equilibrium in global coordinates and tractions on the re-entrant edges (C55). *)
From Coquelicot Require Import Coquelicot.
From Coq Require Import Nsatz.
From Verif Require Import Lib.Base Spec.Analytic Model.Analytic Proofs.Analytic.

(** ** L-shaped domain *)
Lemma Rpower_derive p r : 0 < r -> is_derive (fun t => Rpower t p) r (p * (Rpower r p / r)).
Proof. intros H. unfold Rpower. auto_derive; [assumption|]. field. lra. Qed.
(* atan2 away from the negative x axis *)
Definition offCut (x y : R) : Prop := 0 < x \/ y <> 0.
Lemma offCut_nz x y : offCut x y -> x <> 0 \/ y <> 0. Proof. intros [H|H]; [left; lra|now right]. Qed.
Lemma atan_sign u : u < 0 -> atan u < 0. Proof. intros H. rewrite <- atan_0. now apply atan_increasing. Qed.
Lemma atan_sign' u : 0 < u -> 0 < atan u. Proof. intros H. rewrite <- atan_0. now apply atan_increasing. Qed.
Lemma atan2_range x y : offCut x y -> - PI < atan2 y x < PI.
Proof.
  intros O. assert (P := PI_RGT_0). assert (B := atan_bound (y / x)). unfold atan2. destruct (Rlt_dec 0 x) as [X|X]; [lra|]. destruct (Rlt_dec x 0) as [X'|X'].
  - destruct O as [O|O]; [lra|]. destruct (Rle_dec 0 y).
    + assert (y / x < 0) by (unfold Rdiv; assert (/ x < 0) by (apply Rinv_lt_0_compat; lra); nra). assert (Z := atan_sign _ H). lra.
    + assert (0 < y / x) by (unfold Rdiv; assert (/ x < 0) by (apply Rinv_lt_0_compat; lra); nra). assert (Z := atan_sign' _ H). lra.
  - destruct (Rlt_dec 0 y); [lra|]. destruct (Rlt_dec y 0); lra.
Qed.
Lemma hypot_cut x y : offCut x y -> 0 < hypot x y + x.
Proof.
  intros O. assert (P := hypot_gt0 x y (offCut_nz x y O)). destruct O as [O|O]; [lra|]. assert (Q := hypot_sq x y). 
  destruct (Rlt_dec 0 (hypot x y + x)); [assumption|exfalso]. assert (0 < y * y) by nra. nra.
Qed.
Lemma atan2_half x y : offCut x y -> atan2 y x = 2 * atan (y / (hypot x y + x)).
Proof.
  intros O. destruct (atan2_spec x y (offCut_nz x y O)) as [C S']. assert (P := hypot_gt0 x y (offCut_nz x y O)). assert (B := atan2_range x y O). assert (K := hypot_cut x y O).
  set (p := atan2 y x) in *. assert (T : tan (p / 2) = y / (hypot x y + x)).
  { assert (C0 : 0 < cos (p / 2)) by (apply cos_gt_0; lra). unfold tan.
    assert (C2 : cos p = 2 * cos (p / 2) * cos (p / 2) - 1) by (rewrite <- cos_2a_cos; f_equal; field).
    assert (S2 : sin p = 2 * sin (p / 2) * cos (p / 2)) by (rewrite <- sin_2a; f_equal; field).
    assert (E1 : x = hypot x y * (2 * cos (p / 2) * cos (p / 2) - 1)) by (rewrite <- C2, C; field; lra).
    assert (E2 : y = hypot x y * (2 * sin (p / 2) * cos (p / 2))) by (rewrite <- S2, S'; field; lra).
    apply (Rmult_eq_reg_r (cos (p / 2) * (hypot x y + x))); [|apply Rmult_integral_contrapositive_currified; lra].
    transitivity (sin (p / 2) * (hypot x y + x)); [field; lra|]. transitivity (y * cos (p / 2)); [|field; lra].
    assert (E3 : hypot x y + x = hypot x y * (2 * cos (p / 2) * cos (p / 2))) by lra. rewrite E3.
    transitivity (hypot x y * (2 * sin (p / 2) * cos (p / 2)) * cos (p / 2)); [ring|]. now rewrite <- E2. }
  rewrite <- T, atan_tan by lra. field.
Qed.
Section Direction.
Variables (u v : R -> R) (t al be : R).
Hypothesis U : is_derive u t al.
Hypothesis V : is_derive v t be.
Hypothesis O : offCut (u t) (v t).
Notation r := (hypot (u t) (v t)).
Lemma hypot_dir : is_derive (fun t => hypot (u t) (v t)) t ((al * u t + be * v t) / r).
Proof.
  assert (Z := offCut_nz _ _ O). assert (P := hypot_gt0 _ _ Z). assert (P2 := hypot_pos _ _ Z). unfold hypot in *. auto_derive.
  - repeat split; try (now eexists; eassumption); lra.
  - replace (Derive (fun x : R => u x) t) with al by (symmetry; now apply is_derive_unique). replace (Derive (fun x : R => v x) t) with be by (symmetry; now apply is_derive_unique).
    field. lra.
Qed.
Lemma atan2_dir : is_derive (fun t => atan2 (v t) (u t)) t ((be * u t - al * v t) / (r * r)).
Proof.
  assert (Z := offCut_nz _ _ O). assert (P := hypot_gt0 _ _ Z). assert (P2 := hypot_pos _ _ Z). assert (K := hypot_cut _ _ O). assert (Q := hypot_sq (u t) (v t)).
  assert (CU : continuous u t) by (apply (ex_derive_continuous u); now eexists; eassumption).
  assert (CV : continuous v t) by (apply (ex_derive_continuous v); now eexists; eassumption).
  apply (is_derive_ext_loc (fun t => 2 * atan (v t / (hypot (u t) (v t) + u t)))).
  { destruct O as [O'|O'].
    - assert (L : locally t (fun t => 0 < u t)) by (apply CU; now apply (open_gt 0)). revert L. apply filter_imp. intros s Hs. symmetry. apply atan2_half. now left.
    - assert (L : locally t (fun t => v t <> 0)) by (apply (CV (fun z => z <> 0)); now apply (open_neq 0)). revert L. apply filter_imp. intros s Hs. symmetry. apply atan2_half. now right. }
  assert (HD := hypot_dir). set (h := fun t => hypot (u t) (v t)) in *. change (hypot (u t) (v t)) with (h t) in *.
  apply (is_derive_ext (fun t => 2 * atan (v t / (h t + u t)))); [reflexivity|].
  auto_derive.
  - repeat split; try (now eexists; eassumption); lra.
  - replace (Derive (fun x : R => u x) t) with al by (symmetry; now apply is_derive_unique). replace (Derive (fun x : R => v x) t) with be by (symmetry; now apply is_derive_unique).
    replace (Derive (fun x : R => h x) t) with ((al * u t + be * v t) / h t) by (symmetry; now apply is_derive_unique).
    generalize dependent (h t). intros r P K Q HD. set (x := u t) in *. set (y := v t) in *. clearbody x y.
    assert (N : (r + x) * (r + x) + y * y = 2 * r * (r + x)) by lra.
    transitivity (2 * (be * (r + x) - y * ((al * x + be * y) / r + al)) / ((r + x) * (r + x) + y * y)).
    + field. repeat split; try nra; try lra. 
    + rewrite N. apply (Rmult_eq_reg_r (r * r * (r + x))); [|apply Rmult_integral_contrapositive_currified; nra].
      transitivity (be * (r + x) * r - y * (al * x + be * y + al * r)); [field; lra|].
      transitivity ((be * x - al * y) * (r + x)); [|field; lra]. assert (Y : y * y = r * r - x * x) by lra. nsatz.
Qed.
Lemma polar_dir (C A : R -> R) C' A' : is_derive C r C' -> is_derive A (atan2 (v t) (u t)) A' ->
  is_derive (fun t => C (hypot (u t) (v t)) * A (atan2 (v t) (u t))) t ((al * u t + be * v t) / r * C' * A (atan2 (v t) (u t)) + C r * ((be * u t - al * v t) / (r * r) * A')).
Proof.
  intros DC DA. apply (is_derive_mult (fun t => C (hypot (u t) (v t))) (fun t => A (atan2 (v t) (u t)))).
  - exact (is_derive_comp C (fun t => hypot (u t) (v t)) t _ _ DC hypot_dir).
  - exact (is_derive_comp A (fun t => atan2 (v t) (u t)) t _ _ DA atan2_dir).
  - intros; apply Rmult_comm.
Qed.
End Direction.

(** the angular functions of the solution *)
Section Lsh.
Variables (la q F0 nu : R).
Definition a11 th := (2 - q * (la + 1)) * cos ((la - 1) * th) - (la - 1) * cos ((la - 3) * th).
Definition a22 th := (2 + q * (la + 1)) * cos ((la - 1) * th) + (la - 1) * cos ((la - 3) * th).
Definition a12 th := q * (la + 1) * sin ((la - 1) * th) + (la - 1) * sin ((la - 3) * th).
Definition radial r := F0 * la * Rpower r (la - 1).
Lemma local_form r th : lshapeLocal la q F0 nu r th = mkSt (radial r * a11 th) (radial r * a22 th) (radial r * a12 th) (nu * (radial r * a11 th + radial r * a22 th)).
Proof. reflexivity. Qed.
Definition d11 th := - ((2 - q * (la + 1)) * (la - 1) * sin ((la - 1) * th) - (la - 1) * (la - 3) * sin ((la - 3) * th)).
Definition d22 th := - ((2 + q * (la + 1)) * (la - 1) * sin ((la - 1) * th) + (la - 1) * (la - 3) * sin ((la - 3) * th)).
Definition d12 th := q * (la + 1) * (la - 1) * cos ((la - 1) * th) + (la - 1) * (la - 3) * cos ((la - 3) * th).
Lemma a_derive th : is_derive a11 th (d11 th) /\ is_derive a22 th (d22 th) /\ is_derive a12 th (d12 th).
Proof. unfold a11, a22, a12, d11, d22, d12. refine (conj _ (conj _ _)); auto_derive; try easy; ring. Qed.
Lemma radial_derive r : 0 < r -> is_derive radial r ((la - 1) * radial r / r).
Proof. intros P. unfold radial. evar_last. apply (is_derive_scal (fun t => Rpower t (la - 1))), Rpower_derive, P. unfold scal; cbn. unfold mult; cbn. field. lra. Qed.
Lemma angular th : let c := cos th in let s := sin th in
  c * (la - 1) * a11 th - s * d11 th + (s * (la - 1) * a12 th + c * d12 th) = 0 /\
  c * (la - 1) * a12 th - s * d12 th + (s * (la - 1) * a22 th + c * d22 th) = 0.
Proof.
  cbv zeta. unfold a11, a22, a12, d11, d22, d12. assert (K : (la - 3) * th = (la - 1) * th - 2 * th) by ring. rewrite K.
  rewrite (cos_minus ((la - 1) * th)), (sin_minus ((la - 1) * th)), (cos_2a th), (sin_2a th). assert (Q := sin2_cos2 th). unfold Rsqr in Q.
  generalize dependent (cos th). intros c. generalize (sin th). intros s Q. generalize (cos ((la - 1) * th)) (sin ((la - 1) * th)). intros a b.
  assert (S2 : s * s = 1 - c * c) by lra. clear Q K. split; nsatz.
Qed.
Lemma lshape_equil_polar r th : 0 < r -> equilibriumPolar (fun r th => sxx (lshapeLocal la q F0 nu r th)) (fun r th => syy (lshapeLocal la q F0 nu r th)) (fun r th => sxy (lshapeLocal la q F0 nu r th)) r th.
Proof.
  intros P. unfold equilibriumPolar. destruct (a_derive th) as [D1 [D2 D3]]. assert (DR := radial_derive r P). destruct (angular th) as [E1 E2].
  exists ((la - 1) * radial r / r * a11 th), (radial r * d11 th), ((la - 1) * radial r / r * a22 th), (radial r * d22 th), ((la - 1) * radial r / r * a12 th), (radial r * d12 th).
  refine (conj _ (conj _ (conj _ (conj _ (conj _ (conj _ (conj _ _))))))).
  - exact (is_derive_scal_l (V := R_NormedModule) radial r _ (a11 th) DR).
  - apply (is_derive_scal a11), D1.
  - exact (is_derive_scal_l (V := R_NormedModule) radial r _ (a22 th) DR).
  - apply (is_derive_scal a22), D2.
  - exact (is_derive_scal_l (V := R_NormedModule) radial r _ (a12 th) DR).
  - apply (is_derive_scal a12), D3.
  - unfold dx, dy. transitivity (radial r / r * (cos th * (la - 1) * a11 th - sin th * d11 th + (sin th * (la - 1) * a12 th + cos th * d12 th))); [field; lra|rewrite E1; ring].
  - unfold dx, dy. transitivity (radial r / r * (cos th * (la - 1) * a12 th - sin th * d12 th + (sin th * (la - 1) * a22 th + cos th * d22 th))); [field; lra|rewrite E2; ring].
Qed.
(* traction on a ray *)
Lemma ray_traction r th : let s := lshapeLocal la q F0 nu r th in let c := cos th in let n := sin th in
  c * (- n * sxx s + c * sxy s) + n * (- n * sxy s + c * syy s) = radial r * (q * (la + 1) * sin ((la + 1) * th) + (la - 1) * sin ((la - 1) * th)) /\
  - n * (- n * sxx s + c * sxy s) + c * (- n * sxy s + c * syy s) = radial r * (la + 1) * (cos ((la - 1) * th) + q * cos ((la + 1) * th)).
Proof.
  cbv zeta. rewrite local_form. cbn [sxx syy sxy]. unfold a11, a22, a12.
  assert (K : (la - 3) * th = (la - 1) * th - 2 * th) by ring. assert (K' : (la + 1) * th = (la - 1) * th + 2 * th) by ring. rewrite K, K'.
  rewrite (cos_minus ((la - 1) * th)), (sin_minus ((la - 1) * th)), (cos_plus ((la - 1) * th)), (sin_plus ((la - 1) * th)), (cos_2a th), (sin_2a th). assert (Q := sin2_cos2 th). unfold Rsqr in Q.
  generalize dependent (cos th). intros c. generalize (sin th). intros s Q. generalize (cos ((la - 1) * th)) (sin ((la - 1) * th)). intros a b. generalize (radial r). intros rr.
  assert (S2 : s * s = 1 - c * c) by lra. clear Q K K'. split; nsatz.
Qed.
Lemma edge_free w r : cos ((la - 1) * w) + q * cos ((la + 1) * w) = 0 -> q * (la + 1) * sin ((la + 1) * w) + (la - 1) * sin ((la - 1) * w) = 0 ->
  (let s := lshapeLocal la q F0 nu r w in tractionFree (sxx s) (syy s) (sxy s) (- sin w) (cos w)) /\
  (let s := lshapeLocal la q F0 nu r (- w) in tractionFree (sxx s) (syy s) (sxy s) (- sin (- w)) (cos (- w))).
Proof.
  intros H1 H2.
  assert (G : forall w, cos ((la - 1) * w) + q * cos ((la + 1) * w) = 0 -> q * (la + 1) * sin ((la + 1) * w) + (la - 1) * sin ((la - 1) * w) = 0 ->
    let s := lshapeLocal la q F0 nu r w in tractionFree (sxx s) (syy s) (sxy s) (- sin w) (cos w)).
  { clear. intros w H1 H2 s. destruct (ray_traction r w) as [T1 T2]. fold s in T1, T2. rewrite H1 in T2. rewrite H2 in T1. rewrite Rmult_0_r in T1, T2.
    assert (Q := sin2_cos2 w). unfold Rsqr in Q. unfold tractionFree. generalize dependent (cos w). intros c. generalize dependent (sin w). intros n. intros.
    generalize dependent (sxx s). intros a. generalize dependent (syy s). intros b. generalize dependent (sxy s). intros d. intros. split.
    - transitivity ((n * n + c * c) * (- n * a + c * d)); [rewrite Q; ring|].
      transitivity (c * (c * (- n * a + c * d) + n * (- n * d + c * b)) - n * (- n * (- n * a + c * d) + c * (- n * d + c * b))); [ring|]. rewrite T1, T2. ring.
    - transitivity ((n * n + c * c) * (- n * d + c * b)); [rewrite Q; ring|].
      transitivity (n * (c * (- n * a + c * d) + n * (- n * d + c * b)) + c * (- n * (- n * a + c * d) + c * (- n * d + c * b))); [ring|]. rewrite T1, T2. ring. }
  split; [now apply G|]. apply G.
  - replace ((la - 1) * - w) with (- ((la - 1) * w)) by ring. replace ((la + 1) * - w) with (- ((la + 1) * w)) by ring. now rewrite !cos_neg.
  - replace ((la - 1) * - w) with (- ((la - 1) * w)) by ring. replace ((la + 1) * - w) with (- ((la + 1) * w)) by ring. rewrite !sin_neg. lra.
Qed.
End Lsh.

(** ** Global coordinates *)
Section Global.
Variables (a F0 nu : R).
Definition mh := - sqrt (5 / 10).
Definition ph := sqrt (5 / 10).
Definition ex (X Y : R) := X * mh + Y * mh.
Definition ey (X Y : R) := X * ph + Y * mh.
Definition lshapeG (X Y : R) : st := transform mh ph mh mh (lshapeLocal lambda qL F0 nu (hypot (ex X Y) (ey X Y)) (atan2 (ey X Y) (ex X Y))).
Lemma half_sq : mh * mh = 5 / 10. Proof. unfold mh. replace (- sqrt (5 / 10) * - sqrt (5 / 10)) with (sqrt (5 / 10) * sqrt (5 / 10)) by ring. apply sqrt_sqrt. lra. Qed.
Lemma ph_mh : ph = - mh. Proof. unfold ph, mh. ring. Qed.
(* the local coordinates are a rotation of the global ones *)
Lemma rotation X Y : hypot (ex X Y) (ey X Y) = hypot X Y.
Proof. unfold hypot, ex, ey. f_equal. rewrite ph_mh. assert (H := half_sq). transitivity (2 * (mh * mh) * (X * X + Y * Y)); [ring|rewrite H; field]. Qed.
Lemma lshape_far X Y : a * / 10 ^ 32 < hypot X Y -> lshape a F0 nu X Y = lshapeG X Y.
Proof.
  intros H. unfold lshape. cbv zeta. fold mh ph. fold (ex X Y) (ey X Y). rewrite rotation. destruct (Rlt_dec (hypot X Y) (a * / 10 ^ 32)); [lra|]. unfold lshapeG. now rewrite rotation.
Qed.
Lemma global_equil X Y : offCut (ex X Y) (ey X Y) -> equil lshapeG X Y.
Proof.
  intros O. assert (Z := offCut_nz _ _ O). assert (P := hypot_gt0 _ _ Z). destruct (atan2_spec _ _ Z) as [CO SI].
  assert (UX : is_derive (fun t => ex t Y) X mh) by (unfold ex; auto_derive; [easy|ring]).
  assert (VX : is_derive (fun t => ey t Y) X ph) by (unfold ey; auto_derive; [easy|ring]).
  assert (UY : is_derive (fun t => ex X t) Y mh) by (unfold ex; auto_derive; [easy|ring]).
  assert (VY : is_derive (fun t => ey X t) Y mh) by (unfold ey; auto_derive; [easy|ring]).
  set (x := ex X Y) in *. set (y := ey X Y) in *. set (r := hypot x y) in *. set (th := atan2 y x) in *.
  destruct (a_derive lambda qL th) as [D1 [D2 D3]]. assert (DR := radial_derive lambda F0 r P). destruct (angular lambda qL th) as [E1 E2].
  set (C := radial lambda F0) in *. set (A1 := a11 lambda qL) in *. set (A2 := a22 lambda qL) in *. set (A3 := a12 lambda qL) in *.
  set (B1 := d11 lambda qL th) in *. set (B2 := d22 lambda qL th) in *. set (B3 := d12 lambda qL th) in *.
  set (K al be A B := (al * x + be * y) / r * ((lambda - 1) * C r / r) * A + C r * ((be * x - al * y) / (r * r) * B)).
  assert (DX : forall (A : R -> R) B, is_derive A th B -> is_derive (fun t => C (hypot (ex t Y) (ey t Y)) * A (atan2 (ey t Y) (ex t Y))) X (K mh ph (A th) B)).
  { intros A B D. exact (polar_dir (fun t => ex t Y) (fun t => ey t Y) X mh ph UX VX O C A _ B DR D). }
  assert (DY : forall (A : R -> R) B, is_derive A th B -> is_derive (fun t => C (hypot (ex X t) (ey X t)) * A (atan2 (ey X t) (ex X t))) Y (K mh mh (A th) B)).
  { intros A B D. exact (polar_dir (fun t => ex X t) (fun t => ey X t) Y mh mh UY VY O C A _ B DR D). }
  assert (L : forall c1 c2 c3 (A1 A2 A3 : R -> R) B1 B2 B3, is_derive A1 th B1 -> is_derive A2 th B2 -> is_derive A3 th B3 ->
    is_derive (fun th => c1 * A1 th + c2 * A2 th + c3 * A3 th) th (c1 * B1 + c2 * B2 + c3 * B3)).
  { clear. intros. apply (is_derive_plus (fun th => c1 * A1 th + c2 * A2 th) (fun th => c3 * A3 th)); [apply (is_derive_plus (fun th => c1 * A1 th) (fun th => c2 * A2 th))|]; now apply is_derive_scal. }
  assert (S11 : forall X Y, sxx (lshapeG X Y) = C (hypot (ex X Y) (ey X Y)) * ((fun th => 5 / 10 * A1 th + 5 / 10 * A2 th + - (1) * A3 th) (atan2 (ey X Y) (ex X Y)))).
  { intros X' Y'. unfold lshapeG. rewrite local_form. unfold transform; cbn [sxx syy sxy]. fold C A1 A2 A3. rewrite ph_mh. generalize (C (hypot (ex X' Y') (ey X' Y'))). intros. cbv beta. generalize (A1 (atan2 (ey X' Y') (ex X' Y'))) (A2 (atan2 (ey X' Y') (ex X' Y'))) (A3 (atan2 (ey X' Y') (ex X' Y'))). intros.
    assert (H := half_sq). transitivity (mh * mh * (r0 * (r1 + r2 - 2 * r3))); [ring|rewrite H; field]. }
  assert (S22 : forall X Y, syy (lshapeG X Y) = C (hypot (ex X Y) (ey X Y)) * ((fun th => 5 / 10 * A1 th + 5 / 10 * A2 th + 1 * A3 th) (atan2 (ey X Y) (ex X Y)))).
  { intros X' Y'. unfold lshapeG. rewrite local_form. unfold transform; cbn [sxx syy sxy]. fold C A1 A2 A3. generalize (C (hypot (ex X' Y') (ey X' Y'))). intros. cbv beta. generalize (A1 (atan2 (ey X' Y') (ex X' Y'))) (A2 (atan2 (ey X' Y') (ex X' Y'))) (A3 (atan2 (ey X' Y') (ex X' Y'))). intros.
    assert (H := half_sq). transitivity (mh * mh * (r0 * (r1 + r2 + 2 * r3))); [ring|rewrite H; field]. }
  assert (S12 : forall X Y, sxy (lshapeG X Y) = C (hypot (ex X Y) (ey X Y)) * ((fun th => 5 / 10 * A1 th + - (5 / 10) * A2 th + 0 * A3 th) (atan2 (ey X Y) (ex X Y)))).
  { intros X' Y'. unfold lshapeG. rewrite local_form. unfold transform; cbn [sxx syy sxy]. fold C A1 A2 A3. rewrite ph_mh. generalize (C (hypot (ex X' Y') (ey X' Y'))). intros. cbv beta. generalize (A1 (atan2 (ey X' Y') (ex X' Y'))) (A2 (atan2 (ey X' Y') (ex X' Y'))) (A3 (atan2 (ey X' Y') (ex X' Y'))). intros.
    assert (H := half_sq). transitivity (mh * mh * (r0 * (r1 - r2))); [ring|rewrite H; field]. }
  do 4 eexists. refine (conj _ (conj _ (conj _ (conj _ (conj _ _))))).
  - eapply is_derive_ext; [intros t; symmetry; apply S11|]. exact (DX _ _ (L (5 / 10) (5 / 10) (- (1)) A1 A2 A3 B1 B2 B3 D1 D2 D3)).
  - eapply is_derive_ext; [intros t; symmetry; apply S12|]. exact (DY _ _ (L (5 / 10) (- (5 / 10)) 0 A1 A2 A3 B1 B2 B3 D1 D2 D3)).
  - eapply is_derive_ext; [intros t; symmetry; apply S12|]. exact (DX _ _ (L (5 / 10) (- (5 / 10)) 0 A1 A2 A3 B1 B2 B3 D1 D2 D3)).
  - eapply is_derive_ext; [intros t; symmetry; apply S22|]. exact (DY _ _ (L (5 / 10) (5 / 10) 1 A1 A2 A3 B1 B2 B3 D1 D2 D3)).
  - cbv beta. unfold K. assert (Ec : cos th = x / r) by exact CO. assert (Es : sin th = y / r) by exact SI. rewrite Ec, Es in E1, E2. rewrite ph_mh.
    generalize dependent (A1 th). intros z1. generalize dependent (A2 th). intros z2. generalize dependent (A3 th). intros z3. intros. clearbody B1 B2 B3 C. clear - E1 E2 P.
    assert (F1 : x * (lambda - 1) * z1 - y * B1 + (y * (lambda - 1) * z3 + x * B3) = 0) by (apply (Rmult_eq_reg_r (/ r)); [rewrite Rmult_0_l, <- E1; field; lra|apply Rinv_neq_0_compat; lra]).
    assert (F2 : x * (lambda - 1) * z3 - y * B3 + (y * (lambda - 1) * z2 + x * B2) = 0) by (apply (Rmult_eq_reg_r (/ r)); [rewrite Rmult_0_l, <- E2; field; lra|apply Rinv_neq_0_compat; lra]).
    transitivity (mh * C r / (r * r) * ((x * (lambda - 1) * z1 - y * B1 + (y * (lambda - 1) * z3 + x * B3)) - (x * (lambda - 1) * z3 - y * B3 + (y * (lambda - 1) * z2 + x * B2)))); [field; lra|rewrite F1, F2; ring].
  - cbv beta. unfold K. assert (Ec : cos th = x / r) by exact CO. assert (Es : sin th = y / r) by exact SI. rewrite Ec, Es in E1, E2. rewrite ph_mh.
    generalize dependent (A1 th). intros z1. generalize dependent (A2 th). intros z2. generalize dependent (A3 th). intros z3. intros. clearbody B1 B2 B3 C. clear - E1 E2 P.
    assert (F1 : x * (lambda - 1) * z1 - y * B1 + (y * (lambda - 1) * z3 + x * B3) = 0) by (apply (Rmult_eq_reg_r (/ r)); [rewrite Rmult_0_l, <- E1; field; lra|apply Rinv_neq_0_compat; lra]).
    assert (F2 : x * (lambda - 1) * z3 - y * B3 + (y * (lambda - 1) * z2 + x * B2) = 0) by (apply (Rmult_eq_reg_r (/ r)); [rewrite Rmult_0_l, <- E2; field; lra|apply Rinv_neq_0_compat; lra]).
    transitivity (mh * C r / (r * r) * ((x * (lambda - 1) * z1 - y * B1 + (y * (lambda - 1) * z3 + x * B3)) + (x * (lambda - 1) * z3 - y * B3 + (y * (lambda - 1) * z2 + x * B2)))); [field; lra|rewrite F1, F2; ring].
Qed.
Lemma lshape_equil X Y : 0 <= a -> a * / 10 ^ 32 < hypot X Y -> 0 < ex X Y \/ ey X Y <> 0 -> equil (lshape a F0 nu) X Y.
Proof.
  intros A H O. apply (equil_ext (lshape a F0 nu) lshapeG (a * / 10 ^ 32)); [assumption|intros; now apply lshape_far|now apply global_equil].
Qed.
Lemma lshape_equil' X Y : 0 <= a -> a * / 10 ^ 32 < hypot X Y -> X + Y < 0 \/ X <> Y -> equil (lshape a F0 nu) X Y.
Proof.
  intros A H O. apply lshape_equil; try assumption. assert (P : 0 < sqrt (5 / 10)) by (apply sqrt_lt_R0; lra). unfold ex, ey, mh, ph. destruct O as [O|O]; [left; nra|right]. intros Z. apply O. nra.
Qed.
End Global.
