(** Plane reference solutions (C55, C87). *)
From Coquelicot Require Import Coquelicot.
From Verif Require Import Lib.Base Spec.Analytic Model.Analytic.

Lemma hypot_pos x y : x <> 0 \/ y <> 0 -> 0 < x * x + y * y.
Proof. intros [H|H]; nra. Qed.
Lemma hypot_sq x y : hypot x y * hypot x y = x * x + y * y.
Proof. unfold hypot. apply sqrt_def. nra. Qed.
Lemma hypot_gt0 x y : x <> 0 \/ y <> 0 -> 0 < hypot x y.
Proof. intros H. apply sqrt_lt_R0. now apply hypot_pos. Qed.
Lemma hypot_scaled x y : 0 < x -> hypot x y = x * sqrt (1 + (y / x)²).
Proof.
  intros P. unfold hypot. assert (x * x + y * y = (x * x) * (1 + (y / x)²)) as -> by (unfold Rsqr; field; lra).
  rewrite sqrt_mult_alt by nra. rewrite sqrt_square by lra. reflexivity.
Qed.
Lemma one_sq z : 0 < 1 + z². Proof. assert (H := Rle_0_sqr z). lra. Qed.
Lemma hypot_opp x y : hypot (- x) y = hypot x y. Proof. unfold hypot. f_equal. ring. Qed.
Lemma atan2_spec x y : x <> 0 \/ y <> 0 -> cos (atan2 y x) = x / hypot x y /\ sin (atan2 y x) = y / hypot x y.
Proof.
  intros H. unfold atan2. destruct (Rlt_dec 0 x) as [P|P].
  - rewrite cos_atan, sin_atan, (hypot_scaled x y P). assert (Q := sqrt_lt_R0 _ (one_sq (y / x))). split; field; lra.
  - destruct (Rlt_dec x 0) as [N|N].
    + assert (E : hypot x y = - x * sqrt (1 + (y / x)²)).
      { rewrite <- (hypot_opp x y), hypot_scaled by lra. do 3 f_equal. unfold Rsqr. field. lra. }
      assert (Q := sqrt_lt_R0 _ (one_sq (y / x))). rewrite E.
      destruct (Rle_dec 0 y).
      * rewrite neg_cos, neg_sin, cos_atan, sin_atan. split; field; lra.
      * assert (T : atan (y / x) - PI = atan (y / x) + PI - 2 * PI) by ring. rewrite T.
        rewrite cos_minus, sin_minus, cos_2PI, sin_2PI, neg_cos, neg_sin, cos_atan, sin_atan. split; field; lra.
    + assert (x = 0) as -> by lra. unfold hypot. rewrite Rmult_0_l, Rplus_0_l.
      destruct (Rlt_dec 0 y) as [Py|Py]; [|destruct (Rlt_dec y 0) as [Ny|Ny]].
      * rewrite cos_PI2, sin_PI2, sqrt_square by lra. split; field; lra.
      * rewrite cos_neg, sin_neg, cos_PI2, sin_PI2. replace (y * y) with (- y * - y) by ring. rewrite sqrt_square by lra. split; field; lra.
      * exfalso. destruct H; lra.
Qed.
Definition q2 (x y : R) : R := x * x + y * y.
Lemma trig2 x y : x <> 0 \/ y <> 0 -> let th := atan2 y x in cos (2 * th) = (x * x - y * y) / q2 x y /\ sin (2 * th) = 2 * x * y / q2 x y.
Proof.
  intros H th. destruct (atan2_spec x y H) as [C S']. assert (P := hypot_gt0 x y H). assert (Q := hypot_sq x y). fold (q2 x y) in Q. fold th in C, S'.
  rewrite cos_2a, sin_2a, C, S', <- Q. split; field; lra.
Qed.
Lemma trig4 x y : x <> 0 \/ y <> 0 -> let th := atan2 y x in
  cos (4 * th) = ((x * x - y * y) ^ 2 - (2 * x * y) ^ 2) / (q2 x y * q2 x y) /\ sin (4 * th) = 2 * (2 * x * y) * (x * x - y * y) / (q2 x y * q2 x y).
Proof.
  intros H th. destruct (trig2 x y H) as [C S']. fold th in C, S'. replace (4 * th) with (2 * (2 * th)) by ring. rewrite (cos_2a (2 * th)), (sin_2a (2 * th)), C, S'.
  assert (P : 0 < q2 x y) by now apply hypot_pos. split; field; lra.
Qed.

(** ** Plate with a hole *)
Definition holeRat (a F0 nu x y : R) : st :=
  let q := q2 x y in let c := x * x - y * y in let d := 2 * x * y in let R2 := a * a / q in
  mkSt (F0 * (1 - R2 * (15 / 10 * (c / q) + (c ^ 2 - d ^ 2) / (q * q)) + 15 / 10 * (R2 * R2) * ((c ^ 2 - d ^ 2) / (q * q))))
       (F0 * (- R2 * (5 / 10 * (c / q) - (c ^ 2 - d ^ 2) / (q * q)) - 15 / 10 * (R2 * R2) * ((c ^ 2 - d ^ 2) / (q * q))))
       (F0 * (- R2 * (5 / 10 * (d / q) + 2 * d * c / (q * q)) + 15 / 10 * (R2 * R2) * (2 * d * c / (q * q))))
       (F0 * nu * (1 - 2 * R2 * (c / q))).
Lemma outside_nz a x y : 0 < a -> a <= hypot x y -> x <> 0 \/ y <> 0.
Proof.
  intros A H. destruct (Req_dec x 0) as [->|]; [|now left]. destruct (Req_dec y 0) as [->|]; [|now right].
  unfold hypot in H. rewrite Rmult_0_l, Rplus_0_l, sqrt_0 in H. lra.
Qed.
Lemma hole_rat a F0 nu x y : 0 < a -> a <= hypot x y -> hole a F0 nu x y = holeRat a F0 nu x y.
Proof.
  intros A H. assert (Z := outside_nz a x y A H). destruct (trig2 x y Z) as [C2 S2]. destruct (trig4 x y Z) as [C4 S4]. assert (Q := hypot_sq x y). fold (q2 x y) in Q.
  unfold hole. cbv zeta. rewrite C2, S2, C4, S4. unfold holeRat. cbv zeta.
  destruct (Rle_dec (hypot x y) a) as [L|L].
  - assert (hypot x y = a) by lra. assert (E : a * a / q2 x y = 1) by (rewrite <- Q; subst a; field; lra). rewrite E. f_equal; ring.
  - rewrite Q. reflexivity.
Qed.
Lemma near_x a x y : a < hypot x y -> locally x (fun t => a < hypot t y).
Proof.
  intros H. assert (C : continuous (fun t => hypot t y) x).
  { unfold hypot. apply (continuous_comp (fun t => t * t + y * y) sqrt); [|apply continuous_sqrt].
    apply (ex_derive_continuous (fun t => t * t + y * y)). auto_derive. easy. }
  apply C. now apply (open_gt a).
Qed.
Lemma hypot_sym x y : hypot x y = hypot y x. Proof. unfold hypot. f_equal. ring. Qed.
Lemma near_y a x y : a < hypot x y -> locally y (fun t => a < hypot x t).
Proof. intros H. rewrite hypot_sym in H. generalize (near_x a y x H). apply filter_imp. intros t. now rewrite hypot_sym. Qed.
(* transfer of equilibrium to a field that agrees outside radius a *)
Lemma equil_ext (f g : R -> R -> st) a x y : a < hypot x y -> (forall x y, a < hypot x y -> f x y = g x y) ->
  equilibrium (fun x y => sxx (g x y)) (fun x y => syy (g x y)) (fun x y => sxy (g x y)) x y ->
  equilibrium (fun x y => sxx (f x y)) (fun x y => syy (f x y)) (fun x y => sxy (f x y)) x y.
Proof.
  intros H E [p [q [r [s [P [Q [R' [S' [E1 E2]]]]]]]]]. exists p, q, r, s.
  assert (LX : forall k : st -> R, locally x (fun t => k (g t y) = k (f t y))) by (intros k; generalize (near_x a x y H); apply filter_imp; intros t Ht; now rewrite E).
  assert (LY : forall k : st -> R, locally y (fun t => k (g x t) = k (f x t))) by (intros k; generalize (near_y a x y H); apply filter_imp; intros t Ht; now rewrite E).
  refine (conj _ (conj _ (conj _ (conj _ (conj E1 E2))))).
  - exact (is_derive_ext_loc _ _ _ _ (LX sxx) P).
  - exact (is_derive_ext_loc _ _ _ _ (LY sxy) Q).
  - exact (is_derive_ext_loc _ _ _ _ (LX sxy) R').
  - exact (is_derive_ext_loc _ _ _ _ (LY syy) S').
Qed.
Ltac rat_derive := eapply is_derive_ext; [intros; reflexivity|]; auto_derive; [|reflexivity].
Lemma holeRat_equil a F0 nu x y : 0 < q2 x y -> equilibrium (fun x y => sxx (holeRat a F0 nu x y)) (fun x y => syy (holeRat a F0 nu x y)) (fun x y => sxy (holeRat a F0 nu x y)) x y.
Proof.
  intros P. unfold q2 in P. unfold equilibrium, holeRat, q2; cbn [sxx syy sxy]. do 4 eexists. refine (conj _ (conj _ (conj _ (conj _ (conj _ _))))).
  1,2,3,4: auto_derive; [repeat split; try nra|reflexivity].
  1,2: field; nra.
Qed.
Notation equil f := (equilibrium (fun x y => sxx (f x y)) (fun x y => syy (f x y)) (fun x y => sxy (f x y))).
Lemma hole_equil a F0 nu x y : 0 < a -> a < hypot x y -> equil (hole a F0 nu) x y.
Proof.
  intros A H. apply (equil_ext (hole a F0 nu) (holeRat a F0 nu) a); [assumption|intros; apply hole_rat; lra|]. apply holeRat_equil.
  unfold q2. apply hypot_pos. apply (outside_nz a); lra.
Qed.
Lemma hole_free a F0 nu x y : 0 < a -> hypot x y = a -> tractionFree (sxx (hole a F0 nu x y)) (syy (hole a F0 nu x y)) (sxy (hole a F0 nu x y)) x y.
Proof.
  intros A H. assert (Z := outside_nz a x y A (Req_le _ _ (eq_sym H))). assert (P := hypot_pos x y Z). rewrite hole_rat by lra. assert (Q := hypot_sq x y). rewrite H in Q.
  unfold tractionFree, holeRat, q2; cbn [sxx syy sxy]. rewrite Q. split; field; nra.
Qed.
Lemma hole_strain a F0 nu x y : 0 < a -> a <= hypot x y -> szz (hole a F0 nu x y) = nu * (sxx (hole a F0 nu x y) + syy (hole a F0 nu x y)).
Proof.
  intros A H. assert (Z := outside_nz a x y A H). assert (P := hypot_pos x y Z). rewrite hole_rat by assumption. unfold holeRat, q2; cbn. field. nra.
Qed.
Ltac nzm := repeat split; repeat (apply Rmult_integral_contrapositive_currified); lra.
(* the trace is harmonic: with equilibrium this is compatibility of the strains *)
Lemma hole_harmonic a F0 nu x y : 0 < a -> a < hypot x y ->
  exists fx fxx fy fyy, (forall t u, 0 < q2 t u -> is_derive (fun t => sxx (holeRat a F0 nu t u) + syy (holeRat a F0 nu t u)) t (fx t u) /\ is_derive (fun u => sxx (holeRat a F0 nu t u) + syy (holeRat a F0 nu t u)) u (fy t u))
   /\ is_derive (fun t => fx t y) x fxx /\ is_derive (fun u => fy x u) y fyy /\ fxx + fyy = 0.
Proof.
  intros A H. assert (Z : x <> 0 \/ y <> 0) by (apply (outside_nz a); lra). assert (P := hypot_pos x y Z).
  exists (fun x y => F0 * (- 2 * (a * a)) * (2 * x * (3 * y * y - x * x)) / (q2 x y * q2 x y * q2 x y)). eexists.
  exists (fun x y => F0 * (- 2 * (a * a)) * (- 2 * y * (3 * x * x - y * y)) / (q2 x y * q2 x y * q2 x y)). eexists.
  split; [|split; [|split]].
  - intros t u Q. unfold holeRat, q2 in *; cbn [sxx syy]. split; auto_derive; try (repeat split; nra); field; nra.
  - unfold q2. auto_derive; [nzm|reflexivity].
  - unfold q2. auto_derive; [nzm|reflexivity].
  - field. nra.
Qed.
Lemma hole_far F0 nu a : 0 < a -> is_lim (fun x => sxx (hole a F0 nu x 0)) p_infty F0 /\ is_lim (fun x => sxx (hole a F0 nu 0 x)) p_infty F0.
Proof.
  intros A.
  assert (HY : forall x, 0 < x -> hypot x 0 = x) by (intros x Px; unfold hypot; rewrite Rmult_0_l, Rplus_0_r; apply sqrt_square; lra).
  assert (L2 : is_lim (fun x => a * a / (x * x)) p_infty 0).
  { apply (is_lim_ext (fun x => a * a * / (x * x))); [reflexivity|].
    evar_last. apply is_lim_scal_l. apply is_lim_inv; [apply is_lim_mult; [apply is_lim_id|apply is_lim_id|easy]|easy]. cbn. f_equal. ring. }
  split.
  - apply (is_lim_ext_loc (fun x => F0 * (1 - a * a / (x * x) * (15 / 10 + 1) + 15 / 10 * (a * a / (x * x) * (a * a / (x * x)))))).
    + exists a. intros x Hx. rewrite hole_rat by (rewrite ?HY; lra). unfold holeRat, q2; cbn [sxx]. field. nra.
    + evar_last. apply is_lim_scal_l. eapply is_lim_plus. eapply is_lim_minus. apply is_lim_const. apply is_lim_scal_r. exact L2. reflexivity.
      apply is_lim_scal_l. eapply is_lim_mult. exact L2. exact L2. cbn. easy. reflexivity. cbn. f_equal. ring.
  - apply (is_lim_ext_loc (fun x => F0 * (1 - a * a / (x * x) * (- (15 / 10) + 1) + 15 / 10 * (a * a / (x * x) * (a * a / (x * x)))))).
    + exists a. intros x Hx. rewrite hole_rat by (rewrite ?(hypot_sym 0 x), ?HY; lra). unfold holeRat, q2; cbn [sxx]. field. nra.
    + evar_last. apply is_lim_scal_l. eapply is_lim_plus. eapply is_lim_minus. apply is_lim_const. apply is_lim_scal_r. exact L2. reflexivity.
      apply is_lim_scal_l. eapply is_lim_mult. exact L2. exact L2. cbn. easy. reflexivity. cbn. f_equal. ring.
Qed.

(** ** Cantilever *)
Lemma canTS_equil L H F0 x y : 0 < L -> 0 < H -> equil (canTS L H F0) x y.
Proof.
  intros PL PH. unfold equilibrium, canTS; cbn [sxx syy sxy]. do 4 eexists. refine (conj _ (conj _ (conj _ (conj _ (conj _ _))))).
  1,2,3,4: auto_derive; [easy|reflexivity]. 1,2: field; lra.
Qed.
Lemma canTS_free L H F0 x : 0 < L -> 0 < H -> (let s := canTS L H F0 x 0 in tractionFree (sxx s) (syy s) (sxy s) 0 1) /\ (let s := canTS L H F0 x H in tractionFree (sxx s) (syy s) (sxy s) 0 1).
Proof. intros PL PH. unfold tractionFree, canTS; cbn [sxx syy sxy]. repeat split; try ring; field; lra. Qed.
Lemma poly_int (F f : R -> R) a b : (forall z, is_derive F z (f z)) -> (forall z, ex_derive f z) -> is_RInt f a b (F b - F a).
Proof.
  intros D C. apply (is_RInt_derive (V := R_CompleteNormedModule) F); intros; [apply D|]. apply (ex_derive_continuous f), C.
Qed.
Lemma canTS_resultants L H F0 x : 0 < L -> 0 < H ->
  is_RInt (fun y => sxy (canTS L H F0 x y)) 0 H F0 /\ is_RInt (fun y => sxx (canTS L H F0 x y)) 0 H 0 /\
  is_RInt (fun y => sxx (canTS L H F0 x y) * (y - H / 2)) 0 H (F0 * (x - L)).
Proof.
  intros PL PH. unfold canTS; cbn [sxx sxy].
  split; [|split].
  - assert (W := poly_int (fun y => 6 * F0 / (H * H * H) * (H * y * y / 2 - y * y * y / 3)) (fun y => F0 * H * H / (H * H * H / 12) * (5 / 10) * (25 / 100 - (y / H - 5 / 10) * (y / H - 5 / 10))) 0 H).
    evar_last; [apply W; intros; auto_derive; try easy; field; repeat split; lra|field; repeat split; lra].
  - assert (W := poly_int (fun y => F0 * L * H / (H * H * H / 12) * (x / L - 1) * (y * y / 2 / H - 5 / 10 * y)) (fun y => F0 * L * H / (H * H * H / 12) * (x / L - 1) * (y / H - 5 / 10)) 0 H).
    evar_last; [apply W; intros; auto_derive; try easy; field; repeat split; lra|field; repeat split; lra].
  - assert (W := poly_int (fun y => F0 * L * H / (H * H * H / 12) * (x / L - 1) / H * (y - H / 2) ^ 3 / 3) (fun y => F0 * L * H / (H * H * H / 12) * (x / L - 1) * (y / H - 5 / 10) * (y - H / 2)) 0 H).
    evar_last; [apply W; intros; auto_derive; try easy; field; repeat split; lra|field; repeat split; lra].
Qed.
Lemma canTM_equil H M0 x y : 0 < H -> equil (fun _ y => canTM H M0 y) x y.
Proof.
  intros PH. unfold equilibrium, canTM; cbn [sxx syy sxy]. do 4 eexists. refine (conj _ (conj _ (conj _ (conj _ (conj _ _))))).
  1,2,3,4: auto_derive; [easy|reflexivity]. 1,2: ring.
Qed.
Lemma canTM_resultants H M0 : 0 < H -> is_RInt (fun y => sxx (canTM H M0 y)) 0 H 0 /\ is_RInt (fun y => sxx (canTM H M0 y) * (y - H / 2)) 0 H M0.
Proof.
  intros PH. unfold canTM; cbn [sxx]. split.
  - assert (W := poly_int (fun y => M0 * H / (H * H * H / 12) * (y * y / 2 / H - 5 / 10 * y)) (fun y => M0 * H / (H * H * H / 12) * (y / H - 5 / 10)) 0 H).
    evar_last; [apply W; intros; auto_derive; try easy; field; repeat split; lra|field; repeat split; lra].
  - assert (W := poly_int (fun y => M0 * H / (H * H * H / 12) / H * (y - H / 2) ^ 3 / 3) (fun y => M0 * H / (H * H * H / 12) * (y / H - 5 / 10) * (y - H / 2)) 0 H).
    evar_last; [apply W; intros; auto_derive; try easy; field; repeat split; lra|field; repeat split; lra].
Qed.

(** ** Curved beam *)
Definition curvedRat (PN a b x y : R) : st :=
  let q := q2 x y in let A := a * a * b * b in let B := a * a + b * b in
  (* polar stresses divided by sin/r resp. cos/r *)
  let u := PN * (1 + A / (q * q) - B / q) in let v := PN * (3 - A / (q * q) - B / q) in let w := PN * (- 1 - A / (q * q) + B / q) in
  mkSt (x * (x * (u * y) - y * (w * x)) / q - y * (x * (w * x) - y * (v * y)) / q)
       (y * (y * (u * y) + x * (w * x)) / q + x * (y * (w * x) + x * (v * y)) / q)
       (x * (y * (u * y) + x * (w * x)) / q - y * (y * (w * x) + x * (v * y)) / q) 0.
Lemma curved_rat u0 E a b x y : x <> 0 \/ y <> 0 -> curvedBeam u0 E a b x y = curvedRat (beamPN u0 E a b) a b x y.
Proof.
  intros Z. destruct (atan2_spec x y Z) as [C S']. assert (P := hypot_gt0 x y Z). assert (Q := hypot_sq x y). unfold curvedBeam, curvedPolar. cbv zeta. rewrite C, S'.
  unfold transform, curvedRat, q2; cbn [sxx syy sxy szz]. rewrite <- Q. f_equal; field; lra.
Qed.
Lemma curvedRat_equil PN a b x y : 0 < q2 x y -> equil (curvedRat PN a b) x y.
Proof.
  intros P. unfold q2 in P. unfold equilibrium, curvedRat, q2; cbn [sxx syy sxy]. do 4 eexists. refine (conj _ (conj _ (conj _ (conj _ (conj _ _))))).
  1,2,3,4: auto_derive; [repeat split; try nra|reflexivity].
  1,2: field; nra.
Qed.
Lemma hypot_nz x y : 0 < hypot x y -> x <> 0 \/ y <> 0.
Proof. intros H. apply (outside_nz (hypot x y)); lra. Qed.
Lemma curved_equil u0 E a b x y : 0 < hypot x y -> equil (curvedBeam u0 E a b) x y.
Proof.
  intros H. apply (equil_ext (curvedBeam u0 E a b) (curvedRat (beamPN u0 E a b) a b) 0); [assumption|intros; now apply curved_rat, hypot_nz|].
  apply curvedRat_equil. now apply hypot_pos, hypot_nz.
Qed.
Lemma curved_free u0 E a b x y : 0 < a -> 0 < b -> hypot x y = a \/ hypot x y = b ->
  let s := curvedBeam u0 E a b x y in tractionFree (sxx s) (syy s) (sxy s) x y.
Proof.
  intros A B H. assert (P : 0 < hypot x y) by (destruct H; lra). rewrite curved_rat by now apply hypot_nz. assert (Q := hypot_sq x y).
  unfold tractionFree, curvedRat, q2; cbn [sxx syy sxy]. assert (Y := hypot_pos x y (hypot_nz x y P)).
  assert (q : x * x + y * y = a * a \/ x * x + y * y = b * b) by (destruct H as [H|H]; rewrite H in Q; [left|right]; lra).
  destruct q as [q|q].
  - assert (PN1 : 1 + a * a * b * b / (a * a * (a * a)) - (a * a + b * b) / (a * a) = 0) by (field; lra).
    rewrite q, PN1. assert (PN2 : - (1) - a * a * b * b / (a * a * (a * a)) + (a * a + b * b) / (a * a) = 0) by (field; lra). 
    replace (-1 - a * a * b * b / (a * a * (a * a)) + (a * a + b * b) / (a * a)) with 0 by (rewrite <- PN2; ring). split; field; lra.
  - assert (PN1 : 1 + a * a * b * b / (b * b * (b * b)) - (a * a + b * b) / (b * b) = 0) by (field; lra).
    rewrite q, PN1. assert (PN2 : - (1) - a * a * b * b / (b * b * (b * b)) + (a * a + b * b) / (b * b) = 0) by (field; lra). 
    replace (-1 - a * a * b * b / (b * b * (b * b)) + (a * a + b * b) / (b * b)) with 0 by (rewrite <- PN2; ring). split; field; lra.
Qed.
(* symmetry line y = 0 carries shear only; line x = 0 carries no shear *)
Lemma curved_ends u0 E a b r : 0 < r -> sxx (curvedBeam u0 E a b r 0) = 0 /\ syy (curvedBeam u0 E a b r 0) = 0 /\ sxy (curvedBeam u0 E a b 0 r) = 0.
Proof.
  intros P. rewrite (curved_rat u0 E a b r 0) by (left; lra). rewrite (curved_rat u0 E a b 0 r) by (right; lra). unfold curvedRat, q2; cbn. repeat split; field; nra.
Qed.

(** ** Heated pipe *)
Lemma log_ratio_pos ra rb : 0 < ra -> ra < rb -> 0 < ln (rb / ra).
Proof.
  intros A B. rewrite <- ln_1. apply ln_increasing; [lra|]. apply (Rmult_lt_reg_r ra); [assumption|]. unfold Rdiv. rewrite Rmult_assoc, Rinv_l by lra. lra.
Qed.
Lemma sq_pos ra rb : 0 < ra -> ra < rb -> 0 < rb / ra * (rb / ra) - 1.
Proof. intros A B. assert (H : 1 < rb / ra) by (apply (Rmult_lt_reg_r ra); [assumption|]; unfold Rdiv; rewrite Rmult_assoc, Rinv_l by lra; lra). nra. Qed.
(* polar equilibrium of an axisymmetric state *)
Lemma pipe_polar ra rb Ti Te T0 E nu al r : 0 < ra -> ra < rb -> 0 < r -> 
  exists d, is_derive (fun t => t * sxx (pipePolar ra rb Ti Te T0 E nu al t)) r d /\ d = syy (pipePolar ra rb Ti Te T0 E nu al r).
Proof.
  intros A B P. assert (L := log_ratio_pos ra rb A B). assert (S' := sq_pos ra rb A B). unfold pipePolar; cbn [sxx syy].
  generalize (E * al * (Te - Ti) * (5 / 10) / (1 - nu * nu)). intros C. eexists. split; [|reflexivity].
  assert (0 < rb / r) by (apply Rdiv_lt_0_compat; lra).
  auto_derive; [repeat split; lra|]. unfold Rdiv in *. revert L S'. generalize (ln (rb * / ra)). generalize (ln (rb * / r)). intros l1 l2 L S'. field.
  assert (rb * rb - ra * ra <> 0) by nra. repeat split; try lra; nra.
Qed.
Lemma pipe_surface ra rb Ti Te T0 E nu al : 0 < ra -> ra < rb ->
  sxx (pipePolar ra rb Ti Te T0 E nu al ra) = 0 /\ sxx (pipePolar ra rb Ti Te T0 E nu al rb) = 0.
Proof.
  intros A B. assert (L := log_ratio_pos ra rb A B). assert (S' := sq_pos ra rb A B). unfold pipePolar; cbn [sxx]. generalize (E * al * (Te - Ti) * (5 / 10) / (1 - nu * nu)). intros C. split.
  - field. repeat split; try lra; nra.
  - replace (rb / rb) with 1 by (field; lra). rewrite ln_1. field. repeat split; try lra; nra.
Qed.
(* an axisymmetric state with t f(t) having derivative g is in equilibrium in Cartesian coordinates *)
Definition axial (f g : R -> R) (x y : R) : st := let r := hypot x y in transform (x / r) (- (y / r)) (y / r) (x / r) (mkSt (f r) (g r) 0 0).
Lemma sqrt_comp (f : R -> R) f' x y : 0 < hypot x y -> is_derive f (hypot x y) f' -> is_derive (fun t => f (hypot t y)) x (x / hypot x y * f').
Proof.
  intros P D. assert (W : is_derive (fun t => hypot t y) x (x / hypot x y)).
  { assert (q := hypot_pos x y (hypot_nz x y P)). unfold hypot. auto_derive; [assumption|]. unfold hypot in P. field. lra. }
  exact (is_derive_comp f (fun t => hypot t y) x f' (x / hypot x y) D W).
Qed.
Lemma sqrt_comp_y (f : R -> R) f' x y : 0 < hypot x y -> is_derive f (hypot x y) f' -> is_derive (fun t => f (hypot x t)) y (y / hypot x y * f').
Proof.
  intros P D. rewrite (hypot_sym x y) in *. apply (is_derive_ext (fun t => f (hypot t x))); [intros; now rewrite hypot_sym|]. now apply sqrt_comp.
Qed.
(* stress of an axisymmetric state with f' = r h and g = f + r^2 h: f I + h (r^2 I - x (x) x) *)
Lemma axial_form f g h x y : 0 < hypot x y -> (forall r, 0 < r -> g r = f r + r * r * h r) ->
  axial f g x y = mkSt (f (hypot x y) + y * y * h (hypot x y)) (f (hypot x y) + x * x * h (hypot x y)) (- (x * y * h (hypot x y))) 0.
Proof.
  intros P G. unfold axial, transform; cbn [sxx syy sxy szz]. rewrite G by assumption. assert (Q := hypot_sq x y). set (r := hypot x y) in *. clearbody r.
  assert (D : x * x = r * r - y * y) by lra. f_equal.
  - transitivity ((x * x + y * y) / (r * r) * f r + y * y * h r); [field; lra|]. rewrite <- Q. field. lra.
  - transitivity ((x * x + y * y) / (r * r) * f r + x * x * h r); [field; lra|]. rewrite <- Q. field. lra.
  - field. lra.
Qed.
Lemma axial_equil f g h h' x y : 0 < hypot x y -> (forall r, 0 < r -> g r = f r + r * r * h r) -> (forall r, 0 < r -> is_derive f r (r * h r)) ->
  (forall r, 0 < r -> is_derive h r (h' r)) -> equil (axial f g) x y.
Proof.
  intros P G F H. 
  apply (equil_ext (axial f g) (fun x y => mkSt (f (hypot x y) + y * y * h (hypot x y)) (f (hypot x y) + x * x * h (hypot x y)) (- (x * y * h (hypot x y))) 0) 0); [assumption|intros; now apply axial_form|].
  cbn [sxx syy sxy].
  assert (FX := sqrt_comp f _ x y P (F _ P)). assert (FY := sqrt_comp_y f _ x y P (F _ P)). assert (HX := sqrt_comp h _ x y P (H _ P)). assert (HY := sqrt_comp_y h _ x y P (H _ P)).
  set (r := hypot x y) in *.
  exists (x / r * (r * h r) + y * y * (x / r * h' r)), (- (x * h r + x * y * (y / r * h' r))), (- (y * h r + x * y * (x / r * h' r))), (y / r * (r * h r) + x * x * (y / r * h' r)).
  refine (conj _ (conj _ (conj _ (conj _ (conj _ _))))).
  - apply (is_derive_plus (fun t => f (hypot t y)) (fun t => y * y * h (hypot t y))); [exact FX|]. apply (is_derive_scal (fun t => h (hypot t y))), HX.
  - apply (is_derive_opp (fun t => x * t * h (hypot x t))). evar_last. apply (is_derive_mult (fun t => x * t) (fun t => h (hypot x t))); [auto_derive; [easy|reflexivity]|exact HY|intros; apply Rmult_comm]. unfold plus, mult; cbn. fold r. ring.
  - apply (is_derive_opp (fun t => t * y * h (hypot t y))). evar_last. apply (is_derive_mult (fun t => t * y) (fun t => h (hypot t y))); [auto_derive; [easy|reflexivity]|exact HX|intros; apply Rmult_comm]. unfold plus, mult; cbn. fold r. ring.
  - apply (is_derive_plus (fun t => f (hypot x t)) (fun t => x * x * h (hypot x t))); [exact FY|]. apply (is_derive_scal (fun t => h (hypot x t))), HY.
  - field. lra.
  - field. lra.
Qed.
Lemma pipe_axial ra rb Ti Te T0 E nu al x y : let P := pipePolar ra rb Ti Te T0 E nu al in
  let s := pipe ra rb Ti Te T0 E nu al false x y in let s' := axial (fun r => sxx (P r)) (fun r => syy (P r)) x y in sxx s = sxx s' /\ syy s = syy s' /\ sxy s = sxy s'.
Proof. now repeat split. Qed.
Lemma equil_ext' (f g : R -> R -> st) x y : (forall x y, sxx (f x y) = sxx (g x y) /\ syy (f x y) = syy (g x y) /\ sxy (f x y) = sxy (g x y)) -> equil g x y -> equil f x y.
Proof.
  intros E [p [q [r [s [P [Q [R' [S' [E1 E2]]]]]]]]]. exists p, q, r, s. refine (conj _ (conj _ (conj _ (conj _ (conj E1 E2))))).
  - apply (is_derive_ext (fun t => sxx (g t y))); [intros; symmetry; apply E|assumption].
  - apply (is_derive_ext (fun t => sxy (g x t))); [intros; symmetry; apply E|assumption].
  - apply (is_derive_ext (fun t => sxy (g t y))); [intros; symmetry; apply E|assumption].
  - apply (is_derive_ext (fun t => syy (g x t))); [intros; symmetry; apply E|assumption].
Qed.
Lemma pipe_equil ra rb Ti Te T0 E nu al x y : 0 < ra -> ra < rb -> 0 < hypot x y -> equil (pipe ra rb Ti Te T0 E nu al false) x y.
Proof.
  intros A B P. eapply equil_ext'; [intros; apply pipe_axial|].
  assert (L := log_ratio_pos ra rb A B). assert (S' := sq_pos ra rb A B). assert (B2 : rb * rb - ra * ra <> 0) by nra.
  set (C := E * al * (Te - Ti) * (5 / 10) / (1 - nu * nu)).
  apply (axial_equil _ _ (fun r => C * (- / (r * r * ln (rb / ra)) + 2 * (rb * rb) / (r * r * (r * r) * (rb / ra * (rb / ra) - 1))))
     (fun r => C * (2 / (r * r * r * ln (rb / ra)) - 8 * (rb * rb) / (r * r * (r * r) * r * (rb / ra * (rb / ra) - 1)))) x y P).
  - intros r Pr. unfold pipePolar; cbn [sxx syy]. fold C. clearbody C. field. repeat split; nra.
  - intros r Pr. unfold pipePolar; cbn [sxx syy]. fold C. clearbody C. assert (0 < rb / r) by (apply Rdiv_lt_0_compat; lra).
    auto_derive; [repeat split; lra|]. unfold Rdiv in *. revert L S'. generalize (ln (rb * / ra)). intros l2 L S'. field. repeat split; try lra; nra.
  - intros r Pr. clearbody C. revert L S'. generalize (ln (rb / ra)). intros l2 L S'. auto_derive; [repeat split; nzm|]. field. repeat split; try lra; nra.
Qed.
Lemma pipe_free ra rb Ti Te T0 E nu al x y : 0 < ra -> ra < rb -> hypot x y = ra \/ hypot x y = rb ->
  let s := pipe ra rb Ti Te T0 E nu al false x y in tractionFree (sxx s) (syy s) (sxy s) x y.
Proof.
  intros A B H. assert (P : 0 < hypot x y) by (destruct H; lra). destruct (pipe_surface ra rb Ti Te T0 E nu al A B) as [Z1 Z2].
  assert (Z : sxx (pipePolar ra rb Ti Te T0 E nu al (hypot x y)) = 0) by (destruct H as [H|H]; rewrite H; assumption).
  assert (S0 : sxy (pipePolar ra rb Ti Te T0 E nu al (hypot x y)) = 0) by reflexivity.
  unfold pipe, tractionFree, transform. cbv zeta. cbn [sxx syy sxy]. rewrite Z, S0. split; field; lra.
Qed.
(* the radial/hoop components come out in the polar option and agree with the Cartesian ones *)
Lemma pipe_options ra rb Ti Te T0 E nu al x y : 0 < hypot x y ->
  let p := pipe ra rb Ti Te T0 E nu al true x y in let s := pipe ra rb Ti Te T0 E nu al false x y in
  let nx := x / hypot x y in let ny := y / hypot x y in
  sxx p = nx * (nx * sxx s + ny * sxy s) + ny * (nx * sxy s + ny * syy s) /\
  syy p = ny * (ny * sxx s - nx * sxy s) - nx * (ny * sxy s - nx * syy s) /\ szz p = szz s.
Proof.
  intros P. cbv zeta. unfold pipe, transform. cbv zeta. cbn [sxx syy sxy szz]. assert (Q := hypot_sq x y). set (r := hypot x y) in *.
  assert (N : x / r * (x / r) + y / r * (y / r) = 1) by (transitivity ((x * x + y * y) / (r * r)); [field; lra|rewrite <- Q; field; lra]).
  generalize dependent (x / r). intros nx. generalize (y / r). intros ny N. assert (nx * nx = 1 - ny * ny) by lra.
  split; [|split; [|reflexivity]].
  - transitivity ((nx * nx + ny * ny) * ((nx * nx + ny * ny) * sxx (pipePolar ra rb Ti Te T0 E nu al r))); [rewrite N; ring|ring].
  - transitivity ((nx * nx + ny * ny) * ((nx * nx + ny * ny) * syy (pipePolar ra rb Ti Te T0 E nu al r))); [rewrite N; ring|ring].
Qed.

