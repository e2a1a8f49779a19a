(** Reference solutions (C55, C56, C87). *)
From Coq Require Import Arith Bool Reals Lra Lia.
From Coquelicot Require Import Coquelicot.
From Verif Require Import Lib.Base Spec.Analytic Spec.PlateSol Model.Analytic Proofs.Analytic Proofs.Lshape Proofs.PlateSol Proofs.PlateRef.

(** ** C55.  [equilibrium] and [tractionFree] are in Spec/Analytic.v. *)
Definition inEquilibrium (f : R -> R -> st) (x y : R) : Prop := equilibrium (fun x y => sxx (f x y)) (fun x y => syy (f x y)) (fun x y => sxy (f x y)) x y.
Definition free (s : st) (nx ny : R) : Prop := tractionFree (sxx s) (syy s) (sxy s) nx ny.
Theorem C55_hole_equilibrium : forall a F0 nu x y, 0 < a -> a < hypot x y -> inEquilibrium (hole a F0 nu) x y.
Proof. exact hole_equil. Qed.
Theorem C55_hole_boundary : forall a F0 nu x y, 0 < a -> hypot x y = a -> free (hole a F0 nu x y) x y.
Proof. exact hole_free. Qed.
Theorem C55_hole_plane_strain : forall a F0 nu x y, 0 < a -> a <= hypot x y -> szz (hole a F0 nu x y) = nu * (sxx (hole a F0 nu x y) + syy (hole a F0 nu x y)).
Proof. exact hole_strain. Qed.
(** Far from the hole the stress is the applied tension F0. *)
Theorem C55_hole_far_field : forall F0 nu a, 0 < a -> is_lim (fun x => sxx (hole a F0 nu x 0)) p_infty F0 /\ is_lim (fun x => sxx (hole a F0 nu 0 x)) p_infty F0.
Proof. exact hole_far. Qed.
Theorem C55_cantilever_equilibrium : forall L H F0 x y, 0 < L -> 0 < H -> inEquilibrium (canTS L H F0) x y.
Proof. exact canTS_equil. Qed.
Theorem C55_cantilever_boundary : forall L H F0 x, 0 < L -> 0 < H -> free (canTS L H F0 x 0) 0 1 /\ free (canTS L H F0 x H) 0 1.
Proof. exact canTS_free. Qed.
(** Any cross-section carries the shear force F0, no normal force, and the moment F0 (x - L), zero at the loaded end. *)
Theorem C55_cantilever_resultants : forall L H F0 x, 0 < L -> 0 < H ->
  is_RInt (fun y => sxy (canTS L H F0 x y)) 0 H F0 /\ is_RInt (fun y => sxx (canTS L H F0 x y)) 0 H 0 /\
  is_RInt (fun y => sxx (canTS L H F0 x y) * (y - H / 2)) 0 H (F0 * (x - L)).
Proof. exact canTS_resultants. Qed.
Theorem C55_moment_cantilever : forall H M0 x y, 0 < H -> inEquilibrium (fun _ y => canTM H M0 y) x y /\
  is_RInt (fun y => sxx (canTM H M0 y)) 0 H 0 /\ is_RInt (fun y => sxx (canTM H M0 y) * (y - H / 2)) 0 H M0.
Proof. intros H M0 x y P. exact (conj (canTM_equil H M0 x y P) (canTM_resultants H M0 P)). Qed.
Theorem C55_curved_beam_equilibrium : forall u0 E a b x y, 0 < hypot x y -> inEquilibrium (curvedBeam u0 E a b) x y.
Proof. exact curved_equil. Qed.
Theorem C55_curved_beam_boundary : forall u0 E a b x y, 0 < a -> 0 < b -> hypot x y = a \/ hypot x y = b -> free (curvedBeam u0 E a b x y) x y.
Proof. exact curved_free. Qed.
Theorem C55_curved_beam_ends : forall u0 E a b r, 0 < r ->
  sxx (curvedBeam u0 E a b r 0) = 0 /\ syy (curvedBeam u0 E a b r 0) = 0 /\ sxy (curvedBeam u0 E a b 0 r) = 0.
Proof. exact curved_ends. Qed.
Theorem C55_pipe_equilibrium : forall ra rb Ti Te T0 E nu al x y, 0 < ra -> ra < rb -> 0 < hypot x y -> inEquilibrium (pipe ra rb Ti Te T0 E nu al false) x y.
Proof. exact pipe_equil. Qed.
Theorem C55_pipe_boundary : forall ra rb Ti Te T0 E nu al x y, 0 < ra -> ra < rb -> hypot x y = ra \/ hypot x y = rb -> free (pipe ra rb Ti Te T0 E nu al false x y) x y.
Proof. exact pipe_free. Qed.
Theorem C55_pipe_polar_option : forall ra rb Ti Te T0 E nu al x y, 0 < hypot x y ->
  let p := pipe ra rb Ti Te T0 E nu al true x y in let s := pipe ra rb Ti Te T0 E nu al false x y in
  let nx := x / hypot x y in let ny := y / hypot x y in
  sxx p = nx * (nx * sxx s + ny * sxy s) + ny * (nx * sxy s + ny * syy s) /\
  syy p = ny * (ny * sxx s - nx * sxy s) - nx * (ny * sxy s - nx * syy s) /\ szz p = szz s.
Proof. exact pipe_options. Qed.
Example C55_hole_ex : inEquilibrium (hole 1 10 (3 / 10)) 3 4 /\ free (hole 5 10 (3 / 10) 3 4) 3 4.
Proof.
  assert (H : hypot 3 4 = 5) by (unfold hypot; replace (3 * 3 + 4 * 4) with (5 * 5) by ring; apply sqrt_square; lra).
  split; [apply C55_hole_equilibrium; lra|apply C55_hole_boundary; lra].
Qed.
(* three times the remote stress beside the hole *)
Example C55_hole_concentration : forall F0 nu, sxx (hole 1 F0 nu 0 1) = 3 * F0.
Proof. intros. rewrite hole_rat; [unfold holeRat, q2; cbn; field|lra|]. unfold hypot. replace (0 * 0 + 1 * 1) with 1 by ring. rewrite sqrt_1. lra. Qed.
Example C55_pipe_ex : inEquilibrium (pipe 5 10 20 100 20 200000 (3 / 10) (12 / 1000000) false) 6 0.
Proof. apply C55_pipe_equilibrium; try lra. unfold hypot. apply sqrt_lt_R0. lra. Qed.
Print Assumptions C55_hole_equilibrium.
Print Assumptions C55_hole_boundary.
Print Assumptions C55_hole_plane_strain.
Print Assumptions C55_hole_far_field.
Print Assumptions C55_cantilever_equilibrium.
Print Assumptions C55_cantilever_boundary.
Print Assumptions C55_cantilever_resultants.
Print Assumptions C55_moment_cantilever.
Print Assumptions C55_curved_beam_equilibrium.
Print Assumptions C55_curved_beam_boundary.
Print Assumptions C55_curved_beam_ends.
Print Assumptions C55_pipe_equilibrium.
Print Assumptions C55_pipe_boundary.
Print Assumptions C55_pipe_polar_option.

(** ** C56.  [double inc n f] sums f over all pairs of harmonics 1, 1+inc, ... <= n (Spec/PlateSol.v); [comp] picks a
    component of the moment tensor; [norm] is any function (IFEM's tensor norm). *)
Definition comp (k : nat) (M : R * R * R) : R := match k with 0%nat => fst (fst M) | 1%nat => snd (fst M) | _ => snd M end.
Definition sumTo (s : navier) (x y : R) (deriv n : nat) : R * R * R :=
  let f k := double (inc s) n (fun p q => comp k (addTerms s x y p q deriv)) in (f 0%nat, f 1%nat, f 2%nat).
(** The value returned is the sum over all pairs of harmonics up to some n, each pair once; either n is the cut-off, or
    the norm of the sum changed relatively less than 1e-8 since an earlier odd n. *)
Theorem C56_summation_partial : forall s norm x y deriv, (1 <= inc s)%nat -> exists n, (n <= mxmn s)%nat /\
  evaluate s norm x y deriv = scal3 (factor s) (sumTo s x y deriv n) /\
  (sumTo s x y deriv n = sumTo s x y deriv (mxmn s) \/
   Nat.odd n = true /\ exists j, (j < n)%nat /\ (j = 0%nat \/ Nat.odd j = true) /\
     Rabs (norm (sumTo s x y deriv n) - (if (j =? 0)%nat then 0 else norm (sumTo s x y deriv j))) < / 10 ^ 8 * norm (sumTo s x y deriv n)).
Proof. intros s norm x y deriv I. exact (evaluate_spec s I norm x y deriv). Qed.
(** The claim that every pair up to the cut-off is summed fails: for a centred load on two thirds of the length and the width
    the third harmonics vanish, and the summation stops there. *)
Theorem C56_summation_refuted : forall norm : R * R * R -> R, (forall M, comp 0 M <> 0 -> 0 < norm M) ->
  let s := navierPartial 1 1 0 1 (5 / 10) (5 / 10) (2 / 3 * 1) (2 / 3 * 1) 5 in
  comp 0 (evaluate s norm (5 / 10) (5 / 10) 0) <> comp 0 (scal3 (factor s) (sumTo s (5 / 10) (5 / 10) 0 5)).
Proof. exact patch_differs. Qed.
Theorem C56_summation_stops : forall a b nu P N, 0 < a -> 0 < b -> (3 <= N)%nat -> forall norm x y,
  let s := navierPartial a b nu P (5 / 10) (5 / 10) (2 / 3 * a) (2 / 3 * b) N in
  0 < norm (addTerms s x y 1 1 0) -> evaluate s norm x y 0 = scal3 (factor s) (addTerms s x y 1 1 0).
Proof. exact stops_early. Qed.
(** The derivative variants are the derivatives of the sum to any cut-off. *)
Theorem C56_derivatives : forall s k n x y, (1 <= inc s)%nat -> let f deriv x y := comp k (scal3 (factor s) (sumTo s x y deriv n)) in
  is_derive (fun x => f 0%nat x y) x (f 1%nat x y) /\ is_derive (fun y => f 0%nat x y) y (f 2%nat x y) /\
  is_derive (fun x => f 1%nat x y) x (f 11%nat x y) /\ is_derive (fun y => f 2%nat x y) y (f 22%nat x y) /\
  is_derive (fun y => f 1%nat x y) y (f 12%nat x y) /\ is_derive (fun x => f 2%nat x y) x (f 21%nat x y).
Proof.
  intros s [|[|k]] n x y INC.
  - exact (series_derive s INC c0 n x y (or_introl eq_refl)).
  - exact (series_derive s INC c1 n x y (or_intror (or_introl eq_refl))).
  - exact (series_derive s INC c2' n x y (or_intror (or_intror eq_refl))).
Qed.
(** The moments are in equilibrium with the series of the load, whose coefficients are Fourier's. *)
Theorem C56_equilibrium : forall s, (1 <= inc s)%nat -> 0 < alpha s -> 0 < beta s -> forall n x y,
  let m k x y := comp k (scal3 (factor s) (sumTo s x y 0 n)) in
  momentEquilibrium (m 0%nat) (m 1%nat) (m 2%nat) (double (inc s) n (fun p q => factor s * pzmn s p q * (sin (alpha s * INR p * x) * sin (beta s * INR q * y)))) x y.
Proof. exact moments_equilibrium. Qed.
Theorem C56_uniform_load : forall a b nu P N m n, 0 < a -> 0 < b -> (1 <= m)%nat -> (1 <= n)%nat ->
  let s := navierUniform a b nu P N in
  if (harmonic (inc s) m && harmonic (inc s) n)%bool then fourier a b P 0 a 0 b m n (factor s * pzmn s m n) else fourier a b P 0 a 0 b m n 0.
Proof.
  intros a b nu P N m n A B M Nn s. assert (O : forall k, (1 <= k)%nat -> harmonic (inc s) k = Nat.odd k).
  { intros k K. change (inc s) with 2%nat. unfold harmonic. destruct k as [|k]; [lia|]. replace (S k - 1)%nat with k by lia. rewrite Nat.odd_succ. destruct (Nat.even k) eqn:E.
    - apply Nat.even_spec in E. destruct E as [z ->]. rewrite Nat.mul_comm, Nat.mod_mul by lia. reflexivity.
    - assert (Od : Nat.odd k = true) by (rewrite <- Nat.negb_even, E; reflexivity). apply Nat.odd_spec in Od. destruct Od as [z ->]. rewrite Nat.add_comm, Nat.mul_comm, Nat.mod_add by lia. reflexivity. }
  rewrite !O by assumption. destruct (Nat.odd m) eqn:E1; [destruct (Nat.odd n) eqn:E2|]; cbn [andb].
  - now apply uniform_load.
  - now apply uniform_skipped; auto.
  - now apply uniform_skipped; auto.
Qed.
Theorem C56_partial_load : forall a b nu P xi eta c d N m n, 0 < a -> 0 < b -> c <> 0 -> d <> 0 -> (1 <= m)%nat -> (1 <= n)%nat ->
  let s := navierPartial a b nu P xi eta c d N in
  fourier a b P (xi * a - c / 2) (xi * a + c / 2) (eta * b - d / 2) (eta * b + d / 2) m n (factor s * pzmn s m n).
Proof. exact partial_load. Qed.
Theorem C56_point_load : forall a b nu P xi eta c d N m n, 0 < a -> 0 < b -> c = 0 \/ d = 0 ->
  let s := navierPartial a b nu P xi eta c d N in factor s * pzmn s m n = fourierPoint a b P (xi * a) (eta * b) m n.
Proof. exact point_load. Qed.
(** The even harmonics left out for a centred load have zero coefficients. *)
Theorem C56_centred_load : forall a b nu P c d N m n, 0 < a -> 0 < b -> Nat.odd m = false \/ Nat.odd n = false ->
  let s := navierPartial a b nu P (5 / 10) (5 / 10) c d N in inc s = 2%nat /\ pzmn s m n = 0.
Proof. intros. split; [apply centred_inc|now apply centred_skipped]. Qed.
(** The moments are those of the deflection, both to the deflection's cut-off (which for a uniform load is one less). *)
Theorem C56_deflection : forall s, (1 <= inc s)%nat -> 0 < alpha s -> 0 < beta s -> (typ s <= 2)%nat ->
  (typ s = 1%nat -> c2 s * alpha s = PI /\ d2 s * beta s = PI) -> forall D x y, D <> 0 ->
  exists wxx wyy wxy, curvatures (displ s D) x y wxx wyy wxy /\
  let m k := comp k (scal3 (factor s) (sumTo s x y 0 (dispMax s))) in plateMoments D (nuN s) wxx wyy wxy (m 0%nat) (m 1%nat) (m 2%nat).
Proof. exact moments_of_deflection. Qed.
Example C56_deflection_ex : let s := navierPartial 2 3 (3 / 10) 10 (25 / 100) (5 / 10) 0 0 20 in
  (1 <= inc s)%nat /\ 0 < alpha s /\ 0 < beta s /\ (typ s <= 2)%nat /\ (typ s = 1%nat -> c2 s * alpha s = PI /\ d2 s * beta s = PI).
Proof.
  cbv zeta. assert (P := PI_RGT_0). destruct (point_fields 2 3 (3 / 10) 10 (25 / 100) (5 / 10) 0 0 20 (or_introl eq_refl)) as [T [F1 [F2 [_ [_ [_ [F6 F7]]]]]]]. cbv zeta in *.
  rewrite T, F1, F2, F6, F7. refine (conj _ (conj _ (conj _ (conj _ _)))); [unfold navierPartial; cbn [inc]; destruct (Req_EM_T (25 / 100) (5 / 10)); [destruct (Req_EM_T (5 / 10) (5 / 10))|]; lia|lra|lra|lia|intros _; split; field].
Qed.
(** Circular plate: no radius at which the moments balance the point load P, whichever sign it is given. *)
Theorem C56_circular_equilibrium_refuted : forall P R0 nu r, 0 < R0 -> 0 < r -> P <> 0 -> - 1 < nu <= 5 / 10 ->
  ~ axisymmetric (fun t => fst (circPolar P R0 nu t)) (fun t => snd (circPolar P R0 nu t)) (P / (2 * PI * r)) r /\
  ~ axisymmetric (fun t => fst (circPolar P R0 nu t)) (fun t => snd (circPolar P R0 nu t)) (- (P / (2 * PI * r))) r.
Proof. exact circ_refuted. Qed.
Theorem C56_circular_deflection_refuted : forall P R0 D nu, 0 < R0 -> P <> 0 -> D <> 0 -> - 1 < nu ->
  forall mt, ~ radialMoments D nu (fun r => circDispl P R0 D nu r 0) R0 (fst (circPolar P R0 nu R0)) mt.
Proof. exact circ_deflection. Qed.
Theorem C56_circular_partial : forall P R0 D nu, 0 < R0 -> circDispl P R0 D nu R0 0 = 0 /\ fst (circPolar P R0 nu R0) = 0.
Proof. exact circ_edge. Qed.
(* [axisymmetric] is met by the textbook moments, [radialMoments] by the textbook deflection *)
Example C56_circular_textbook : forall P R0 nu r, 0 < R0 -> 0 < r ->
  axisymmetric (fun t => P / (4 * PI) * (1 + nu) * ln (R0 / t)) (fun t => P / (4 * PI) * (1 + nu) * ln (R0 / t) + P / (4 * PI) * (1 - nu)) (- (P / (2 * PI * r))) r.
Proof.
  intros P R0 nu r A B. assert (PP := PI_RGT_0). eexists. split; [auto_derive; [repeat split; try lra; apply Rdiv_lt_0_compat; lra|reflexivity]|]. unfold Rdiv. field. repeat split; lra.
Qed.
Print Assumptions C56_summation_partial.
Print Assumptions C56_summation_refuted.
Print Assumptions C56_summation_stops.
Print Assumptions C56_derivatives.
Print Assumptions C56_equilibrium.
Print Assumptions C56_uniform_load.
Print Assumptions C56_partial_load.
Print Assumptions C56_point_load.
Print Assumptions C56_centred_load.
Print Assumptions C56_deflection.
Print Assumptions C56_circular_equilibrium_refuted.
Print Assumptions C56_circular_deflection_refuted.
Print Assumptions C56_circular_partial.

(** ** C87.  [compatible E nu beta]: the strains of plane-strain Hooke's law with in-plane thermal strain beta (T - T0) come from
    one radial displacement.  Thermoelasticity has beta = (1 + nu) alpha. *)
Theorem C87_temperature : forall ra rb Ti Te, 0 < ra -> ra < rb -> exists T, conduction ra rb Ti Te T /\
  forall T0 E nu al r, szz (pipePolar ra rb Ti Te T0 E nu al r) = nu * (sxx (pipePolar ra rb Ti Te T0 E nu al r) + syy (pipePolar ra rb Ti Te T0 E nu al r)) - E * al * (T r - T0).
Proof. intros ra rb Ti Te A B. exists (pipeT ra rb Ti Te). split; [now apply pipe_conduction|]. intros. apply pipe_szz. Qed.
Theorem C87_compatible_partial : forall ra rb Ti Te T0 E nu al be r, 0 < ra -> ra < rb -> 0 < r -> 0 < E -> - 1 < nu < 1 ->
  let s t := pipePolar ra rb Ti Te T0 E nu al t in
  compatible E nu be (fun t => sxx (s t)) (fun t => syy (s t)) (fun t => pipeT ra rb Ti Te t - T0) r <-> (be = al \/ Te = Ti).
Proof. exact pipe_compatible. Qed.
Theorem C87_compatible_refuted : exists ra rb Ti Te T0 E nu al r, 0 < ra /\ ra < rb /\ ra < r < rb /\ 0 < E /\ 0 < nu < 1 / 2 /\
  let s t := pipePolar ra rb Ti Te T0 E nu al t in
  ~ compatible E nu ((1 + nu) * al) (fun t => sxx (s t)) (fun t => syy (s t)) (fun t => pipeT ra rb Ti Te t - T0) r.
Proof.
  exists 1, 3, 0, 1, 0, 1, (3 / 10), 1, 2. repeat (split; [lra|]). cbv zeta. intros H. apply pipe_compatible in H; lra.
Qed.
Print Assumptions C87_temperature.
Print Assumptions C87_compatible_partial.
Print Assumptions C87_compatible_refuted.
