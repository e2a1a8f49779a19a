(** The L-shape reference solution (C115) and the displacements of the reference solutions (C116; C87 for the pipe). *)
From Coq Require Import Reals Lra.
From Coquelicot Require Import Coquelicot.
From Verif Require Import Lib.Base Spec.Analytic Model.Analytic Proofs.Analytic Proofs.Lshape Proofs.LshapeEdge Proofs.RefDisp.

(** ** C115.  Equilibrium everywhere except on the ray in the middle of the removed quadrant (X = Y > 0) and in the disk
    around the corner in which the radius is cut off. *)
Theorem C115_lshape_equilibrium : forall a F0 nu X Y, 0 <= a -> a * / 10 ^ 32 < hypot X Y -> X + Y < 0 \/ X <> Y ->
  equilibrium (fun x y => sxx (lshape a F0 nu x y)) (fun x y => syy (lshape a F0 nu x y)) (fun x y => sxy (lshape a F0 nu x y)) X Y.
Proof. exact lshape_equil'. Qed.
(** The tractions on both edges of the re-entrant corner, relative to the size F0 r^(lambda-1) of the stresses. *)
Theorem C115_lshape_edges : forall a F0 nu t, 0 <= a -> a * / 10 ^ 32 < t ->
  let bound := / 10 ^ 9 * Rabs (F0 * Rpower t (lambda - 1)) in
  (Rabs (sxy (lshape a F0 nu t 0)) <= bound /\ Rabs (syy (lshape a F0 nu t 0)) <= bound) /\
  (Rabs (sxx (lshape a F0 nu 0 t)) <= bound /\ Rabs (sxy (lshape a F0 nu 0 t)) <= bound).
Proof. exact lshape_edges. Qed.
(** The stresses that do not act on the edges are not small: along the edges they exceed F0 r^(lambda-1). *)
Theorem C115_lshape_stress : forall a F0 nu t, 0 <= a -> a * / 10 ^ 32 < t ->
  Rabs (F0 * Rpower t (lambda - 1)) <= Rabs (sxx (lshape a F0 nu t 0)) /\ Rabs (F0 * Rpower t (lambda - 1)) <= Rabs (syy (lshape a F0 nu 0 t)).
Proof. exact lshape_along. Qed.
(** With exponents and constants that meet the two edge conditions exactly the edges of a wedge of any angle are free. *)
Theorem C115_wedge_edges : forall la q F0 nu w r,
  cos ((la - 1) * w) + q * cos ((la + 1) * w) = 0 -> q * (la + 1) * sin ((la + 1) * w) + (la - 1) * sin ((la - 1) * w) = 0 ->
  (let s := lshapeLocal la q F0 nu r w in tractionFree (sxx s) (syy s) (sxy s) (- sin w) (cos w)) /\
  (let s := lshapeLocal la q F0 nu r (- w) in tractionFree (sxx s) (syy s) (sxy s) (- sin (- w)) (cos (- w))).
Proof. exact edge_free. Qed.
(* a crack (w = pi) has exponent 1/2 and constant 1/3 *)
Example C115_wedge_edges_ex : cos ((1 / 2 - 1) * PI) + 1 / 3 * cos ((1 / 2 + 1) * PI) = 0 /\ 1 / 3 * (1 / 2 + 1) * sin ((1 / 2 + 1) * PI) + (1 / 2 - 1) * sin ((1 / 2 - 1) * PI) = 0.
Proof.
  replace ((1 / 2 - 1) * PI) with (- (PI / 2)) by field. replace ((1 / 2 + 1) * PI) with (PI / 2 + PI) by field. rewrite cos_neg, sin_neg, neg_cos, neg_sin, cos_PI2, sin_PI2. split; lra.
Qed.
Lemma tiny t : 1 <= t -> 1 * / 10 ^ 32 < t.
Proof. intros H. apply (Rmult_lt_reg_r (10 ^ 32)); [apply pow_lt; lra|]. rewrite Rmult_assoc, Rinv_l by (apply pow_nonzero; lra). cbn [pow]. lra. Qed.
Example C115_lshape_ex : equilibrium (fun x y => sxx (lshape 1 1 (3 / 10) x y)) (fun x y => syy (lshape 1 1 (3 / 10) x y)) (fun x y => sxy (lshape 1 1 (3 / 10) x y)) (- 1) 0 /\
  Rabs (syy (lshape 1 1 (3 / 10) 1 0)) <= / 10 ^ 9 /\ 1 <= Rabs (sxx (lshape 1 1 (3 / 10) 1 0)).
Proof.
  assert (RP : Rpower 1 (lambda - 1) = 1) by (unfold Rpower; rewrite ln_1, Rmult_0_r; apply exp_0). split; [|split].
  - apply C115_lshape_equilibrium; try lra. unfold hypot. replace (- 1 * - 1 + 0 * 0) with 1 by ring. rewrite sqrt_1. apply tiny. lra.
  - destruct (C115_lshape_edges 1 1 (3 / 10) 1) as [[_ H] _]; [lra|apply tiny; lra|]. rewrite RP, Rmult_1_l, Rabs_R1 in H. lra.
  - destruct (C115_lshape_stress 1 1 (3 / 10) 1) as [H _]; [lra|apply tiny; lra|]. rewrite RP, Rmult_1_l, Rabs_R1 in H. exact H.
Qed.

(** ** C116.  Every reference solution is the stress state of a displacement field; [planeStressState], [planeStrainState]
    and (C87) [heatedState] are in Spec/Analytic.v. *)
Definition strainState (E nu : R) (s : st) := planeStrainState E nu (sxx s) (syy s) (sxy s) (szz s).
Definition stressState (E nu : R) (s : st) := planeStressState E nu (sxx s) (syy s) (sxy s).
Theorem C116_hole_displacement : forall a F0 E nu, 0 < a -> E <> 0 -> exists u v,
  forall x y, a < hypot x y -> strainState E nu (hole a F0 nu x y) u v x y.
Proof. exact hole_disp. Qed.
Theorem C116_lshape_displacement : forall a F0 E nu, 0 <= a -> E <> 0 -> exists u v,
  forall X Y, a * / 10 ^ 32 < hypot X Y -> X + Y < 0 \/ X <> Y -> strainState E nu (lshape a F0 nu X Y) u v X Y.
Proof. exact lshape_disp. Qed.
(** The middle of the clamped end does not move. *)
Theorem C116_cantilever_displacement : forall L H F0 E nu, 0 < L -> 0 < H -> E <> 0 -> exists u v,
  (forall x y, stressState E nu (canTS L H F0 x y) u v x y) /\ u 0 (H / 2) = 0 /\ v 0 (H / 2) = 0.
Proof. exact canTS_disp. Qed.
Theorem C116_moment_cantilever_displacement : forall H M0 E nu, 0 < H -> E <> 0 -> exists u v,
  (forall x y, stressState E nu (canTM H M0 y) u v x y) /\ (forall y, u 0 y = 0) /\ v 0 (H / 2) = 0.
Proof. exact canTM_disp. Qed.
(** The edge on the x-axis is displaced by the given u0, the one on the y-axis stays on it. *)
Theorem C116_curved_beam_displacement : forall u0 E a b nu, 0 < a -> 0 < b -> E <> 0 -> exists u v,
  (forall x y, 0 < x \/ y <> 0 -> stressState E nu (curvedBeam u0 E a b x y) u v x y) /\
  (forall x, 0 < x -> u x 0 = u0) /\ (forall y, 0 < y -> u 0 y = 0).
Proof. exact curved_disp. Qed.
(** ** C87, second part.
    The temperature of the pipe, linear in the logarithm of the radius. *)
Definition pipeTemperature (ra rb Ti Te r : R) : R := Ti + (Te - Ti) * ln (r / ra) / ln (rb / ra).
(** Pipe: the stresses are those of a radial displacement if the thermal strain in the plane is taken as
    alpha (T - T0), without the factor 1 + nu of plane strain. *)
Theorem C87_displacement_partial : forall ra rb Ti Te T0 E nu al, 0 < ra -> ra < rb -> E <> 0 -> 1 - nu * nu <> 0 ->
  exists w, forall r, 0 < r -> let s := pipePolar ra rb Ti Te T0 E nu al r in let th := al * (pipeTemperature ra rb Ti Te r - T0) in
    is_derive w r ((1 + nu) / E * ((1 - nu) * sxx s - nu * syy s) + th) /\ w r / r = (1 + nu) / E * ((1 - nu) * syy s - nu * sxx s) + th.
Proof. exact pipe_disp. Qed.
(** With Hooke's law for a heated material no radial displacement gives these stresses, for any pipe with a difference
    of temperature and a material with nu <> 0. *)
Theorem C87_no_displacement : forall ra rb Ti Te T0 E nu al, 0 < ra -> ra < rb -> E <> 0 -> 1 - nu * nu <> 0 -> nu <> 0 -> al <> 0 -> Te <> Ti ->
  ~ exists w, forall r, ra < r < rb -> let s := pipePolar ra rb Ti Te T0 E nu al r in
    heatedState E nu (al * (pipeTemperature ra rb Ti Te r - T0)) (sxx s) (syy s) (szz s) w r.
Proof. exact pipe_none. Qed.
Theorem C87_displacement_refuted : exists ra rb Ti Te T0 E nu al, 0 < ra < rb /\ 0 < E /\ 0 < nu < 1 / 2 /\ 0 < al /\
  ~ exists w, forall r, ra < r < rb -> let s := pipePolar ra rb Ti Te T0 E nu al r in
    heatedState E nu (al * (pipeTemperature ra rb Ti Te r - T0)) (sxx s) (syy s) (szz s) w r.
Proof.
  exists 5, 10, 20, 100, 20, 200000, (3 / 10), (12 / 1000000). do 4 (split; [lra|]). apply C87_no_displacement; lra.
Qed.
(* without lateral contraction the pipe solution is right *)
Example C87_displacement_used : exists w, forall r, 5 < r < 10 -> let s := pipePolar 5 10 20 100 20 200000 0 (12 / 1000000) r in
  heatedState 200000 0 (12 / 1000000 * (pipeTemperature 5 10 20 100 r - 20)) (sxx s) (syy s) (szz s) w r.
Proof.
  destruct (C87_displacement_partial 5 10 20 100 20 200000 0 (12 / 1000000)) as [w H]; [lra..|]. exists w. intros r I s. destruct (H r ltac:(lra)) as [D W]. fold s in D, W. unfold heatedState. refine (conj _ (conj _ _)).
  - evar_last; [exact D|]. field.
  - rewrite W. field.
  - unfold s, pipePolar, pipeTemperature; cbn [sxx syy szz]. field. split; [apply Rgt_not_eq, (log_ratio_pos 5 10)|]; lra.
Qed.
Example C116_hole_used : exists u v, strainState 1000 (3 / 10) (hole 1 10 (3 / 10) 3 4) u v 3 4.
Proof.
  destruct (C116_hole_displacement 1 10 1000 (3 / 10)) as [u [v H]]; [lra..|]. exists u, v. apply H. unfold hypot. replace (3 * 3 + 4 * 4) with (5 * 5) by ring. rewrite sqrt_square; lra.
Qed.
Example C116_curved_used : exists u v, stressState 1000 (3 / 10) (curvedBeam (1 / 10) 1000 1 2 1 1) u v 1 1.
Proof. destruct (C116_curved_beam_displacement (1 / 10) 1000 1 2 (3 / 10)) as [u [v [H _]]]; [lra..|]. exists u, v. apply H. left. lra. Qed.

Print Assumptions C115_lshape_equilibrium.
Print Assumptions C115_lshape_edges.
Print Assumptions C115_lshape_stress.
Print Assumptions C115_wedge_edges.
Print Assumptions C116_hole_displacement.
Print Assumptions C116_lshape_displacement.
Print Assumptions C116_cantilever_displacement.
Print Assumptions C116_moment_cantilever_displacement.
Print Assumptions C116_curved_beam_displacement.
Print Assumptions C87_displacement_partial.
Print Assumptions C87_no_displacement.
Print Assumptions C87_displacement_refuted.
