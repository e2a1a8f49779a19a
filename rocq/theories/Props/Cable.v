(** Cables (C48, C49, C80). *)
From Coq Require Import List Arith Bool Reals Lra Lia.
From Coquelicot Require Import Coquelicot.
From Verif Require Import Lib.Base Lib.Vec3 Model.Cable Proofs.Cable Proofs.CableSecond.

(** ** C48: [bump eV a i t] is the nodal displacement with component [i] of node [a] increased by [t] *)
Theorem C48_strain : forall dN nen dX eV a i, (1 <= a <= nen)%nat -> (1 <= i <= 3)%nat ->
  is_derive (fun t => axialStrain dX (current nen dN dX (bump eV a i t))) 0 (deps dN (current nen dN dX eV) a i).
Proof. exact strain_exact. Qed.
Theorem C48_strain_second : forall dN nen dX eV a i, (1 <= a <= nen)%nat -> (1 <= i <= 3)%nat -> forall b j, (1 <= b <= nen)%nat -> (1 <= j <= 3)%nat ->
  is_derive (fun t => deps dN (current nen dN dX (bump eV a i t)) b j) 0 (ddeps dN a b i j).
Proof. exact ddeps_exact. Qed.
Theorem C48_normal : forall straight dN ddN nen dX ddX eV,
  1 / 10 ^ 12 < vlen (vcross (current nen dN dX eV) (current nen ddN ddX eV)) ->
  forall a i, (1 <= a <= nen)%nat -> (1 <= i <= 3)%nat -> forall k, (1 <= k <= 3)%nat ->
  is_derive (fun t => match evalLocalAxes straight (current nen dN dX (bump eV a i t)) (current nen ddN ddX (bump eV a i t)) with
                      | Some x => vc (nU x) k | None => 0 end) 0
    (dnUnit dN ddN (current nen dN dX eV) (current nen ddN ddX eV)
       (axesOf (vcross (current nen dN dX eV) (current nen ddN ddX eV)) (current nen dN dX eV)) a k i).
Proof. exact normal_exact. Qed.
Theorem C48_curvature : forall straight dN ddN nen dX ddX eV,
  1 / 10 ^ 12 < vlen (vcross (current nen dN dX eV) (current nen ddN ddX eV)) ->
  forall a i, (1 <= a <= nen)%nat -> (1 <= i <= 3)%nat -> forall NU,
  is_derive (fun t => match evalLocalAxes straight (current nen dN dX (bump eV a i t)) (current nen ddN ddX (bump eV a i t)) with
                      | Some x => curvature ddX NU (current nen ddN ddX (bump eV a i t)) (nU x) | None => 0 end) 0
    (dkappa dN ddN (current nen dN dX eV) (current nen ddN ddX eV)
       (axesOf (vcross (current nen dN dX eV) (current nen ddN ddX eV)) (current nen dN dX eV)) a i).
Proof. exact curvature_exact. Qed.
(** The internal forces are minus the gradient of the strain energy. *)
Theorem C48_force : forall straight dN ddN nen dX ddX eV,
  1 / 10 ^ 12 < vlen (vcross (current nen dN dX eV) (current nen ddN ddX eV)) ->
  forall a i, (1 <= a <= nen)%nat -> (1 <= i <= 3)%nat -> forall EA EI detJxW out A0,
  evalLocalAxes straight dX ddX = Some A0 -> evalPoint straight dN ddN nen EA EI detJxW dX ddX eV = Ret out ->
  is_derive (fun t => pointEnergy straight dN ddN nen dX ddX EA EI (detJxW / vdot dX dX ^ 2) (nU A0) (bump eV a i t)) 0 (- pS out a i).
Proof. exact force_exact. Qed.
Theorem C48_material : forall straight dN ddN nen EA EI detJxW dX ddX eV out, 0 <= EA -> 0 <= EI -> 0 <= detJxW ->
  evalPoint straight dN ddN nen EA EI detJxW dX ddX eV = Ret out ->
  (forall a i b j, pKm out a i b j = pKm out b j a i) /\
  forall w, 0 <= sumf nen (fun a => sumf 3 (fun i => sumf nen (fun b => sumf 3 (fun j => w a i * pKm out a i b j * w b j)))).
Proof. exact cable_Km. Qed.
(** Second derivative of the binormal direction. *)
Theorem C48_second_binormal : forall dN ddN nen dX ddX eV a i b j k, (1 <= a <= nen)%nat -> (1 <= i <= 3)%nat -> (1 <= b <= nen)%nat -> (1 <= j <= 3)%nat -> (1 <= k <= 3)%nat ->
  is_derive (fun t => db dN ddN (current nen dN dX (bump eV a i t)) (current nen ddN ddX (bump eV a i t)) b k j) 0 (ddb dN ddN a b k i j).
Proof. intros. apply binormal_second; assumption. Qed.
(** The tangent is exact where the binormal and the normal are along coordinate axes ([aligned]). *)
Theorem C48_tangent_partial : forall straight dN ddN nen dX ddX eV,
  1 / 10 ^ 12 < vlen (vcross (current nen dN dX eV) (current nen ddN ddX eV)) ->
  let ax := axesOf (vcross (current nen dN dX eV) (current nen ddN ddX eV)) (current nen dN dX eV) in
  forall a i b j, (1 <= a <= nen)%nat -> (1 <= i <= 3)%nat -> (1 <= b <= nen)%nat -> (1 <= j <= 3)%nat -> aligned (bU ax) -> aligned (nU ax) ->
  forall EA EI detJxW out, evalPoint straight dN ddN nen EA EI detJxW dX ddX eV = Ret out ->
  is_derive (fun t => match evalPoint straight dN ddN nen EA EI detJxW dX ddX (bump eV a i t) with Ret o => pS o b j | _ => 0 end) 0
    (- (pKm out a i b j + pKg out a i b j)).
Proof. intros. apply tangent_second; assumption. Qed.
(** Case: tangent along x, curved towards y. *)
Example C48_aligned_case : let ax := axesOf (vcross (V 1 0 0) (V 0 1 0)) (V 1 0 0) in
  1 / 10 ^ 12 < vlen (vcross (V 1 0 0) (V 0 1 0)) /\ aligned (bU ax) /\ aligned (nU ax).
Proof.
  assert (E : vcross (V 1 0 0) (V 0 1 0) = V 0 0 1) by (unfold vcross; cbn; f_equal; ring).
  assert (L : vlen (V 0 0 1) = 1) by (apply vlen_val; [lra|unfold vdot; cbn; ring]).
  cbv zeta. rewrite E, L. split; [|split].
  - assert (1 < 10 ^ 12) by (apply Rlt_pow_R1; [lra|lia]). apply (Rmult_lt_reg_r (10 ^ 12)); [lra|]. unfold Rdiv. rewrite Rmult_1_l, Rinv_l; lra.
  - exists 3%nat. intros k Hk N. assert (k = 1 \/ k = 2)%nat as [-> | ->] by lia; unfold axesOf, vscal, vc; cbn; ring.
  - exists 2%nat. intros k Hk N. assert (k = 1 \/ k = 3)%nat as [-> | ->] by lia; unfold axesOf, vscal, vcross, vc; cbn; ring.
Qed.
(** The second derivative of the curvature is not exact (the squares of the normal components
    are summed instead of the sum being squared). *)
Theorem C48_second_curvature_refuted : forall straight, exists dN ddN dX ddX ax,
  let cfg t := bump rest 1 1 t in
  evalLocalAxes straight (current 1 dN dX rest) (current 1 ddN ddX rest) = Some ax /\
  forall l, is_derive (fun t => match evalLocalAxes straight (current 1 dN dX (cfg t)) (current 1 ddN ddX (cfg t)) with
                      | Some x => dkappa dN ddN (current 1 dN dX (cfg t)) (current 1 ddN ddX (cfg t)) x 1 1 | None => 0 end) 0 l ->
            l <> ddkappa dN ddN (current 1 dN dX rest) (current 1 ddN ddX rest) ax 1 1 1 1.
Proof. exact geometric_wrong. Qed.
(** A curved configuration meeting the hypothesis. *)
Example C48_case : 1 / 10 ^ 12 < vlen (vcross (current 2 w0 (V 0 0 1) rest) (current 2 w1 (V 1 1 0) rest)) /\
  deps w1 (current 2 w1 (V 0 0 1) rest) 1 3 = 1.
Proof.
  split; [|unfold deps, current, rest, w1, vc; cbn; ring].
  assert (E : current 2 w0 (V 0 0 1) rest = V 0 0 1) by (unfold current, rest, w0; cbn; f_equal; ring).
  assert (E' : current 2 w1 (V 1 1 0) rest = V 1 1 0) by (unfold current, rest, w1; cbn; f_equal; ring). rewrite E, E'.
  apply Rlt_le_trans with 1.
  - assert (1 < 10 ^ 12) by (apply Rlt_pow_R1; [lra|lia]). apply (Rmult_lt_reg_r (10 ^ 12)); [lra|]. unfold Rdiv. rewrite Rmult_1_l, Rinv_l; lra.
  - unfold vlen, vdot, vcross; cbn [vx vy vz]. rewrite <- sqrt_1 at 1. apply sqrt_le_1; lra.
Qed.

(** ** C49 *)
Theorem C49_couple_partial : forall xi M X1 X2, planar X1 X2 -> vsub X2 X1 <> vzero -> let f := endForce xi M X1 X2 in
  f 1%nat + f 4%nat = 0 /\ f 2%nat + f 5%nat = 0 /\
  (forall c, (vx X1 - vx c) * f 2%nat - (vy X1 - vy c) * f 1%nat + ((vx X2 - vx c) * f 5%nat - (vy X2 - vy c) * f 4%nat) = xi * M).
Proof. exact end_force. Qed.
(** When the end segment leaves the plane, only part of the moment is applied. *)
Theorem C49_moment_refuted : exists M X1 X2, vsub X2 X1 <> vzero /\ let f := endForce 1 M X1 X2 in
  vx (vsub X2 X1) * f 5%nat - vy (vsub X2 X1) * f 4%nat = M / 2 /\ M <> 0.
Proof. exact end_moment_skew. Qed.
(** Load stiffness: exact for the x-displacements at the start and the y-displacements at the end of the cable. *)
Theorem C49_stiffness_partial : forall xi M X1 X2 i j, vsub X2 X1 <> vzero -> planar X1 X2 -> isDof i -> isDof j ->
  xi * colSign j = - 1 -> loadStiffness xi M X1 X2 i j (endK (endDeriv M X1 X2) i j).
Proof. exact end_stiffness. Qed.
Theorem C49_symmetrised : forall D i j, isDof i -> isDof j -> endKsym D i j = (endK D i j + endK D j i) / 2.
Proof. exact end_sym. Qed.
(** At either end some entry of the load stiffness has the wrong sign. *)
Theorem C49_stiffness_refuted : forall xi, xi = 1 \/ xi = - 1 -> exists M X1 X2 i j, vsub X2 X1 <> vzero /\ planar X1 X2 /\ isDof i /\ isDof j /\
  ~ loadStiffness xi M X1 X2 i j (endK (endDeriv M X1 X2) i j).
Proof. exact end_stiffness_wrong. Qed.
Example C49_case : let f := endForce 1 10 (V 0 0 0) (V 3 1 0) in f 4%nat = - 1 /\ f 5%nat = 3.
Proof. unfold endForce, vdot, vsub; cbn [vx vy vz]. split; field. Qed.

(** ** C80: forces recovered for the same curve with the parameter scaled by 1/c *)
Theorem C80_scaling_partial : forall straight dN ddN nen EA EI dX ddX eV c p, 0 < c ->
  1 / 10 ^ 12 <= vlen (vcross dX ddX) -> 1 / 10 ^ 12 <= vlen (vcross (current nen dN dX eV) (current nen ddN ddX eV)) -> 1 <= c ->
  recovered straight dN ddN nen EA EI dX ddX eV = Ret p ->
  recovered straight (fun a => c * dN a) (fun a => c * c * ddN a) nen EA EI (vscal c dX) (vscal (c * c) ddX) eV = Ret (c * c * fst p, c * c * snd p).
Proof. exact recovered_scale. Qed.
Theorem C80_invariance_refuted : forall straight, exists dN ddN EA EI dX ddX eV c p q, 0 < c /\
  recovered straight dN ddN 1 EA EI dX ddX eV = Ret p /\
  recovered straight (fun a => c * dN a) (fun a => c * c * ddN a) 1 EA EI (vscal c dX) (vscal (c * c) ddX) eV = Ret q /\ fst p <> fst q.
Proof.
  intros straight. set (eV := fun a i : nat => if (i =? 3)%nat then 1 else 0).
  assert (E0 : current 1 w1 (V 0 0 1) eV = V 0 0 2) by (unfold current, eV, w1; cbn; f_equal; ring).
  assert (E1 : current 1 w0 (V 1 1 0) eV = V 1 1 0) by (unfold current, eV, w0; cbn; f_equal; ring).
  assert (P : 1 / 10 ^ 12 < 1).
  { assert (1 < 10 ^ 12) by (apply Rlt_pow_R1; [lra|lia]). apply (Rmult_lt_reg_r (10 ^ 12)); [lra|]. unfold Rdiv. rewrite Rmult_1_l, Rinv_l; lra. }
  assert (H1 : 1 <= vlen (vcross (V 0 0 1) (V 1 1 0))) by (unfold vlen, vdot, vcross; cbn [vx vy vz]; rewrite <- sqrt_1 at 1; apply sqrt_le_1; lra).
  assert (H2 : 1 <= vlen (vcross (V 0 0 2) (V 1 1 0))) by (unfold vlen, vdot, vcross; cbn [vx vy vz]; rewrite <- sqrt_1 at 1; apply sqrt_le_1; lra).
  destruct (recovered straight w1 w0 1 1 1 (V 0 0 1) (V 1 1 0) eV) as [| |p] eqn:E.
  1,2: exfalso; unfold recovered, evalLocalAxes in E; rewrite E0, E1 in E; destruct (Rlt_dec _ _); [lra|]; destruct (Rlt_dec _ _); [lra|discriminate].
  exists w1, w0, 1, 1, (V 0 0 1), (V 1 1 0), eV, 2, p, (2 * 2 * fst p, 2 * 2 * snd p). split; [lra|]. split; [exact E|]. split.
  - apply C80_scaling_partial; try lra; [|exact E]. rewrite E0, E1. lra.
  - assert (F : fst p = 3 / 2).
    { unfold recovered, evalLocalAxes in E; rewrite E0, E1 in E. destruct (Rlt_dec _ _); [lra|]. destruct (Rlt_dec _ _); [lra|]. injection E as <-. cbn [fst]. unfold vdot; cbn. field. }
    cbn [fst]. rewrite F. lra.
Qed.
Example C80_case : recovered (fun _ _ => None) w1 w1 1 1 1 (V 0 0 0) (V 1 0 0) rest = Rejected.
Proof.
  unfold recovered, evalLocalAxes. assert (Z : vlen (vcross (V 0 0 0) (V 1 0 0)) = 0) by (unfold vlen, vdot, vcross; cbn [vx vy vz]; transitivity (sqrt 0); [f_equal; ring|apply sqrt_0]).
  rewrite Z. destruct (Rlt_dec 0 (1 / 10 ^ 12)) as [|N]; [reflexivity|]. exfalso. apply N. apply Rmult_lt_0_compat; [lra|apply Rinv_0_lt_compat, pow_lt; lra].
Qed.

Print Assumptions C48_strain.
Print Assumptions C48_strain_second.
Print Assumptions C48_normal.
Print Assumptions C48_curvature.
Print Assumptions C48_force.
Print Assumptions C48_material.
Print Assumptions C48_second_binormal.
Print Assumptions C48_tangent_partial.
Print Assumptions C48_second_curvature_refuted.
Print Assumptions C49_couple_partial.
Print Assumptions C49_moment_refuted.
Print Assumptions C49_stiffness_partial.
Print Assumptions C49_symmetrised.
Print Assumptions C49_stiffness_refuted.
Print Assumptions C80_scaling_partial.
Print Assumptions C80_invariance_refuted.
