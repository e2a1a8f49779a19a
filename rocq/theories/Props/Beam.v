(** Beams and beam cross sections (C42-C45, C67, C79). *)
From Coq Require Import List Arith Bool Reals Lra Lia.
From Coquelicot Require Import Coquelicot.
From Verif Require Import Lib.Base Lib.Script Lib.Vec3 Model.Beam Spec.Beam Proofs.Beam Proofs.BeamThy Proofs.BeamGlobal Proofs.BeamMass
  Proofs.BeamData Model.Section Spec.Section Proofs.Section Proofs.BeamAxes.
Import ListNotations.

(** ** C42: stiffness matrix *)
Theorem C42_symmetric : forall L EA GIt EIy EIz Aly Alz Sy Sz T ecc, L <> 0 -> 1 + Aly <> 0 -> 1 + Alz <> 0 ->
  symm 12 (stiffness L EA GIt EIy EIz Aly Alz Sy Sz) /\ symm 12 (finalize (Some T) ecc (stiffness L EA GIt EIy EIz Aly Alz Sy Sz)).
Proof. intros. split; [|apply finalize_symm]; now apply stiffness_symm. Qed.

(** Twice the energy is the integral of Timoshenko beam theory for the interpolated field
    (axial, torsion, bending and shear in both planes). *)
Theorem C42_energy : forall L EA GIt EIy EIz Aly Alz Sy Sz u wy wz, L <> 0 -> 1 + Aly <> 0 -> 1 + Alz <> 0 ->
  let s := atCentre Sy Sz u in
  beamField Aly L (s 2%nat) (s 6%nat) (s 8%nat) (s 12%nat) wy -> beamField Alz L (s 3%nat) (- s 5%nat) (s 9%nat) (- s 11%nat) wz ->
  is_RInt (fun x => EA * ((s 7%nat - s 1%nat) / L) ^ 2 + GIt * ((s 10%nat - s 4%nat) / L) ^ 2 + bendDensity EIy Aly L wy x + bendDensity EIz Alz L wz x) 0 L
    (quad 12 (stiffness L EA GIt EIy EIz Aly Alz Sy Sz) u).
Proof. exact stiffness_energy. Qed.
Theorem C42_field : forall Al L w1 t1 w2 t2, L <> 0 -> 1 + Al <> 0 -> exists! w, beamField Al L w1 t1 w2 t2 w.
Proof. exact beamField_exists. Qed.

Theorem C42_nonnegative : forall L EA GIt EIy EIz Aly Alz Sy Sz T ecc u, 0 < L -> 0 <= Aly -> 0 <= Alz ->
  0 <= EA -> 0 <= GIt -> 0 <= EIy -> 0 <= EIz ->
  0 <= quad 12 (stiffness L EA GIt EIy EIz Aly Alz Sy Sz) u /\ 0 <= quad 12 (finalize (Some T) ecc (stiffness L EA GIt EIy EIz Aly Alz Sy Sz)) u.
Proof. intros. split; [|apply finalize_psd; intros]; now apply stiffness_psd. Qed.

(** Rigid-body motions give no force, when the beam length and axes are those of the eccentric
    axis: the axis ends [X1], [X2] and the grid points [X1+e1], [X2+e2]. *)
Theorem C42_rigid_partial : forall L EA GIt EIy EIz Aly Alz Sy Sz T e1 e2 X1 X2 a om i,
  L <> 0 -> 1 + Aly <> 0 -> 1 + Alz <> 0 -> frame T -> vsub X2 X1 = vscal L (col T 1) -> (1 <= i <= 12)%nat ->
  mv 12 (finalize (Some T) (Some (e1, e2)) (stiffness L EA GIt EIy EIz Aly Alz Sy Sz)) (rigidMotion a om (vadd X1 e1) (vadd X2 e2)) i = 0 /\
  mv 12 (finalize (Some T) None (stiffness L EA GIt EIy EIz Aly Alz Sy Sz)) (rigidMotion a om X1 X2) i = 0.
Proof. exact rigid_no_force. Qed.

(** The code takes length and axes from the grid points: with different end eccentricities a
    rigid rotation produces forces. *)
Theorem C42_rigid_refuted : exists i,
  mv 12 (finalize (Some idT) (Some (V 0 1 0, vzero)) (stiffness 1 1 1 1 1 0 0 0 0)) (rigidMotion vzero (V 0 0 1) vzero (V 1 0 0)) i <> 0.
Proof. exact unequal_ecc. Qed.

Theorem C42_in_range : forall L EA GIt EIy EIz Aly Alz N ItoA rhoA Ixx Iyy Izz Sy Sz e1 e2,
  within 12 (stiffProg L EA GIt EIy EIz Aly Alz) = true /\ within 12 (geoProg N L Aly Alz ItoA) = true /\
  within 12 (lumpedProg rhoA Ixx L) = true /\ within 12 (consProg rhoA Ixx Iyy Izz L) = true /\
  within 12 (shearProg Sy Sz) = true /\ within 12 (eccProg e1 e2) = true /\ within 12 (mirror 12) = true.
Proof. exact programs_within. Qed.

(** Length 2 along the global y axis, equal eccentricities. *)
Definition turnT (i j : nat) : R := match i, j with 1, 2 => (-1)%R | 2, 1 => 1%R | 3, 3 => 1%R | _, _ => 0%R end%nat.
Example C42_case : frame turnT /\ vsub (V 0 2 0) vzero = vscal 2 (col turnT 1) /\
  mv 12 (finalize (Some turnT) (Some (V 0 0 1, V 0 0 1)) (stiffness 2 1 1 1 1 1 1 0 0)) (rigidMotion (V 1 2 3) (V 4 5 6) (V 0 0 1) (V 0 2 1)) 5 = 0.
Proof.
  assert (F : frame turnT) by (split; unfold col, turnT, vdot, vcross; cbn; try ring; f_equal; ring).
  assert (E : vsub (V 0 2 0) vzero = vscal 2 (col turnT 1)) by (unfold vsub, vscal, col, turnT, vzero; cbn; f_equal; ring).
  split; [exact F|]. split; [exact E|].
  assert (R := C42_rigid_partial 2 1 1 1 1 1 1 0 0 turnT (V 0 0 1) (V 0 0 1) vzero (V 0 2 0) (V 1 2 3) (V 4 5 6) 5 ltac:(lra) ltac:(lra) ltac:(lra) F E ltac:(lia)).
  destruct R as [R _]. replace (V 0 0 1) with (vadd vzero (V 0 0 1)) at 3 by (unfold vadd, vzero; cbn; f_equal; ring).
  replace (V 0 2 1) with (vadd (V 0 2 0) (V 0 0 1)) by (unfold vadd; cbn; f_equal; ring). exact R.
Qed.

(** ** C43: geometric stiffness *)
Theorem C43_symmetric : forall N L Aly Alz ItoA Sy Sz, L <> 0 -> 1 + Aly <> 0 -> 1 + Alz <> 0 -> symm 12 (geometric N L Aly Alz ItoA Sy Sz).
Proof. exact geometric_symm. Qed.
Theorem C43_energy : forall N L Aly Alz ItoA Sy Sz u wy wz, L <> 0 -> 1 + Aly <> 0 -> 1 + Alz <> 0 ->
  let s := atCentre Sy Sz u in
  beamField Aly L (s 2%nat) (s 6%nat) (s 8%nat) (s 12%nat) wy -> beamField Alz L (s 3%nat) (- s 5%nat) (s 9%nat) (- s 11%nat) wz ->
  is_RInt (fun x => N * slope wy x ^ 2 + N * slope wz x ^ 2 + N * ItoA * ((s 10%nat - s 4%nat) / L) ^ 2) 0 L (quad 12 (geometric N L Aly Alz ItoA Sy Sz) u).
Proof. exact geometric_energy. Qed.
Theorem C43_tension : forall N L Aly Alz ItoA Sy Sz u, 0 < L -> 0 <= Aly -> 0 <= Alz -> 0 <= N -> 0 <= ItoA ->
  0 <= quad 12 (geometric N L Aly Alz ItoA Sy Sz) u.
Proof. exact geometric_psd. Qed.
(** Translation [a] and small rotation [om]: end forces -N (om x ex) and N (om x ex), no end moments. *)
Theorem C43_rotation : forall N L Aly Alz ItoA a om i, L <> 0 -> 1 + Aly <> 0 -> 1 + Alz <> 0 -> (1 <= i <= 12)%nat ->
  mv 12 (geometric N L Aly Alz ItoA 0 0) (rigidMotion a om vzero (V L 0 0)) i =
  nodal (vscal (- N) (vcross om (V 1 0 0))) vzero (vscal N (vcross om (V 1 0 0))) vzero i.
Proof. exact geometric_couple. Qed.
(** With a shear-centre offset the same couple acts at the shear centre. *)
Theorem C43_rotation_skewed : forall N L Aly Alz ItoA Sy Sz a om v, L <> 0 -> 1 + Aly <> 0 -> 1 + Alz <> 0 ->
  Beam.bil 12 (geometric N L Aly Alz ItoA Sy Sz) v (rigidMotion a om vzero (V L 0 0)) =
  let s := atCentre Sy Sz v in
  N * vy (vcross om (V 1 0 0)) * (s 8%nat - s 2%nat) + N * vz (vcross om (V 1 0 0)) * (s 9%nat - s 3%nat).
Proof. exact geometric_rigid. Qed.
(** Axial force 5, length 2, unit shear parameters, rotation about z. *)
Example C43_case : mv 12 (geometric 5 2 1 1 3 0 0) (rigidMotion vzero (V 0 0 1) vzero (V 2 0 0)) 8 = 5.
Proof. rewrite C43_rotation by (lra || lia). unfold nodal, vscal, vcross; cbn. ring. Qed.

(** ** C44: mass matrix *)
Theorem C44_symmetric : forall k rhoA Ixx Iyy Izz L CGy CGz, L <> 0 ->
  symm 12 (mass k rhoA Ixx Iyy Izz L) /\ symm 12 (massNA k rhoA Ixx Iyy Izz L CGy CGz).
Proof. intros. split; [now apply mass_symm|now apply massNA_symm]. Qed.
Theorem C44_kinetic_energy : forall rhoA Ixx Iyy Izz L u wy wz, L <> 0 ->
  beamField 0 L (u 2%nat) (u 6%nat) (u 8%nat) (u 12%nat) wy -> beamField 0 L (u 3%nat) (- u 5%nat) (u 9%nat) (- u 11%nat) wz ->
  is_RInt (fun x => rhoA * linear L (u 1%nat) (u 7%nat) x ^ 2 + Ixx * linear L (u 4%nat) (u 10%nat) x ^ 2 +
     (rhoA * defl wy x ^ 2 + Izz * slope wy x ^ 2) + (rhoA * defl wz x ^ 2 + Iyy * slope wz x ^ 2)) 0 L (quad 12 (mass Eq rhoA Ixx Iyy Izz L) u).
Proof. exact cons_energy. Qed.
Theorem C44_nonnegative : forall rhoA Ixx Iyy Izz L u, 0 < L -> 0 <= rhoA -> 0 <= Ixx -> 0 <= Iyy -> 0 <= Izz ->
  0 <= quad 12 (mass Eq rhoA Ixx Iyy Izz L) u.
Proof. exact cons_psd. Qed.
Theorem C44_translation : forall k rhoA Ixx Iyy Izz L CGy CGz T ecc a b P Q, L <> 0 -> frame T ->
  Beam.bil 12 (finalize (Some T) ecc (massNA k rhoA Ixx Iyy Izz L CGy CGz)) (rigidMotion a vzero P Q) (rigidMotion b vzero P Q) = rhoA * L * vdot a b.
Proof. exact global_mass. Qed.
Theorem C44_rotation : forall rhoA Ixx Iyy Izz L om, L <> 0 ->
  quad 12 (mass Eq rhoA Ixx Iyy Izz L) (rigidMotion vzero om vzero (V L 0 0)) =
  L * Ixx * vx om ^ 2 + (rhoA * L ^ 3 / 3 + L * Iyy) * vy om ^ 2 + (rhoA * L ^ 3 / 3 + L * Izz) * vz om ^ 2.
Proof. exact cons_rotation. Qed.
Theorem C44_gravity : forall k rhoA Ixx Iyy Izz L CGy CGz a om g, L <> 0 ->
  sumf 12 (fun i => rigidMotion a om vzero (V L 0 0) i * gravityLoad (massNA k rhoA Ixx Iyy Izz L CGy CGz) g i) =
  vdot a (vscal (rhoA * L) g) + vdot om (vcross (V (L / 2) CGy CGz) (vscal (rhoA * L) g)).
Proof. exact gravity_resultant. Qed.
(** The diagonal forms for lumpedMass = 2. *)
Theorem C44_diagonal_global : forall T d, frame T -> d 7%nat = d 8%nat -> d 8%nat = d 9%nat ->
  (forall i, (i <= 3)%nat -> lumpedGlobal T d i = d i) /\ (forall i, (7 <= i <= 9)%nat -> lumpedGlobal T d i = d i) /\
  lumpedGlobal T d 4 + lumpedGlobal T d 5 + lumpedGlobal T d 6 = d 4%nat + d 5%nat + d 6%nat /\
  lumpedGlobal T d 10 + lumpedGlobal T d 11 + lumpedGlobal T d 12 = d 10%nat + d 11%nat + d 12%nat.
Proof. exact lumped_global. Qed.
(** Parallel-axis (Steiner) terms of the diagonal form. *)
Theorem C44_diagonal_ecc : forall e1 e2 d m1 m2, d 1%nat = m1 -> d 2%nat = m1 -> d 3%nat = m1 -> d 7%nat = m2 -> d 8%nat = m2 -> d 9%nat = m2 ->
  forall k, (1 <= k <= 3)%nat ->
  lumpedEcc e1 e2 d k = d k /\ lumpedEcc e1 e2 d (6 + k) = d (6 + k)%nat /\
  lumpedEcc e1 e2 d (3 + k) = d (3 + k)%nat + m1 * (vdot e1 e1 - vc e1 k * vc e1 k) /\
  lumpedEcc e1 e2 d (9 + k) = d (9 + k)%nat + m2 * (vdot e2 e2 - vc e2 k * vc e2 k).
Proof. exact lumped_ecc. Qed.
Theorem C44_diagonal_ecc_full : forall e1 e2 d i, (1 <= i <= 12)%nat ->
  lumpedEcc e1 e2 d i = sumf 12 (fun j => d j * (eccV e1 e2 (fun l => kron l i) j) ^ 2).
Proof. exact lumped_ecc_full. Qed.
(** Element forces moved to the grid points do the same work. *)
Theorem C44_eccentric_forces : forall e1 e2 b v, sumf 12 (fun i => v i * eccVec e1 e2 b i) = sumf 12 (fun i => eccV e1 e2 v i * b i).
Proof. exact ecc_vec_work. Qed.
(** Mass 6 per unit length, length 2, moved 3 along x. *)
Example C44_case : Beam.bil 12 (finalize (Some turnT) None (massNA Eq 6 1 1 1 2 0 1)) (rigidMotion (V 3 0 0) vzero vzero vzero) (rigidMotion (V 3 0 0) vzero vzero vzero) = 108.
Proof.
  rewrite C44_translation; [unfold vdot; cbn; ring|lra|]. split; unfold col, turnT, vdot, vcross; cbn; try ring; f_equal; ring.
Qed.

(** ** C45: cross sections *)
Theorem C45_hollow_box : forall H B t1 t2, let b := boxHollow H B t1 t2 in
  boxIntegral (fun _ _ => 1) B H (B - 2 * t2) (H - 2 * t1) (bA b) /\
  boxIntegral (fun _ z => z ^ 2) B H (B - 2 * t2) (H - 2 * t1) (bI1 b) /\
  boxIntegral (fun y _ => y ^ 2) B H (B - 2 * t2) (H - 2 * t1) (bI2 b).
Proof. exact hollow_geometry. Qed.
Theorem C45_solid_box : forall H B, let b := boxSolid H B in
  rectIntegral (fun _ _ => 1) B H (bA b) /\ rectIntegral (fun _ z => z ^ 2) B H (bI1 b) /\ rectIntegral (fun y _ => y ^ 2) B H (bI2 b).
Proof. exact solid_geometry. Qed.
Theorem C45_pipe : forall Ro t, let '(A, In, _) := pipe Ro t in
  ringIntegral (fun _ _ => 1) (innerRadius Ro t) Ro A /\ ringIntegral (fun _ z => z ^ 2) (innerRadius Ro t) Ro In /\ ringIntegral (fun y _ => y ^ 2) (innerRadius Ro t) Ro In.
Proof. exact pipe_geometry. Qed.
Theorem C45_positive : forall H B t1 t2 Ro t, 0 < t1 -> 0 < t2 -> 2 * t1 < H -> 2 * t2 < B -> 0 < Ro -> (forall d, t = Some d -> 0 < d <= Ro) ->
  (let b := boxHollow H B t1 t2 in 0 < bA b /\ 0 < bI1 b /\ 0 < bI2 b /\ 0 < bK1 b /\ 0 < bK2 b /\ 0 < bJ b /\
     bJ b = bredt ((B - t2) * (H - t1)) (2 * (B - t2) / t1 + 2 * (H - t1) / t2)) /\
  (let b := boxSolid H B in 0 < bA b /\ 0 < bI1 b /\ 0 < bI2 b /\ 0 < bJ b) /\
  (let '(A, In, K) := pipe Ro t in 0 < A /\ 0 < In /\ 0 < K).
Proof. intros. split; [now apply hollow_valid|]. split; [apply solid_valid; lra|now apply pipe_valid]. Qed.
(** Constant functions for stiffness, mass, area, shear centre and mass centre agree with constants. *)
Theorem C45_constant_functions_partial : forall s L E G rho g m,
  evalProp (mkFuncs (Some (E * sA s)) (Some (E * sIy s)) (Some (E * sIz s)) (Some (G * sIt s)) (Some (rho * sA s))
    (Some (sA s)) None None (Some (sSy s)) (Some (sSz s)) None None None (Some 0) (Some 0)) s L E G rho g m = evalProp noFuncs s L E G rho g m.
Proof. exact const_stiffness. Qed.
Theorem C45_shear_area : forall s L E G rho g m, sA s <> 0 -> sKy s <> 0 -> sKz s <> 0 ->
  let p := evalProp (mkFuncs None None None None None None (Some (sA s / sKy s)) (Some (sA s / sKz s)) None None None None None None None) s L E G rho g m in
  let q := evalProp noFuncs s L E G rho g m in pAly p = pAly q /\ pAlz p = pAlz q.
Proof. exact const_shear. Qed.
(** Second moments given as functions: same stiffness, but a rotary inertia without the density. *)
Theorem C45_moment_functions_partial : forall s L E G rho g m,
  let p := evalProp (mkFuncs None None None None None None None None None None None (Some (sIy s)) (Some (sIz s)) None None) s L E G rho g m in
  let q := evalProp noFuncs s L E G rho g m in
  pEIy p = pEIy q /\ pEIz p = pEIz q /\ pAly p = pAly q /\ pAlz p = pAlz q /\ pRhoA p = pRhoA q /\
  (m = true -> pIyy q = rho * pIyy p /\ pIzz q = rho * pIzz p) /\ (m = false -> p = q).
Proof. exact const_inertia. Qed.
Theorem C45_moment_functions_refuted : exists s L E G rho,
  let p := evalProp (mkFuncs None None None None None None None None None None None (Some (sIy s)) None None None) s L E G rho false true in
  pIyy p <> pIyy (evalProp noFuncs s L E G rho false true).
Proof. exact inertia_differs. Qed.
(** No constant polar function reproduces the constants, unless rho Ix happens to equal It. *)
Theorem C45_polar_function_refuted : forall v s L E G rho, G <> 0 ->
  let f := mkFuncs None None None None None None None None None None (Some v) None None None None in
  pGIt (evalProp f s L E G rho false true) = pGIt (evalProp noFuncs s L E G rho false true) ->
  pIxx (evalProp f s L E G rho false true) = pIxx (evalProp noFuncs s L E G rho false true) -> rho * sIx s = sIt s.
Proof. exact polar_inertia. Qed.
(** Section constants from the geometry: polar moments as integrals too. *)
Theorem C45_pipe_section : forall Ro t, let s := ofPipe Ro t in
  ringIntegral (fun _ _ => 1) (innerRadius Ro t) Ro (sA s) /\ ringIntegral (fun _ z => z ^ 2) (innerRadius Ro t) Ro (sIy s) /\
  ringIntegral (fun y _ => y ^ 2) (innerRadius Ro t) Ro (sIz s) /\ ringIntegral (fun y z => y ^ 2 + z ^ 2) (innerRadius Ro t) Ro (sIx s) /\ sIt s = sIx s.
Proof. exact pipe_section. Qed.
Theorem C45_box_section : forall H B t1 t2, let s := ofBox (boxHollow H B t1 t2) in
  boxIntegral (fun _ _ => 1) B H (B - 2 * t2) (H - 2 * t1) (sA s) /\
  boxIntegral (fun _ z => z ^ 2) B H (B - 2 * t2) (H - 2 * t1) (sIy s) /\
  boxIntegral (fun y _ => y ^ 2) B H (B - 2 * t2) (H - 2 * t1) (sIz s) /\ sIx s = sIy s + sIz s.
Proof. intros H B t1 t2 s. destruct (hollow_geometry H B t1 t2) as [G1 [G2 G3]]. repeat split; assumption. Qed.
(** Shear deflection: the shear parameter belongs to the shear area given, or the area over the shear factor. *)
Theorem C45_shear_parameter : forall f s L E G rho g m, G <> 0 -> L <> 0 -> let p := evalProp f s L E G rho g m in
  (forall Ay, fAy f = Some Ay -> Ay <> 0 -> pAly p * (G * Ay * L ^ 2) = 12 * pEIy p) /\
  (forall Az, fAz f = Some Az -> Az <> 0 -> pAlz p * (G * Az * L ^ 2) = 12 * pEIz p) /\
  (forall A, fAx f = Some A \/ (fAx f = None /\ sA s = A) -> A <> 0 ->
    (fAy f = None -> pAly p * (G * A * L ^ 2) = 12 * sKy s * pEIy p) /\ (fAz f = None -> pAlz p * (G * A * L ^ 2) = 12 * sKz s * pEIz p)).
Proof. exact shear_parameter. Qed.
(** Functions take the place of constants wherever the quantity is used. *)
Theorem C45_functions_used : forall f s L E G rho g m v, let p := evalProp f s L E G rho g m in
  (fEA f = Some v -> pEA p = v) /\ (fEIy f = Some v -> pEIy p = v) /\ (fEIz f = Some v -> pEIz p = v) /\ (fGIt f = Some v -> pGIt p = v) /\
  ((g = true \/ m = true) -> (fRho f = Some v -> pRhoA p = v) /\ (fCGy f = Some v -> pCGy p = v) /\ (fCGz f = Some v -> pCGz p = v)).
Proof. exact functions_used. Qed.
(** Shear centre: as given unless within a hundred-millionth of the area. *)
Theorem C45_shear_centre : forall f s L E G rho g m, let p := evalProp f s L E G rho g m in
  let A := orElse (fAx f) (sA s) in let y := orElse (fSy f) (sSy s) in let z := orElse (fSz f) (sSz s) in
  (A <= 10 ^ 8 * (y ^ 2 + z ^ 2) -> pSy p = y /\ pSz p = z) /\ (10 ^ 8 * (y ^ 2 + z ^ 2) < A -> pSy p = 0 /\ pSz p = 0).
Proof. exact shear_centre. Qed.
(** A pipe wall thicker than the diameter is accepted. *)
Theorem C45_thick_pipe_refuted : forall Ro, 0 < Ro -> let '(A, In, _) := pipe Ro (Some (3 * Ro)) in A < 0 /\ In < 0.
Proof. exact pipe_thick. Qed.
Example C45_case : bA (boxHollow 4 3 (1 / 2) (1 / 4)) = 12 - (5 / 2) * 3 /\ 0 < bJ (boxHollow 4 3 (1 / 2) (1 / 4)).
Proof. split; [unfold boxHollow; cbn [bA]; field|]. apply (C45_positive 4 3 (1 / 2) (1 / 4) 1 None); try lra. discriminate. Qed.

(** ** C67: element data objects.  An object is created by each request; reading its axes is
    defined exactly when the request is dynamic or nothing dynamic was created before. *)
Theorem C67_axes_partial : forall l q obj, snd (answer q (after l)) = Some obj ->
  (getLocalAxes (fst (answer q (after l))) obj <> UB <-> makesDynamic q = true \/ forall p, In p l -> makesDynamic p = false).
Proof. exact axes_kind. Qed.
Theorem C67_axes_refuted : exists l q obj, snd (answer q (after l)) = Some obj /\ getLocalAxes (fst (answer q (after l))) obj = UB.
Proof. exact axes_ub. Qed.
Example C67_case : let r := mkReq false true Gt true in snd (answer r (after [r; r])) = Some DYN /\ getLocalAxes (fst (answer r (after [r; r]))) DYN = Ret DYN.
Proof. split; reflexivity. Qed.

(** ** C79: the second moment used for bending about an axis *)
Theorem C79_bending_energy_partial : forall L EA GIt EIy EIz Aly Alz th, L <> 0 -> 1 + Aly <> 0 -> 1 + Alz <> 0 ->
  quad 12 (stiffness L EA GIt EIy EIz Aly Alz 0 0) (bendZ th) = EIy * (2 * th) ^ 2 / L /\
  quad 12 (stiffness L EA GIt EIy EIz Aly Alz 0 0) (bendY th) = EIz * (2 * th) ^ 2 / L.
Proof. exact bend_energy. Qed.
Theorem C79_equal_moments_partial : forall s L E G rho th, L <> 0 -> sIy s = sIz s ->
  let p := evalProp noFuncs s L E G rho false true in 1 + pAly p <> 0 -> 1 + pAlz p <> 0 ->
  quad 12 (stiffOf p L) (bendZ th) = E * sIz s * (2 * th) ^ 2 / L /\ quad 12 (stiffOf p L) (bendY th) = E * sIy s * (2 * th) ^ 2 / L.
Proof. exact bend_equal. Qed.
Theorem C79_bending_axis_refuted : exists H B E G L th Iz, 0 < H /\ 0 < B /\ 0 < E /\ 0 < G /\ 0 < L /\
  rectIntegral (fun y _ => y ^ 2) B H Iz /\
  quad 12 (stiffOf (evalProp noFuncs (ofBox (boxSolid H B)) L E G 1 false true) L) (bendZ th) <> E * Iz * (2 * th) ^ 2 / L.
Proof. exact bend_swapped. Qed.
Theorem C79_rotary_inertia : forall s L E G rho, let p := evalProp noFuncs s L E G rho false true in pIzz p = rho * sIz s /\ pIyy p = rho * sIy s.
Proof. exact rotary_consistent. Qed.
Example C79_case : quad 12 (stiffness 2 1 1 3 7 0 0 0 0) (bendZ 1) = 3 * (2 * 1) ^ 2 / 2.
Proof. apply C79_bending_energy_partial; lra. Qed.

Print Assumptions C42_symmetric.
Print Assumptions C42_energy.
Print Assumptions C42_field.
Print Assumptions C42_nonnegative.
Print Assumptions C42_rigid_partial.
Print Assumptions C42_rigid_refuted.
Print Assumptions C42_in_range.
Print Assumptions C43_symmetric.
Print Assumptions C43_energy.
Print Assumptions C43_tension.
Print Assumptions C43_rotation.
Print Assumptions C43_rotation_skewed.
Print Assumptions C44_symmetric.
Print Assumptions C44_kinetic_energy.
Print Assumptions C44_nonnegative.
Print Assumptions C44_translation.
Print Assumptions C44_rotation.
Print Assumptions C44_gravity.
Print Assumptions C44_diagonal_global.
Print Assumptions C44_diagonal_ecc.
Print Assumptions C45_hollow_box.
Print Assumptions C45_solid_box.
Print Assumptions C45_pipe.
Print Assumptions C45_positive.
Print Assumptions C45_constant_functions_partial.
Print Assumptions C45_shear_area.
Print Assumptions C45_moment_functions_partial.
Print Assumptions C45_moment_functions_refuted.
Print Assumptions C45_polar_function_refuted.
Print Assumptions C45_thick_pipe_refuted.
Print Assumptions C67_axes_partial.
Print Assumptions C67_axes_refuted.
Print Assumptions C79_bending_energy_partial.
Print Assumptions C79_equal_moments_partial.
Print Assumptions C79_bending_axis_refuted.
Print Assumptions C79_rotary_inertia.
Print Assumptions C44_diagonal_ecc_full.
Print Assumptions C44_eccentric_forces.
Print Assumptions C45_pipe_section.
Print Assumptions C45_box_section.
Print Assumptions C45_shear_parameter.
Print Assumptions C45_functions_used.
Print Assumptions C45_shear_centre.
