(** C117-C120: the large-deformation displacement elements and the F-bar element. *)
From Coquelicot Require Import Coquelicot.
From Verif Require Import Lib.Base Lib.Sums Lib.Writes Lib.Congruence Lib.Tensor3 Model.Continuum Model.Mixed Model.MxElement Model.NlElement Spec.Continuum Spec.Mixed Spec.MxElement Spec.NlElement
  Proofs.Continuum Proofs.ContinuumKin Proofs.MxPure Proofs.MxList Proofs.MxElement Proofs.NlPure Proofs.NlPoint Proofs.NlElement Proofs.NlFbar Proofs.NlMaterial Proofs.NlWitness.
Open Scope R_scope.

(** C117, all kinds: forces are the derivative of the energy; axisymmetric points must be strained in the plane or free of strain. *)
Theorem C117_ul_forces_partial k n stress tangent isz ps W u v st :
  solidMaterial k ps stress -> soundTest k isz -> validState k n ps u -> dims k n st ->
  (forall p X, In p ps -> 0 < det3 X -> stressIn k (W p) X (stress p X)) ->
  (forall p, In p ps -> k <> Axi \/ strained k (deformation k n p u) \/ isometry 3 (deformation k n p u)) ->
  exists st', ulElement k n stress tangent isz ps u st = Ret st' /\
    is_derive (fun t => energy k n ps W (moved u v t)) 0 (work (kdim k * n) (snd st) (snd st') v).
Proof. intros HM Hz V D HW HR. exact (ul_energy k n stress tangent isz ps HM Hz W u v st V D HR HW). Qed.
(** Solids and plane strain: the full statement. *)
Theorem C117_ul_forces_solid_partial k n stress tangent isz ps W u v st :
  k <> Axi -> solidMaterial k ps stress -> soundTest k isz -> validState k n ps u -> dims k n st ->
  (forall p X, In p ps -> 0 < det3 X -> stressIn k (W p) X (stress p X)) ->
  exists st', ulElement k n stress tangent isz ps u st = Ret st' /\
    is_derive (fun t => energy k n ps W (moved u v t)) 0 (work (kdim k * n) (snd st) (snd st') v).
Proof. intros A HM Hz V D HW. apply C117_ul_forces_partial; auto. Qed.
Example C117_tetrahedron v : exists st', ulElement Solid 4 nhS (nhT Solid) (exactZero Solid) [tet] uShear (st0 12) = Ret st' /\
  is_derive (fun t => energy Solid 4 [tet] nhW (moved uShear v t)) 0 (work 12 (snd (st0 12)) (snd st') v).
Proof. apply (C117_ul_forces_solid_partial Solid 4); [discriminate|apply nhS_material|apply exact_sound|apply shear_valid|split; reflexivity|apply nhS_stress]. Qed.
Example C117_ring v : exists st', ulElement Axi 3 nhS (nhT Axi) (exactZero Axi) [axp] uHalf (st0 6) = Ret st' /\
  is_derive (fun t => energy Axi 3 [axp] nhW (moved uHalf v t)) 0 (work 6 (snd (st0 6)) (snd st') v).
Proof. apply (C117_ul_forces_partial Axi 3); [apply nhS_material|apply exact_sound|apply half_valid|split; reflexivity|apply nhS_stress|]. intros p [<-|[]]. right. left. apply half_strained. Qed.
(** A ring expanded without straining its cross section gets no forces. *)
Theorem C117_axisymmetric_refuted : exists n stress tangent isz ps W u v st st',
  solidMaterial Axi ps stress /\ soundTest Axi isz /\ validState Axi n ps u /\ dims Axi n st /\
  (forall p X, In p ps -> 0 < det3 X -> stressIn Axi (W p) X (stress p X)) /\
  ulElement Axi n stress tangent isz ps u st = Ret st' /\
  ~ is_derive (fun t => energy Axi n ps W (moved u v t)) 0 (work (kdim Axi * n) (snd st) (snd st') v).
Proof.
  destruct radial as [st' [E H]]. exists 3%nat, nhS, (nhT Axi), (exactZero Axi), [axp], nhW, uRad, uRad, (st0 6), st'.
  split; [apply nhS_material|]. split; [apply exact_sound|]. split; [apply rad_valid|]. split; [split; reflexivity|]. split; [apply nhS_stress|]. split; [exact E|exact H].
Qed.

(** C118, all kinds, points strained or undeformed: the derivative of the forces is the stiffness plus the hoop compression. *)
Theorem C118_ul_stiffness_partial k n stress tangent isz ps u v st :
  solidMaterial k ps stress -> soundTest k isz -> validState k n ps u -> dims k n st ->
  (forall p X, In p ps -> 0 < det3 X -> tangentIn k (stress p) X (tangent p X)) ->
  (forall p, In p ps -> regularAt k n u v p) ->
  exists st', ulElement k n stress tangent isz ps u st = Ret st' /\
    forall q, exists f, locally 0 (fun t => exists b1, forcesOf (ulElement k n stress tangent isz ps (moved u v t) st) = Some b1 /\ work (kdim k * n) (snd st) b1 q = f t) /\
      is_derive f 0 (stiffWork (kdim k * n) (fun i j => el (fst st') i j - el (fst st) i j) q v + hoopK k n ps (fun p => stress p (deformation k n p u)) u q v).
Proof. intros HM Hz V D HT HR. exact (ul_tangent k n stress tangent isz ps HM Hz u v st V D HR HT). Qed.
(** Solids and plane strain, axisymmetric solids without hoop compression: the stiffness is the derivative. *)
Theorem C118_ul_stiffness_exact_partial k n stress tangent isz ps u v st :
  solidMaterial k ps stress -> soundTest k isz -> validState k n ps u -> dims k n st ->
  (forall p X, In p ps -> 0 < det3 X -> tangentIn k (stress p) X (tangent p X)) ->
  (forall p, In p ps -> regularAt k n u v p) ->
  (k = Axi -> forall p, In p ps -> 0 <= stress p (deformation k n p u) 3%nat 3%nat) ->
  exists st', ulElement k n stress tangent isz ps u st = Ret st' /\
    derivativeAlong (kdim k * n) (fun z => forcesOf (ulElement k n stress tangent isz ps z st)) (snd st) (fun i j => el (fst st') i j - el (fst st) i j) u v.
Proof.
  intros HM Hz V D HT HR HC. destruct (C118_ul_stiffness_partial k n stress tangent isz ps u v st HM Hz V D HT HR) as [st' [E H]]. exists st'. split; [exact E|].
  intros q. destruct (H q) as [f [L DF]]. exists f. split; [exact L|].
  assert (Z : hoopK k n ps (fun p => stress p (deformation k n p u)) u q v = 0).
  { unfold hoopK, hoopCompression. destruct k; cbn [isAxi]; try reflexivity. specialize (HC eq_refl). clear - HC. induction ps as [|p l IH]; [reflexivity|].
    unfold sumL in *. cbn [fold_right]. rewrite IH by (intros x Ix; apply HC; now right). rewrite Rmin_left by (apply HC; now left). ring. }
  rewrite Z, Rplus_0_r in DF. exact DF.
Qed.
Example C118_tetrahedron v : exists st', ulElement Solid 4 nhS (nhT Solid) (exactZero Solid) [tet] uShear (st0 12) = Ret st' /\
  derivativeAlong 12 (fun z => forcesOf (ulElement Solid 4 nhS (nhT Solid) (exactZero Solid) [tet] z (st0 12))) (snd (st0 12)) (fun i j => el (fst st') i j - el (fst (st0 12)) i j) uShear v.
Proof.
  apply (C118_ul_stiffness_exact_partial Solid 4); [apply nhS_material|apply exact_sound|apply shear_valid|split; reflexivity|apply nhS_tangent| |discriminate].
  intros p [<-|[]]. left. apply shear_strained.
Qed.
(** An element rotated as a rigid body: the stiffness is formed with the gradients of the initial configuration. *)
Theorem C118_rotated_refuted : exists n stress tangent isz ps u v st st',
  solidMaterial Plane ps stress /\ soundTest Plane isz /\ validState Plane n ps u /\ dims Plane n st /\
  (forall p X, In p ps -> 0 < det3 X -> tangentIn Plane (stress p) X (tangent p X)) /\
  (forall p, In p ps -> isometry 3 (deformation Plane n p u)) /\
  ulElement Plane n stress tangent isz ps u st = Ret st' /\
  ~ derivativeAlong (kdim Plane * n) (fun z => forcesOf (ulElement Plane n stress tangent isz ps z st)) (snd st) (fun i j => el (fst st') i j - el (fst st) i j) u v.
Proof.
  destruct (rotated 0 (1 / 2) ltac:(lra)) as [st' [E H]]. exists 3%nat, nhS, (nhT Plane), (exactZero Plane), [tri 0 (1 / 2)], uRot, e1, (st0 6), st'.
  split; [apply nhS_material|]. split; [apply exact_sound|]. split; [apply rot_valid|]. split; [split; reflexivity|]. split; [apply nhS_tangent|]. split; [|split; [exact E|exact H]].
  intros p [<-|[]]. apply (iso_ext 3 rot90); [lia|intros i j Hi Hj; symmetry; now apply rot_def|apply rot_iso].
Qed.
(** Axisymmetric solid under hoop compression. *)
Theorem C118_axisymmetric_refuted : exists n stress tangent isz ps u v st st',
  solidMaterial Axi ps stress /\ soundTest Axi isz /\ validState Axi n ps u /\ dims Axi n st /\
  (forall p X, In p ps -> 0 < det3 X -> tangentIn Axi (stress p) X (tangent p X)) /\
  (forall p, In p ps -> strained Axi (deformation Axi n p u)) /\
  ulElement Axi n stress tangent isz ps u st = Ret st' /\
  ~ derivativeAlong (kdim Axi * n) (fun z => forcesOf (ulElement Axi n stress tangent isz ps z st)) (snd st) (fun i j => el (fst st') i j - el (fst st) i j) u v.
Proof.
  destruct compressed as [st' [E H]]. exists 3%nat, nhS, (nhT Axi), (exactZero Axi), [axp], uHalf, e1, (st0 6), st'.
  split; [apply nhS_material|]. split; [apply exact_sound|]. split; [apply half_valid|]. split; [split; reflexivity|]. split; [apply nhS_tangent|]. split; [|split; [exact E|exact H]].
  intros p [<-|[]]. apply half_strained.
Qed.

(** C119. *)
Theorem C119_tl_forces k n stress tangent isz ps W u v st :
  k <> Axi -> solidMaterial k ps stress -> soundTest k isz -> (1 <= n)%nat -> dims k n st ->
  (forall p, In p ps -> stress2In k (W p) (deformation k n p u) (stress p (deformation k n p u))) ->
  exists st', tlElement k n stress tangent isz ps u st = Ret st' /\
    is_derive (fun t => energy k n ps W (moved u v t)) 0 (work (kdim k * n) (snd st) (snd st') v).
Proof. intros A HM Hz. now apply tl_energy. Qed.
Theorem C119_tl_stiffness k n stress tangent isz ps u v st :
  k <> Axi -> solidMaterial k ps stress -> soundTest k isz -> (1 <= n)%nat -> dims k n st ->
  (forall p, In p ps -> 0 < det3 (deformation k n p u)) ->
  (forall p X, In p ps -> 0 < det3 X -> tangent2In k (stress p) X (tangent p X)) ->
  exists st', tlElement k n stress tangent isz ps u st = Ret st' /\
    derivativeAlong (kdim k * n) (fun w => forcesOf (tlElement k n stress tangent isz ps w st)) (snd st) (fun i j => el (fst st') i j - el (fst st) i j) u v.
Proof. intros A HM Hz. now apply tl_tangent. Qed.
Example C119_tetrahedron_forces v : exists st', tlElement Solid 4 (fun _ => svStress 1) (fun _ _ => svTangent Solid 1) (exactZero Solid) [tet] uShear (st0 12) = Ret st' /\
  is_derive (fun t => energy Solid 4 [tet] (fun _ => svEnergy 1) (moved uShear v t)) 0 (work 12 (snd (st0 12)) (snd st') v).
Proof. apply (C119_tl_forces Solid 4); [discriminate|apply (sv_material Solid [tet] (fun _ => 1))|apply exact_sound|lia|split; reflexivity|intros; apply sv_stress]. Qed.
Example C119_tetrahedron_stiffness v : exists st', tlElement Solid 4 (fun _ => svStress 1) (fun _ _ => svTangent Solid 1) (exactZero Solid) [tet] uShear (st0 12) = Ret st' /\
  derivativeAlong 12 (fun w => forcesOf (tlElement Solid 4 (fun _ => svStress 1) (fun _ _ => svTangent Solid 1) (exactZero Solid) [tet] w (st0 12))) (snd (st0 12)) (fun i j => el (fst st') i j - el (fst (st0 12)) i j) uShear v.
Proof.
  apply (C119_tl_stiffness Solid 4); [discriminate|apply (sv_material Solid [tet] (fun _ => 1))|apply exact_sound|lia|split; reflexivity|apply (vsVolume _ _ _ _ shear_valid)|intros; apply sv_tangent].
Qed.
(** The triangle rotated as a rigid body has the right stiffness in this formulation. *)
Example C119_rotated v : exists st', tlElement Plane 3 (fun _ => svStress 1) (fun _ _ => svTangent Plane 1) (exactZero Plane) [tri 0 (1 / 2)] uRot (st0 6) = Ret st' /\
  derivativeAlong 6 (fun w => forcesOf (tlElement Plane 3 (fun _ => svStress 1) (fun _ _ => svTangent Plane 1) (exactZero Plane) [tri 0 (1 / 2)] w (st0 6))) (snd (st0 6)) (fun i j => el (fst st') i j - el (fst (st0 6)) i j) uRot v.
Proof.
  apply (C119_tl_stiffness Plane 3); [discriminate|apply (sv_material Plane _ (fun _ => 1))|apply exact_sound|lia|split; reflexivity|apply (vsVolume _ _ _ _ (rot_valid 0 (1 / 2)))|intros; apply sv_tangent].
Qed.

(** C120, forces: the stress of the modified deformation does the virtual work, unless a point is unstrained with a changed modified volume. *)
Theorem C120_fbar_forces_partial k n stress tangent isz qs ps u st :
  solidMaterial k ps stress -> soundTest k isz -> fbarState k n qs ps u -> dims k n st ->
  (forall q, In q qs -> k <> Axi \/ strained k (deformation k n q u) \/ isometry 3 (deformation k n q u)) ->
  (forall p, In p ps -> strained k (deformation k n p u) \/ (isometry 3 (deformation k n p u) /\ fbarVolume k n qs p u = 1)) ->
  exists st', fbarElement k n stress tangent isz qs ps u st = Ret st' /\
    forall v, work (kdim k * n) (snd st) (snd st') v = virtualWork k n ps (fun p => stress p (modified k (fbarVolume k n qs p u) (deformation k n p u))) u v.
Proof.
  intros HM Hz V D HQ HP. destruct (fbarElement_ok k n stress tangent isz qs ps HM Hz u st V) as [vs [st' [E [_ [_ [W _]]]]]]; [| |exact D|].
  - intros q Iq I0. destruct (HQ q Iq) as [A|[A|A]]; [now apply iso3_kind|contradiction|exact A].
  - intros p Ip I0. destruct (HP p Ip) as [A|A]; [contradiction|exact A].
  - exists st'. split; [exact E|]. intros v. rewrite W. apply fbw_virtual.
Qed.
Theorem C120_fbar_stiffness_partial k n stress tangent isz qs ps u v st :
  solidMaterial k ps stress -> soundTest k isz -> fbarState k n qs ps u -> dims k n st ->
  (forall p X, In p ps -> 0 < det3 X -> tangentIn k (stress p) X (tangent p X)) ->
  (forall q, In q qs -> regularAt k n u v q) -> (forall p, In p ps -> fbarRegular k n qs u v p) ->
  exists st', fbarElement k n stress tangent isz qs ps u st = Ret st' /\
    forall q, exists f, locally 0 (fun t => exists b1, forcesOf (fbarElement k n stress tangent isz qs ps (moved u v t) st) = Some b1 /\ work (kdim k * n) (snd st) b1 q = f t) /\
      is_derive f 0 (stiffWork (kdim k * n) (fun i j => el (fst st') i j - el (fst st) i j) q v
        - shearSwap k n ps (fun p => stress p (modified k (fbarVolume k n qs p u) (deformation k n p u))) u q v).
Proof. intros HM Hz V D HT HQ HP. exact (fbar_tangent_ok k n stress tangent isz qs ps HM Hz u v st V D HQ HP HT). Qed.
(** Plane strain and axisymmetric solids: the stiffness is the derivative. *)
Theorem C120_fbar_stiffness_plane_partial k n stress tangent isz qs ps u v st :
  k <> Solid -> solidMaterial k ps stress -> soundTest k isz -> fbarState k n qs ps u -> dims k n st ->
  (forall p X, In p ps -> 0 < det3 X -> tangentIn k (stress p) X (tangent p X)) ->
  (forall q, In q qs -> regularAt k n u v q) -> (forall p, In p ps -> fbarRegular k n qs u v p) ->
  exists st', fbarElement k n stress tangent isz qs ps u st = Ret st' /\
    derivativeAlong (kdim k * n) (fun z => forcesOf (fbarElement k n stress tangent isz qs ps z st)) (snd st) (fun i j => el (fst st') i j - el (fst st) i j) u v.
Proof.
  intros A HM Hz V D HT HQ HP. destruct (C120_fbar_stiffness_partial k n stress tangent isz qs ps u v st HM Hz V D HT HQ HP) as [st' [E H]]. exists st'. split; [exact E|].
  intros q. destruct (H q) as [f [L DF]]. exists f. split; [exact L|]. replace (shearSwap k n ps _ u q v) with 0 in DF by (destruct k; reflexivity || contradiction). rewrite Rminus_0_r in DF. exact DF.
Qed.
Lemma half_fbar : fbarState Axi 3 [axp] [axp] uHalf.
Proof. split; [apply half_valid|]. split; [apply half_valid|]. intros p _. apply (vsVolume _ _ _ _ half_valid axp). now left. Qed.
Example C120_ring v : exists st', fbarElement Axi 3 nhS (nhT Axi) (exactZero Axi) [axp] [axp] uHalf (st0 6) = Ret st' /\
  derivativeAlong 6 (fun z => forcesOf (fbarElement Axi 3 nhS (nhT Axi) (exactZero Axi) [axp] [axp] z (st0 6))) (snd (st0 6)) (fun i j => el (fst st') i j - el (fst (st0 6)) i j) uHalf v.
Proof.
  apply (C120_fbar_stiffness_plane_partial Axi 3); [discriminate|apply nhS_material|apply exact_sound|apply half_fbar|split; reflexivity|apply nhS_tangent| |];
    intros p [<-|[]]; left; apply half_strained.
Qed.
Example C120_ring_forces : exists st', fbarElement Axi 3 nhS (nhT Axi) (exactZero Axi) [axp] [axp] uHalf (st0 6) = Ret st' /\
  forall v, work 6 (snd (st0 6)) (snd st') v = virtualWork Axi 3 [axp] (fun p => nhS p (modified Axi (fbarVolume Axi 3 [axp] p uHalf) (deformation Axi 3 p uHalf))) uHalf v.
Proof.
  apply (C120_fbar_forces_partial Axi 3); [apply nhS_material|apply exact_sound|apply half_fbar|split; reflexivity| |];
    intros p [<-|[]]; [right; left|left]; apply half_strained.
Qed.
(** Solids: one entry of the tangent takes the wrong shear stress. *)
Theorem C120_space_refuted : exists n stress tangent isz ps u v st st',
  solidMaterial Solid ps stress /\ soundTest Solid isz /\ fbarState Solid n [] ps u /\ dims Solid n st /\
  (forall p X, In p ps -> 0 < det3 X -> tangentIn Solid (stress p) X (tangent p X)) /\
  (forall p, In p ps -> strained Solid (deformation Solid n p u)) /\
  fbarElement Solid n stress tangent isz [] ps u st = Ret st' /\
  ~ derivativeAlong (kdim Solid * n) (fun z => forcesOf (fbarElement Solid n stress tangent isz [] ps z st)) (snd st) (fun i j => el (fst st') i j - el (fst st) i j) u v.
Proof.
  destruct sheared as [st' [E H]]. exists 4%nat, nhS, (nhT Solid), (exactZero Solid), [tet], uShear, e3, (st0 12), st'.
  split; [apply nhS_material|]. split; [apply exact_sound|]. split; [|split; [split; reflexivity|split; [apply nhS_tangent|split; [|split; [exact E|exact H]]]]].
  - split; [split; [lia|intros p []|intros p []]|]. split; [apply shear_valid|]. intros p Ip. apply (vsVolume _ _ _ _ shear_valid p Ip).
  - intros p [<-|[]]. apply shear_strained.
Qed.
(** A point without strain gets no forces though its modified deformation is stressed. *)
Theorem C120_unstrained_refuted : exists n stress tangent isz qs ps u v st st',
  solidMaterial Plane ps stress /\ soundTest Plane isz /\ fbarState Plane n qs ps u /\ dims Plane n st /\
  fbarElement Plane n stress tangent isz qs ps u st = Ret st' /\
  work (kdim Plane * n) (snd st) (snd st') v <> virtualWork Plane n ps (fun p => stress p (modified Plane (fbarVolume Plane n qs p u) (deformation Plane n p u))) u v.
Proof.
  destruct dropped as [st' [E H]]. exists 2%nat, nhS, (nhT Plane), (exactZero Plane), [bq], [bp], uOne, e1, (st0 4), st'.
  split; [apply nhS_material|]. split; [apply exact_sound|]. split; [apply bar_state|]. split; [split; reflexivity|]. split; [exact E|exact H].
Qed.

Print Assumptions C117_ul_forces_partial.
Print Assumptions C117_ul_forces_solid_partial.
Print Assumptions C117_axisymmetric_refuted.
Print Assumptions C118_ul_stiffness_partial.
Print Assumptions C118_ul_stiffness_exact_partial.
Print Assumptions C118_rotated_refuted.
Print Assumptions C118_axisymmetric_refuted.
Print Assumptions C119_tl_forces.
Print Assumptions C119_tl_stiffness.
Print Assumptions C120_fbar_forces_partial.
Print Assumptions C120_fbar_stiffness_partial.
Print Assumptions C120_fbar_stiffness_plane_partial.
Print Assumptions C120_space_refuted.
Print Assumptions C120_unstrained_refuted.
