(** Concrete elements: a triangle, a tetrahedron, and the states where the formulations break down. *)
From Coquelicot Require Import Coquelicot.
From Verif Require Import Lib.Base Lib.Sums Lib.Writes Lib.Congruence Lib.Tensor3 Model.Continuum Model.Mixed Model.MxElement Model.NlElement Spec.Continuum Spec.Mixed Spec.MxElement Spec.NlElement
  Proofs.Continuum Proofs.ContinuumKin Proofs.ContinuumK Proofs.Mixed Proofs.MxPure Proofs.MxList Proofs.MxPoint Proofs.MxElement Proofs.NlPure Proofs.NlPoint Proofs.NlElement Proofs.NlFbar Proofs.NlMaterial.
Open Scope R_scope.

Definition st0 (N : nat) : mat * (nat -> R) := (zeros N N, fun _ => 0).
(** Three-noded triangle, four-noded tetrahedron; [x] is the radius. *)
Definition triG (a j : nat) : R := match a with 3%nat => -1 | _ => kron a j end.
Definition tri (x w : R) : mxIn := mkIn (fun _ => 1 / 3) triG x w (fun _ => 1).
Definition tetG (a j : nat) : R := match a with 4%nat => -1 | _ => kron a j end.
Definition tet : mxIn := mkIn (fun _ => 1 / 4) tetG 0 (1 / 6) (fun _ => 1).
Definition nhS (p : mxIn) : t3 -> t3 := nhStress 1.
Definition nhT (k : kind) (p : mxIn) : t3 -> nat -> nat -> R := nhTangent k 1.
Definition nhW (p : mxIn) : t3 -> R := nhEnergy 1.
Lemma nhS_material k ps : solidMaterial k ps nhS. Proof. exact (nh_material k ps (fun _ => 1)). Qed.
Lemma nhS_stress k (ps : list mxIn) p X : In p ps -> 0 < det3 X -> stressIn k (nhW p) X (nhS p X). Proof. intros _ H. now apply nh_stress. Qed.
Lemma nhS_tangent k (ps : list mxIn) p X : In p ps -> 0 < det3 X -> tangentIn k (nhS p) X (nhT k p X). Proof. intros _ H. now apply nh_tangent. Qed.

Lemma exact_unstrained k n p u : (1 <= n)%nat -> (isAxi k = true -> epsR < iX p) -> isometry (kdim k) (deformation k n p u) ->
  forall c, pushUL k n (exactZero k) p u = Ret c -> cHave c = false.
Proof.
  intros Hn Hx I0 c E. destruct (kinUL_ok k n p u Hn Hx) as [F [G [EK [_ eG]]]]. unfold pushUL in E. rewrite EK in E. cbn [bind fst snd] in E.
  assert (Z : exactZero k (fun r => el G r 1) = true) by (apply exactZero_iff; intros r Hr; rewrite eG by exact Hr; revert r Hr; apply strain_zero; exact I0).
  rewrite Z in E. injection E as <-. reflexivity.
Qed.

(** Entries of the deformations. *)
Definition dofs (l : list R) (i : nat) : R := nth (i - 1) l 0.
Ltac def := unfold deformation, dispGrad, gradient, interp, tri, tet, triG, tetG, dofs, kron; cbn; try field; try lra.

(** 90 degree rotation of the triangle. *)
Definition uRot : nat -> R := dofs [-1; 1; -1; -1; 0; 0].
Definition rot90 : t3 := fun i j => match i, j with 1%nat, 2%nat => -1 | 2%nat, 1%nat => 1 | 3%nat, 3%nat => 1 | _, _ => 0 end.
Lemma rot_def x w : eq3 (deformation Plane 3 (tri x w) uRot) rot90.
Proof. intros i j Hi Hj. idx i; idx j; unfold uRot; def. Qed.
Lemma rot_iso : isometry 3 rot90.
Proof. intros i j Hi Hj. unfold cauchyGreen, rot90, kron. cbn [sumf]. idx i; idx j; cbn; ring. Qed.
Lemma rot_det : det3 rot90 = 1. Proof. unfold det3, rot90. ring. Qed.
Definition e1 (i : nat) : R := kron i 1.
Lemma rot_grad x w : eq3 (dispGrad Plane 3 (tri x w) e1) (fun i j => kron i 1 * kron j 1).
Proof. intros i j Hi Hj. idx i; idx j; unfold e1; def. Qed.
Lemma rot_rate x w : eq3 (Lr Plane 3 (tri x w) uRot e1) (fun i j => kron i 1 * kron j 2).
Proof.
  intros i j Hi Hj. unfold Lr.
  assert (IV : forall a b, (1 <= a <= 3)%nat -> (1 <= b <= 3)%nat -> inv3 (deformation Plane 3 (tri x w) uRot) a b = inv3 rot90 a b).
  { intros a b Ha Hb. unfold inv3. rewrite (det3_ext _ _ (rot_def x w)). idx a; idx b; cbn; rewrite !rot_def by lia; reflexivity. }
  unfold mul3. rewrite !IV, !rot_grad by lia. unfold inv3. rewrite rot_det. idx i; idx j; unfold rot90, kron; cbn; field.
Qed.
Lemma plane_valid u x w : 0 < det3 (deformation Plane 3 (tri x w) u) -> validState Plane 3 [tri x w] u.
Proof. intros H. split; [lia|intros p _ A; discriminate|intros p [<-|[]]; exact H]. Qed.
Lemma rot_valid x w : validState Plane 3 [tri x w] uRot.
Proof. apply plane_valid. rewrite (det3_ext _ _ (rot_def x w)), rot_det. lra. Qed.
Theorem rotated x w : w <> 0 -> exists st', ulElement Plane 3 nhS (nhT Plane) (exactZero Plane) [tri x w] uRot (st0 6) = Ret st' /\
  ~ derivativeAlong 6 (fun z => forcesOf (ulElement Plane 3 nhS (nhT Plane) (exactZero Plane) [tri x w] z (st0 6))) (snd (st0 6)) (fun i j => el (fst st') i j - el (fst (st0 6)) i j) uRot e1.
Proof.
  intros Hw. set (p := tri x w). pose proof (rot_valid x w) as V. fold p in V.
  assert (JD : det3 (deformation Plane 3 p uRot) = 1) by (unfold p; rewrite (det3_ext _ _ (rot_def x w)); apply rot_det).
  assert (I3 : isometry 3 (deformation Plane 3 p uRot)) by (apply (iso_ext 3 rot90); [lia|apply eq3_sym; apply rot_def|apply rot_iso]).
  assert (I2 : isometry (kdim Plane) (deformation Plane 3 p uRot)).
  { intros i j Hi Hj. cbn [kdim] in *. rewrite <- (I3 i j) by lia. unfold cauchyGreen. cbn [sumf]. assert (Z : deformation Plane 3 p uRot 3%nat i = 0) by (unfold p; rewrite rot_def by lia; idx i; reflexivity). rewrite Z. ring. }
  assert (D0 : dims Plane 3 (st0 6)) by (split; reflexivity).
  destruct (ul_unstrained Plane 3 nhS (nhT Plane) (exactZero Plane) (exact_sound Plane) uRot p (st0 6) ltac:(lia) ltac:(discriminate) ltac:(rewrite JD; lra) D0 (exact_unstrained Plane 3 p uRot ltac:(lia) ltac:(discriminate) I2)) as [st' [E [_ [_ Kf]]]].
  exists st'. split; [unfold ulElement; cbn [overPts]; rewrite E; reflexivity|]. intros HA.
  assert (NI : locally 0 (fun t => forall p0, In p0 [p] -> isometry (kdim Plane) (deformation Plane 3 p0 (moved uRot e1 t)) -> isometry 3 (deformation Plane 3 p0 (moved uRot e1 t)))) by (apply filter_forall; intros t p0 _; apply iso3_kind; discriminate).
  destruct (ul_force_derive Plane 3 nhS (nhT Plane) (exactZero Plane) [p] (nhS_material Plane [p]) (exact_sound Plane) uRot e1 V NI (nhS_tangent Plane [p]) e1) as [FL FD].
  pose proof (along_unique _ _ _ _ _ _ _ _ _ HA (FL (st0 6) D0) FD) as U.
  rewrite bil_diff in U. pose proof (Kf e1 e1) as Kq. change (kdim Plane * 3)%nat with 6%nat in Kq. rewrite Kq in U. unfold sumL in U. cbn [fold_right] in U. rewrite Rplus_0_r, JD, Rmult_1_l in U.
  assert (Z : forall i j, (1 <= i <= 3)%nat -> (1 <= j <= 3)%nat -> inKind Plane i j = true -> nhS p (deformation Plane 3 p uRot) i j = 0) by (intros i j Hi Hj IK; apply (smFree _ _ _ (nhS_material Plane [p]) p); try assumption; [now left|apply deformation_kind]).
  rewrite (kgForm_zero Plane _ _ _ (Lr_kind Plane 3 p uRot e1) (Lr_kind Plane 3 p uRot e1) Z), Rplus_0_r in U.
  rewrite (cForm_ext Plane _ _ _ _ _ (rot_grad x w) (rot_grad x w)), (cForm_ext Plane _ _ _ _ _ (rot_rate x w) (rot_rate x w)) in U.
  set (C := nhT Plane p (seenF Plane 3 (exactZero Plane) p uRot)) in *.
  assert (CE : forall r s, C r s = if (r =? s)%nat then (if (r <=? 2)%nat then 2 else 1) else 0).
  { intros r s. unfold C, nhT, nhTangent, seenF. destruct (push_ok Plane 3 (exactZero Plane) p uRot ltac:(lia) ltac:(discriminate) ltac:(rewrite JD; lra) (exact_sound Plane)) as [c [Ec [eF _]]]. rewrite Ec, (det3_ext _ _ eF), JD. cbn [ndf]. destruct (r =? s)%nat; [|reflexivity]. field. }
  unfold cForm in U. cbn [nstr sumf] in U. rewrite !CE in U. unfold eng, kron in U. cbn in U. unfold volume, p, tri in U. cbn in U. lra.
Qed.

(** Axisymmetric triangle moved rigidly along the radius. *)
Definition uRad : nat -> R := dofs [1; 0; 1; 0; 1; 0].
Definition axp : mxIn := tri (4 / 3) (1 / 2).
Lemma axp_eps : epsR < iX axp. Proof. unfold axp, tri, epsR. cbn. lra. Qed.
Definition diag3 (a b c : R) : t3 := fun i j => if (i =? j)%nat then match i with 1%nat => a | 2%nat => b | _ => c end else 0.
Lemma rad_def : eq3 (deformation Axi 3 axp uRad) (diag3 1 1 (7 / 4)).
Proof. intros i j Hi Hj. unfold axp, diag3. idx i; idx j; unfold uRad; def. Qed.
Lemma rad_grad : eq3 (dispGrad Axi 3 axp uRad) (diag3 0 0 (3 / 4)).
Proof. intros i j Hi Hj. unfold axp, diag3. idx i; idx j; unfold uRad; def. Qed.
Lemma det_diag a b c : det3 (diag3 a b c) = a * b * c. Proof. unfold det3, diag3. cbn. ring. Qed.
Lemma Lr_diag k n p u v a b c a' b' c' : eq3 (deformation k n p u) (diag3 a b c) -> eq3 (dispGrad k n p v) (diag3 a' b' c') -> a <> 0 -> b <> 0 -> c <> 0 ->
  eq3 (Lr k n p u v) (diag3 (a' / a) (b' / b) (c' / c)).
Proof.
  intros ED EG Ha Hb Hc i j Hi Hj. unfold Lr, mul3.
  assert (IV : forall x y, (1 <= x <= 3)%nat -> (1 <= y <= 3)%nat -> inv3 (deformation k n p u) x y = inv3 (diag3 a b c) x y).
  { intros x y Hx Hy. unfold inv3. rewrite (det3_ext _ _ ED). idx x; idx y; cbn; rewrite !ED by lia; reflexivity. }
  rewrite !IV, !EG by lia. unfold inv3. rewrite det_diag. idx i; idx j; unfold diag3; cbn; field; auto.
Qed.
Lemma nh_diag a b c : a * b * c <> 0 -> eq3 (nhStress 1 (diag3 a b c)) (diag3 ((a * a - 1) / (a * b * c)) ((b * b - 1) / (a * b * c)) ((c * c - 1) / (a * b * c))).
Proof. intros H i j Hi Hj. unfold nhStress. rewrite det_diag. set (d := a * b * c) in *. clearbody d. unfold mul3, trn, kron, diag3. idx i; idx j; cbn; field; exact H. Qed.
Lemma rad_valid : validState Axi 3 [axp] uRad.
Proof.
  split; [lia| |].
  - intros p [<-|[]] _. split; [apply axp_eps|]. unfold interp, axp, tri, uRad, dofs, epsR. cbn. lra.
  - intros p [<-|[]]. rewrite (det3_ext _ _ rad_def), det_diag. lra.
Qed.
Theorem radial : exists st', ulElement Axi 3 nhS (nhT Axi) (exactZero Axi) [axp] uRad (st0 6) = Ret st' /\
  ~ is_derive (fun t => energy Axi 3 [axp] nhW (moved uRad uRad t)) 0 (work 6 (snd (st0 6)) (snd st') uRad).
Proof.
  assert (JD : det3 (deformation Axi 3 axp uRad) = 7 / 4) by (rewrite (det3_ext _ _ rad_def), det_diag; field).
  assert (I2 : isometry (kdim Axi) (deformation Axi 3 axp uRad)).
  { intros i j Hi Hj. cbn [kdim] in *. unfold cauchyGreen. cbn [sumf]. rewrite !rad_def by lia. unfold diag3, kron. idx i; idx j; cbn; ring. }
  destruct (ul_unstrained Axi 3 nhS (nhT Axi) (exactZero Axi) (exact_sound Axi) uRad axp (st0 6) ltac:(lia) (fun _ => axp_eps) ltac:(rewrite JD; lra) ltac:(split; reflexivity) (exact_unstrained Axi 3 axp uRad ltac:(lia) (fun _ => axp_eps) I2)) as [st' [E [_ [Sf _]]]].
  exists st'. split; [unfold ulElement; cbn [overPts]; rewrite E; reflexivity|]. intros HD.
  assert (W0 : work 6 (snd (st0 6)) (snd st') uRad = 0) by (rewrite Sf; unfold work; apply sumf_0; intros; ring). rewrite W0 in HD.
  assert (TD : is_derive (fun t => energy Axi 3 [axp] nhW (moved uRad uRad t)) 0 (volume Axi axp * (det3 (deformation Axi 3 axp uRad) * ddot3 (nhS axp (deformation Axi 3 axp uRad)) (Lr Axi 3 axp uRad uRad)))).
  { apply (dext (fun t => volume Axi axp * nhW axp (deformation Axi 3 axp (moved uRad uRad t)))); [intros t; unfold energy, sumL; cbn [fold_right]; ring|].
    apply dscal. apply (nhS_stress Axi [axp] axp _ ltac:(now left) ltac:(rewrite JD; lra) (Lr Axi 3 axp uRad uRad)); [apply def_path; rewrite JD; lra|apply Lr_kind|intros; apply deformation_kind]. }
  pose proof (is_derive_unique _ _ _ HD) as U1. pose proof (is_derive_unique _ _ _ TD) as U2. rewrite U1 in U2.
  assert (SE : eq3 (nhS axp (deformation Axi 3 axp uRad)) (nhStress 1 (diag3 1 1 (7 / 4)))) by (apply (smExt _ _ _ (nhS_material Axi [axp])); [now left|apply rad_def]).
  assert (LE : eq3 (Lr Axi 3 axp uRad uRad) (diag3 (0 / 1) (0 / 1) (3 / 4 / (7 / 4)))) by (apply Lr_diag; [apply rad_def|apply rad_grad|lra|lra|lra]).
  rewrite JD in U2. unfold ddot3 in U2. rewrite !SE, !LE in U2 by lia. rewrite !nh_diag in U2 by (lia || lra). unfold diag3 in U2. cbn in U2.
  unfold volume, axp, tri in U2. cbn in U2. pose proof PI_RGT_0. nra.
Qed.

(** Axisymmetric triangle scaled by one half. *)
Definition uHalf : nat -> R := dofs [-1; 0; -1 / 2; 0; -1 / 2; 0].
Lemma half_def : eq3 (deformation Axi 3 axp uHalf) (diag3 (1 / 2) 1 (1 / 2)).
Proof. intros i j Hi Hj. unfold axp, diag3. idx i; idx j; unfold uHalf; def. Qed.
Lemma half_valid : validState Axi 3 [axp] uHalf.
Proof.
  split; [lia| |].
  - intros p [<-|[]] _. split; [apply axp_eps|]. unfold interp, axp, tri, uHalf, dofs, epsR. cbn. lra.
  - intros p [<-|[]]. rewrite (det3_ext _ _ half_def), det_diag. lra.
Qed.
Lemma half_strained : strained Axi (deformation Axi 3 axp uHalf).
Proof. intros H. pose proof (H 1%nat 1%nat ltac:(cbn; lia) ltac:(cbn; lia)) as Q. unfold cauchyGreen in Q. cbn [kdim sumf] in Q. rewrite !half_def in Q by lia. unfold diag3, kron in Q. cbn in Q. lra. Qed.
Theorem compressed : exists st', ulElement Axi 3 nhS (nhT Axi) (exactZero Axi) [axp] uHalf (st0 6) = Ret st' /\
  ~ derivativeAlong 6 (fun z => forcesOf (ulElement Axi 3 nhS (nhT Axi) (exactZero Axi) [axp] z (st0 6))) (snd (st0 6)) (fun i j => el (fst st') i j - el (fst (st0 6)) i j) uHalf e1.
Proof.
  destruct (ul_tangent Axi 3 nhS (nhT Axi) (exactZero Axi) [axp] (nhS_material Axi [axp]) (exact_sound Axi) uHalf e1 (st0 6) half_valid ltac:(split; reflexivity)
    ltac:(intros p [<-|[]]; left; apply half_strained) (nhS_tangent Axi [axp])) as [st' [E H]].
  exists st'. split; [exact E|]. intros HA. destruct (H e1) as [f [L D]].
  pose proof (along_unique _ _ _ _ _ _ _ _ _ HA L D) as U. change (kdim Axi * 3)%nat with 6%nat in U.
  assert (Z : hoopK Axi 3 [axp] (fun p => nhS p (deformation Axi 3 p uHalf)) uHalf e1 e1 = 0) by lra. clear - Z.
  assert (SE : eq3 (nhS axp (deformation Axi 3 axp uHalf)) (nhStress 1 (diag3 (1 / 2) 1 (1 / 2)))) by (apply (smExt _ _ _ (nhS_material Axi [axp])); [now left|apply half_def]).
  unfold hoopK, hoopCompression, sumL in Z. cbn [isAxi fold_right] in Z. rewrite (det3_ext _ _ half_def), det_diag, SE in Z by lia. rewrite nh_diag in Z by (lia || lra). unfold diag3 in Z. cbn in Z.
  unfold Rmin in Z. destruct (Rle_dec 0 _) as [C|C] in Z; [exfalso; lra|].
  assert (HR : hoopRate 3 axp uHalf e1 = 1 / 2) by (unfold hoopRate, interp, axp, tri, uHalf, e1, dofs, kron; cbn; field).
  rewrite HR in Z. unfold volume, axp, tri in Z. cbn in Z. pose proof PI_RGT_0. nra.
Qed.

(** Sheared tetrahedron. *)
Definition uShear : nat -> R := dofs [0; 0; 0; 1; 0; 0; 0; 0; 0; 0; 0; 0].
Definition shear : t3 := fun i j => kron i j + kron i 1 * kron j 2.
Lemma shear_def : eq3 (deformation Solid 4 tet uShear) shear.
Proof. intros i j Hi Hj. unfold shear. idx i; idx j; unfold uShear; def. Qed.
Lemma shear_det : det3 shear = 1. Proof. unfold det3, shear, kron. cbn. ring. Qed.
Lemma shear_valid : validState Solid 4 [tet] uShear.
Proof. split; [lia|intros p _ A; discriminate|intros p [<-|[]]; rewrite (det3_ext _ _ shear_def), shear_det; lra]. Qed.
Lemma shear_strained : strained Solid (deformation Solid 4 tet uShear).
Proof. intros H. pose proof (H 1%nat 2%nat ltac:(cbn; lia) ltac:(cbn; lia)) as Q. unfold cauchyGreen in Q. cbn [kdim sumf] in Q. rewrite !shear_def in Q by lia. unfold shear, kron in Q. cbn in Q. lra. Qed.
Definition e3 (i : nat) : R := kron i 3.
Definition e9 (i : nat) : R := kron i 9.
Theorem sheared : exists st', fbarElement Solid 4 nhS (nhT Solid) (exactZero Solid) [] [tet] uShear (st0 12) = Ret st' /\
  ~ derivativeAlong 12 (fun z => forcesOf (fbarElement Solid 4 nhS (nhT Solid) (exactZero Solid) [] [tet] z (st0 12))) (snd (st0 12)) (fun i j => el (fst st') i j - el (fst (st0 12)) i j) uShear e3.
Proof.
  assert (V : fbarState Solid 4 [] [tet] uShear).
  { split; [split; [lia|intros p []|intros p []]|]. split; [apply shear_valid|]. intros p Ip. cbn [fbarVolume]. apply (vsVolume _ _ _ _ shear_valid p Ip). }
  destruct (fbar_tangent_ok Solid 4 nhS (nhT Solid) (exactZero Solid) [] [tet] (nhS_material Solid [tet]) (exact_sound Solid) uShear e3 (st0 12) V ltac:(split; reflexivity)
    ltac:(intros p []) ltac:(intros p [<-|[]]; left; apply shear_strained) (nhS_tangent Solid [tet])) as [st' [E H]].
  exists st'. split; [exact E|]. intros HA. destruct (H e9) as [f [L D]].
  pose proof (along_unique _ _ _ _ _ _ _ _ _ HA L D) as U. change (kdim Solid * 4)%nat with 12%nat in U.
  assert (Z : shearSwap Solid 4 [tet] (fun p => nhS p (modified Solid (fbarVolume Solid 4 [] p uShear) (deformation Solid 4 p uShear))) uShear e9 e3 = 0) by lra. clear - Z.
  assert (JD : det3 (deformation Solid 4 tet uShear) = 1) by (rewrite (det3_ext _ _ shear_def); apply shear_det).
  assert (SE : eq3 (nhS tet (modified Solid (fbarVolume Solid 4 [] tet uShear) (deformation Solid 4 tet uShear))) (nhStress 1 shear)).
  { apply (smExt _ _ _ (nhS_material Solid [tet])); [now left|]. cbn [fbarVolume]. rewrite JD. intros i j Hi Hj. rewrite (modified_one Solid _ JD) by assumption. now apply shear_def. }
  assert (IV : forall a b, (1 <= a <= 3)%nat -> (1 <= b <= 3)%nat -> inv3 (deformation Solid 4 tet uShear) a b = inv3 shear a b).
  { intros a b Ha Hb. unfold inv3. rewrite (det3_ext _ _ shear_def). idx a; idx b; cbn; rewrite !shear_def by lia; reflexivity. }
  assert (G9 : eq3 (dispGrad Solid 4 tet e9) (fun i j => kron i 3 * kron j 3)) by (intros i j Hi Hj; idx i; idx j; unfold e9; def).
  assert (G3 : eq3 (dispGrad Solid 4 tet e3) (fun i j => kron i 3 * kron j 1)) by (intros i j Hi Hj; idx i; idx j; unfold e3; def).
  unfold shearSwap, sumL in Z. cbn [fold_right] in Z. rewrite JD, !SE in Z by lia. unfold mul3 in Z. rewrite !IV, !G9, !G3 in Z by lia.
  unfold nhStress, inv3 in Z. rewrite shear_det in Z. unfold mul3, trn, shear, kron, volume, tet in Z. cbn in Z. lra.
Qed.

(** An unstrained point beside a stretched sampling point. *)
Definition bp : mxIn := mkIn (fun _ => 1 / 2) (fun a j => match a, j with 1%nat, 1%nat => 1 | 2%nat, 1%nat => -1 | _, _ => 0 end) 0 1 (fun _ => 1).
Definition bq : mxIn := mkIn (fun _ => 1 / 2) (fun a j => match a, j with 1%nat, 1%nat => 2 | 2%nat, 1%nat => -1 | _, _ => 0 end) 0 1 (fun _ => 1).
Definition uOne : nat -> R := dofs [1; 0; 1; 0].
Lemma bp_def : eq3 (deformation Plane 2 bp uOne) kron.
Proof. intros i j Hi Hj. idx i; idx j; unfold bp, uOne; def. Qed.
Lemma bq_def : eq3 (deformation Plane 2 bq uOne) (diag3 2 1 1).
Proof. intros i j Hi Hj. unfold diag3. idx i; idx j; unfold bq, uOne; def. Qed.
Lemma bar_two : fbarVolume Plane 2 [bq] bp uOne = 2.
Proof. cbn [fbarVolume]. rewrite (det3_ext _ _ bq_def), det_diag. ring. Qed.
Lemma bar_state : fbarState Plane 2 [bq] [bp] uOne.
Proof.
  split; [|split].
  - split; [lia|intros p _ A; discriminate|intros p [<-|[]]; rewrite (det3_ext _ _ bq_def), det_diag; lra].
  - split; [lia|intros p _ A; discriminate|intros p [<-|[]]; rewrite (det3_ext _ _ bp_def), det3_kron; lra].
  - intros p [<-|[]]. rewrite bar_two. lra.
Qed.
Theorem dropped : exists st', fbarElement Plane 2 nhS (nhT Plane) (exactZero Plane) [bq] [bp] uOne (st0 4) = Ret st' /\
  work 4 (snd (st0 4)) (snd st') e1 <> virtualWork Plane 2 [bp] (fun p => nhS p (modified Plane (fbarVolume Plane 2 [bq] p uOne) (deformation Plane 2 p uOne))) uOne e1.
Proof.
  destruct bar_state as [Vq [Vp VB]]. pose proof (vsVolume _ _ _ _ Vp bp ltac:(now left)) as JP.
  assert (I2 : isometry (kdim Plane) (deformation Plane 2 bp uOne)).
  { intros i j Hi Hj. cbn [kdim] in *. unfold cauchyGreen. cbn [sumf]. rewrite !bp_def by lia. unfold kron. idx i; idx j; cbn; ring. }
  destruct (samples_ok Plane 2 (exactZero Plane) (exact_sound Plane) uOne [bq] ltac:(lia)) as [vs [EV _]].
  { intros q Iq. split; [discriminate|]. split; [now apply (vsVolume _ _ _ _ Vq)|]. unfold rigid3. apply iso3_kind. discriminate. }
  destruct (push_ok Plane 2 (exactZero Plane) bp uOne ltac:(lia) ltac:(discriminate) JP (exact_sound Plane)) as [c [Ec _]].
  pose proof (exact_unstrained Plane 2 bp uOne ltac:(lia) ltac:(discriminate) I2 c Ec) as CH.
  unfold fbarElement. rewrite EV. cbn [bind overPts]. unfold fbarPt. rewrite Ec. cbn [bind].
  match goal with |- context [gradOp ?d ?h ?r ?N ?G ?m] => destruct (gradOp_ok d h r N G m ltac:(cbn; lia)) as [Gm [EG _]] end. rewrite EG. cbn [bind].
  match goal with |- context [gradOp ?d ?h ?r ?N ?G ?m] => destruct (gradOp_ok d h r N G m ltac:(cbn; lia)) as [Gb [EGb _]] end. rewrite EGb. cbn [bind]. rewrite CH.
  eexists. split; [reflexivity|]. cbn [snd]. intros C.
  assert (W0 : work 4 (snd (st0 4)) (snd (st0 4)) e1 = 0) by (unfold work; apply sumf_0; intros; ring). rewrite W0 in C. clear - C.
  unfold virtualWork, sumL in C. cbn [fold_right] in C. rewrite Rplus_0_r, bar_two, (det3_ext _ _ bp_def), det3_kron in C.
  assert (SE : eq3 (nhS bp (modified Plane 2 (deformation Plane 2 bp uOne))) (nhStress 1 (modified Plane 2 kron))) by (apply (smExt _ _ _ (nhS_material Plane [bp])); [now left|apply modified_ext; apply bp_def]).
  assert (LE : eq3 (mul3 (dispGrad Plane 2 bp e1) (inv3 (deformation Plane 2 bp uOne))) (fun i j => kron i 1 * kron j 1)).
  { intros i j Hi Hj. transitivity (dispGrad Plane 2 bp e1 i j); [apply (Lr_undeformed Plane 2 bp uOne e1 bp_def i j Hi Hj)|]. idx i; idx j; unfold bp, e1; def. }
  unfold ddot3 in C. rewrite !SE, !LE in C by lia.
  assert (DM : det3 (modified Plane 2 kron) = 2) by (apply det_modified; [intros i j _ _ _; ring|rewrite det3_kron; lra|lra]).
  unfold nhStress in C. rewrite DM in C. pose proof (rpow_half 2 ltac:(lra)) as Q.
  unfold modified, mul3, trn in C. rewrite det3_kron in C. replace (2 / 1) with 2 in C by field. unfold kron in C. cbn in C. set (x := Rpower 2 (1 / 2)) in *. unfold volume, bp in C. cbn in C. nra.
Qed.
