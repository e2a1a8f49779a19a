(** C122: a linear elastic material in the large-deformation formulations is a Saint Venant-Kirchhoff solid. *)
From Coquelicot Require Import Coquelicot.
From Verif Require Import Lib.Base Lib.Sums Lib.Writes Lib.Congruence Lib.Tensor3 Model.Continuum Model.Mixed Model.MxElement Model.NlElement Model.LinMaterial Spec.Continuum Spec.Mixed Spec.MxElement Spec.NlElement Spec.LinMaterial
  Proofs.LinIsotropic Proofs.Continuum Proofs.ContinuumKin Proofs.MxPure Proofs.MxList Proofs.MxElement Proofs.NlPure Proofs.NlPoint Proofs.NlElement Proofs.NlMaterial Proofs.NlFbar Proofs.NlWitness Proofs.LinMaterial Props.NlElement.
Open Scope R_scope.

(** Solids, plane strain and plane stress: the stress, the stored energy it comes from, and the tangent. *)
Theorem C122_stress_partial k ps E nu F :
  k <> Axi -> 0 <= nu < 1 / 2 -> defOf k F -> det3 F <> 0 -> eqKind k (linStress k ps E nu F) (svkStress k ps E nu F).
Proof. apply stress_ok. Qed.
Theorem C122_energy_partial k ps E nu F :
  k <> Axi -> 0 <= nu < 1 / 2 -> 0 < det3 F -> stressIn k (svkEnergy k ps E nu) F (linStress k ps E nu F).
Proof. apply lin_stress. Qed.
Theorem C122_tangent_partial k ps E nu F :
  k <> Axi -> 0 <= nu < 1 / 2 -> 0 < det3 F -> tangentIn k (linStress k ps E nu) F (linTangent k ps E nu F).
Proof. apply lin_tangent. Qed.
(** The updated Lagrangian element with this material. *)
Theorem C122_forces_partial k n pst E nu isz pts u v st :
  k <> Axi -> (forall p, In p pts -> 0 <= nu p < 1 / 2) -> soundTest k isz -> validState k n pts u -> dims k n st ->
  exists st', ulElement k n (fun p => linStress k pst (E p) (nu p)) (fun p => linTangent k pst (E p) (nu p)) isz pts u st = Ret st' /\
    is_derive (fun t => energy k n pts (fun p => svkEnergy k pst (E p) (nu p)) (moved u v t)) 0 (work (kdim k * n) (snd st) (snd st') v).
Proof.
  intros A Hn Hz V D. apply C117_ul_forces_solid_partial; try assumption; [now apply (lin_material k (fun _ => pst))|].
  intros p X Ip P. apply lin_stress; auto.
Qed.
Theorem C122_stiffness_partial k n pst E nu isz pts u v st :
  k <> Axi -> (forall p, In p pts -> 0 <= nu p < 1 / 2) -> soundTest k isz -> validState k n pts u -> dims k n st ->
  (forall p, In p pts -> regularAt k n u v p) ->
  exists st', ulElement k n (fun p => linStress k pst (E p) (nu p)) (fun p => linTangent k pst (E p) (nu p)) isz pts u st = Ret st' /\
    derivativeAlong (kdim k * n) (fun z => forcesOf (ulElement k n (fun p => linStress k pst (E p) (nu p)) (fun p => linTangent k pst (E p) (nu p)) isz pts z st)) (snd st)
      (fun i j => el (fst st') i j - el (fst st) i j) u v.
Proof.
  intros A Hn Hz V D HR. apply C118_ul_stiffness_exact_partial; try assumption; [now apply (lin_material k (fun _ => pst))| |contradiction].
  intros p X Ip P. apply lin_tangent; auto.
Qed.
(** The strain passed to the material is the one the element computes. *)
Theorem C122_strain_partial k n p u :
  (1 <= n)%nat -> (isAxi k = true -> epsR < iX p) ->
  exists F G, kinematicsUL (inElm k n p) (kdim k * n) u = Ret (F, G) /\ forall r, (1 <= r <= nstr k)%nat -> el G r 1 = strainUL k (deformation k n p u) r.
Proof.
  intros Hn Hx. destruct (kinUL_ok k n p u Hn Hx) as [F [G [EK [_ eG]]]]. exists F, G. split; [exact EK|].
  intros r Hr. rewrite strainUL_strainOf by exact Hr. now apply eG.
Qed.

(** A sheared block and a sheared sheet. *)
Example C122_sheared : linStress Solid false 4 0 shear 1%nat 1%nat = 6 /\ linStress Solid false 4 0 shear 1%nat 2%nat = 4.
Proof.
  assert (HD : defOf Solid shear) by (intros i j Hi Hj B; idx i; idx j; discriminate B).
  assert (NZ : det3 shear <> 0) by (rewrite shear_det; lra).
  split; (rewrite (C122_stress_partial Solid false 4 0 shear ltac:(discriminate) ltac:(lra) HD NZ) by (lia || reflexivity));
    unfold svkStress, pushed; rewrite shear_det; unfold svkLaw, hooke, trace, lam, lame1, lame2, green, mul3, trn, shear, kron; cbn; field.
Qed.
Example C122_tetrahedron_forces v : exists st', ulElement Solid 4 (fun _ => linStress Solid false 200 (3 / 10)) (fun _ => linTangent Solid false 200 (3 / 10)) (exactZero Solid) [tet] uShear (st0 12) = Ret st' /\
  is_derive (fun t => energy Solid 4 [tet] (fun _ => svkEnergy Solid false 200 (3 / 10)) (moved uShear v t)) 0 (work 12 (snd (st0 12)) (snd st') v).
Proof.
  apply (C122_forces_partial Solid 4 false (fun _ => 200) (fun _ => 3 / 10)); [discriminate|intros; lra|apply exact_sound|apply shear_valid|split; reflexivity].
Qed.
Example C122_tetrahedron_stiffness v : exists st', ulElement Solid 4 (fun _ => linStress Solid false 200 (3 / 10)) (fun _ => linTangent Solid false 200 (3 / 10)) (exactZero Solid) [tet] uShear (st0 12) = Ret st' /\
  derivativeAlong 12 (fun z => forcesOf (ulElement Solid 4 (fun _ => linStress Solid false 200 (3 / 10)) (fun _ => linTangent Solid false 200 (3 / 10)) (exactZero Solid) [tet] z (st0 12))) (snd (st0 12))
    (fun i j => el (fst st') i j - el (fst (st0 12)) i j) uShear v.
Proof.
  apply (C122_stiffness_partial Solid 4 false (fun _ => 200) (fun _ => 3 / 10)); [discriminate|intros; lra|apply exact_sound|apply shear_valid|split; reflexivity|].
  intros p [<-|[]]. left. apply shear_strained.
Qed.

(** Axisymmetric solids: right as long as the hoop strain is zero. *)
Theorem C122_axisymmetric_stress_partial ps E nu F :
  0 <= nu < 1 / 2 -> defOf Axi F -> det3 F <> 0 -> F 3%nat 3%nat * F 3%nat 3%nat = 1 -> eqKind Axi (linStress Axi ps E nu F) (svkStress Axi ps E nu F).
Proof.
  intros Hn HF HJ H3 i j Hi Hj IK. rewrite (stress_axi ps E nu F Hn HF HJ i j Hi Hj IK). unfold svkStress, pushed. f_equal.
  assert (Z : forall i j, (1 <= i <= 3)%nat -> (1 <= j <= 3)%nat -> inKind Axi i j = false -> F i j = kron i j) by (intros a b Ha Hb Q; specialize (HF a b Ha Hb Q); cbv beta in HF; lra).
  assert (EG : forall a b, (1 <= a <= 3)%nat -> (1 <= b <= 3)%nat -> noHoop (green F) a b = green F a b).
  { intros a b Ha Hb. unfold noHoop. destruct ((a =? 3) && (b =? 3))%nat%bool eqn:Q; [|reflexivity]. apply Bool.andb_true_iff in Q. destruct Q as [Qa Qb]. apply Nat.eqb_eq in Qa, Qb. subst a b.
    unfold green, mul3, trn. rewrite (Z 1 3)%nat, (Z 2 3)%nat, H3 by (lia || reflexivity). unfold kron. cbn [Nat.eqb]. field. }
  unfold mul3, svkLaw, hooke, trace. rewrite !EG by lia. reflexivity.
Qed.
Example C122_axial : linStress Axi false 1 0 (diag3 2 1 1) 1%nat 1%nat = 3.
Proof.
  rewrite (C122_axisymmetric_stress_partial false 1 0 (diag3 2 1 1)); [|lra| |rewrite det_diag; lra|unfold diag3; cbn; ring|lia|lia|reflexivity].
  - unfold svkStress, pushed. rewrite det_diag. unfold svkLaw, hooke, trace, lam, lame1, lame2, green, mul3, trn, diag3, kron. cbn. field.
  - intros i j Hi Hj B; idx i; idx j; try discriminate B; unfold diag3, kron; cbn; lra.
Qed.
Lemma diag_axi a b c : defOf Axi (diag3 a b c).
Proof. intros i j Hi Hj B; idx i; idx j; try discriminate B; unfold diag3, kron; cbn; lra. Qed.
(** A ring expanded to twice its radius has no hoop stress. *)
Theorem C122_axisymmetric_stress_refuted : exists ps E nu F, 0 < E /\ 0 <= nu < 1 / 2 /\ defOf Axi F /\ 0 < det3 F /\
  ~ eqKind Axi (linStress Axi ps E nu F) (svkStress Axi ps E nu F).
Proof.
  exists false, 1, 0, (diag3 2 1 2). split; [lra|]. split; [lra|]. split; [apply diag_axi|]. split; [rewrite det_diag; lra|].
  intros H. specialize (H 3%nat 3%nat ltac:(lia) ltac:(lia) eq_refl).
  rewrite (stress_axi false 1 0 (diag3 2 1 2) ltac:(lra) (diag_axi 2 1 2) ltac:(rewrite det_diag; lra) 3%nat 3%nat) in H by (lia || reflexivity).
  unfold svkStress, pushed in H. rewrite det_diag in H.
  unfold svkLaw, hooke, trace, lam, lame1, lame2, noHoop, green, mul3, trn, diag3, kron in H. cbn in H. lra.
Qed.
(** The tangent belongs neither to the stress returned nor to the stress of the solid. *)
Theorem C122_axisymmetric_tangent_refuted : exists ps E nu F, 0 < E /\ 0 <= nu < 1 / 2 /\ defOf Axi F /\ 0 < det3 F /\
  ~ tangentIn Axi (linStress Axi ps E nu) F (linTangent Axi ps E nu F) /\ ~ tangentIn Axi (svkStress Axi ps E nu) F (linTangent Axi ps E nu F).
Proof.
  exists false, 1, 0, (diag3 1 1 2). split; [lra|]. split; [lra|]. split; [apply diag_axi|]. split; [rewrite det_diag; lra|].
  set (L := diag3 0 0 1). set (c := fun t => diag3 1 1 (2 + 2 * t)).
  assert (P : path (diag3 1 1 2) L c).
  { split; [intros i j Hi Hj; unfold c, diag3; idx i; idx j; cbn; ring|]. intros i j Hi Hj. unfold c.
    assert (DX : is_derive (fun t => 2 + 2 * t) 0 2) by (eapply dv; [|apply dplus; [apply dconst|apply dscal; apply (@is_derive_id R_AbsRing)]]; change one with 1; ring).
    idx i; idx j; unfold diag3, mul3, L, diag3; cbn; match goal with |- is_derive (fun t => 2 + 2 * t) _ _ => eapply dv; [|exact DX]; ring | |- is_derive (fun _ => ?x) _ _ => eapply dv; [|exact (dconst x 0)]; ring end. }
  assert (HL : rateOf Axi L) by (intros i j Hi Hj B; idx i; idx j; try discriminate B; reflexivity).
  assert (HD : forall t, defOf Axi (c t)) by (intros t; apply diag_axi).
  assert (AK : applyK Axi (linTangent Axi false 1 0 (diag3 1 1 2)) (sympart L) 3%nat 3%nat = 1 / 2).
  { unfold applyK. cbn [nstr sumf srow voigt]. unfold eng, sympart, L, diag3 at 2 3 4 5 6 7 8 9 10 11 12. cbn [scomp]. cbn.
    pose proof (hoop_tangent false 1 0 1 1 2 ltac:(lra) ltac:(lra)) as Q. change (linTangent Axi false 1 0 (diag3 1 1 2) 3 3 = 1 * 1 * (1 * 1) * (lame1 1 0 + 2 * lame2 1 0) / (1 * 1 * 2)) in Q.
    unfold lame1, lame2 in Q. rewrite Q. field. }
  assert (LN : locally 0 (fun t => 0 < 2 + 2 * t)).
  { apply (locally_pos (fun t => 2 + 2 * t) 2); [|lra]. eapply dv; [|apply dplus; [apply dconst|apply dscal; apply (@is_derive_id R_AbsRing)]]. change one with 1. ring. }
  split; intros HT; specialize (HT L c P HL HD 3%nat 3%nat ltac:(lia) ltac:(lia) eq_refl); rewrite AK, det_diag in HT.
  - assert (S0 : forall t, 0 < 2 + 2 * t -> linStress Axi false 1 0 (c t) 3%nat 3%nat = 0).
    { intros t Pt. rewrite (stress_axi false 1 0 (c t) ltac:(lra) (HD t)) by (lia || reflexivity || (unfold c; rewrite det_diag; lra)).
      unfold pushed, c. rewrite det_diag. unfold svkLaw, hooke, trace, lam, lame1, lame2, noHoop, green, mul3, trn, diag3, kron. cbn. field. lra. }
    assert (SF : forall i, (1 <= i <= 3)%nat -> linStress Axi false 1 0 (diag3 1 1 2) 3%nat i = 0 \/ i <> 3%nat).
    { intros i Hi. destruct (Nat.eq_dec i 3) as [->|Q]; [left|now right]. replace (diag3 1 1 2) with (c 0); [apply S0; lra|]. unfold c. f_equal. ring. }
    destruct (SF 3%nat ltac:(lia)) as [S3|S3]; [|lia].
    assert (D0 : is_derive (fun t => det3 (c t) * linStress Axi false 1 0 (c t) 3%nat 3%nat) 0 0).
    { apply (dext_loc (fun _ => 0)); [|apply dconst]. revert LN. apply filter_imp. intros t Pt. rewrite (S0 t Pt). ring. }
    pose proof (is_derive_unique _ _ _ HT) as U1. pose proof (is_derive_unique _ _ _ D0) as U2. rewrite U1 in U2.
    unfold mul3, trn, L, diag3 in U2. cbn -[linStress] in U2. fold (diag3 1 1 2) in U2. change (fun i j : nat => if (i =? j)%nat then match i with 1%nat => 1 | 2%nat => 1 | _ => 2 end else 0) with (diag3 1 1 2) in U2. rewrite !S3 in U2. lra.
  - assert (D0 : is_derive (fun t => det3 (c t) * svkStress Axi false 1 0 (c t) 3%nat 3%nat) 0 28).
    { apply (dext_loc (fun t => / 2 * ((2 + 2 * t) * (2 + 2 * t) * ((2 + 2 * t) * (2 + 2 * t) + - 1)))).
      - revert LN. apply filter_imp. intros t Pt. unfold svkStress, pushed, c. rewrite det_diag. unfold svkLaw, hooke, trace, lam, lame1, lame2, green, mul3, trn, diag3, kron. cbn. field. lra.
      - assert (DX : is_derive (fun t => 2 + 2 * t) 0 2) by (eapply dv; [|apply dplus; [apply dconst|apply dscal; apply (@is_derive_id R_AbsRing)]]; change one with 1; ring).
        pose proof (dmult _ _ _ _ _ DX DX) as D2. pose proof (dplus _ _ _ _ _ D2 (dconst (-1) 0)) as D3. pose proof (dscal _ (/ 2) _ _ (dmult _ _ _ _ _ D2 D3)) as D4. eapply dv; [|exact D4]. cbv beta. field. }
    pose proof (is_derive_unique _ _ _ HT) as U1. pose proof (is_derive_unique _ _ _ D0) as U2. rewrite U1 in U2. unfold svkStress, pushed in U2. unfold mul3 at 1 4 in U2. rewrite det_diag in U2.
    unfold mul3, trn, L, svkLaw, hooke, trace, lam, lame1, lame2, green, mul3, trn, diag3, kron in U2. cbn in U2. lra.
Qed.
(** The F-bar element passes the strains of the actual deformation beside the modified deformation. *)
Theorem C122_fbar_refuted : exists k ps E nu F th, k <> Axi /\ 0 < E /\ 0 <= nu < 1 / 2 /\ defOf k F /\ 0 < det3 F /\ 0 < th /\
  ~ eqKind k (linStressFbar k ps E nu F (modified k th F)) (svkStress k ps E nu (modified k th F)).
Proof.
  exists Plane, false, 1, 0, (diag3 2 2 1), 1. split; [discriminate|]. split; [lra|]. split; [lra|].
  assert (HF : defOf Plane (diag3 2 2 1)) by (intros i j Hi Hj B; idx i; idx j; try discriminate B; unfold diag3, kron; cbn; lra).
  split; [exact HF|]. split; [rewrite det_diag; lra|]. split; [lra|]. intros H. specialize (H 1%nat 1%nat ltac:(lia) ltac:(lia) eq_refl).
  assert (X : Rpower (1 / det3 (diag3 2 2 1)) (1 / 2) = 1 / 2).
  { rewrite det_diag. pose proof (rpow_half (1 / (2 * 2 * 1)) ltac:(lra)) as Q. assert (0 < Rpower (1 / (2 * 2 * 1)) (1 / 2)) by apply exp_pos. nra. }
  set (Fb := modified Plane 1 (diag3 2 2 1)) in *.
  assert (EF : eq3 Fb kron) by (intros i j Hi Hj; unfold Fb, modified; rewrite X; unfold diag3, kron; idx i; idx j; cbn; field).
  assert (NJ : jacF Plane Fb <> 0) by (unfold jacF; rewrite !EF by lia; unfold kron; cbn; lra).
  unfold linStressFbar in H. destruct (eval_ok Plane false 1 0 Fb (strainUL Plane (diag3 2 2 1)) ltac:(lra) NJ) as [C [T [HC [_ EV]]]]. rewrite EV in H.
  assert (LW : tensorOf Plane (mv (nstr Plane) (el C) (strainUL Plane (diag3 2 2 1))) 1%nat 1%nat = 3 / 2).
  { rewrite (tensorOf_ext Plane _ (mv (nstr Plane) (el C) (eng Plane (green (diag3 2 2 1))))); [|intros r; apply mv_ext; intros q Hq; now apply strainUL_ok].
    rewrite (law_ok Plane false 1 0 C) by (try assumption; try lra; try lia; try reflexivity; try discriminate; try apply green_sym; now apply green_rate).
    unfold svkLaw, hooke, trace, lam, lame1, lame2, green, mul3, trn, diag3, kron. cbn. field. }
  set (U := tensorOf Plane _) in *. assert (J1 : jacF Plane Fb = 1) by (unfold jacF; rewrite !EF by lia; unfold kron; cbn; ring).
  rewrite J1 in H. unfold svkStress, pushed in H. rewrite (det3_ext _ _ EF), det3_kron in H. unfold mul3, trn, svkLaw, hooke, trace, green, mul3, trn in H. rewrite !EF in H by lia. unfold kron in H. cbn -[lam lame2 U] in H. rewrite LW in H. lra.
Qed.
(** The mixed element passes no strains: no stress for any deformation. *)
Lemma mixed_zero k ps E nu F i j : 0 <= nu < 1 / 2 -> linStressMx k ps E nu F i j = 0.
Proof.
  intros Hn. unfold linStressMx, linearEvaluate. destruct (cmatrix_total (kdim k) ps (isAxi k) false E nu) as [C [HC _]]; [destruct k; unfold dim_ok; cbn; lia|exact Hn|].
  rewrite HC. cbn [bind Nat.eqb Nat.ltb Nat.leb]. destruct (Req_EM_T (jacF k F) 0); [reflexivity|]. destruct (matT _ _ _) as [| |Tm]; cbn [bind]; try reflexivity.
  assert (Z : forall a b, tensorOf k (mv (nst (kdim k) (isAxi k)) (el C) (fun _ => 0)) a b = 0) by (intros x y; unfold tensorOf, mv; destruct (_ || _)%bool; [apply sumf_0; intros; ring|reflexivity]).
  unfold mul3, trn. rewrite !Z. ring.
Qed.
Theorem C122_mixed_refuted : exists k ps E nu F, 0 < E /\ 0 <= nu < 1 / 2 /\ defOf k F /\ 0 < det3 F /\
  ~ eqKind k (linStressMx k ps E nu F) (svkStress k ps E nu F).
Proof.
  exists Solid, false, 4, 0, shear. split; [lra|]. split; [lra|]. split; [intros i j Hi Hj B; idx i; idx j; discriminate B|]. split; [rewrite shear_det; lra|].
  intros H. specialize (H 1%nat 1%nat ltac:(lia) ltac:(lia) eq_refl). rewrite mixed_zero in H by lra.
  unfold svkStress, pushed in H. rewrite shear_det in H. unfold svkLaw, hooke, trace, lam, lame1, lame2, green, mul3, trn, shear, kron in H. cbn in H. lra.
Qed.
Print Assumptions C122_stress_partial.
Print Assumptions C122_energy_partial.
Print Assumptions C122_tangent_partial.
Print Assumptions C122_forces_partial.
Print Assumptions C122_stiffness_partial.
Print Assumptions C122_strain_partial.
Print Assumptions C122_axisymmetric_stress_partial.
Print Assumptions C122_axisymmetric_stress_refuted.
Print Assumptions C122_axisymmetric_tangent_refuted.
Print Assumptions C122_fbar_refuted.
Print Assumptions C122_mixed_refuted.
