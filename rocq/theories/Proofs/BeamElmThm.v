From Coquelicot Require Import Coquelicot.
From Verif Require Import Lib.Base Lib.Sums Lib.Writes Lib.Congruence Lib.Script Lib.Vec3 Model.Beam Model.Section Model.BeamElm Spec.Beam Spec.BeamElm.
From Verif Require Import Proofs.Beam Proofs.BeamThy Proofs.BeamGlobal Proofs.BeamMass Proofs.BeamElm Proofs.BeamElmFin.
From Verif Require Model.Modes.

(** ** Rigid motions *)
Lemma frame_23 T : frame T -> vcross (col T 2) (col T 3) = col T 1.
Proof.
  intros [F11 F22 F33 F12 F13 F23 FH]. rewrite <- FH, triple, F22, (vdot_sym (col T 2)), F12. destruct (col T 1) as [a b c], (col T 2) as [d e f]. unfold vsub, vscal; cbn. f_equal; ring.
Qed.
Lemma frame_31 T : frame T -> vcross (col T 3) (col T 1) = col T 2.
Proof.
  intros [F11 F22 F33 F12 F13 F23 FH].
  assert (W : vcross (col T 3) (col T 1) = vscal (-1) (vcross (col T 1) (col T 3))) by (generalize (col T 1) (col T 3); veq).
  rewrite W, <- FH, triple, F11, F12. destruct (col T 1) as [a b c], (col T 2) as [d e f]. unfold vsub, vscal; cbn. f_equal; ring.
Qed.
Lemma binet a b c e : vdot (vcross a b) (vcross c e) = vdot a c * vdot b e - vdot b c * vdot a e. Proof. vring. Qed.
Lemma along_cross T a b : frame T -> along T (vcross a b) = vcross (along T a) (along T b).
Proof.
  intros F. unfold along.
  assert (D1 : vdot (col T 1) (vcross a b) = vdot (vcross (col T 2) (col T 3)) (vcross a b)) by now rewrite (frame_23 T F).
  assert (D2 : vdot (col T 2) (vcross a b) = vdot (vcross (col T 3) (col T 1)) (vcross a b)) by now rewrite (frame_31 T F).
  assert (D3 : vdot (col T 3) (vcross a b) = vdot (vcross (col T 1) (col T 2)) (vcross a b)) by now rewrite (fh T F).
  rewrite D1, D2, D3, !binet. unfold vcross at 1; cbn [vx vy vz]. f_equal; ring.
Qed.
Lemma along_add T a b : along T (vadd a b) = vadd (along T a) (along T b).
Proof. unfold along. rewrite !vdot_add_r. reflexivity. Qed.
Lemma along_scal T k a : along T (vscal k a) = vscal k (along T a).
Proof. unfold along. rewrite !vdot_scal_r. reflexivity. Qed.
Lemma along_zero T : along T vzero = vzero.
Proof. unfold along, vzero, vdot; cbn. f_equal; ring. Qed.
Lemma along_col T x y z : frame T -> along T (vadd (vscal x (col T 1)) (vadd (vscal y (col T 2)) (vscal z (col T 3)))) = V x y z.
Proof.
  intros F. unfold along. rewrite !vdot_add_r, !vdot_scal_r. rewrite (vdot_sym (col T 2) (col T 1)), (vdot_sym (col T 3) (col T 1)), (vdot_sym (col T 3) (col T 2)).
  destruct F as [-> -> -> -> -> -> _]. f_equal; ring.
Qed.
Lemma along_dot T a b : frame T -> vdot (along T a) (along T b) = vdot a b.
Proof. exact (tr_dot T a b). Qed.

Lemma ends_rigid_motion T e1 e2 a om X1 X2 L : frame T -> vsub X2 X1 = vscal L (col T 1) -> forall i,
  endMotion T e1 e2 (rigidMotion a om (vadd X1 e1) (vadd X2 e2)) i = rigidMotion (along T (vadd a (vcross om X1))) (along T om) vzero (V L 0 0) i.
Proof.
  intros F E i. unfold endMotion.
  assert (D1 : disp1 (rigidMotion a om (vadd X1 e1) (vadd X2 e2)) = vadd a (vcross om (vadd X1 e1))) by (unfold disp1; cbn; now destruct a, om, X1, e1).
  assert (R1 : rot1 (rigidMotion a om (vadd X1 e1) (vadd X2 e2)) = om) by (unfold rot1; cbn; now destruct om).
  assert (D2 : disp2 (rigidMotion a om (vadd X1 e1) (vadd X2 e2)) = vadd a (vcross om (vadd X2 e2))) by (unfold disp2; cbn; now destruct a, om, X2, e2).
  assert (R2 : rot2 (rigidMotion a om (vadd X1 e1) (vadd X2 e2)) = om) by (unfold rot2; cbn; now destruct om).
  rewrite D1, R1, D2, R2. unfold rigidMotion.
  assert (P : forall X e, vsub (vadd a (vcross om (vadd X e))) (vcross om e) = vadd a (vcross om X)) by (clear; revert a om; veq). rewrite !P.
  assert (Z0 : vcross (along T om) vzero = vzero) by (unfold vcross, vzero; cbn; f_equal; ring). rewrite Z0.
  assert (C2 : X2 = vadd X1 (vscal L (col T 1))) by (rewrite <- E; clear; revert X1 X2; veq).
  assert (A2 : along T (vadd a (vcross om X2)) = vadd (along T (vadd a (vcross om X1))) (vcross (along T om) (V L 0 0))).
  { assert (AL : along T (vscal L (col T 1)) = V L 0 0).
    { rewrite along_scal. unfold along. destruct F as [F11 F22 F33 F12 F13 F23 _]. rewrite F11, (vdot_sym (col T 2)), (vdot_sym (col T 3)), F12, F13. unfold vscal; cbn. f_equal; ring. }
    rewrite <- AL, <- along_cross, <- along_add by assumption. f_equal. rewrite C2. generalize (vscal L (col T 1)). clear. revert a om X1. veq. }
  rewrite A2. replace (vadd (along T (vadd a (vcross om X1))) vzero) with (along T (vadd a (vcross om X1))); [reflexivity|]. generalize (along T (vadd a (vcross om X1))). clear. veq.
Qed.

(** Geometry of the element: beam ends along the axis, the nodes at the ends plus the eccentricities. *)
Definition placed (d : beam) (P1 P2 X1 : v3) : Prop := frame (bT d) /\ P1 = vadd X1 (E1 d) /\ P2 = vadd (vadd X1 (vscal (bL d) (col (bT d) 1))) (E2 d).
Definition centroid (d : beam) (X1 : v3) : v3 :=
  vadd X1 (vadd (vscal (bL d / 2) (col (bT d) 1)) (vadd (vscal (pCGy (bP d)) (col (bT d) 2)) (vscal (pCGz (bP d)) (col (bT d) 3)))).

Lemma ends_placed d P1 P2 X1 a om : placed d P1 P2 X1 -> forall i, ends d (rigidMotion a om P1 P2) i = rigidMotion (along (bT d) (vadd a (vcross om X1))) (along (bT d) om) vzero (V (bL d) 0 0) i.
Proof.
  intros [F [-> ->]] i. unfold ends. apply ends_rigid_motion; [assumption|]. generalize (vscal (bL d) (col (bT d) 1)). clear. revert X1. veq.
Qed.

Lemma mass_translation d P1 P2 X1 a om g : placed d P1 P2 X1 -> bL d <> 0 ->
  bil 12 (Mm d) (ends d (rigidMotion a om P1 P2)) (rigidMotion (along (bT d) g) vzero vzero vzero) =
  forceWork (vscal (pRhoA (bP d) * bL d) g) (centroid d X1) a om.
Proof.
  intros Pl HL. assert (F := proj1 Pl). rewrite (bil_ext _ _ _ _ _ _ (ends_placed d P1 P2 X1 a om Pl) (fun i => eq_refl)).
  unfold Mm. rewrite massNA_rigid by assumption. rewrite <- (along_col (bT d) (bL d / 2) (pCGy (bP d)) (pCGz (bP d)) F).
  rewrite <- along_cross, !along_dot by assumption. unfold forceWork, centroid.
  set (W := vadd (vscal (bL d / 2) (col (bT d) 1)) _). clearbody W. generalize (pRhoA (bP d) * bL d). clear. revert X1 a om g W. vring.
Qed.

Theorem weight d P1 P2 X1 a om : placed d P1 P2 X1 -> bL d <> 0 ->
  gravityWork d (rigidMotion a om P1 P2) = forceWork (vscal (pRhoA (bP d) * bL d) (bGrav d)) (centroid d X1) a om.
Proof. intros. now apply mass_translation. Qed.

Lemma stiff_rigid d P1 P2 X1 a om v : placed d P1 P2 X1 -> bL d <> 0 -> regular d -> bil 12 (Km d) (ends d (rigidMotion a om P1 P2)) v = 0.
Proof.
  intros Pl HL [R1 R2]. rewrite (bil_ext _ _ _ _ _ _ (ends_placed d P1 P2 X1 a om Pl) (fun i => eq_refl)).
  unfold Km. rewrite stiffness_bil by assumption. cbn zeta.
  destruct (centre_free (bL d) (pSy (bP d)) (pSz (bP d)) (rigidMotion (along (bT d) (vadd a (vcross om X1))) (along (bT d) om) vzero (V (bL d) 0 0))) as [-> [-> [-> [-> [-> ->]]]]]; [|ring].
  generalize (along (bT d) (vadd a (vcross om X1))) (along (bT d) om). clear. intros [a1 a2 a3] [o1 o2 o3].
  unfold strainFree, dax, dtw, dkz, dgy, dky, dgz, rigidMotion, nodal, vadd, vcross, vzero; cbn [vx vy vz]. repeat split; field.
Qed.

Theorem resultant F d u m P1 P2 X1 a om : beamElement F d u = Ret m -> regular d -> slotsOk F -> (1 <= iS F)%nat ->
  hasDis d u = true \/ (forall i, (1 <= i <= 12)%nat -> u i = 0) -> placed d P1 P2 X1 ->
  work (rigidMotion a om P1 P2) (eB m (iS F)) =
  if hasGrF F d && (eS F =? iS F)%nat then forceWork (vscal (pRhoA (bP d) * bL d) (bGrav d)) (centroid d X1) a om else 0.
Proof.
  intros H RG O Hi HD Pl. assert (HL : bL d <> 0). { destruct (final_mats _ _ _ _ H) as [m0 [E _]]. assert (S := start_L _ _ _ (eval_start _ _ _ _ E)). lra. }
  rewrite (residual F d u m _ H O Hi HD), (stiff_rigid d P1 P2 X1), Rminus_0_r by assumption.
  destruct (_ && _); [now apply weight|reflexivity].
Qed.

Theorem momentum F d u m P1 P2 X1 a om g : beamElement F d u = Ret m -> (1 <= eM F)%nat -> bLump d <> 2%Z -> placed d P1 P2 X1 ->
  bil 12 (eA m (eM F)) (rigidMotion a om P1 P2) (rigidMotion g vzero P1 P2) = forceWork (vscal (pRhoA (bP d) * bL d) g) (centroid d X1) a om.
Proof.
  intros H Hm Hl Pl. assert (HL : bL d <> 0). { destruct (final_mats _ _ _ _ H) as [m0 [E _]]. assert (S := start_L _ _ _ (eval_start _ _ _ _ E)). lra. }
  rewrite (massPart F d u m _ _ H Hm Hl), <- (mass_translation d P1 P2 X1 a om g Pl HL). apply bil_ext; [reflexivity|]. intros i.
  rewrite (ends_placed d P1 P2 X1 g vzero Pl).
  replace (vadd g (vcross vzero X1)) with g by (clear; revert X1 g; veq; unfold vzero; cbn; ring). rewrite along_zero. apply trans_any.
Qed.

(** ** Acceptance *)
Theorem accepts F d u : (exists m, beamElement F d u = Ret m) <->
  / 10 ^ 8 < bL d /\ (hasEcc d = true -> (eKg F = 0%nat \/ hasDis d u = false) /\
     (iS F = 0%nat \/ (forall i, (1 <= i <= 12)%nat -> u i = 0) \/ ((1 <= eKm F)%nat /\ eKg F <> eKm F))).
Proof.
  split.
  - intros [m H]. assert (E := H). unfold beamElement in E. destruct (evalInt F d u noElm) as [| |m0] eqn:E0; try discriminate. cbn [bind] in E.
    destruct (eval_start _ _ _ _ E0) as [S1 S2]. split; [assumption|]. intros HE. rewrite HE, andb_true_r in S2. split.
    + apply andb_false_iff in S2. destruct S2 as [S2|S2]; [left|now right]. apply Nat.leb_gt in S2. lia.
    + unfold finalizeElement in E. rewrite HE, andb_true_r in E. destruct (iS F) eqn:I; [now left|right]. cbn [Nat.leb andb] in E.
      destruct (larger u 0) eqn:LU; [right|left; now apply larger0_false].
      destruct ((eKm F <? 1)%nat || (eKg F =? eKm F)%nat) eqn:G; [discriminate|]. apply orb_false_iff in G. destruct G as [G1 G2].
      apply Nat.ltb_ge in G1. apply Nat.eqb_neq in G2. auto.
  - intros [S1 S2]. assert (St : startOk F d u).
    { split; [assumption|]. destruct (hasEcc d); [|apply andb_false_r]. destruct (S2 eq_refl) as [[-> | ->] _]; [reflexivity|now rewrite andb_false_r]. }
    destruct (eval_accepts F d u St) as [m0 E]. unfold beamElement. rewrite E. cbn [bind]. unfold finalizeElement.
    destruct (hasEcc d).
    + destruct (S2 eq_refl) as [_ [I|[U|[G1 G2]]]].
      * rewrite I. cbn. eexists; reflexivity.
      * rewrite (larger_zero u 0 (Rle_refl 0) U), andb_false_r. eexists; reflexivity.
      * apply Nat.ltb_ge in G1. apply Nat.eqb_neq in G2. rewrite G1, G2. cbn [orb]. destruct (_ && _ && _); eexists; reflexivity.
    + rewrite andb_false_r. cbn [andb]. eexists; reflexivity.
Qed.

(** ** The matrix is the derivative of the forces when the geometric part is kept apart *)
Lemma ends_minus d u w i : (1 <= i <= 12)%nat -> ends d (fun k => u k - w k) i = ends d u i - ends d w i.
Proof.
  intros Hi. unfold ends, endMotion, along, vdot, disp1, disp2, rot1, rot2, vsub, vcross; cbn [vx vy vz].
  twelve i Hi; unfold nodal; cbn [vx vy vz]; ring.
Qed.
Lemma bil_minus_r A v u w : bil 12 A v (fun i => u i - w i) = bil 12 A v u - bil 12 A v w.
Proof.
  unfold bil, mv. rewrite <- sumf_minus. apply sumf_ext. intros i Hi. rewrite <- Rmult_minus_distr_l. f_equal. rewrite <- sumf_minus. apply sumf_ext. intros. ring.
Qed.
Theorem consistent F d u u' m m' v : beamElement F d u = Ret m -> beamElement F d u' = Ret m' -> regular d -> slotsOk F -> (1 <= iS F)%nat -> (1 <= eKm F)%nat -> eKg F <> eKm F ->
  (hasDis d u = true \/ forall i, (1 <= i <= 12)%nat -> u i = 0) -> (hasDis d u' = true \/ forall i, (1 <= i <= 12)%nat -> u' i = 0) ->
  work v (eB m' (iS F)) - work v (eB m (iS F)) = - bil 12 (eA m (eKm F)) v (fun i => u' i - u i).
Proof.
  intros H H' RG O Hi Hk G D D'. rewrite (residual F d u m v H O Hi D), (residual F d u' m' v H' O Hi D'), (tangent F d u m v _ H RG O Hk).
  destruct (Nat.eqb_spec (eKg F) (eKm F)); [contradiction|]. rewrite Rplus_0_r.
  rewrite (bil_ext_in 12 (Km d) (ends d v) (ends d v) (ends d (fun i => u' i - u i)) (fun i => ends d u' i - ends d u i)) by (intros; first [reflexivity|now apply ends_minus]).
  rewrite bil_minus_r. ring.
Qed.
