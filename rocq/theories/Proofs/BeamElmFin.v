From Coquelicot Require Import Coquelicot.
From Verif Require Import Lib.Base Lib.Sums Lib.Writes Lib.Congruence Lib.Script Lib.Vec3 Model.Beam Model.Section Model.BeamElm Spec.Beam Spec.BeamElm.
From Verif Require Import Proofs.Beam Proofs.BeamThy Proofs.BeamGlobal Proofs.BeamMass Proofs.BeamElm.
From Verif Require Model.Modes.

Lemma larger_false u t : larger u t = false -> forall i, (1 <= i <= 12)%nat -> Rabs (u i) <= t.
Proof.
  intros H i Hi. unfold larger in H. destruct (Rle_lt_dec (Rabs (u i)) t) as [|C]; [assumption|exfalso].
  assert (X : existsb (fun i => gtb (Rabs (u i)) t) (seq 1 12) = true).
  { apply existsb_exists. exists i. split; [apply in_seq; lia|]. unfold gtb. destruct (Rlt_dec t (Rabs (u i))); [reflexivity|contradiction]. }
  congruence.
Qed.
Lemma larger_true u t i : (1 <= i <= 12)%nat -> t < Rabs (u i) -> larger u t = true.
Proof. intros Hi C. apply existsb_exists. exists i. split; [apply in_seq; lia|]. unfold gtb. now destruct (Rlt_dec t (Rabs (u i))). Qed.
Lemma abs0 x : Rabs x <= 0 -> x = 0.
Proof. intros H. destruct (Req_dec x 0) as [|C]; [assumption|]. assert (P := Rabs_pos_lt x C). lra. Qed.
Lemma larger0_false u : larger u 0 = false -> forall i, (1 <= i <= 12)%nat -> u i = 0.
Proof. intros H i Hi. now apply abs0, (larger_false u 0). Qed.
Lemma larger_zero u t : 0 <= t -> (forall i, (1 <= i <= 12)%nat -> u i = 0) -> larger u t = false.
Proof.
  intros Ht H. destruct (larger u t) eqn:E; [|reflexivity]. exfalso. apply existsb_exists in E. destruct E as [i [Hi C]].
  apply in_seq in Hi. unfold gtb in C. destruct (Rlt_dec t (Rabs (u i))) as [D|]; [|discriminate]. rewrite H, Rabs_R0 in D by lia. lra.
Qed.

Lemma endMotion_zero T e1 e2 u : (forall i, (1 <= i <= 12)%nat -> u i = 0) -> forall i, (1 <= i <= 12)%nat -> endMotion T e1 e2 u i = 0.
Proof.
  intros H i Hi. rewrite <- ends_ecc by assumption. unfold locV. cbn [sumf].
  assert (Z : forall k, (1 <= k <= 12)%nat -> eccV e1 e2 u k = 0).
  { intros k Hk. unfold eccV. do 13 (destruct k as [|k]; [rewrite ?H by lia; try ring; try lia|]). lia. }
  assert (B : (forall a, (1 <= a <= 3)%nat -> (1 <= blk i + a <= 12)%nat)).
  { intros a Ha. unfold blk. assert ((i - 1) / 3 <= 3)%nat by (apply Nat.lt_succ_r, Nat.div_lt_upper_bound; lia). lia. }
  rewrite !Z by (apply B; lia). ring.
Qed.
Lemma bil_zero_r A v u : (forall i, (1 <= i <= 12)%nat -> u i = 0) -> bil 12 A v u = 0.
Proof. intros H. unfold bil, mv. rewrite (sumf_ext 12 _ (fun _ => 0)); [cbn [sumf]; ring|]. intros i Hi. rewrite (sumf_ext 12 _ (fun _ => 0)); [cbn [sumf]; ring|]. intros j Hj. rewrite H by assumption. ring. Qed.

Definition slotsOk (F : slots) : Prop := ((1 <= eKm F)%nat -> eM F <> eKm F) /\ ((1 <= eKg F)%nat -> eM F <> eKg F).
Lemma beamSlots_ok c m : slotsOk (beamSlots c m).
Proof.
  unfold slotsOk, beamSlots, slotsOf. cbn [Modes.setMode snd]. unfold Modes.slotsBase.
  destruct m; cbn; try (split; lia); try (destruct (Modes.newmark c); cbn; [|split; lia]); repeat match goal with |- context [if ?b then _ else _] => destruct b end; split; cbn; lia.
Qed.

Lemma row_along T g : rowTimes T g = along T g.
Proof. unfold rowTimes, along, vdot, col; destruct g as [g1 g2 g3]; cbn [vx vy vz]. f_equal; ring. Qed.

(** Gravity part: the mass matrix on the acceleration of gravity. *)
Definition gravityWork (d : beam) (v : nat -> R) : R := bil 12 (Mm d) (ends d v) (rigidMotion (along (bT d) (bGrav d)) vzero vzero vzero).
Lemma gravity_work d v : work (ends d v) (gravityLoad (Mm d) (rowTimes (bT d) (bGrav d))) = gravityWork d v.
Proof. unfold gravityWork. rewrite <- work_mv, row_along. apply work_ext; [reflexivity|]. intros. apply gravity_mv. Qed.

Theorem residual F d u m v : beamElement F d u = Ret m -> slotsOk F -> (1 <= iS F)%nat ->
  hasDis d u = true \/ (forall i, (1 <= i <= 12)%nat -> u i = 0) ->
  work v (eB m (iS F)) = (if hasGrF F d && (eS F =? iS F)%nat then gravityWork d v else 0) - bil 12 (Km d) (ends d v) (ends d u).
Proof.
  intros H [O1 O2] Hi HD. unfold beamElement in H. destruct (evalInt F d u noElm) as [| |m0] eqn:E; try discriminate. cbn [bind] in H.
  assert (HL := start_L _ _ _ (eval_start _ _ _ _ E)).
  assert (EB := eval_force F d u m0 E Hi).
  assert (WG : work (ends d v) (fun i => if hasGrF F d && (eS F =? iS F)%nat then gravityLoad (Mm d) (rowTimes (bT d) (bGrav d)) i else 0) = if hasGrF F d && (eS F =? iS F)%nat then gravityWork d v else 0).
  { destruct (hasGrF F d && (eS F =? iS F)%nat); [apply gravity_work|]. unfold work. cbn [sumf]. ring. }
  assert (EF : forall k, (let g := toGlobalVec (bT d) (eB m0 k) in match (if hasEcc d then Some (bE1 d, bE2 d) else None) with None => g | Some (e1, e2) => eccVec e1 e2 g end) = finVec d (eB m0 k)) by reflexivity.
  assert (W : work (ends d v) (eB m0 (iS F)) = (if hasGrF F d && (eS F =? iS F)%nat then gravityWork d v else 0) - if deformed F d u then bil 12 (Km d) (ends d v) (toLocalVec (bT d) u) else 0).
  { rewrite (work_ext _ (ends d v) _ (localForce F d u)) by auto. unfold localForce. rewrite work_minus, WG. f_equal.
    destruct (deformed F d u); [reflexivity|]. unfold work. cbn [sumf]. ring. }
  assert (Hib : (1 <=? iS F)%nat = true) by now apply Nat.leb_le.
  unfold finalizeElement in H. rewrite Hib in H. cbn [andb] in H. destruct (hasEcc d) eqn:HE.
  - assert (DF : deformed F d u = false) by (unfold deformed; rewrite HE, andb_false_r; reflexivity). rewrite DF, Rminus_0_r in W.
    destruct (larger u 0) eqn:LU; cbn [andb] in H.
    + destruct ((eKm F <? 1)%nat || (eKg F =? eKm F)%nat) eqn:G; [discriminate|]. apply orb_false_iff in G. destruct G as [G1 G2].
      apply Nat.ltb_ge in G1. apply Nat.eqb_neq in G2. outcome H m. cbn [eB]. rewrite put_same.
      assert (N1 : (eKm F =? eM F)%nat = false) by (apply Nat.eqb_neq; specialize (O1 G1); congruence). rewrite N1. cbn [andb].
      rewrite (eval_stiffness F d u m0 E G1 (O1 G1) G2). unfold rv. rewrite work_minus.
      change (eccVec (bE1 d) (bE2 d) (toGlobalVec (bT d) (eB m0 (iS F)))) with ((fun b => eccVec (bE1 d) (bE2 d) (toGlobalVec (bT d) b)) (eB m0 (iS F))).
      assert (FV : forall b, eccVec (bE1 d) (bE2 d) (toGlobalVec (bT d) b) = finVec d b) by (intros; unfold finVec, effEcc; rewrite HE; reflexivity).
      cbv beta. rewrite FV, finVec_work, W, work_mv. f_equal.
      assert (FA : Some (bE1 d, bE2 d) = effEcc d) by (unfold effEcc; now rewrite HE). rewrite FA. apply fin_bil.
    + outcome H m. cbn [eB].
      assert (FV : forall b, eccVec (bE1 d) (bE2 d) (toGlobalVec (bT d) b) = finVec d b) by (intros; unfold finVec, effEcc; rewrite HE; reflexivity).
      rewrite FV, finVec_work, W, bil_zero_r; [ring|]. intros i Hi12. apply endMotion_zero; [|assumption]. now apply larger0_false.
  - cbn [andb] in H. outcome H m. cbn [eB].
    assert (FV : forall b, toGlobalVec (bT d) b = finVec d b) by (intros; unfold finVec, effEcc; rewrite HE; reflexivity).
    rewrite FV, finVec_work, W. f_equal. unfold deformed. rewrite HE, Hib, andb_true_r. cbn [orb andb]. destruct HD as [HD|HD].
    + rewrite HD. apply bil_ext_in; [reflexivity|]. intros i Hi12. rewrite toLocal_locV. rewrite ends_none by assumption. unfold ends, E1, E2. now rewrite HE.
    + unfold hasDis. rewrite larger_zero; [|apply Rmult_le_pos; [apply Rlt_le, Rinv_0_lt_compat, pow_lt; lra|lra]|assumption].
      symmetry. apply bil_zero_r. intros i Hi12. apply endMotion_zero; assumption.
Qed.

Lemma final_mats F d u m : beamElement F d u = Ret m -> exists m0, evalInt F d u noElm = Ret m0 /\
  forall k, eA m k = if (k =? eM F)%nat && (bLump d =? 2)%Z then finalizeLumped (bT d) (effEcc d) (eA m0 k) else finalize (Some (bT d)) (effEcc d) (eA m0 k).
Proof.
  intros H. unfold beamElement in H. destruct (evalInt F d u noElm) as [| |m0] eqn:E; try discriminate. cbn [bind] in H. exists m0. split; [reflexivity|].
  intros k. unfold finalizeElement in H. destruct ((1 <=? iS F)%nat && hasEcc d && larger u 0).
  - destruct (_ || _); [discriminate|]. outcome H m. reflexivity.
  - outcome H m. reflexivity.
Qed.
Lemma final_vecs F d u m k : beamElement F d u = Ret m -> k <> iS F -> exists m0, evalInt F d u noElm = Ret m0 /\ eB m k = finVec d (eB m0 k).
Proof.
  intros H Hk. unfold beamElement in H. destruct (evalInt F d u noElm) as [| |m0] eqn:E; try discriminate. cbn [bind] in H. exists m0. split; [reflexivity|].
  unfold finalizeElement in H. destruct ((1 <=? iS F)%nat && hasEcc d && larger u 0).
  - destruct (_ || _); [discriminate|]. outcome H m. cbn [eB]. rewrite put_other by assumption. reflexivity.
  - outcome H m. reflexivity.
Qed.

Theorem external F d u m v : beamElement F d u = Ret m -> (1 <= eS F)%nat -> eS F <> iS F ->
  work v (eB m (eS F)) = if hasGrF F d then gravityWork d v else 0.
Proof.
  intros H Hs Hne. destruct (final_vecs F d u m (eS F) H Hne) as [m0 [E ->]]. rewrite finVec_work.
  rewrite (work_ext _ (ends d v) _ (fun i => if hasGrF F d then gravityLoad (Mm d) (rowTimes (bT d) (bGrav d)) i else 0)) by (intros; first [reflexivity|now apply (eval_external F d u m0 E Hs Hne)]).
  destruct (hasGrF F d); [apply gravity_work|]. unfold work. cbn [sumf]. ring.
Qed.

Lemma axial_elongation F d u : (1 <= eKg F)%nat -> hasEcc d = false -> hasDis d u = true -> axial F d u = pEA (bP d) * elongation (bT d) u / bL d.
Proof.
  intros Hg HE HD. unfold axial, deformed. assert (Hb : (1 <=? eKg F)%nat = true) by now apply Nat.leb_le. rewrite Hb, HE, HD, orb_true_r. cbn [andb negb].
  f_equal. f_equal. unfold elongation, vdot, col, vsub, disp1, disp2. lazy -[Rplus Rmult Rminus Ropp IZR bT]. ring.
Qed.
(** Axial force of the displaced element; none without (significant) displacements. *)
Definition axialForce (d : beam) (u : nat -> R) : R := if hasDis d u then pEA (bP d) * elongation (bT d) u / bL d else 0.
Lemma axial_force F d u : startOk F d u -> (1 <= eKg F)%nat -> axial F d u = axialForce d u.
Proof.
  intros [_ S2] Hg. unfold axialForce. destruct (hasDis d u) eqn:HD.
  - apply axial_elongation; try assumption. assert (Hb : (1 <=? eKg F)%nat = true) by now apply Nat.leb_le. rewrite Hb in S2. now destruct (hasEcc d).
  - unfold axial, deformed. rewrite HD, andb_false_r. reflexivity.
Qed.

Theorem tangent F d u m v w : beamElement F d u = Ret m -> regular d -> slotsOk F -> (1 <= eKm F)%nat ->
  bil 12 (eA m (eKm F)) v w = bil 12 (Km d) (ends d v) (ends d w) + if (eKg F =? eKm F)%nat then bil 12 (Kg (axialForce d u) d) (ends d v) (ends d w) else 0.
Proof.
  intros H RG [O1 O2] Hk. destruct (final_mats _ _ _ _ H) as [m0 [E EA]]. rewrite EA.
  assert (N1 : (eKm F =? eM F)%nat = false) by (apply Nat.eqb_neq; specialize (O1 Hk); congruence). rewrite N1. cbn [andb]. rewrite fin_bil.
  destruct (Nat.eqb_spec (eKg F) (eKm F)) as [G|G].
  - rewrite (eval_tangent F d u m0 E RG Hk (O1 Hk) G), (axial_force F d u); [reflexivity| |lia]. now apply (eval_start _ _ _ m0).
  - rewrite (eval_stiffness F d u m0 E Hk (O1 Hk) G). ring.
Qed.
Theorem geometricPart F d u m v w : beamElement F d u = Ret m -> regular d -> slotsOk F -> (1 <= eKg F)%nat -> eKg F <> eKm F ->
  bil 12 (eA m (eKg F)) v w = bil 12 (Kg (axialForce d u) d) (ends d v) (ends d w).
Proof.
  intros H RG [O1 O2] Hk G. destruct (final_mats _ _ _ _ H) as [m0 [E EA]]. rewrite EA.
  assert (N1 : (eKg F =? eM F)%nat = false) by (apply Nat.eqb_neq; specialize (O2 Hk); congruence). rewrite N1. cbn [andb]. rewrite fin_bil.
  rewrite (eval_geometric F d u m0 E RG Hk (O2 Hk) G), (axial_force F d u); [reflexivity| |assumption]. now apply (eval_start _ _ _ m0).
Qed.
Theorem massPart F d u m v w : beamElement F d u = Ret m -> (1 <= eM F)%nat -> bLump d <> 2%Z ->
  bil 12 (eA m (eM F)) v w = bil 12 (Mm d) (ends d v) (ends d w).
Proof.
  intros H Hk G. destruct (final_mats _ _ _ _ H) as [m0 [E EA]]. rewrite EA.
  assert (N1 : (bLump d =? 2)%Z = false) by now apply Z.eqb_neq. rewrite N1, andb_false_r, fin_bil.
  now rewrite (eval_mass F d u m0 E Hk).
Qed.
