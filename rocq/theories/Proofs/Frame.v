(** Lemmas for Props/Frame.v: the assembled system of a frame. *)
From Coquelicot Require Import Coquelicot.
From Verif Require Import Lib.Base Lib.Sums Lib.Writes Lib.Script Lib.Vec3 Model.Beam Model.Section Model.BeamElm Spec.Beam Spec.BeamElm.
From Verif Require Import Proofs.Beam Proofs.BeamThy Proofs.BeamGlobal Proofs.BeamMass Proofs.BeamElm Proofs.BeamElmFin Proofs.BeamElmThm Model.Frame Spec.Frame.
From Verif Require Model.Modes Model.LinSystem Spec.LinElement Spec.LinSystem Proofs.LinSystem.
Import ListNotations.

Lemma static_slots c : let F := beamSlots c Modes.STATIC in eKm F = 1%nat /\ eM F = 0%nat /\ eS F = 1%nat /\ iS F = 1%nat /\ (eKg F = 0%nat \/ eKg F = 1%nat).
Proof.
  cbv zeta. unfold beamSlots, slotsOf. cbn. destruct (Modes.isPos (Modes.prm c 3%nat)); cbn; auto 10.
Qed.

Lemma sum12 f : sumf 12 f = sumf 6 f + sumf 6 (fun i => f (6 + i)%nat).
Proof. cbn [sumf]. cbn [Nat.add]. ring. Qed.
Lemma fwork_sum nnod f v : fwork nnod f v = sumf (6 * nnod) (fun i => f i * v i).
Proof.
  unfold fwork. rewrite sumf_dof. apply sumf_ext. intros n Hn. unfold vdot, nodeDisp, nodeRot. cbn [vx vy vz sumf]. ring.
Qed.
Lemma restrict_vals mb u i : (1 <= i <= 12)%nat -> Spec.LinSystem.restrict 6 (mElt mb) u i = mVals mb u i.
Proof.
  intros H. unfold mVals. destruct (Nat.leb_spec i 6).
  - replace i with (dof 6 1 i) at 1 by (unfold dof; lia). rewrite Proofs.LinSystem.restrict_dof by lia. reflexivity.
  - replace i with (dof 6 2 (i - 6)) at 1 by (unfold dof; lia). rewrite Proofs.LinSystem.restrict_dof by lia. reflexivity.
Qed.
Lemma bil_ext A v v' w w' : (forall i, (1 <= i <= 12)%nat -> v i = v' i) -> (forall i, (1 <= i <= 12)%nat -> w i = w' i) -> bil 12 A v w = bil 12 A v' w'.
Proof.
  intros Hv Hw. unfold bil. apply sumf_ext. intros i Hi. rewrite Hv by exact Hi. f_equal. unfold mv. apply sumf_ext. intros j Hj. rewrite Hw by exact Hj. reflexivity.
Qed.

(** Energy and weight of the frame in terms of the motions of the beam ends. *)
Definition aFrame (mbs : list member) (v w : nat -> R) : R :=
  sumL (fun mb => bil 12 (Km (mBeam mb)) (ends (mBeam mb) (mVals mb v)) (ends (mBeam mb) (mVals mb w))) mbs.
Definition kgFrame (F : slots) (mbs : list member) (u v w : nat -> R) : R :=
  sumL (fun mb => if (eKg F =? eKm F)%nat then bil 12 (Kg (axialForce (mBeam mb) (mVals mb u)) (mBeam mb)) (ends (mBeam mb) (mVals mb v)) (ends (mBeam mb) (mVals mb w)) else 0) mbs.
Definition wFrame (F : slots) (mbs : list member) (v : nat -> R) : R :=
  sumL (fun mb => if hasGrF F (mBeam mb) then gravityWork (mBeam mb) (mVals mb v) else 0) mbs.
Definition notedAll (mbs : list member) (u : nat -> R) : Prop :=
  forall mb, In mb mbs -> hasDis (mBeam mb) (mVals mb u) = true \/ (forall i, (1 <= i <= 12)%nat -> mVals mb u i = 0).

Definition bwork (N : nat) (S : fsys) (v : nat -> R) : R := sumf N (fun i => el (fB S) i 1%nat * v i).
Lemma mElt_conn nnod mb : inFrame nnod mb -> forall a, (1 <= a <= LinSystem.enen (mElt mb))%nat -> (1 <= LinSystem.conn (mElt mb) a <= nnod)%nat.
Proof. intros [H1 H2] a Ha. cbn. destruct (a =? 1)%nat; assumption. Qed.

Lemma assembled_frame c nnod mbs u : let F := beamSlots c Modes.STATIC in let N := (6 * nnod)%nat in
  (forall mb, In mb mbs -> inFrame nnod mb /\ regular (mBeam mb)) -> notedAll mbs u -> forall S S',
  rows (fK S) = N -> cols (fK S) = N -> rows (fB S) = N -> cols (fB S) = 1%nat -> assembleFrame F mbs u S = Ret S' ->
  (forall v w, bil N (el (fK S')) v w = bil N (el (fK S)) v w + (aFrame mbs v w + kgFrame F mbs u v w)) /\
  (forall v, bwork N S' v = bwork N S v + (wFrame F mbs v - aFrame mbs v u)).
Proof.
  cbv zeta. intros H HN S S'. pose proof (static_slots c) as SL. cbv zeta in SL. set (F := beamSlots c Modes.STATIC) in *.
  assert (SO : slotsOk F) by apply beamSlots_ok. destruct SL as [L1 [L2 [L3 [L4 L5]]]]. set (N := (6 * nnod)%nat).
  revert S. induction mbs as [|mb mbs IH]; intros S R1 R2 R3 R4 E.
  - cbn in E. injection E as <-. split; intros; unfold aFrame, kgFrame, wFrame; cbn [sumL fold_right]; ring.
  - cbn [assembleFrame] in E. destruct (H mb (or_introl eq_refl)) as [HI HR].
    destruct (beamElement F (mBeam mb) (mVals mb u)) as [| |m] eqn:EM; try discriminate E. cbn [bind] in E.
    pose proof (fun v w => tangent F (mBeam mb) (mVals mb u) m v w EM HR SO ltac:(rewrite L1; lia)) as TG.
    pose proof (fun v => residual F (mBeam mb) (mVals mb u) m v EM SO ltac:(rewrite L4; lia) (HN mb (or_introl eq_refl))) as RS.
    rewrite L1 in TG. rewrite L3, L4 in RS. cbn [Nat.eqb] in RS.
    set (Kw := LinSystem.asmMat 6 (mElt mb) (mkMat 12 12 (eA m 1))) in *. set (Bw := LinSystem.asmVec 6 (mElt mb) (mkMat 12 1 (fun i _ => eB m 1 i))) in *.
    assert (KB : forall i j x, In (i, j, x) Kw -> (1 <= i <= N)%nat /\ (1 <= j <= N)%nat) by (apply Proofs.LinSystem.asmMat_range, mElt_conn, HI).
    assert (BB : forall i j x, In (i, j, x) Bw -> (1 <= i <= N)%nat /\ j = 1%nat) by (apply Proofs.LinSystem.asmVec_range, mElt_conn, HI).
    destruct (Proofs.LinSystem.run_form N Kw (fK S) (fun _ => 0) (fun _ => 0) R1 R2 KB) as [K [EK [K1 [K2 _]]]].
    destruct (Proofs.LinSystem.run_vec N Bw (fB S) R3 R4 BB) as [B [EB [B1 [B2 BV]]]].
    rewrite EK in E. cbn [bind] in E. rewrite EB in E. cbn [bind] in E.
    destruct (IH (fun x Hx => H x (or_intror Hx)) (fun x Hx => HN x (or_intror Hx)) (mkFsys K B) K1 K2 B1 B2 E) as [A1 A2].
    split.
    + intros v w. rewrite A1. cbn [fK].
      destruct (Proofs.LinSystem.run_form N Kw (fK S) v w R1 R2 KB) as [K' [EK' [_ [_ [_ BL]]]]]. rewrite EK in EK'. injection EK' as <-.
      change (bil N (el K) v w = bil N (el (fK S)) v w + sumL (Proofs.LinSystem.wform v w) Kw) in BL. rewrite BL.
      unfold Kw. rewrite Proofs.LinSystem.asmMat_form.
      change (Spec.LinElement.bilin (6 * LinSystem.enen (mElt mb)) (el (mkMat 12 12 (eA m 1))) (Spec.LinSystem.restrict 6 (mElt mb) v) (Spec.LinSystem.restrict 6 (mElt mb) w))
        with (bil 12 (eA m 1) (Spec.LinSystem.restrict 6 (mElt mb) v) (Spec.LinSystem.restrict 6 (mElt mb) w)).
      rewrite (bil_ext (eA m 1) _ (mVals mb v) _ (mVals mb w)) by (intros; apply restrict_vals; assumption).
      rewrite TG. unfold aFrame, kgFrame, sumL. cbn [fold_right]. rewrite L1. ring.
    + intros v. rewrite A2. unfold bwork at 1. cbn [fB].
      change (sumf N (fun i => el B i 1%nat * v i)) with (Spec.LinSystem.work N (fun i => el B i 1%nat) v). rewrite BV.
      unfold Bw. rewrite Proofs.LinSystem.asmVec_form.
      replace (Spec.LinElement.lwork (6 * LinSystem.enen (mElt mb)) (mkMat 12 1 (fun i _ => eB m 1 i)) (Spec.LinSystem.restrict 6 (mElt mb) v))
        with (work (mVals mb v) (eB m 1)).
      * rewrite RS. unfold Spec.LinSystem.work, bwork, wFrame, aFrame, sumL. cbn [fold_right]. rewrite andb_true_r. ring.
      * unfold work, Spec.LinElement.lwork. change (6 * LinSystem.enen (mElt mb))%nat with 12%nat. apply sumf_ext. intros i Hi. rewrite restrict_vals by exact Hi. reflexivity.
Qed.

(** Rigid motions restricted to a member. *)
Lemma mVals_nodal mb u i : (1 <= i <= 12)%nat ->
  mVals mb u i = nodal (nodeDisp u (node1 mb)) (nodeRot u (node1 mb)) (nodeDisp u (node2 mb)) (nodeRot u (node2 mb)) i.
Proof. intros Hi. unfold mVals, nodal, nodeDisp, nodeRot. do 13 (destruct i as [|i]; [try lia; reflexivity|]). lia. Qed.
Lemma rigid_vals P a om v mb nnod : inFrame nnod mb -> rigidField P a om v -> forall i, (1 <= i <= 12)%nat ->
  mVals mb v i = rigidMotion a om (P (node1 mb)) (P (node2 mb)) i.
Proof.
  intros [[H1 _] [H2 _]] HR i Hi. destruct (HR (node1 mb) H1) as [A1 B1]. destruct (HR (node2 mb) H2) as [A2 B2].
  rewrite mVals_nodal by exact Hi. rewrite A1, A2, B1, B2. reflexivity.
Qed.
Lemma ends_ext d v v' : (forall i, (1 <= i <= 12)%nat -> v i = v' i) -> forall i, ends d v i = ends d v' i.
Proof.
  intros H i. unfold ends, endMotion, disp1, disp2, rot1, rot2. rewrite !H by lia. reflexivity.
Qed.
Lemma gravityWork_ext d v v' : (forall i, (1 <= i <= 12)%nat -> v i = v' i) -> gravityWork d v = gravityWork d v'.
Proof. intros H. unfold gravityWork. apply bil_ext; [|reflexivity]. intros. apply ends_ext, H. Qed.

Definition rigidOf (P : nat -> v3) (a om : v3) (i : nat) : R :=
  let n := Datatypes.S ((i - 1) / 6) in nodal (vadd a (vcross om (P n))) om vzero vzero (Datatypes.S ((i - 1) mod 6)).
Lemma dof_parts n c : (1 <= n)%nat -> (1 <= c <= 6)%nat -> Datatypes.S ((dof 6 n c - 1) / 6) = n /\ Datatypes.S ((dof 6 n c - 1) mod 6) = c.
Proof.
  intros Hn Hc. unfold dof. replace (6 * (n - 1) + c - 1)%nat with ((c - 1) + (n - 1) * 6)%nat by lia.
  rewrite Nat.div_add, Nat.mod_add, Nat.div_small, Nat.mod_small by lia. lia.
Qed.
Lemma rigidOf_field P a om : rigidField P a om (rigidOf P a om).
Proof.
  intros n Hn. unfold nodeDisp, nodeRot, rigidOf.
  destruct (dof_parts n 1 Hn ltac:(lia)) as [-> ->]. destruct (dof_parts n 2 Hn ltac:(lia)) as [-> ->]. destruct (dof_parts n 3 Hn ltac:(lia)) as [-> ->].
  destruct (dof_parts n 4 Hn ltac:(lia)) as [-> ->]. destruct (dof_parts n 5 Hn ltac:(lia)) as [-> ->]. destruct (dof_parts n 6 Hn ltac:(lia)) as [-> ->].
  unfold nodal. destruct a, om; split; reflexivity.
Qed.

(** Work in a rigid motion is that of the resultants. *)
Lemma sumV_dot n f a : vdot (sumV n f) a = sumf n (fun k => vdot (f k) a).
Proof. unfold sumV, vdot; cbn [vx vy vz]. induction n as [|n IH]; cbn [sumf]; [ring|]. rewrite <- IH. ring. Qed.
Lemma sumW_dot f l a : vdot (sumW f l) a = sumL (fun m => vdot (f m) a) l.
Proof. unfold sumW, vdot, sumL; cbn [vx vy vz]. induction l as [|m l IH]; cbn [fold_right]; [ring|]. rewrite <- IH. ring. Qed.
Lemma fwork_rigid nnod f P a om v : rigidField P a om v -> fwork nnod f v = vdot (totalForce nnod f) a + vdot (totalMoment nnod P f) om.
Proof.
  intros HR. unfold fwork, totalForce, totalMoment. rewrite !sumV_dot, <- sumf_plus. apply sumf_ext. intros n Hn. destruct (HR n ltac:(lia)) as [-> ->].
  generalize (nodeDisp f n) (nodeRot f n) (P n). vring.
Qed.
Lemma vdot_all X : (forall a, vdot X a = 0) -> X = vzero.
Proof. intros H. assert (A := H (V 1 0 0)). assert (B := H (V 0 1 0)). assert (C := H (V 0 0 1)). destruct X. unfold vdot, vzero in *; cbn in *. f_equal; lra. Qed.

Lemma accepted_long c mbs u S S' : assembleFrame (beamSlots c Modes.STATIC) mbs u S = Ret S' -> forall mb, In mb mbs -> 0 < bL (mBeam mb).
Proof.
  revert S. induction mbs as [|m0 mbs IH]; intros S E mb Hm; [destruct Hm|]. cbn [assembleFrame] in E.
  destruct (beamElement (beamSlots c Modes.STATIC) (mBeam m0) (mVals m0 u)) as [| |m] eqn:EM; try discriminate E. cbn [bind] in E.
  destruct (run_add (fK S) _) as [| |K]; try discriminate E. cbn [bind] in E. destruct (run_add (fB S) _) as [| |B]; try discriminate E. cbn [bind] in E.
  destruct Hm as [<-|Hm]; [|exact (IH _ E mb Hm)].
  destruct (final_mats _ _ _ _ EM) as [q [E0 _]]. exact (start_L _ _ _ (eval_start _ _ _ _ E0)).
Qed.
Lemma hasGr_static c d : hasGrF (beamSlots c Modes.STATIC) d = negb (isZero (bTol d) (bGrav d)).
Proof. unfold hasGrF. destruct (static_slots c) as [_ [_ [-> _]]]. destruct (isZero _ _); reflexivity. Qed.

(** Translations: any eccentricities. *)
Definition farP (d : beam) : v3 := vadd (vadd vzero (vscal (bL d) (col (bT d) 1))) (E2 d).
Lemma translation_any a P1 P2 Q1 Q2 i : rigidMotion a vzero P1 P2 i = rigidMotion a vzero Q1 Q2 i.
Proof.
  unfold rigidMotion. assert (C : forall X, vcross vzero X = vzero) by (intros [x y z]; unfold vcross, vzero; cbn; f_equal; ring). rewrite !C. reflexivity.
Qed.
Lemma member_translation nnod c mb a v P w : inFrame nnod mb -> rigidField P a vzero v -> frame (bT (mBeam mb)) -> bL (mBeam mb) <> 0 -> regular (mBeam mb) ->
  bil 12 (Km (mBeam mb)) (ends (mBeam mb) (mVals mb v)) w = 0 /\
  (if hasGrF (beamSlots c Modes.STATIC) (mBeam mb) then gravityWork (mBeam mb) (mVals mb v) else 0) = vdot (weightOf mb) a.
Proof.
  intros HI HR HF HL RG. set (d := mBeam mb) in *. set (P1 := vadd vzero (E1 d)). set (P2 := farP d).
  assert (V : forall i, (1 <= i <= 12)%nat -> mVals mb v i = rigidMotion a vzero P1 P2 i).
  { intros i Hi. rewrite (rigid_vals P a vzero v mb nnod HI HR i Hi). apply translation_any. }
  assert (PL : placed d P1 P2 vzero) by (split; [exact HF|split; reflexivity]). split.
  - rewrite (bil_ext _ _ (ends d (rigidMotion a vzero P1 P2)) w w) by (intros; first [apply ends_ext, V|reflexivity]). apply (stiff_rigid d P1 P2 vzero); assumption.
  - rewrite hasGr_static. unfold weightOf. fold d. destruct (isZero _ _); cbn [negb]; [unfold vdot, vzero; cbn; ring|].
    rewrite (gravityWork_ext d _ (rigidMotion a vzero P1 P2) V), (weight d P1 P2 vzero a vzero PL HL). unfold forceWork.
    generalize (vscal (pRhoA (bP d) * bL d) (bGrav d)) (centroid d vzero). vring.
Qed.
(** Rotations: equal eccentricities. *)
Lemma member_rigid nnod c mb a om v P w : inFrame nnod mb -> rigidField P a om v -> spans P mb -> E1 (mBeam mb) = E2 (mBeam mb) -> bL (mBeam mb) <> 0 -> regular (mBeam mb) ->
  bil 12 (Km (mBeam mb)) (ends (mBeam mb) (mVals mb v)) w = 0 /\
  (if hasGrF (beamSlots c Modes.STATIC) (mBeam mb) then gravityWork (mBeam mb) (mVals mb v) else 0) =
  vdot (weightOf mb) a + vdot (vcross (centroid (mBeam mb) (vsub (P (node1 mb)) (E1 (mBeam mb)))) (weightOf mb)) om.
Proof.
  intros HI HR [HF HP] HE HL RG. set (d := mBeam mb) in *. set (P1 := P (node1 mb)) in *. set (P2 := P (node2 mb)) in *.
  assert (V : forall i, (1 <= i <= 12)%nat -> mVals mb v i = rigidMotion a om P1 P2 i) by (intros i Hi; exact (rigid_vals P a om v mb nnod HI HR i Hi)).
  assert (PL : placed d P1 P2 (vsub P1 (E1 d))).
  { split; [exact HF|]. rewrite HP, <- HE. clearbody P1. generalize (E1 d) (vscal (bL d) (col (bT d) 1)). clear. intros e q. split; revert P1 e q; veq. }
  split.
  - rewrite (bil_ext _ _ (ends d (rigidMotion a om P1 P2)) w w) by (intros; first [apply ends_ext, V|reflexivity]). exact (stiff_rigid d P1 P2 _ a om w PL HL RG).
  - rewrite hasGr_static. unfold weightOf. fold d. destruct (isZero _ _); cbn [negb]; [generalize (centroid d (vsub P1 (E1 d))); vring|].
    rewrite (gravityWork_ext d _ (rigidMotion a om P1 P2) V), (weight d P1 P2 _ a om PL HL). unfold forceWork.
    generalize (vscal (pRhoA (bP d) * bL d) (bGrav d)) (centroid d (vsub P1 (E1 d))). vring.
Qed.

Lemma aFrame_sym mbs v w : (forall mb, In mb mbs -> regular (mBeam mb) /\ bL (mBeam mb) <> 0) -> aFrame mbs v w = aFrame mbs w v.
Proof.
  intros H. unfold aFrame. apply sumL_ext. intros mb Hm. destruct (H mb Hm) as [[R1 R2] HL]. unfold Km. rewrite !stiffness_bil by assumption. cbn zeta. ring.
Qed.
Lemma axial_zero d u : (forall i, (1 <= i <= 12)%nat -> u i = 0) -> axialForce d u = 0.
Proof.
  intros H. unfold axialForce. destruct (hasDis d u); [|try reflexivity; try (destruct (hasEcc d); reflexivity)].
  try (destruct (hasEcc d); [reflexivity|]). unfold elongation, disp1, disp2, vdot, vsub; cbn [vx vy vz]. rewrite !H by lia. unfold Rdiv. ring.
Qed.

(** The assembled system of a frame from an empty one. *)
Lemma empty_bwork nnod v : bwork (6 * nnod) (emptyFrame nnod) v = 0.
Proof. unfold bwork, emptyFrame, zeros; cbn [fB el]. apply sumf_0. intros. ring. Qed.
Lemma empty_bil nnod v w : bil (6 * nnod) (el (fK (emptyFrame nnod))) v w = 0.
Proof.
  unfold bil, emptyFrame, zeros; cbn [fK el]. apply sumf_0. intros. unfold mv.
  rewrite sumf_0 by (intros; ring). ring.
Qed.
Lemma frame_forms c nnod mbs u S : (forall mb, In mb mbs -> inFrame nnod mb /\ regular (mBeam mb)) -> notedAll mbs u -> frameSystem c nnod mbs u = Ret S ->
  (forall v w, bil (6 * nnod) (el (fK S)) v w = aFrame mbs v w + kgFrame (beamSlots c Modes.STATIC) mbs u v w) /\
  (forall v, fwork nnod (fun i => el (fB S) i 1%nat) v = wFrame (beamSlots c Modes.STATIC) mbs v - aFrame mbs v u).
Proof.
  intros H HN E. unfold frameSystem in E.
  destruct (assembled_frame c nnod mbs u H HN (emptyFrame nnod) S eq_refl eq_refl eq_refl eq_refl E) as [A1 A2]. split.
  - intros v w. rewrite A1, empty_bil. ring.
  - intros v. rewrite fwork_sum. change (sumf (6 * nnod) (fun i => el (fB S) i 1%nat * v i)) with (bwork (6 * nnod) S v). rewrite A2, empty_bwork. ring.
Qed.
Lemma fwork_plus nnod f g v : fwork nnod (fun i => f i + g i) v = fwork nnod f v + fwork nnod g v.
Proof. rewrite !fwork_sum, <- sumf_plus. apply sumf_ext. intros. ring. Qed.
Lemma fwork_ext nnod f g v : (forall i, (1 <= i <= 6 * nnod)%nat -> f i = g i) -> fwork nnod f v = fwork nnod g v.
Proof. intros H. rewrite !fwork_sum. apply sumf_ext. intros i Hi. now rewrite H. Qed.
Lemma balance_work nnod f g r fx v : balanced nnod f g r fx -> fwork nnod g v + fwork nnod r v = - fwork nnod f v.
Proof.
  intros H. rewrite <- fwork_plus, !fwork_sum. replace (- sumf (6 * nnod) (fun i => f i * v i)) with ((-1) * sumf (6 * nnod) (fun i => f i * v i)) by ring.
  rewrite <- sumf_scal. apply sumf_ext. intros i Hi. destruct (H i Hi) as [Q _]. replace (f i) with (- (g i + r i)) by lra. ring.
Qed.

Theorem frame_force c nnod mbs u S g r fx : (forall mb, In mb mbs -> inFrame nnod mb /\ regular (mBeam mb) /\ frame (bT (mBeam mb))) -> notedAll mbs u ->
  frameSystem c nnod mbs u = Ret S -> balanced nnod (fun i => el (fB S) i 1%nat) g r fx ->
  vadd (totalForce nnod r) (vadd (totalForce nnod g) (sumW weightOf mbs)) = vzero.
Proof.
  intros H HN E B. assert (LL := fun mb Hm => accepted_long c mbs u _ S E mb Hm).
  assert (H' : forall mb, In mb mbs -> inFrame nnod mb /\ regular (mBeam mb)) by (intros mb Hm; destruct (H mb Hm) as [? [? _]]; split; assumption).
  destruct (frame_forms c nnod mbs u S H' HN E) as [_ RS]. apply vdot_all. intros a.
  set (v := rigidOf (fun _ => vzero) a vzero). assert (HR := rigidOf_field (fun _ => vzero) a vzero). fold v in HR.
  assert (BW := balance_work nnod _ g r fx v B). rewrite RS in BW. rewrite !(fwork_rigid nnod _ _ a vzero v HR) in BW.
  assert (A0 : aFrame mbs v u = 0).
  { unfold aFrame. rewrite (sumL_ext _ (fun _ => 0)); [clear; induction mbs as [|x l IH]; unfold sumL in *; cbn; [reflexivity|rewrite IH; ring]|].
    intros mb Hm. destruct (H mb Hm) as [HI [RG HF]]. apply (member_translation nnod c mb a v _ _ HI HR HF); [|assumption]. assert (Q := LL mb Hm). lra. }
  assert (W0 : wFrame (beamSlots c Modes.STATIC) mbs v = vdot (sumW weightOf mbs) a).
  { rewrite sumW_dot. unfold wFrame. apply sumL_ext. intros mb Hm. destruct (H mb Hm) as [HI [RG HF]].
    apply (member_translation nnod c mb a v _ (fun _ => 0) HI HR HF); [|assumption]. assert (Q := LL mb Hm). lra. }
  rewrite A0, W0 in BW. rewrite !vdot_add_l. assert (Z : forall X, vdot X vzero = 0) by vring. rewrite !Z in BW. lra.
Qed.

Theorem frame_moment c nnod mbs u S g r fx P : (forall mb, In mb mbs -> inFrame nnod mb /\ regular (mBeam mb) /\ spans P mb /\ E1 (mBeam mb) = E2 (mBeam mb)) -> notedAll mbs u ->
  frameSystem c nnod mbs u = Ret S -> balanced nnod (fun i => el (fB S) i 1%nat) g r fx ->
  vadd (totalMoment nnod P r) (vadd (totalMoment nnod P g) (sumW (fun mb => vcross (centroid (mBeam mb) (vsub (P (node1 mb)) (E1 (mBeam mb)))) (weightOf mb)) mbs)) = vzero.
Proof.
  intros H HN E B. assert (LL := fun mb Hm => accepted_long c mbs u _ S E mb Hm).
  assert (H' : forall mb, In mb mbs -> inFrame nnod mb /\ regular (mBeam mb)) by (intros mb Hm; destruct (H mb Hm) as [? [? _]]; split; assumption).
  destruct (frame_forms c nnod mbs u S H' HN E) as [_ RS]. apply vdot_all. intros om.
  set (v := rigidOf P vzero om). assert (HR := rigidOf_field P vzero om). fold v in HR.
  assert (BW := balance_work nnod _ g r fx v B). rewrite RS in BW. rewrite !(fwork_rigid nnod _ _ vzero om v HR) in BW.
  assert (Z : forall X, vdot X vzero = 0) by vring.
  assert (A0 : aFrame mbs v u = 0).
  { unfold aFrame. rewrite (sumL_ext _ (fun _ => 0)); [clear; induction mbs as [|x l IH]; unfold sumL in *; cbn; [reflexivity|rewrite IH; ring]|].
    intros mb Hm. destruct (H mb Hm) as [HI [RG [SP HE]]]. apply (member_rigid nnod c mb vzero om v P _ HI HR SP HE); [|assumption]. assert (Q := LL mb Hm). lra. }
  assert (W0 : wFrame (beamSlots c Modes.STATIC) mbs v = vdot (sumW (fun mb => vcross (centroid (mBeam mb) (vsub (P (node1 mb)) (E1 (mBeam mb)))) (weightOf mb)) mbs) om).
  { rewrite sumW_dot. unfold wFrame. apply sumL_ext. intros mb Hm. destruct (H mb Hm) as [HI [RG [SP HE]]].
    destruct (member_rigid nnod c mb vzero om v P (fun _ => 0) HI HR SP HE ltac:(assert (Q := LL mb Hm); lra) RG) as [_ W]. rewrite W, Z. ring. }
  rewrite A0, W0 in BW. rewrite !vdot_add_l. rewrite !Z in BW. lra.
Qed.

(** Energy. *)
Definition twiceEnergy (mb : member) (u : nat -> R) (e : R) : Prop :=
  let d := mBeam mb in let p := bP d in let L := bL d in let s := atCentre (pSy p) (pSz p) (ends d (mVals mb u)) in
  exists wy wz, beamField (pAly p) L (s 2%nat) (s 6%nat) (s 8%nat) (s 12%nat) wy /\ beamField (pAlz p) L (s 3%nat) (- s 5%nat) (s 9%nat) (- s 11%nat) wz /\
  is_RInt (fun x => pEA p * ((s 7%nat - s 1%nat) / L) ^ 2 + pGIt p * ((s 10%nat - s 4%nat) / L) ^ 2 + bendDensity (pEIy p) (pAly p) L wy x + bendDensity (pEIz p) (pAlz p) L wz x) 0 L e.
Lemma twice_value mb u e : bL (mBeam mb) <> 0 -> regular (mBeam mb) -> twiceEnergy mb u e ->
  e = bil 12 (Km (mBeam mb)) (ends (mBeam mb) (mVals mb u)) (ends (mBeam mb) (mVals mb u)).
Proof.
  intros HL [R1 R2] [wy [wz [F1 [F2 I]]]].
  assert (Q := stiffness_energy (bL (mBeam mb)) (pEA (bP (mBeam mb))) (pGIt (bP (mBeam mb))) (pEIy (bP (mBeam mb))) (pEIz (bP (mBeam mb))) _ _ _ _ _ wy wz HL R1 R2 F1 F2).
  
  assert (I1 := is_RInt_unique (V := R_CompleteNormedModule) _ _ _ _ I). assert (Q1 := is_RInt_unique (V := R_CompleteNormedModule) _ _ _ _ Q).
  rewrite <- I1. etransitivity; [exact Q1|]. apply bil_quad.
Qed.
Lemma twice_exists mb u : bL (mBeam mb) <> 0 -> regular (mBeam mb) -> exists e, twiceEnergy mb u e.
Proof.
  intros HL [R1 R2]. unfold twiceEnergy. cbv zeta. set (s := atCentre _ _ _).
  destruct (beamField_exists (pAly (bP (mBeam mb))) (bL (mBeam mb)) (s 2%nat) (s 6%nat) (s 8%nat) (s 12%nat) HL R1) as [wy [F1 _]].
  destruct (beamField_exists (pAlz (bP (mBeam mb))) (bL (mBeam mb)) (s 3%nat) (- s 5%nat) (s 9%nat) (- s 11%nat) HL R2) as [wz [F2 _]].
  eexists. exists wy, wz. split; [exact F1|split; [exact F2|]].
  exact (stiffness_energy (bL (mBeam mb)) (pEA (bP (mBeam mb))) (pGIt (bP (mBeam mb))) (pEIy (bP (mBeam mb))) (pEIz (bP (mBeam mb))) _ _ _ _ _ wy wz HL R1 R2 F1 F2).
Qed.

Theorem frame_energy c nnod mbs u S g r fx en : (forall mb, In mb mbs -> inFrame nnod mb /\ regular (mBeam mb)) -> notedAll mbs u ->
  frameSystem c nnod mbs u = Ret S -> balanced nnod (fun i => el (fB S) i 1%nat) g r fx -> (forall mb, In mb mbs -> twiceEnergy mb u (en mb)) ->
  sumL en mbs = fwork nnod g u + fwork nnod r u + wFrame (beamSlots c Modes.STATIC) mbs u.
Proof.
  intros H HN E B HE. assert (LL := fun mb Hm => accepted_long c mbs u _ S E mb Hm).
  destruct (frame_forms c nnod mbs u S H HN E) as [_ RS]. rewrite (balance_work nnod _ g r fx u B), RS.
  replace (sumL en mbs) with (aFrame mbs u u); [ring|]. unfold aFrame. apply sumL_ext. intros mb Hm. symmetry.
  apply twice_value; [assert (Q := LL mb Hm); lra|apply (H mb Hm)|apply HE, Hm].
Qed.
Theorem frame_reciprocal c nnod mbs u u' S S' g g' r r' fx fx' : (forall mb, In mb mbs -> inFrame nnod mb /\ regular (mBeam mb)) -> notedAll mbs u -> notedAll mbs u' ->
  frameSystem c nnod mbs u = Ret S -> frameSystem c nnod mbs u' = Ret S' ->
  balanced nnod (fun i => el (fB S) i 1%nat) g r fx -> balanced nnod (fun i => el (fB S') i 1%nat) g' r' fx' ->
  fwork nnod g u' + fwork nnod r u' + wFrame (beamSlots c Modes.STATIC) mbs u' = fwork nnod g' u + fwork nnod r' u + wFrame (beamSlots c Modes.STATIC) mbs u.
Proof.
  intros H HN HN' E E' B B'. assert (LL := fun mb Hm => accepted_long c mbs u _ S E mb Hm).
  destruct (frame_forms c nnod mbs u S H HN E) as [_ RS]. destruct (frame_forms c nnod mbs u' S' H HN' E') as [_ RS'].
  rewrite (balance_work nnod _ g r fx u' B), RS, (balance_work nnod _ g' r' fx' u B'), RS'.
  rewrite (aFrame_sym mbs u' u); [ring|]. intros mb Hm. split; [apply (H mb Hm)|assert (Q := LL mb Hm); lra].
Qed.

(** One linear solution from rest gives equilibrium. *)
Lemma kg_zero F mbs v w : (forall mb, In mb mbs -> regular (mBeam mb) /\ bL (mBeam mb) <> 0) -> kgFrame F mbs (fun _ => 0) v w = 0.
Proof.
  intros H. unfold kgFrame. rewrite (sumL_ext _ (fun _ => 0)); [clear; induction mbs as [|x l IH]; unfold sumL in *; cbn; [reflexivity|rewrite IH; ring]|].
  intros mb Hm. destruct (H mb Hm) as [[R1 R2] HL]. destruct (_ =? _)%nat; [|reflexivity]. rewrite axial_zero by reflexivity. unfold Kg. rewrite geo_bil by assumption. cbn zeta. unfold Rdiv. ring.
Qed.
Lemma noted_zero mbs : notedAll mbs (fun _ => 0).
Proof. intros mb _. right. reflexivity. Qed.
Lemma bil_unit N A i w : (1 <= i <= N)%nat -> bil N A (fun k => kron k i) w = mv N A w i.
Proof. intros Hi. symmetry. now apply bil_mv. Qed.
Lemma fwork_unit nnod f i : (1 <= i <= 6 * nnod)%nat -> fwork nnod f (fun k => kron k i) = f i.
Proof. intros Hi. rewrite fwork_sum, (sumf_ext _ _ (fun k => kron k i * f k)) by (intros; ring). now rewrite sumf_kron. Qed.
Theorem frame_step c nnod mbs u S0 S g r fx : (forall mb, In mb mbs -> inFrame nnod mb /\ regular (mBeam mb)) -> notedAll mbs u ->
  frameSystem c nnod mbs (fun _ => 0) = Ret S0 -> frameSystem c nnod mbs u = Ret S ->
  (forall i, (1 <= i <= 6 * nnod)%nat -> mv (6 * nnod) (el (fK S0)) u i = el (fB S0) i 1%nat + g i + r i /\ (~ fx i -> r i = 0)) ->
  balanced nnod (fun i => el (fB S) i 1%nat) g r fx.
Proof.
  intros H HN E0 E HS i Hi. destruct (HS i Hi) as [Q FX]. split; [|exact FX].
  assert (LL := fun mb Hm => accepted_long c mbs u _ S E mb Hm).
  destruct (frame_forms c nnod mbs _ S0 H (noted_zero mbs) E0) as [K0 B0]. destruct (frame_forms c nnod mbs u S H HN E) as [_ B1].
  assert (LR : forall mb, In mb mbs -> regular (mBeam mb) /\ bL (mBeam mb) <> 0) by (intros mb Hm; assert (X := LL mb Hm); split; [apply (H mb Hm)|lra]).
  rewrite <- bil_unit in Q by exact Hi. rewrite K0, (kg_zero _ mbs _ u LR) in Q.
  rewrite <- (fwork_unit nnod (fun i => el (fB S0) i 1%nat) i Hi) in Q. rewrite <- (fwork_unit nnod (fun i => el (fB S) i 1%nat) i Hi).
  rewrite B0 in Q. rewrite B1.
  assert (AZ : aFrame mbs (fun k => kron k i) (fun _ => 0) = 0).
  { unfold aFrame. rewrite (sumL_ext _ (fun _ => 0)); [clear; induction mbs as [|x l IH]; unfold sumL in *; cbn; [reflexivity|rewrite IH; ring]|].
    intros mb Hm. unfold bil. apply sumf_0. intros k Hk. unfold mv. rewrite sumf_0; [ring|]. intros j Hj.
    assert (Z : ends (mBeam mb) (mVals mb (fun _ => 0)) j = 0); [|rewrite Z; ring].
    assert (M := ends_minus (mBeam mb) (mVals mb (fun _ => 0)) (mVals mb (fun _ => 0)) j Hj).
    rewrite (ends_ext _ _ (fun k => mVals mb (fun _ => 0) k - mVals mb (fun _ => 0) k)); [rewrite M; ring|]. intros. unfold mVals. ring. }
  rewrite AZ in Q. lra.
Qed.

(** Uniqueness: two solutions with the same loads and the same prescribed displacements differ by a motion without energy. *)
Definition stiffPos (d : beam) : Prop := 0 <= pAly (bP d) /\ 0 <= pAlz (bP d) /\ 0 <= pEA (bP d) /\ 0 <= pGIt (bP d) /\ 0 <= pEIy (bP d) /\ 0 <= pEIz (bP d).
Lemma stiffPos_regular d : stiffPos d -> regular d.
Proof. unfold stiffPos, regular. intros. split; lra. Qed.
Lemma sumL_nonneg {A} (f : A -> R) l : (forall a, In a l -> 0 <= f a) -> sumL f l = 0 -> forall a, In a l -> f a = 0.
Proof.
  intros H. assert (NN : forall l', (forall a, In a l' -> 0 <= f a) -> 0 <= sumL f l').
  { induction l' as [|x l' IH]; intros Hl; unfold sumL in *; cbn; [lra|]. assert (0 <= f x) by (apply Hl; now left). assert (Y := IH (fun a Ha => Hl a (or_intror Ha))). lra. }
  induction l as [|x l IH]; intros E a Ha; [destruct Ha|]. unfold sumL in E. cbn [fold_right] in E. fold (sumL f l) in E.
  assert (0 <= f x) by (apply H; now left). assert (Y := NN l (fun a Ha => H a (or_intror Ha))).
  destruct Ha as [<-|Ha]; [lra|]. apply IH; [intros; apply H; now right|lra|exact Ha].
Qed.
Lemma mVals_minus mb u w i : mVals mb (fun k => u k - w k) i = mVals mb u i - mVals mb w i.
Proof. reflexivity. Qed.
Lemma aFrame_minus mbs v u w : aFrame mbs v (fun k => u k - w k) = aFrame mbs v u - aFrame mbs v w.
Proof.
  unfold aFrame. induction mbs as [|mb l IH]; unfold sumL in *; cbn [fold_right]; [ring|]. rewrite IH.
  rewrite (bil_ext _ (ends (mBeam mb) (mVals mb v)) (ends (mBeam mb) (mVals mb v)) (ends (mBeam mb) (mVals mb (fun k => u k - w k))) (fun i => ends (mBeam mb) (mVals mb u) i - ends (mBeam mb) (mVals mb w) i)).
  - rewrite bil_minus_r. ring.
  - reflexivity.
  - intros i Hi. rewrite <- ends_minus by exact Hi. apply ends_ext. intros. apply mVals_minus.
Qed.
Theorem frame_unique c nnod mbs u u' S S' g r r' fx : (forall mb, In mb mbs -> inFrame nnod mb /\ stiffPos (mBeam mb)) -> notedAll mbs u -> notedAll mbs u' ->
  frameSystem c nnod mbs u = Ret S -> frameSystem c nnod mbs u' = Ret S' ->
  balanced nnod (fun i => el (fB S) i 1%nat) g r fx -> balanced nnod (fun i => el (fB S') i 1%nat) g r' fx ->
  (forall i, (1 <= i <= 6 * nnod)%nat -> fx i \/ ~ fx i) -> (forall i, (1 <= i <= 6 * nnod)%nat -> fx i -> u i = u' i) ->
  forall mb, In mb mbs -> twiceEnergy mb (fun i => u i - u' i) 0.
Proof.
  intros H HN HN' E E' B B' DX DU mb Hm.
  assert (LL := fun mb Hm => accepted_long c mbs u _ S E mb Hm).
  assert (HR : forall mb, In mb mbs -> inFrame nnod mb /\ regular (mBeam mb)) by (intros x Hx; destruct (H x Hx); split; [assumption|now apply stiffPos_regular]).
  destruct (frame_forms c nnod mbs u S HR HN E) as [_ RS]. destruct (frame_forms c nnod mbs u' S' HR HN' E') as [_ RS'].
  set (v := fun i => u i - u' i).
  assert (W1 := balance_work nnod _ g r fx v B). assert (W2 := balance_work nnod _ g r' fx v B'). rewrite RS in W1. rewrite RS' in W2.
  assert (RR : fwork nnod r v = 0 /\ fwork nnod r' v = 0).
  { rewrite !fwork_sum. split; apply sumf_0; intros i Hi; destruct (DX i Hi) as [F|F].
    1,3: unfold v; rewrite (DU i Hi F); ring.
    - destruct (B i Hi) as [_ Q]. rewrite (Q F). ring.
    - destruct (B' i Hi) as [_ Q]. rewrite (Q F). ring. }
  assert (A0 : aFrame mbs v v = 0) by (unfold v at 2; rewrite aFrame_minus; lra).
  destruct (twice_exists mb v) as [e HE]; [assert (Q := LL mb Hm); lra|apply (HR mb Hm)|].
  replace 0 with e; [exact HE|]. rewrite (twice_value mb v e) by (try assumption; try (apply (HR mb Hm)); assert (Q := LL mb Hm); lra).
  unfold aFrame in A0.
  apply (sumL_nonneg (fun mb => bil 12 (Km (mBeam mb)) (ends (mBeam mb) (mVals mb v)) (ends (mBeam mb) (mVals mb v))) mbs); [|exact A0|exact Hm].
  intros x Hx. destruct (H x Hx) as [_ [P1 [P2 [P3 [P4 [P5 P6]]]]]]. rewrite <- bil_quad. unfold Km. apply stiffness_psd; try assumption. exact (LL x Hx).
Qed.

(** When the frame is accepted. *)
Lemma frame_exists F nnod mbs u : (forall mb, In mb mbs -> inFrame nnod mb) -> (forall mb, In mb mbs -> exists m, beamElement F (mBeam mb) (mVals mb u) = Ret m) ->
  forall S, rows (fK S) = (6 * nnod)%nat -> cols (fK S) = (6 * nnod)%nat -> rows (fB S) = (6 * nnod)%nat -> cols (fB S) = 1%nat -> exists S', assembleFrame F mbs u S = Ret S'.
Proof.
  induction mbs as [|mb mbs IH]; intros HI HM S R1 R2 R3 R4; [exists S; reflexivity|]. cbn [assembleFrame].
  destruct (HM mb (or_introl eq_refl)) as [m ->]. cbn [bind].
  destruct (Proofs.LinSystem.run_form (6 * nnod) (LinSystem.asmMat 6 (mElt mb) (mkMat 12 12 (eA m 1))) (fK S) (fun _ => 0) (fun _ => 0) R1 R2
    (Proofs.LinSystem.asmMat_range _ _ _ _ (mElt_conn nnod mb (HI mb (or_introl eq_refl))))) as [K [-> [K1 [K2 _]]]]. cbn [bind].
  destruct (Proofs.LinSystem.run_vec (6 * nnod) (LinSystem.asmVec 6 (mElt mb) (mkMat 12 1 (fun i _ => eB m 1 i))) (fB S) R3 R4
    (Proofs.LinSystem.asmVec_range _ _ _ _ (mElt_conn nnod mb (HI mb (or_introl eq_refl))))) as [B [-> [B1 [B2 _]]]]. cbn [bind].
  apply IH; try assumption; intros; [apply HI|apply HM]; now right.
Qed.
Lemma frame_members F mbs u S S' : assembleFrame F mbs u S = Ret S' -> forall mb, In mb mbs -> exists m, beamElement F (mBeam mb) (mVals mb u) = Ret m.
Proof.
  revert S. induction mbs as [|m0 mbs IH]; intros S E mb Hm; [destruct Hm|]. cbn [assembleFrame] in E.
  destruct (beamElement F (mBeam m0) (mVals m0 u)) as [| |m] eqn:EM; try discriminate E. cbn [bind] in E.
  destruct (run_add (fK S) _) as [| |K]; try discriminate E. cbn [bind] in E. destruct (run_add (fB S) _) as [| |B]; try discriminate E. cbn [bind] in E.
  destruct Hm as [<-|Hm]; [exists m; exact EM|exact (IH _ E mb Hm)].
Qed.
Theorem frame_accepted c nnod mbs u : (forall mb, In mb mbs -> inFrame nnod mb) ->
  ((exists S, frameSystem c nnod mbs u = Ret S) <->
   forall mb, In mb mbs -> / 10 ^ 8 < bL (mBeam mb) /\ (hasEcc (mBeam mb) = true -> Modes.isPos (Modes.prm c 3%nat) = true \/ forall i, (1 <= i <= 12)%nat -> mVals mb u i = 0)).
Proof.
  intros HI. assert (HG : eKg (beamSlots c Modes.STATIC) = if Modes.isPos (Modes.prm c 3%nat) then 0%nat else 1%nat) by (unfold beamSlots, slotsOf; cbn; destruct (Modes.isPos _); reflexivity).
  assert (ND : forall d v, (forall i, (1 <= i <= 12)%nat -> v i = 0) -> 0 < bL d -> hasDis d v = false).
  { intros d v Hv HL. assert (NG : forall k, (1 <= k <= 12)%nat -> gtb (Rabs (v k)) (/ 10 ^ 16 * bL d) = false).
    { intros k Hk. rewrite Hv, Rabs_R0 by exact Hk. unfold gtb. destruct (Rlt_dec _ _) as [Q|]; [|reflexivity].
      assert (0 < / 10 ^ 16) by (apply Rinv_0_lt_compat, pow_lt; lra). nra. }
    unfold hasDis, larger. cbn [existsb seq]. rewrite !NG by lia. reflexivity. }
  split.
  - intros [S E] mb Hm. destruct (frame_members _ _ _ _ _ E mb Hm) as [m EM].
    destruct (proj1 (accepts _ _ _) (ex_intro _ m EM)) as [A1 A2]. split; [exact A1|]. intros HE. destruct (A2 HE) as [[B1|B1] B2].
    + left. rewrite HG in B1. destruct (Modes.isPos _); [reflexivity|discriminate B1].
    + destruct (static_slots c) as [L1 [_ [_ [L4 _]]]]. destruct B2 as [B2|[B2|[_ B2]]]; [rewrite L4 in B2; discriminate B2|right; exact B2|].
      left. rewrite HG, L1 in B2. destruct (Modes.isPos _); [reflexivity|exfalso; now apply B2].
  - intros H. apply (frame_exists _ nnod); try reflexivity; [exact HI|]. intros mb Hm. destruct (H mb Hm) as [A1 A2]. apply accepts. split; [exact A1|].
    intros HE. destruct (static_slots c) as [L1 [_ [_ [L4 _]]]]. rewrite L1, HG. destruct (A2 HE) as [P|Z].
    + rewrite P. split; [left; reflexivity|]. right. right. split; [lia|discriminate].
    + split; [right|right; left; exact Z]. apply ND; [exact Z|]. assert (0 < / 10 ^ 8) by (apply Rinv_0_lt_compat, pow_lt; lra). lra.
Qed.
