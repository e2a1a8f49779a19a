(** C150: frames of beams: reactions, loads and weight are in equilibrium, and the energies agree. *)
From Coquelicot Require Import Coquelicot.
From Verif Require Import Lib.Base Lib.Sums Lib.Writes Lib.Vec3 Model.Beam Model.Section Model.BeamElm Spec.Beam Spec.BeamElm.
From Verif Require Import Proofs.Beam Proofs.BeamThy Proofs.BeamMass Proofs.BeamElm Proofs.BeamElmFin Proofs.BeamElmThm Proofs.BeamElmCex Model.Frame Spec.Frame Proofs.Frame.
From Verif Require Model.Modes.
Import ListNotations.

(** The residual of the assembled system does the work of the weight less that of the member forces, and its matrix is
    the sum of the elastic and geometric forms of the members, in any motion. *)
Theorem C150_system : forall c nnod mbs u S, (forall mb, In mb mbs -> inFrame nnod mb /\ regular (mBeam mb)) -> notedAll mbs u ->
  frameSystem c nnod mbs u = Ret S ->
  (forall v w, bil (6 * nnod) (el (fK S)) v w = aFrame mbs v w + kgFrame (beamSlots c Modes.STATIC) mbs u v w) /\
  (forall v, fwork nnod (fun i => el (fB S) i 1%nat) v = wFrame (beamSlots c Modes.STATIC) mbs v - aFrame mbs v u).
Proof. exact frame_forms. Qed.

(** Frames with members in range are assembled exactly when no member is shorter than 1e-8, and eccentric members are undisplaced
    or the analysis is marked linear. *)
Theorem C150_accepted : forall c nnod mbs u, (forall mb, In mb mbs -> inFrame nnod mb) ->
  ((exists S, frameSystem c nnod mbs u = Ret S) <->
   forall mb, In mb mbs -> / 10 ^ 8 < bL (mBeam mb) /\ (hasEcc (mBeam mb) = true -> Modes.isPos (Modes.prm c 3%nat) = true \/ forall i, (1 <= i <= 12)%nat -> mVals mb u i = 0)).
Proof. exact frame_accepted. Qed.

(** Reactions, loads and weights have no resultant force, whatever the eccentricities. *)
Theorem C150_force : forall c nnod mbs u S g r fx, (forall mb, In mb mbs -> inFrame nnod mb /\ regular (mBeam mb) /\ frame (bT (mBeam mb))) -> notedAll mbs u ->
  frameSystem c nnod mbs u = Ret S -> balanced nnod (fun i => el (fB S) i 1%nat) g r fx ->
  vadd (totalForce nnod r) (vadd (totalForce nnod g) (sumW weightOf mbs)) = vzero.
Proof. exact frame_force. Qed.

(** And no resultant moment, if the two ends of each member have the same eccentricity. *)
Theorem C150_moment_partial : forall c nnod mbs u S g r fx P, (forall mb, In mb mbs -> inFrame nnod mb /\ regular (mBeam mb) /\ spans P mb /\ E1 (mBeam mb) = E2 (mBeam mb)) -> notedAll mbs u ->
  frameSystem c nnod mbs u = Ret S -> balanced nnod (fun i => el (fB S) i 1%nat) g r fx ->
  vadd (totalMoment nnod P r) (vadd (totalMoment nnod P g) (sumW (fun mb => vcross (centroid (mBeam mb) (vsub (P (node1 mb)) (E1 (mBeam mb)))) (weightOf mb)) mbs)) = vzero.
Proof. exact frame_moment. Qed.

(** Otherwise the reactions of an unloaded weightless frame can have a moment. *)
Definition skewBeam : beam := mkBeam 1 idT (V 0 1 0) vzero (unitProp 0) vzero 0 (/ 10 ^ 6).
Definition skewMember : member := mkMember 1 2 skewBeam.
Definition lineP (n : nat) : v3 := V (INR n - 1) 0 0.
Definition lin : Modes.config := cfg (QArith_base.Qmake 1 1).
Lemma skew_ecc : hasEcc skewBeam = true.
Proof.
  unfold hasEcc, skewBeam, isZero, gtb; cbn [bTol bE1 bE2 vx vy vz]. destruct (Rlt_dec (/ 10 ^ 6) (Rabs 1)) as [|C]; [rewrite !orb_true_r; reflexivity|].
  exfalso. apply C. rewrite Rabs_R1. assert (T := tol_small). lra.
Qed.
Lemma skew_ends v : ends skewBeam v = endMotion idT (V 0 1 0) vzero v.
Proof. unfold ends, E1, E2. rewrite skew_ecc. reflexivity. Qed.
Lemma idT_frame : frame idT.
Proof. split; unfold col, idT, vdot, vcross; cbn; try ring; f_equal; ring. Qed.
Lemma push_vals mb : node1 mb = 1%nat -> node2 mb = 2%nat -> forall i, (1 <= i <= 12)%nat -> mVals mb push i = kron i 7.
Proof. intros H1 H2 i Hi. unfold mVals. rewrite H1, H2. do 13 (destruct i as [|i]; [try lia; reflexivity|]). lia. Qed.
Lemma push_noted mb : node1 mb = 1%nat -> node2 mb = 2%nat -> bL (mBeam mb) = 1 -> hasDis (mBeam mb) (mVals mb push) = true.
Proof.
  intros H1 H2 HL. unfold hasDis, larger. apply existsb_exists. exists 7%nat. split; [apply in_seq; lia|].
  rewrite (push_vals mb H1 H2) by lia. rewrite HL. unfold gtb. replace (Rabs (kron 7 7)) with 1 by (unfold kron; cbn; now rewrite Rabs_R1).
  destruct (Rlt_dec _ _) as [|C]; [reflexivity|]. exfalso. apply C. rewrite Rmult_1_r, <- Rinv_1. apply Rinv_lt_contravar; [rewrite Rmult_1_l; apply pow_lt; lra|]. apply Rlt_pow_R1; [lra|lia].
Qed.
Theorem C150_moment_refuted : exists c mb u S r P, inFrame 2 mb /\ regular (mBeam mb) /\ spans P mb /\ notedAll [mb] u /\ weightOf mb = vzero /\
  frameSystem c 2 [mb] u = Ret S /\ balanced 2 (fun i => el (fB S) i 1%nat) (fun _ => 0) r (fun _ => True) /\ vz (totalMoment 2 P r) = -1.
Proof.
  assert (HI : inFrame 2 skewMember) by (split; cbn; lia).
  assert (RG : regular skewBeam) by (split; cbn; lra).
  assert (HN : notedAll [skewMember] push) by (intros mb [<-|[]]; left; apply push_noted; reflexivity).
  assert (GR : weightOf skewMember = vzero) by (unfold weightOf, skewMember, skewBeam; cbn [mBeam bTol bGrav]; rewrite isZero_zero by (assert (T := tol_small); lra); reflexivity).
  assert (AC : exists S, frameSystem lin 2 [skewMember] push = Ret S).
  { apply C150_accepted; [intros mb [<-|[]]; exact HI|]. intros mb [<-|[]]. split; [|intros _; left; reflexivity].
    cbn [mBeam skewMember skewBeam bL]. rewrite <- Rinv_1. apply Rinv_lt_contravar; [rewrite Rmult_1_l; apply pow_lt; lra|]. apply Rlt_pow_R1; [lra|lia]. }
  destruct AC as [S E]. exists lin, skewMember, push, S, (fun i => - el (fB S) i 1%nat), lineP.
  assert (SP : spans lineP skewMember) by (split; [exact idT_frame|unfold lineP, vadd, vscal, col, idT; cbn; f_equal; ring]).
  split; [exact HI|split; [exact RG|split; [exact SP|split; [exact HN|split; [exact GR|split; [exact E|split]]]]]].
  - intros i Hi. split; [ring|]. intros C. now elim C.
  - assert (H' : forall mb, In mb [skewMember] -> inFrame 2 mb /\ regular (mBeam mb)) by (intros mb [<-|[]]; split; assumption).
    destruct (C150_system lin 2 [skewMember] push S H' HN E) as [_ RS].
    set (v := rigidOf lineP vzero (V 0 0 1)). assert (HR := rigidOf_field lineP vzero (V 0 0 1)). fold v in HR.
    assert (FR := fwork_rigid 2 (fun i => - el (fB S) i 1%nat) lineP vzero (V 0 0 1) v HR).
    assert (FN : fwork 2 (fun i => - el (fB S) i 1%nat) v = - fwork 2 (fun i => el (fB S) i 1%nat) v) by (rewrite !fwork_sum; cbn [sumf Nat.mul Nat.add]; ring).
    rewrite FN, RS in FR.
    assert (W0 : wFrame (beamSlots lin Modes.STATIC) [skewMember] v = 0).
    { unfold wFrame, sumL. cbn [fold_right]. rewrite hasGr_static. cbn [mBeam skewMember skewBeam bTol bGrav]. rewrite isZero_zero by (assert (T := tol_small); lra). cbn [negb]. ring. }
    assert (A1 : aFrame [skewMember] v push = -1).
    { unfold aFrame, sumL. cbn [fold_right]. cbn [mBeam skewMember].
      rewrite (Proofs.Frame.bil_ext _ _ (ends skewBeam (rigidMotion vzero (V 0 0 1) (lineP 1) (lineP 2))) _ (ends skewBeam (fun i => kron i 7)))
        by (intros; apply ends_ext; intros; first [apply (rigid_vals lineP vzero (V 0 0 1) v skewMember 2 HI HR); assumption|apply (push_vals skewMember eq_refl eq_refl); assumption]).
      rewrite !skew_ends. unfold Km, skewBeam, unitProp; cbn [bL bP pEA pGIt pEIy pEIz pAly pAlz pSy pSz]. rewrite stiffness_bil by lra. cbn zeta. unfold atCentre. rewrite skewed0.
      unfold endMotion, along, disp1, disp2, rot1, rot2, dax, dtw, dkz, dgy, dky, dgz, rigidMotion, nodal, lineP, vadd, vsub, vcross, vdot, vzero, col, idT, kron. cbn. lra. }
    rewrite W0, A1 in FR. unfold vdot, vzero in FR. cbn [vx vy vz] in FR. lra.
Qed.

(** In equilibrium twice the strain energy of the members (the integrals of Timoshenko's theory) is the work of loads, reactions and weight. *)
Theorem C150_energy : forall c nnod mbs u S g r fx en, (forall mb, In mb mbs -> inFrame nnod mb /\ regular (mBeam mb)) -> notedAll mbs u ->
  frameSystem c nnod mbs u = Ret S -> balanced nnod (fun i => el (fB S) i 1%nat) g r fx -> (forall mb, In mb mbs -> twiceEnergy mb u (en mb)) ->
  sumL en mbs = fwork nnod g u + fwork nnod r u + wFrame (beamSlots c Modes.STATIC) mbs u.
Proof. exact frame_energy. Qed.
Theorem C150_energy_exists : forall mb u, bL (mBeam mb) <> 0 -> regular (mBeam mb) -> exists! e, twiceEnergy mb u e.
Proof.
  intros mb u HL HR. destruct (twice_exists mb u HL HR) as [e He]. exists e. split; [exact He|]. intros e' He'.
  rewrite (twice_value mb u e HL HR He), (twice_value mb u e' HL HR He'). reflexivity.
Qed.
(** The forces of one equilibrium do the same work in the displacements of another as the other way around. *)
Theorem C150_reciprocal : forall c nnod mbs u u' S S' g g' r r' fx fx', (forall mb, In mb mbs -> inFrame nnod mb /\ regular (mBeam mb)) -> notedAll mbs u -> notedAll mbs u' ->
  frameSystem c nnod mbs u = Ret S -> frameSystem c nnod mbs u' = Ret S' ->
  balanced nnod (fun i => el (fB S) i 1%nat) g r fx -> balanced nnod (fun i => el (fB S') i 1%nat) g' r' fx' ->
  fwork nnod g u' + fwork nnod r u' + wFrame (beamSlots c Modes.STATIC) mbs u' = fwork nnod g' u + fwork nnod r' u + wFrame (beamSlots c Modes.STATIC) mbs u.
Proof. exact frame_reciprocal. Qed.
(** A solution of the equations assembled at rest is in equilibrium: no iteration is needed, linear or not. *)
Theorem C150_step : forall c nnod mbs u S0 S g r fx, (forall mb, In mb mbs -> inFrame nnod mb /\ regular (mBeam mb)) -> notedAll mbs u ->
  frameSystem c nnod mbs (fun _ => 0) = Ret S0 -> frameSystem c nnod mbs u = Ret S ->
  (forall i, (1 <= i <= 6 * nnod)%nat -> mv (6 * nnod) (el (fK S0)) u i = el (fB S0) i 1%nat + g i + r i /\ (~ fx i -> r i = 0)) ->
  balanced nnod (fun i => el (fB S) i 1%nat) g r fx.
Proof. exact frame_step. Qed.
(** Two equilibria with the same loads and prescribed displacements differ by a motion that strains no member. *)
Theorem C150_unique : forall c nnod mbs u u' S S' g r r' fx, (forall mb, In mb mbs -> inFrame nnod mb /\ stiffPos (mBeam mb)) -> notedAll mbs u -> notedAll mbs u' ->
  frameSystem c nnod mbs u = Ret S -> frameSystem c nnod mbs u' = Ret S' ->
  balanced nnod (fun i => el (fB S) i 1%nat) g r fx -> balanced nnod (fun i => el (fB S') i 1%nat) g r' fx ->
  (forall i, (1 <= i <= 6 * nnod)%nat -> fx i \/ ~ fx i) -> (forall i, (1 <= i <= 6 * nnod)%nat -> fx i -> u i = u' i) ->
  forall mb, In mb mbs -> twiceEnergy mb (fun i => u i - u' i) 0.
Proof. exact frame_unique. Qed.

(** A unit beam along x, fixed at its first node and pulled by 1 at the second: the tip moves by 1, the reaction is -1. *)
Definition bar : member := mkMember 1 2 plainBeam.
Example C150_case : inFrame 2 bar /\ stiffPos plainBeam /\ spans lineP bar /\ notedAll [bar] push /\ exists S, frameSystem lin 2 [bar] push = Ret S /\
  balanced 2 (fun i => el (fB S) i 1%nat) (fun i => kron i 7) (fun i => - kron i 1) (fun i => (i <= 6)%nat).
Proof.
  assert (HI : inFrame 2 bar) by (split; cbn; lia).
  assert (HN : notedAll [bar] push) by (intros mb [<-|[]]; left; apply push_noted; reflexivity).
  split; [exact HI|split; [unfold stiffPos; cbn; lra|split; [split; [exact idT_frame|unfold lineP, vadd, vscal, col, idT; cbn; f_equal; ring]|split; [exact HN|]]]].
  assert (AC : exists S, frameSystem lin 2 [bar] push = Ret S).
  { apply C150_accepted; [intros mb [<-|[]]; exact HI|]. intros mb [<-|[]]. split; [apply unit_long|intros _; left; reflexivity]. }
  destruct AC as [S E]. exists S. split; [exact E|]. intros i Hi. change (6 * 2)%nat with 12%nat in Hi. split; [|intros C; unfold kron; destruct (Nat.eqb_spec i 1); [lia|ring]].
  assert (H' : forall mb, In mb [bar] -> inFrame 2 mb /\ regular (mBeam mb)) by (intros mb [<-|[]]; split; [exact HI|apply unit_regular]).
  destruct (C150_system lin 2 [bar] push S H' HN E) as [_ RS]. assert (Q := RS (fun k => kron k i)). rewrite fwork_unit in Q by exact Hi. rewrite Q.
  unfold wFrame, aFrame, sumL. cbn [fold_right]. rewrite hasGr_static. cbn [mBeam bar].
  replace (isZero (bTol plainBeam) (bGrav plainBeam)) with true by (symmetry; apply isZero_zero; assert (T := tol_small); cbn; lra). cbn [negb].
  rewrite (Proofs.Frame.bil_ext _ _ (fun k => kron k i) _ (fun k => kron k 7)).
  - unfold Km, plainBeam, unitBeam, unitProp; cbn [bL bP pEA pGIt pEIy pEIz pAly pAlz pSy pSz]. rewrite stiffness_bil by lra. cbn zeta. unfold atCentre. rewrite skewed0.
    unfold dax, dtw, dkz, dgy, dky, dgz. do 13 (destruct i as [|i]; [try lia; unfold kron; cbn [Nat.eqb]; lra|]). lia.
  - intros k Hk. unfold plainBeam. rewrite ends_id by (try assumption; apply unit_noecc).
    unfold mVals, bar; cbn [node1 node2]. do 13 (destruct k as [|k]; [try lia; reflexivity|]). lia.
  - intros k Hk. unfold plainBeam. rewrite ends_id by (try assumption; apply unit_noecc). now apply push_vals.
Qed.

Print Assumptions C150_system.
Print Assumptions C150_accepted.
Print Assumptions C150_force.
Print Assumptions C150_moment_partial.
Print Assumptions C150_moment_refuted.
Print Assumptions C150_energy.
Print Assumptions C150_energy_exists.
Print Assumptions C150_reciprocal.
Print Assumptions C150_step.
Print Assumptions C150_unique.
