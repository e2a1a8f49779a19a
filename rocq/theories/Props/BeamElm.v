(** C121: what the beam element delivers in each solution mode. *)
From Coquelicot Require Import Coquelicot.
From Verif Require Import Lib.Base Lib.Vec3 Model.Beam Model.Section Model.BeamElm Spec.Beam Spec.BeamElm.
From Verif Require Import Proofs.Beam Proofs.BeamMass Proofs.BeamElm Proofs.BeamElmFin Proofs.BeamElmThm Proofs.BeamElmCex.
From Verif Require Model.Modes.

(** Displacements are zero or larger than the threshold 1e-16 L. *)
Definition noted (d : beam) (u : nat -> R) : Prop := hasDis d u = true \/ (forall i, (1 <= i <= 12)%nat -> u i = 0).

(** What the abbreviations in the theorems below mean: the ends of a beam are those of the given eccentricities if one of
    them is not negligible, displacements count if one exceeds the threshold, and weight if gravity is not negligible. *)
Lemma gtb_iff a b : gtb a b = true <-> b < a.
Proof. unfold gtb. destruct (Rlt_dec b a); split; intros; try assumption; try reflexivity; try discriminate. contradiction. Qed.
Lemma isZero_iff tol e : isZero tol e = false <-> sizeable tol e.
Proof.
  unfold isZero, sizeable. rewrite negb_false_iff, !orb_true_iff, !gtb_iff. tauto.
Qed.
Theorem C121_meaning : forall d u v F,
  (sizeable (bTol d) (bE1 d) \/ sizeable (bTol d) (bE2 d) -> forall i, ends d v i = endMotion (bT d) (bE1 d) (bE2 d) v i) /\
  (bE1 d = vzero -> bE2 d = vzero -> forall i, ends d v i = endMotion (bT d) vzero vzero v i) /\
  (hasDis d u = true <-> exists i, (1 <= i <= 12)%nat /\ / 10 ^ 16 * bL d < Rabs (u i)) /\
  (hasGrF F d = true <-> sizeable (bTol d) (bGrav d) /\ (1 <= eS F)%nat).
Proof.
  intros d u v F. split; [|split; [|split]].
  - intros H i. unfold ends, E1, E2. replace (hasEcc d) with true; [reflexivity|]. symmetry. unfold hasEcc. apply orb_true_iff.
    rewrite !negb_true_iff. destruct H as [H|H]; apply isZero_iff in H; [left|right]; exact H.
  - intros A B i. unfold ends, E1, E2. rewrite A, B. now destruct (hasEcc d).
  - unfold hasDis, larger. rewrite existsb_exists. split; intros (i & A & B); exists i.
    + apply in_seq in A. apply gtb_iff in B. split; [lia|exact B].
    + split; [apply in_seq; lia|now apply gtb_iff].
  - unfold hasGrF. rewrite <- isZero_iff. destruct (isZero (bTol d) (bGrav d)); [split; [discriminate|intros [? _]; discriminate]|].
    rewrite Nat.leb_le. tauto.
Qed.

(** Nodal forces: weight minus the forces of the deformed beam, by their virtual work at the beam ends. *)
Theorem C121_forces : forall c md d u m v, let F := beamSlots c md in
  beamElement F d u = Ret m -> (1 <= iS F)%nat -> noted d u ->
  work v (eB m (iS F)) = (if hasGrF F d && (eS F =? iS F)%nat then gravityWork d v else 0) - bil 12 (Km d) (ends d v) (ends d u).
Proof. intros c md d u m v F H Hi HD. exact (residual F d u m v H (beamSlots_ok c md) Hi HD). Qed.
Theorem C121_external : forall c md d u m v, let F := beamSlots c md in
  beamElement F d u = Ret m -> (1 <= eS F)%nat -> eS F <> iS F -> work v (eB m (eS F)) = if hasGrF F d then gravityWork d v else 0.
Proof. intros c md d u m v F. exact (external F d u m v). Qed.

(** The nodal forces are in equilibrium with the weight acting at the centre of gravity,
    whatever the displacements. *)
Theorem C121_equilibrium : forall c md d u m P1 P2 X1 a om, let F := beamSlots c md in
  beamElement F d u = Ret m -> regular d -> (1 <= iS F)%nat -> noted d u -> placed d P1 P2 X1 ->
  work (rigidMotion a om P1 P2) (eB m (iS F)) =
  if hasGrF F d && (eS F =? iS F)%nat then forceWork (vscal (pRhoA (bP d) * bL d) (bGrav d)) (centroid d X1) a om else 0.
Proof. intros c md d u m P1 P2 X1 a om F H RG Hi HD Pl. exact (resultant F d u m P1 P2 X1 a om H RG (beamSlots_ok c md) Hi HD Pl). Qed.
Theorem C121_weight : forall d P1 P2 X1 a om, placed d P1 P2 X1 -> bL d <> 0 ->
  gravityWork d (rigidMotion a om P1 P2) = forceWork (vscal (pRhoA (bP d) * bL d) (bGrav d)) (centroid d X1) a om.
Proof. exact weight. Qed.

(** Stiffness and geometric stiffness by their forms in the motions of the beam ends; the axial
    force is the elongation times EA/L. *)
Theorem C121_stiffness : forall c md d u m v w, let F := beamSlots c md in
  beamElement F d u = Ret m -> regular d -> (1 <= eKm F)%nat ->
  bil 12 (eA m (eKm F)) v w = bil 12 (Km d) (ends d v) (ends d w) +
    if (eKg F =? eKm F)%nat then bil 12 (Kg (axialForce d u) d) (ends d v) (ends d w) else 0.
Proof. intros c md d u m v w F H RG Hk. exact (tangent F d u m v w H RG (beamSlots_ok c md) Hk). Qed.
Theorem C121_geometric : forall c md d u m v w, let F := beamSlots c md in
  beamElement F d u = Ret m -> regular d -> (1 <= eKg F)%nat -> eKg F <> eKm F ->
  bil 12 (eA m (eKg F)) v w = bil 12 (Kg (axialForce d u) d) (ends d v) (ends d w).
Proof. intros c md d u m v w F H RG Hk. exact (geometricPart F d u m v w H RG (beamSlots_ok c md) Hk). Qed.

(** With the geometric part in another matrix or absent, the stiffness is the change of the forces. *)
Theorem C121_consistent_partial : forall c md d u u' m m' v, let F := beamSlots c md in
  beamElement F d u = Ret m -> beamElement F d u' = Ret m' -> regular d -> (1 <= iS F)%nat -> (1 <= eKm F)%nat -> eKg F <> eKm F ->
  noted d u -> noted d u' ->
  work v (eB m' (iS F)) - work v (eB m (iS F)) = - bil 12 (eA m (eKm F)) v (fun i => u' i - u i).
Proof. intros c md d u u' m m' v F H H' RG Hi Hk G. exact (consistent F d u u' m m' v H H' RG (beamSlots_ok c md) Hi Hk G). Qed.
(** In a static analysis that is not marked linear the two differ. *)
Theorem C121_consistent_refuted : exists c d (u : R -> nat -> R) v q, let F := beamSlots c Modes.STATIC in
  frame (bT d) /\ regular d /\ (forall s, exists m, beamElement F d (u s) = Ret m) /\ (forall s i, u s i = u 0 i + s * v i) /\
  is_derive (fun s => work v (force1 (beamElement F d (u s)))) 0 q /\ q <> - bil 12 (mat1 (beamElement F d (u 0))) v v.
Proof.
  exists (cfg (QArith_base.Qmake 0 1)), plainBeam, stretch, dirY, (-12). cbn zeta. change (beamSlots (cfg (QArith_base.Qmake 0 1)) Modes.STATIC) with staticNL.
  split; [exact idT_frame|]. split; [apply unit_regular|]. split; [exact stretch_accepted|]. split; [intros; unfold stretch, dirY; ring|].
  split; [exact stretch_derive|]. rewrite stretch_matrix. lra.
Qed.

(** Linear momentum of the mass matrix in rigid motions. *)
Theorem C121_momentum_partial : forall c md d u m P1 P2 X1 a om g, let F := beamSlots c md in
  beamElement F d u = Ret m -> (1 <= eM F)%nat -> bLump d <> 2%Z -> placed d P1 P2 X1 ->
  bil 12 (eA m (eM F)) (rigidMotion a om P1 P2) (rigidMotion g vzero P1 P2) = forceWork (vscal (pRhoA (bP d) * bL d) g) (centroid d X1) a om.
Proof. intros c md d u m P1 P2 X1 a om g F. exact (momentum F d u m P1 P2 X1 a om g). Qed.
(** The second lumped version leaves the coupling terms in the beam axes. *)
Theorem C121_momentum_refuted : exists c d u m P1 P2 X1 a om g, let F := beamSlots c Modes.VIBRATION in
  beamElement F d u = Ret m /\ bLump d = 2%Z /\ placed d P1 P2 X1 /\
  bil 12 (eA m (eM F)) (rigidMotion a om P1 P2) (rigidMotion g vzero P1 P2) <> forceWork (vscal (pRhoA (bP d) * bL d) g) (centroid d X1) a om.
Proof.
  destruct (lump_accepted 2) as [m H]. exists (cfg (QArith_base.Qmake 0 1)), (lumpBeam 2), (fun _ => 0), m, vzero, (V 0 1 0), vzero, vzero, (V 0 0 1), (V 1 0 0).
  split; [exact H|]. split; [reflexivity|]. split; [apply lump_placed|]. now apply lump_wrong.
Qed.

(** Exactly when an element is accepted. *)
Theorem C121_accepted_partial : forall F d u, (exists m, beamElement F d u = Ret m) <->
  / 10 ^ 8 < bL d /\ (hasEcc d = true -> (eKg F = 0%nat \/ hasDis d u = false) /\
     (iS F = 0%nat \/ (forall i, (1 <= i <= 12)%nat -> u i = 0) \/ ((1 <= eKm F)%nat /\ eKg F <> eKm F))).
Proof. exact accepts. Qed.
(** A displaced eccentric element accepted in linear statics is refused when only forces are
    wanted and in statics that is not marked linear. *)
Theorem C121_accepted_refuted : exists lin nl d u,
  (exists m, beamElement (beamSlots lin Modes.STATIC) d u = Ret m) /\
  ~ (exists m, beamElement (beamSlots nl Modes.STATIC) d u = Ret m) /\
  ~ (exists m, beamElement (beamSlots lin Modes.RHS_ONLY) d u = Ret m) /\
  ~ (exists m, beamElement (beamSlots lin Modes.INT_FORCES) d u = Ret m).
Proof. exists (cfg (QArith_base.Qmake 1 1)), (cfg (QArith_base.Qmake 0 1)), eccBeam, push. exact ecc_modes. Qed.

(** Unit beam along y with its centre of gravity 1 off the axis (towards -x), under gravity -10 in z, displaced:
    the moment about x is -10 * 1/2, about y -10. *)
Definition heavy : beam := unitBeam sideT vzero 1 (V 0 0 (-10)) 0.
Example C121_case : placed heavy vzero (V 0 1 0) vzero /\ exists m, beamElement (beamSlots (cfg (QArith_base.Qmake 1 1)) Modes.STATIC) heavy push = Ret m /\
  work (rigidMotion vzero (V 1 0 0) vzero (V 0 1 0)) (eB m 1) = - 5 /\ work (rigidMotion vzero (V 0 1 0) vzero (V 0 1 0)) (eB m 1) = - 10.
Proof.
  assert (Pl : placed heavy vzero (V 0 1 0) vzero).
  { unfold placed, E1, E2, heavy. rewrite unit_noecc. cbn [bT bL unitBeam]. split; [apply sideT_frame|]. unfold vadd, vscal, col, vzero, sideT; cbn. split; f_equal; ring. }
  split; [exact Pl|].
  assert (A : exists m, beamElement (beamSlots (cfg (QArith_base.Qmake 1 1)) Modes.STATIC) heavy push = Ret m).
  { apply C121_accepted_partial. split; [apply unit_long|]. unfold heavy. rewrite unit_noecc. discriminate. }
  destruct A as [m H]. exists m. split; [exact H|].
  assert (HD : noted heavy push) by (left; apply (unit_dis _ _ _ _ _ _ 7%nat); [lia|reflexivity]).
  assert (G : hasGrF (beamSlots (cfg (QArith_base.Qmake 1 1)) Modes.STATIC) heavy = true).
  { unfold hasGrF, heavy, unitBeam, isZero, gtb; cbn [bTol bGrav vx vy vz]. destruct (Rlt_dec (/ 10 ^ 6) (Rabs (-10))) as [|C].
    - rewrite orb_true_r. reflexivity.
    - exfalso. apply C. rewrite Rabs_left by lra. assert (T := tol_small). lra. }
  assert (Q := fun om => C121_equilibrium _ _ heavy push m vzero (V 0 1 0) vzero vzero om H (unit_regular _ _ _ _ _) ltac:(cbn; lia) HD Pl).
  cbv zeta in Q. rewrite G in Q. cbn [andb] in Q. change (iS (beamSlots (cfg (QArith_base.Qmake 1 1)) Modes.STATIC)) with 1%nat in Q.
  change (eS (beamSlots (cfg (QArith_base.Qmake 1 1)) Modes.STATIC)) with 1%nat in Q. cbn [Nat.eqb] in Q. rewrite !Q.
  unfold forceWork, centroid, heavy, unitBeam, unitProp, vdot, vadd, vcross, vscal, vzero, col, sideT; cbn. split; lra.
Qed.

Print Assumptions C121_meaning.
Print Assumptions C121_forces.
Print Assumptions C121_external.
Print Assumptions C121_equilibrium.
Print Assumptions C121_weight.
Print Assumptions C121_stiffness.
Print Assumptions C121_geometric.
Print Assumptions C121_consistent_partial.
Print Assumptions C121_consistent_refuted.
Print Assumptions C121_momentum_partial.
Print Assumptions C121_momentum_refuted.
Print Assumptions C121_accepted_partial.
Print Assumptions C121_accepted_refuted.
