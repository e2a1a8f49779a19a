(** Contact against rigid bodies (C38-C41). *)
From Coq Require Import List Arith Bool Reals Lra Lia Permutation.
From Coquelicot Require Import Coquelicot.
From Verif Require Import Lib.Base Lib.Sums Lib.Writes Lib.Vec3 Model.Rigid Spec.Rigid Proofs.Rigid
  Model.Mortar Spec.Mortar Proofs.Mortar Proofs.MortarTan.
Import ListNotations.

(** ** C38 *)
Theorem C38_sphere_gap : forall r C X, 0 <= r -> epsZ < vlen (vsub X C) ->
  let '(g, n, _) := sphereGap r C X in signedDistance (onSphere C r) (inSphere C r) X g n.
Proof. exact sphere_distance. Qed.

Theorem C38_sphere_outward : forall r C X s, epsZ < vlen (vsub X C) -> 0 <= s ->
  let '(g, n, _) := sphereGap r C X in fst (fst (sphereGap r C (vadd X (vscal s n)))) = g + s.
Proof. exact sphere_outward. Qed.

Theorem C38_sphere_stiffness : forall r C X n0, epsZ < vlen (vsub X C) ->
  let '(n, Tg, _) := sphereStiff C X n0 in
  n = snd (fst (sphereGap r C X)) /\
  (forall i j, Tg i j = Tg j i) /\
  (forall v, 0 <= vx v * mv3 Tg v 1 + vy v * mv3 Tg v 2 + vz v * mv3 Tg v 3) /\
  (forall i, (1 <= i <= 3)%nat -> mv3 Tg n i = 0) /\
  (forall v i, (1 <= i <= 3)%nat -> is_derive (fun s : R => vc (snd (fst (sphereGap r C (vadd X (vscal s v))))) i) 0 (mv3 Tg v i)).
Proof. exact sphere_stiffness. Qed.

Theorem C38_cylinder_gap : forall nsd r C d L X, 0 <= r -> vdot d d = 1 -> epsZ < vlen (radial C d X) ->
  let '(g, n, _) := cylGap nsd r C d L X in
  signedDistance (onCylinder C d r) (inCylinder C d r) X g n /\ vdot d n = 0.
Proof. exact cylinder_distance. Qed.

Theorem C38_cylinder_weights : forall X1 X2 d L r X, cylAxis X1 X2 = Some (d, L) ->
  let '(_, _, N) := cylGap 3 r X1 d L X in
  vdot d d = 1 /\ total N = 1 /\ place N [X1; X2] = vsub X (radial X1 d X).
Proof. exact cylinder_weights. Qed.

Theorem C38_cylinder_stiffness : forall nsd r C d L X n0, vdot d d = 1 -> epsZ < vlen (radial C d X) ->
  let '(n, Tg, N) := cylStiff nsd C d L X n0 in
  n = snd (fst (cylGap nsd r C d L X)) /\ N = snd (cylGap nsd r C d L X) /\
  (forall i j, Tg i j = Tg j i) /\
  (forall v, 0 <= vx v * mv3 Tg v 1 + vy v * mv3 Tg v 2 + vz v * mv3 Tg v 3) /\
  (forall i, (1 <= i <= 3)%nat -> mv3 Tg n i = 0 /\ mv3 Tg d i = 0) /\
  (forall v i, (1 <= i <= 3)%nat -> is_derive (fun s : R => vc (snd (fst (cylGap nsd r C d L (vadd X (vscal s v))))) i) 0 (mv3 Tg v i)).
Proof. exact cylinder_stiffness. Qed.

(** A body moved with its points: the gap of a point that moves along is unchanged. *)
Lemma update_moved nsd X0 Xn u : nsd = 3%nat \/ (vz Xn = vz X0 /\ vz u = 0) -> updatePoint nsd X0 Xn (Some u) = vadd X0 u.
Proof. intros H. unfold updatePoint, vadd. destruct (nsd =? 3)%nat eqn:E; [reflexivity|]. destruct H as [->|[-> ->]]; [discriminate|]. f_equal. ring. Qed.
Theorem C38_moves_along : forall nsd r X0 Xn u X, nsd = 3%nat \/ (vz Xn = vz X0 /\ vz u = 0) ->
  sphereGap r (updatePoint nsd X0 Xn (Some u)) (vadd X u) = sphereGap r X0 X /\
  forall d L, cylGap nsd r (updatePoint nsd X0 Xn (Some u)) d L (vadd X u) = cylGap nsd r X0 d L X.
Proof.
  intros nsd r X0 Xn u X H. rewrite (update_moved _ _ _ _ H).
  assert (E : vsub (vadd X u) (vadd X0 u) = vsub X X0) by (clear; revert X X0 u; veq). split; [unfold sphereGap; now rewrite E|]. intros d L. unfold cylGap. now rewrite E.
Qed.

Lemma epsZ_small : epsZ < 1 /\ 0 < epsZ.
Proof. unfold epsZ. assert (H : 1 < 10 ^ 16) by lra. split; [|apply Rinv_0_lt_compat; lra]. rewrite <- Rinv_1. apply Rinv_lt_contravar; lra. Qed.

Lemma vlen_sqr v l : 0 <= l -> vx v * vx v + vy v * vy v + vz v * vz v = l * l -> vlen v = l.
Proof. intros Hl H. unfold vlen, vdot. rewrite H. now apply sqrt_square. Qed.

(** Unit sphere at the origin, seen from (3,4,0): gap 4, normal (3/5,4/5,0). *)
Example C38_sphere_case : epsZ < vlen (vsub (V 3 4 0) vzero) /\ sphereGap 1 vzero (V 3 4 0) = (5 - 1, vscal (/ 5) (vsub (V 3 4 0) vzero), [1]).
Proof.
  assert (E : vlen (vsub (V 3 4 0) vzero) = 5) by (apply vlen_sqr; [lra|cbn; ring]). assert (S := epsZ_small).
  split; [lra|]. unfold sphereGap, normalize. rewrite E. destruct (Rle_dec 5 epsZ); [lra|reflexivity].
Qed.

(** Cylinder about the z axis from the origin to (0,0,2), point (3,4,1) half-way. *)
Example C38_cylinder_case : exists d, cylAxis vzero (V 0 0 2) = Some (d, 2) /\ d = V 0 0 1 /\
  epsZ < vlen (radial vzero d (V 3 4 1)) /\ snd (cylGap 3 1 vzero d 2 (V 3 4 1)) = [1 / 2; 1 / 2].
Proof.
  assert (S := epsZ_small). assert (E : vlen (vsub (V 0 0 2) vzero) = 2) by (apply vlen_sqr; [lra|cbn; ring]).
  exists (V 0 0 1). split; [|split; [reflexivity|split]].
  - unfold cylAxis, normalize. rewrite E. destruct (Rle_dec 2 epsZ); [lra|]. f_equal. f_equal. unfold vscal, vsub, vzero; cbn. f_equal; field.
  - assert (F : vlen (radial vzero (V 0 0 1) (V 3 4 1)) = 5) by (apply vlen_sqr; [lra|unfold radial, vsub, vscal, vdot, vzero; cbn; ring]). lra.
  - unfold cylGap, normalize, cylWeights, vdot, vsub, vzero; cbn. f_equal; [field|f_equal; field].
Qed.

(** ** C39 *)

(** The weights sum to one, and place the force at the projection exactly on the diagonal
    [p = q >= 0] of the plane spanned by the three points ... *)
Theorem C39_plane_projection_partial : forall X1 X2 X3 n a g p q, planeUpdate 3 X1 X2 X3 = Some (n, a) ->
  let P := vadd X1 (vadd (vscal p (vsub X2 X1)) (vscal q (vsub X3 X1))) in
  let '(_, _, N) := planeGap 3 X1 X2 X3 n a (vadd P (vscal g n)) in
  total N = 1 /\ (place N [X1; X2; X3] = P <-> p = q /\ 0 <= p).
Proof. exact plane_projection_iff. Qed.

(** ... and in two dimensions exactly on the side of the second point. *)
Theorem C39_line_projection_partial : forall X1 X2 n a g p, vz X1 = 0 -> vz X2 = 0 -> planeUpdate 2 X1 X2 vzero = Some (n, a) ->
  let P := vadd X1 (vscal p (vsub X2 X1)) in
  let '(g', m, N) := planeGap 2 X1 X2 vzero n a (vadd P (vscal g n)) in
  g' = g /\ m = n /\ vlen n = 1 /\ vdot n (vsub X2 X1) = 0 /\ total N = 1 /\ (place N [X1; X2] = P <-> 0 <= p).
Proof. exact plane2_projection. Qed.

Theorem C39_plane_gap : forall X1 X2 X3 n a X, planeUpdate 3 X1 X2 X3 = Some (n, a) ->
  let '(g, m, _) := planeGap 3 X1 X2 X3 n a X in
  signedDistance (fun P => vdot (vsub P X1) n = 0) (fun P => vdot (vsub P X1) n < 0) X g m /\
  vdot m (vsub X2 X1) = 0 /\ vdot m (vsub X3 X1) = 0.
Proof. exact plane_distance. Qed.

Lemma unit_triangle : planeUpdate 3 vzero (V 1 0 0) (V 0 1 0) = Some (V 0 0 1, 1).
Proof.
  assert (S := epsZ_small). unfold planeUpdate. cbn [Nat.eqb]. unfold normalize.
  assert (E : vlen (vcross (vsub (V 1 0 0) vzero) (vsub (V 0 1 0) vzero)) = 1) by (apply vlen_sqr; [lra|cbn; ring]).
  rewrite E. destruct (Rle_dec 1 epsZ); [lra|]. f_equal. f_equal. unfold vscal, vcross, vsub, vzero; cbn. f_equal; field.
Qed.

(** A slave point above the second master point puts its force on the third. *)
Theorem C39_weights_swapped_refuted : exists X1 X2 X3 n a g, planeUpdate 3 X1 X2 X3 = Some (n, a) /\ X2 <> X3 /\
  let '(_, _, N) := planeGap 3 X1 X2 X3 n a (vadd X2 (vscal g n)) in place N [X1; X2; X3] = X3.
Proof.
  exists vzero, (V 1 0 0), (V 0 1 0), (V 0 0 1), 1, (-1). split; [exact unit_triangle|]. split; [intros H; injection H; lra|].
  assert (W := plane_weights vzero (V 1 0 0) (V 0 1 0) (V 0 0 1) 1 (-1) 1 0 unit_triangle). cbn zeta in W.
  match type of W with planeGap _ _ _ _ _ _ ?A = _ => replace (vadd (V 1 0 0) (vscal (-1) (V 0 0 1))) with A by (unfold vadd, vsub, vscal, vzero; cbn; f_equal; ring) end.
  rewrite W. rewrite Rabs_R0, Rabs_R1. cbn [place]. unfold vadd, vscal, vzero; cbn. f_equal; ring.
Qed.

Lemma unit_line : planeUpdate 2 vzero (V 1 0 0) vzero = Some (V 0 1 0, 1).
Proof.
  assert (S := epsZ_small). unfold planeUpdate. cbn [Nat.eqb]. unfold normalize.
  assert (E : vlen (vsub (V 1 0 0) vzero) = 1) by (apply vlen_sqr; [lra|cbn; ring]).
  rewrite E. destruct (Rle_dec 1 epsZ); [lra|]. f_equal. f_equal. unfold vscal, vsub, vzero; cbn. f_equal; field.
Qed.

(** In two dimensions a point behind the first master point has its force mirrored. *)
Theorem C39_line_mirrored_refuted : exists X1 X2 n a P g, vz X1 = 0 /\ vz X2 = 0 /\ planeUpdate 2 X1 X2 vzero = Some (n, a) /\
  vdot (vsub P X1) n = 0 /\ let '(_, _, N) := planeGap 2 X1 X2 vzero n a (vadd P (vscal g n)) in place N [X1; X2] <> P.
Proof.
  exists vzero, (V 1 0 0), (V 0 1 0), 1, (V (-1) 0 0), (-1). split; [reflexivity|]. split; [reflexivity|]. split; [exact unit_line|].
  split; [unfold vdot, vsub, vzero; cbn; ring|].
  assert (W := plane2_projection vzero (V 1 0 0) (V 0 1 0) 1 (-1) (-1) eq_refl eq_refl unit_line). cbn zeta in W.
  replace (V (-1) 0 0) with (vadd vzero (vscal (-1) (vsub (V 1 0 0) vzero))) by (unfold vadd, vsub, vscal, vzero; cbn; f_equal; ring).
  destruct (planeGap 2 _ _ _ _ _ _) as [[g' m] N]. destruct W as [_ [_ [_ [_ [_ W]]]]]. rewrite W. lra.
Qed.

(** ** C40 *)

(** Forces of an integration point on slave and master nodes sum to zero, direction by direction. *)
Theorem C40_forces_balance : forall npv ns nm Ns Nm mN lambda w M, rows M = (npv * (ns + nm))%nat -> cols M = 1%nat ->
  sumf ns Ns = sumf nm Nm ->
  exists M', accRes npv ns nm Ns Nm mN lambda w M = Ret M' /\
    forall l, (1 <= l <= npv)%nat -> sumf (ns + nm) (fun j => el M' (dof npv j l) 1) = sumf (ns + nm) (fun j => el M (dof npv j l) 1).
Proof. exact forces_balance. Qed.

(** The residual of a penalty element is the mortar matrix times the nodal gaps. *)
Theorem C40_residual : forall nsd e eps g, exists R P, penaltyRes nsd e eps g = Ret R /\ elmPhi nsd e = Ret P /\
  forall i k, (1 <= i <= nen e + nmast e)%nat -> (1 <= k <= nsd)%nat ->
    el R (dof nsd i k) 1 = - eps * sumf (nen e) (fun j => el P (dof nsd i k) j * g j).
Proof. exact residual_is_phi. Qed.

(** Each column of the assembled mortar matrix is balanced. *)
Theorem C40_mortar_balance : forall nsd nNod nSlv els M k n, (forall e, In e els -> goodElm nNod nSlv e) ->
  mortarPhi nsd nNod nSlv els = Ret M -> (1 <= k <= nsd)%nat -> (1 <= n)%nat -> sumf nNod (fun a => el M (dof nsd a k) n) = 0.
Proof. exact phi_balance. Qed.

(** The assembled material part of the tangent: symmetric, the energy of springs at the
    active nodes, positive semi-definite, and free of resistance to common translations. *)
Theorem C40_spring_tangent : forall nsd nNod nSlv eps els A P active K, (1 <= nsd)%nat -> 0 <= eps ->
  (forall e, In e els -> goodElm nNod nSlv e) ->
  mortarAA nSlv els = Ret A -> mortarPhi nsd nNod nSlv els = Ret P ->
  tangent nsd nNod nSlv eps (fun n => el A n 1) (el P) active (zeros (nsd * nNod) (nsd * nNod)) = Ret K ->
  symm (nsd * nNod) (el K) /\ (forall u, 0 <= quad (nsd * nNod) (el K) u) /\
  (forall u, quad (nsd * nNod) (el K) u = springEnergy (nsd * nNod) eps (fun n => el A n 1) (el P) (activeNodes (fun n => el A n 1) active) u) /\
  (forall t I, (1 <= I <= nsd * nNod)%nat -> mv (nsd * nNod) (el K) (translation nsd t) I = 0).
Proof. exact contact_tangent. Qed.

(** The geometric part resists a common translation with twice the slave stiffness; what the
    claim needs is that this vanishes. *)
Theorem C40_geometric_translation_partial : forall npv ns nm Ns Nm Tg lambda w M,
  rows M = (npv * (ns + nm))%nat -> cols M = (npv * (ns + nm))%nat -> sumf ns Ns = 1 -> sumf nm Nm = 1 ->
  exists M', accTan npv ns nm Ns Nm Tg false lambda w M = Ret M' /\
    forall i k l, (1 <= i <= ns + nm)%nat -> (1 <= k <= npv)%nat -> (1 <= l <= npv)%nat ->
      sumf (ns + nm) (fun j => el M' (dof npv i k) (dof npv j l)) =
      sumf (ns + nm) (fun j => el M (dof npv i k) (dof npv j l)) + 2 * pNint ns Ns lambda w * shape ns Ns Nm i * Tg k l.
Proof. exact translation_force. Qed.

(** Contact of one slave point with a unit sphere: the tangent resists a sideways translation
    of slave and sphere together. *)
Theorem C40_geometric_translation_refuted : exists C X Tg K, fst (sphereStiff C X vzero) = (snd (fst (sphereGap 1 C X)), Tg) /\
  accTan 3 1 1 (fun _ => 1) (fun _ => 1) Tg false (fun _ => -1) 1 (zeros 6 6) = Ret K /\
  sumf 2 (fun j => el K (dof 3 1 2) (dof 3 j 2)) <> 0.
Proof.
  assert (S := epsZ_small). assert (E : vlen (vsub (V 2 0 0) vzero) = 2) by (apply vlen_sqr; [lra|cbn; ring]).
  exists vzero, (V 2 0 0). unfold sphereStiff, sphereGap, normalize. rewrite E. destruct (Rle_dec 2 epsZ); [lra|]. destruct (Rlt_dec epsZ 2); [|lra]. cbn [fst snd].
  set (Tg := fun i j => (kron i j - _) / 2).
  destruct (translation_force 3 1 1 (fun _ => 1) (fun _ => 1) Tg (fun _ => -1) 1 (zeros 6 6) eq_refl eq_refl ltac:(cbn; ring) ltac:(cbn; ring)) as [K [EK V]].
  exists Tg, K. split; [reflexivity|]. split; [exact EK|]. assert (V' := V 1%nat 2%nat 2%nat ltac:(lia) ltac:(lia) ltac:(lia)). change (1 + 1)%nat with 2%nat in V'. rewrite V'. unfold Tg, pNint, shape, kron, vc, vscal, vsub, vzero. cbn. lra.
Qed.

(** Two slave nodes and one master point in the plane, one integration point with normal (0,1). *)
Definition pt0 := mkPoint (fun _ => 1 / 2) (fun _ => 1) (fun k => if (k =? 2)%nat then 1 else 0) 2 (-3).
Definition elm0 := mkElm 2 1 (fun j => j) [pt0].
Lemma elm0_good : goodElm 3 2 elm0.
Proof.
  constructor.
  - split; cbn; intros; lia.
  - cbn. intros; lia.
  - cbn. intros p [<-|[]]. cbn. repeat split; try lra; intros; lia.
Qed.
Example C40_case : (forall e, In e [elm0] -> goodElm 3 2 e) /\
  exists A P K, mortarAA 2 [elm0] = Ret A /\ mortarPhi 2 3 2 [elm0] = Ret P /\ el A 1 1 = 1 /\ el P (dof 2 1 2) 1 = 1 / 2 /\ el P (dof 2 3 2) 1 = -1 /\
  tangent 2 3 2 10 (fun n => el A n 1) (el P) [true; true] (zeros 6 6) = Ret K /\ el K (dof 2 3 2) (dof 2 3 2) = 20.
Proof.
  assert (G : forall e, In e [elm0] -> goodElm 3 2 e) by (intros e [<-|[]]; exact elm0_good). split; [exact G|].
  assert (W : forall e, In e [elm0] -> wfElm 3 2 e) by (intros e He; apply (ge_wf _ _ _ (G e He))).
  destruct (vec_entries 3 2 elmAA [elm0] W) as [A [EA VA]]. destruct (phi_entries 2 3 2 [elm0] W) as [P [EP VP]].
  assert (A1 : forall n, (1 <= n <= 2)%nat -> el A n 1 = 1).
  { intros n Hn. rewrite VA by lia. assert (n = 1 \/ n = 2)%nat as [-> | ->] by lia; unfold sumL, vecShare, onNode, elmAA; cbn; field. }
  destruct (tangent_entries 2 3 2 10 (fun n => el A n 1) (el P) [true; true] ltac:(lia) (zeros 6 6) eq_refl eq_refl) as [K [EK [_ [_ VK]]]].
  exists A, P, K. split; [exact EA|]. split; [exact EP|]. split; [apply A1; lia|].
  assert (P1 : el P (dof 2 1 2) 1 = 1 / 2) by (rewrite VP by lia; unfold sumL, elmShare, phiVal, onNode, sumL; cbn; field).
  assert (P3 : forall n, (1 <= n <= 2)%nat -> el P (dof 2 3 2) n = -1).
  { intros n Hn. rewrite VP by lia. assert (n = 1 \/ n = 2)%nat as [-> | ->] by lia; unfold sumL, elmShare, phiVal, onNode, sumL; cbn; field. }
  split; [exact P1|]. split; [apply P3; lia|]. split; [exact EK|]. rewrite VK by lia. unfold skip, springs. cbn [length Nat.leb andb orb sumf zeros el].
  rewrite !P3, !A1 by lia. destruct (Rlt_dec 0 1); [|lra]. cbn. field.
Qed.

(** ** C41 *)

(** Contact condition and active set agree, except that the first node keeps its old flag in
    the first iteration of the first step. *)
Theorem C41_active_iff_partial : forall first it nSlv test old k, (1 <= k)%nat ->
  isActive (activeSet first it nSlv test old) k =
  ((k <=? nSlv)%nat && test k || first && (it =? 0)%nat && (k =? 1)%nat && isActive old 1)%bool.
Proof. exact active_char. Qed.

(** The two contact conditions. *)
Theorem C41_penalty_condition : forall AA wg n, penaltyTest AA wg n = true <-> 0 < AA n /\ wg n <= 0.
Proof. intros. unfold penaltyTest. destruct (Rlt_dec 0 (AA n)); [destruct (Rle_dec (wg n) 0)|]; split; intros H; try reflexivity; try discriminate; try (destruct H; contradiction); auto. Qed.

Theorem C41_augmented_condition : forall eps AA wg lambda n,
  augmentedTest eps AA wg lambda n = true <-> 0 < AA n /\ exists l, lambda n = Some l /\ l + eps * wg n <= 0.
Proof.
  intros. unfold augmentedTest. destruct (Rlt_dec 0 (AA n)) as [P|P].
  - destruct (lambda n) as [l|].
    + destruct (Rle_dec (l + eps * wg n) 0) as [Q|Q]; split; intros H; try reflexivity; try discriminate.
      * split; [exact P|]. exists l. auto.
      * destruct H as [_ [l' [E H]]]. injection E as <-. contradiction.
    + split; [discriminate|]. intros [_ [l [E _]]]. discriminate.
  - split; [discriminate|]. intros [H _]. contradiction.
Qed.

(** After any history, an iteration other than the very first yields the set of the current state. *)
Theorem C41_history_free : forall nSlv calls first it test s s' k, (1 <= k)%nat -> (first && (it =? 0)%nat)%bool = false ->
  isActive (history nSlv (calls ++ [(first, it, test)]) s) k = isActive (activeSet first it nSlv test s') k.
Proof. exact history_free. Qed.

(** Boundary integration is requested exactly when some node is active. *)
Theorem C41_boundary_terms : forall first it nSlv test old,
  hasBoundaryTerms (activeSet first it nSlv test old) = true <-> exists k, (1 <= k)%nat /\ isActive (activeSet first it nSlv test old) k = true.
Proof. exact boundary_terms_iff. Qed.

(** The weighted areas and gaps do not depend on the element order, and the gap of a node with
    positive area is an average of the gaps at the integration points. *)
Theorem C41_order_free : forall nNod nSlv els els' A A' S S', (forall e, In e els -> wfElm nNod nSlv e) -> Permutation els els' ->
  mortarAA nSlv els = Ret A -> mortarAA nSlv els' = Ret A' -> mortarSum nSlv els = Ret S -> mortarSum nSlv els' = Ret S' ->
  forall n, (1 <= n)%nat -> el A n 1 = el A' n 1 /\ el S n 1 = el S' n 1.
Proof. exact order_free. Qed.

Theorem C41_gap_average : forall nNod nSlv els A S n lo hi, (forall e, In e els -> goodElm nNod nSlv e) ->
  mortarAA nSlv els = Ret A -> mortarSum nSlv els = Ret S -> (1 <= n)%nat -> 0 < el A n 1 ->
  (forall e p, In e els -> In p (pts e) -> lo <= gap p <= hi) ->
  lo <= weightedGap (fun j => el A j 1) (fun j => el S j 1) n <= hi.
Proof. exact gap_average. Qed.

(** The claim fails on re-entry of the first increment: the first node was active, is no
    longer in contact, and is still active when the increment is restarted. *)
(** The gap used for the forces of a node: the weighted gap in penetration, none in separation. *)
Theorem C41_closed_gap : forall wg n, nodalGap wg n <= 0 /\ (wg n <= 0 -> nodalGap wg n = wg n) /\ (0 <= wg n -> nodalGap wg n = 0).
Proof. intros wg n. unfold nodalGap. destruct (Rlt_dec 0 (wg n)); repeat split; intros; lra. Qed.
Theorem C41_stale_flag_refuted : exists nSlv t1 t2, t2 1%nat = false /\
  isActive (history nSlv [(true, 0%nat, t1); (true, 0%nat, t2)] []) 1 = true.
Proof. exists 2%nat, (fun n => (n =? 1)%nat), (fun _ => false). split; reflexivity. Qed.

Example C41_case : activeSet true 1 4 (fun n => (n =? 2)%nat || (n =? 3)%nat) [true] = [false; true; true].
Proof. reflexivity. Qed.

Print Assumptions C38_sphere_gap. Print Assumptions C38_sphere_outward. Print Assumptions C38_sphere_stiffness.
Print Assumptions C38_cylinder_gap. Print Assumptions C38_cylinder_weights. Print Assumptions C38_cylinder_stiffness.
Print Assumptions C39_plane_projection_partial. Print Assumptions C39_line_projection_partial. Print Assumptions C39_plane_gap.
Print Assumptions C39_weights_swapped_refuted. Print Assumptions C39_line_mirrored_refuted.
Print Assumptions C40_forces_balance. Print Assumptions C40_residual. Print Assumptions C40_mortar_balance.
Print Assumptions C40_spring_tangent. Print Assumptions C40_geometric_translation_partial. Print Assumptions C40_geometric_translation_refuted.
Print Assumptions C41_active_iff_partial. Print Assumptions C41_penalty_condition. Print Assumptions C41_augmented_condition.
Print Assumptions C41_history_free. Print Assumptions C41_boundary_terms. Print Assumptions C41_order_free.
Print Assumptions C41_gap_average. Print Assumptions C41_stale_flag_refuted.
Print Assumptions C38_moves_along. Print Assumptions C41_closed_gap.
