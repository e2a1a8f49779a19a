(** Bars (C46, C47, C81). *)
From Coq Require Import List Arith Bool Reals Lra Lia.
From Coquelicot Require Import Coquelicot.
From Verif Require Import Lib.Base Lib.Vec3 Model.Bar Spec.Bar Proofs.Bar.

(** ** C46: [k] is the stiffness EA; [six h1 h2] the six nodal displacements *)
Theorem C46_gradient : forall m k L0 P1 P2 h1 h2, 0 < L0 -> 0 < vlen (vsub P2 P1) -> let r := vsub P2 P1 in
  is_derive (fun t => barEnergy (kindOf m) k L0 (vsub (path P2 h2 t) (path P1 h1 t))) 0
    (- sumf 6 (fun i => barForce m k L0 (vlen r) (unit r) i * six h1 h2 i)).
Proof. exact bar_energy. Qed.
Theorem C46_equilibrium : forall m k L0 L X i, (1 <= i <= 3)%nat -> barForce m k L0 L X i + barForce m k L0 L X (i + 3) = 0.
Proof. exact bar_equilibrium. Qed.
Theorem C46_objective : forall m k L0 Q r i, isometry Q -> (1 <= i <= 3)%nat ->
  barForce m k L0 (vlen (app3 Q r)) (unit (app3 Q r)) i = sumf 3 (fun j => Q i j * barForce m k L0 (vlen r) (unit r) j).
Proof. exact bar_objective. Qed.
(** Tangent with material and geometric parts in the same matrix: exact. *)
Theorem C46_tangent : forall m k L0 P1 P2 h1 h2 i, 0 < L0 -> 0 < vlen (vsub P2 P1) -> (1 <= i <= 6)%nat -> let r := vsub P2 P1 in
  is_derive (fun t => barForce m k L0 (vlen (vsub (path P2 h2 t) (path P1 h1 t))) (unit (vsub (path P2 h2 t) (path P1 h1 t))) i) 0
    (- mv 6 (matKm m k Same L0 (vlen r) (unit r)) (six h1 h2) i).
Proof. exact bar_tangent. Qed.
(** The element as a whole: whenever it is accepted, its forces are minus the gradient of the stored energy
    and, with both parts in one matrix, its matrix is the derivative of its forces. *)
Theorem C46_element : forall m k w P1 P2 U1 U2 out h1 h2, evalBar m k w P1 P2 U1 U2 = Ret out ->
  let Q1 := vadd P1 U1 in let Q2 := vadd P2 U2 in let L0 := vlen (vsub P2 P1) in
  is_derive (fun t => barEnergy (kindOf m) k L0 (vsub (path Q2 h2 t) (path Q1 h1 t))) 0 (- sumf 6 (fun i => oS out i * six h1 h2 i)) /\
  (w = Same -> forall i, (1 <= i <= 6)%nat ->
   is_derive (fun t => barForce m k L0 (vlen (vsub (path Q2 h2 t) (path Q1 h1 t))) (unit (vsub (path Q2 h2 t) (path Q1 h1 t))) i) 0
     (- mv 6 (oKm out) (six h1 h2) i)).
Proof.
  intros m k w P1 P2 U1 U2 out h1 h2 H Q1 Q2 L0. unfold evalBar in H.
  destruct (Rle_dec _ _) as [|N0] in H; [discriminate|]. destruct (Rle_dec _ _) as [|N1] in H; [discriminate|].
  assert (0 < 1 / 10 ^ 8) by (apply Rdiv_lt_0_compat; [lra|apply pow_lt; lra]).
  injection H as <-. cbn [oS oKm]. apply Rnot_le_lt in N0, N1. fold L0 in N0. fold Q1 Q2 in N1. split.
  - apply (C46_gradient m k L0 Q1 Q2 h1 h2); lra.
  - intros -> i Hi. apply (C46_tangent m k L0 Q1 Q2 h1 h2 i); lra || lia.
Qed.
Theorem C46_material_translation : forall m k w L0 L X a i, (1 <= i <= 6)%nat ->
  mv 6 (matKm m k w L0 L X) (six a a) i = 0 /\ symm 6 (matKm m k w L0 L X).
Proof. intros. split; [now apply km_translation|apply km_symm]. Qed.
(** The geometric part in a matrix of its own: right diagonal blocks, wrong off-diagonal ones. *)
Theorem C46_geometric_partial : forall m k L0 L X i j, (1 <= i <= 3)%nat -> (1 <= j <= 3)%nat -> kgNom m k true L0 L <> 0 ->
  matKg m k L0 L X i j = kij m k L0 L X i j /\ matKg m k L0 L X (i + 3) (j + 3) = kij m k L0 L X i j.
Proof. exact kg_diagonal. Qed.
Theorem C46_geometric_refuted : exists k L0 L X a i, mv 6 (matKg Eng k L0 L X) (six a a) i <> 0.
Proof. exact kg_translation_fails. Qed.
(** A bar of original length 1 stretched to length 2 along x, EA = 3, Green strain. *)
Lemma len2 : vlen (vsub (V 2 0 0) vzero) = 2.
Proof. unfold vlen, vdot, vsub, vzero; cbn. replace ((2 - 0) * (2 - 0) + (0 - 0) * (0 - 0) + (0 - 0) * (0 - 0)) with (2 * 2) by ring. apply sqrt_square. lra. Qed.
Example C46_element_case : exists out, evalBar Green 3 Same vzero (V 2 0 0) vzero (V 0 1 0) = Ret out.
Proof.
  unfold evalBar. assert (forall a b c, 2 <= a -> 2 <= vlen (V a b c)).
  { intros a b c Ha. unfold vlen, vdot; cbn. rewrite <- (sqrt_square 2) at 1 by lra. apply sqrt_le_1_alt. nra. }
  assert (1 / 10 ^ 8 < 2) by (apply Rmult_lt_reg_r with (10 ^ 8); [apply pow_lt; lra|]; unfold Rdiv; rewrite Rmult_assoc, Rinv_l by (apply pow_nonzero; lra); lra).
  destruct (Rle_dec _ _) as [C|_]; [exfalso; specialize (H (2 - 0) (0 - 0) (0 - 0) ltac:(lra)); unfold vsub in C; cbn in *; lra|].
  destruct (Rle_dec _ _) as [C|_]; [exfalso; unfold vsub, vadd in C; cbn [vx vy vz vzero] in C; specialize (H (2 + 0 - (0 + 0)) (0 + 1 - (0 + 0)) (0 + 0 - (0 + 0)) ltac:(lra)); lra|].
  eexists. reflexivity.
Qed.
Example C46_case : 0 < vlen (vsub (V 2 0 0) vzero) /\ barForce Green 3 1 2 (V 1 0 0) 1 = 9.
Proof. split; [rewrite len2; lra|]. unfold barForce, axialForce, getStrain, vc. cbn. field. Qed.

(** ** C47 *)
Theorem C47_lumped : forall lm L0 h1 h2 i, (1 <= i <= 6)%nat -> mv 6 (barMass lm true L0) (six h1 h2) i = 1 / 2 * lm * L0 * six h1 h2 i.
Proof. exact bar_mass_lumped. Qed.
Theorem C47_gravity : forall lm L0 g i, (1 <= i <= 3)%nat -> barGravity lm L0 g i + barGravity lm L0 g (i + 3) = lm * L0 * vc g i.
Proof. exact bar_gravity. Qed.
(** Consistent mass: the total force also depends on the other directions. *)
Theorem C47_consistent_partial : forall lm L0 a i, (1 <= i <= 3)%nat ->
  mv 6 (barMass lm false L0) (six a a) i + mv 6 (barMass lm false L0) (six a a) (i + 3) = lm * L0 * vc a i + 2 / 3 * lm * L0 * (vx a + vy a + vz a - vc a i).
Proof. exact bar_mass_cons. Qed.
Theorem C47_coupling_refuted : exists lm L0 a i, (1 <= i <= 3)%nat /\ 0 < lm /\ 0 < L0 /\
  mv 6 (barMass lm false L0) (six a a) i + mv 6 (barMass lm false L0) (six a a) (i + 3) <> lm * L0 * vc a i.
Proof. exists 1, 1, (V 1 0 0), 2%nat. split; [lia|]. split; [lra|]. split; [lra|]. rewrite C47_consistent_partial by lia. unfold vc; cbn. lra. Qed.
Example C47_case : mv 6 (barMass 4 true 3) (six (V 1 2 3) (V 4 5 6)) 5 = 30.
Proof. rewrite C47_lumped by lia. unfold six, vc; cbn. field. Qed.

(** ** C81: elements with fewer than three unknowns per node *)
Theorem C81_vector : forall npv nen b a i, (1 <= npv <= 2)%nat -> (a < nen)%nat -> (1 <= i <= npv)%nat ->
  shrinkVec npv nen b (npv * a + i) = b (3 * a + i)%nat.
Proof. exact shrink_vec. Qed.
Theorem C81_matrix : forall npv A a b i j, (1 <= npv)%nat -> (1 <= i <= npv)%nat -> (1 <= j <= npv)%nat ->
  shrinkMat npv A (npv * a + i) (npv * b + j) = A (3 * a + i)%nat (3 * b + j)%nat.
Proof. exact shrink_mat. Qed.
Example C81_case : shrinkVec 2 2 (fun i => INR i) 4 = INR 5.
Proof. exact (C81_vector 2 2 (fun i => INR i) 1 2 ltac:(lia) ltac:(lia) ltac:(lia)). Qed.

Print Assumptions C46_gradient.
Print Assumptions C46_equilibrium.
Print Assumptions C46_objective.
Print Assumptions C46_tangent.
Print Assumptions C46_element.
Print Assumptions C46_material_translation.
Print Assumptions C46_geometric_partial.
Print Assumptions C46_geometric_refuted.
Print Assumptions C47_lumped.
Print Assumptions C47_gravity.
Print Assumptions C47_consistent_partial.
Print Assumptions C47_coupling_refuted.
Print Assumptions C81_vector.
Print Assumptions C81_matrix.
