(** Stress results in local coordinate systems (C132). *)
From Coq Require Import List Lia Lra.
From Verif.Lib Require Import Base Vec3 Tensor3.
From Verif.Spec Require Import StressOut.
From Verif.Model Require Import LocalSys StressOut.
From Verif.Proofs Require Import StressOut.
Import ListNotations.
Local Open Scope R_scope.

(** What is expected: the components in the directions of the local system at the point, the equivalent stress, the principal values. *)
Definition expected (T s : t3) : list R :=
  let d i := V (T i 1%nat) (T i 2%nat) (T i 3%nat) in
  [componentIn s (d 1%nat) (d 1%nat); componentIn s (d 2%nat) (d 2%nat); componentIn s (d 3%nat) (d 3%nat);
   componentIn s (d 1%nat) (d 2%nat); componentIn s (d 2%nat) (d 3%nat); componentIn s (d 1%nat) (d 3%nat); equivalent s].
Definition sym (s : t3) : Prop := s 2%nat 1%nat = s 1%nat 2%nat /\ s 3%nat 2%nat = s 2%nat 3%nat /\ s 3%nat 1%nat = s 1%nat 3%nat.

Theorem C132_local_partial : forall principal f X T s, f X = Ret T -> orth3 T -> sym s ->
  exists pv, stressOut principal (Some f) true true X s = Ret (expected T s ++ pv) /\
  pv = match principal s with Some p => [vx p; vy p; vz p] | None => [] end /\
  (* the principal values are those of the tensor reported *)
  (forall p, principalValue s p <-> principalValue (fun i j => componentIn s (V (T i 1%nat) (T i 2%nat) (T i 3%nat)) (V (T j 1%nat) (T j 2%nat) (T j 3%nat))) p).
Proof.
  intros principal f X T s F O S. eexists. split; [|split; [reflexivity|]].
  - unfold stressOut, tensorOut. cbn [andb]. rewrite F. cbn [bind]. f_equal. unfold symm6, expected. cbn [map app tovoigt].
    rewrite !transform_component. fold (row T 1). fold (row T 2). fold (row T 3).
    rewrite (vonMises_equivalent _ (symmetric_transform T s S)), (equivalent_transform T s O). reflexivity.
  - intros p. rewrite <- (principal_transform T s p O). unfold principalValue. rewrite (det3_ext _ (fun i j => componentIn s (row T i) (row T j) - p * kron i j)); [reflexivity|].
    intros i j _ _. rewrite transform_component. reflexivity.
Qed.
Print Assumptions C132_local_partial.
(** Radial, hoop, axial and shear stresses in the cylindrical system. *)
Theorem C132_cylinder_partial : forall principal X s, vx X <> 0 \/ vy X <> 0 -> sym s ->
  exists rest, let r2 := vx X * vx X + vy X * vy X in
  stressOut principal (Some cylinder) true true X s = Ret (
   (vx X * vx X * s 1%nat 1%nat + 2 * vx X * vy X * s 1%nat 2%nat + vy X * vy X * s 2%nat 2%nat) / r2 ::
   (vy X * vy X * s 1%nat 1%nat - 2 * vx X * vy X * s 1%nat 2%nat + vx X * vx X * s 2%nat 2%nat) / r2 :: s 3%nat 3%nat ::
   (vx X * vy X * (s 2%nat 2%nat - s 1%nat 1%nat) + (vx X * vx X - vy X * vy X) * s 1%nat 2%nat) / r2 :: rest).
Proof.
  intros principal X s N (S1 & S2 & S3).
  assert (P : 0 < vx X * vx X + vy X * vy X).
  { destruct N as [N|N]; [pose proof (Rsqr_pos_lt _ N)|pose proof (Rsqr_pos_lt _ N)]; unfold Rsqr in *; nra. }
  assert (Hh : Analytic.hypot (vx X) (vy X) = sqrt (vx X * vx X + vy X * vy X)) by reflexivity.
  assert (Q : sqrt (vx X * vx X + vy X * vy X) <> 0) by (intro H; apply sqrt_eq_0 in H; lra).
  unfold stressOut, tensorOut, cylinder. cbn [andb]. rewrite Hh. destruct (Req_EM_T _ 0) as [H|_]; [contradiction|]. cbn [bind].
  eexists. cbv zeta. f_equal. unfold symm6. cbn [map app tovoigt]. rewrite !transform_component. unfold componentIn, row, rows3. cbn [vc vx vy vz].
  pose proof (sqrt_sqrt _ (Rlt_le _ _ P)) as SQ. set (r := sqrt _) in *. rewrite S1. rewrite <- SQ.
  f_equal; [field; exact Q|]. f_equal; [field; exact Q|]. f_equal; [ring|]. f_equal. field; exact Q.
Qed.
Print Assumptions C132_cylinder_partial.
(** Without local system, or where stresses are wanted in global axes, the components are the global ones. *)
Theorem C132_global : forall principal f X s w, sym s ->
  stressOut principal None w true X s = Ret (expected kron s ++ match (if w then principal s else None) with Some p => [vx p; vy p; vz p] | None => [] end) /\
  stressOut principal f w false X s = Ret (firstn 6 (expected kron s)).
Proof.
  intros principal f X s w S. pose proof S as (S1 & S2 & S3).
  assert (E : forall i j, (1 <= i <= 3)%nat -> (1 <= j <= 3)%nat -> componentIn s (V (kron i 1) (kron i 2) (kron i 3)) (V (kron j 1) (kron j 2) (kron j 3)) = s i j).
  { intros i j Hi Hj. unfold componentIn. cbn [vx vy vz]. idx i; idx j; unfold kron; cbn [Nat.eqb]; ring. }
  split.
  - unfold stressOut, tensorOut, expected. cbv zeta. rewrite !E by lia. rewrite <- (vonMises_equivalent s S). destruct w; reflexivity.
  - unfold stressOut, tensorOut, expected. cbv zeta. rewrite !E by lia. reflexivity.
Qed.
Print Assumptions C132_global.
(** If principal stresses are not wanted (always with Lagrange and spectral elements), a local system given in the input is ignored. *)
Theorem C132_ignored_refuted : exists X T s, cylinder X = Ret T /\ orth3 T /\ sym s /\
  forall principal, exists l, stressOut principal (Some cylinder) false true X s = Ret l /\ hd 0 l = 1 /\ hd 0 (expected T s) = 0.
Proof.
  assert (Hh : Analytic.hypot 0 1 = 1) by (unfold Analytic.hypot; replace (0 * 0 + 1 * 1) with (1 * 1) by ring; apply sqrt_square; lra).
  exists (V 0 1 0), (rows3 (V 0 1 0) (V (-1) 0 0) (V 0 0 1)), (fun i j => if (Nat.eqb i 1 && Nat.eqb j 1)%bool then 1 else 0).
  split; [|split; [|split]].
  - unfold cylinder. cbn [vx vy]. rewrite Hh. destruct (Req_EM_T 1 0) as [H|_]; [exfalso; lra|]. f_equal. replace (0 / 1) with 0 by field. replace (1 / 1) with 1 by field. reflexivity.
  - intros i j Hi Hj. unfold mul3, trn, rows3, kron. idx i; idx j; cbn; ring.
  - repeat split.
  - intros principal. eexists. split; [reflexivity|]. unfold expected, symm6, componentIn, rows3. cbn. split; [reflexivity|]. ring.
Qed.
Print Assumptions C132_ignored_refuted.
(** The analytical stress is always reported in global axes: with a local system, a perfect solution differs from it. *)
Theorem C132_exact_refuted : exists X s, sym s /\ forall principal, exists l,
  stressOut principal (Some cylinder) true true X s = Ret l /\ hd 0 l = 0 /\ hd 0 (exactOut principal true 0 s) = 1.
Proof.
  assert (Hh : Analytic.hypot 0 1 = 1) by (unfold Analytic.hypot; replace (0 * 0 + 1 * 1) with (1 * 1) by ring; apply sqrt_square; lra).
  exists (V 0 1 0), (fun i j => if (Nat.eqb i 1 && Nat.eqb j 1)%bool then 1 else 0). split; [repeat split|]. intros principal. eexists. split.
  - unfold stressOut, tensorOut, cylinder. cbn [andb vx vy]. rewrite Hh. destruct (Req_EM_T 1 0) as [H|_]; [exfalso; lra|]. cbn [bind]. reflexivity.
  - unfold symm6, transform, mul3, trn, rows3, exactOut. cbn. split; [field|reflexivity].
Qed.
Print Assumptions C132_exact_refuted.
(** Without local system the two agree (no internal variables). *)
Theorem C132_exact_partial : forall principal w X s p, principal s = Some p -> stressOut principal None w true X s = Ret (exactOut principal w 0 s).
Proof. intros principal w X s p H. unfold stressOut, tensorOut, exactOut. destruct w; cbn [andb]; rewrite ?H; reflexivity. Qed.
Print Assumptions C132_exact_partial.
(** The columns of the analytical results are those of the result names: stresses and equivalent stress, the internal variables (zero), the principal values. *)
Theorem C132_exact_columns : forall principal ni s, sym s ->
  exactOut principal false ni s = expected kron s /\ exactOut principal true ni s = expected kron s ++ repeat 0 ni ++ match principal s with Some p => [vx p; vy p; vz p] | None => [0; 0; 0] end.
Proof.
  intros principal ni s S. destruct (C132_global principal None (V 0 0 0) s false S) as [G _]. unfold stressOut, tensorOut in G. cbn [andb bind] in G. apply (f_equal (fun r => match r with Ret l => l | _ => [] end)) in G. cbv beta iota in G. rewrite !app_nil_r in G.
  unfold exactOut. rewrite app_nil_r. split; [exact G|]. rewrite app_assoc. f_equal. exact G.
Qed.
Print Assumptions C132_exact_columns.
(** Uniaxial stress along x at a point on the x axis: the radial stress. *)
Example C132_case : let s : t3 := fun i j => if (Nat.eqb i 1 && Nat.eqb j 1)%bool then 5 else 0 in sym s /\ vx (V 2 0 0) <> 0 /\
  exists l, stressOut (fun _ => None) (Some cylinder) true true (V 2 0 0) s = Ret l /\ firstn 2 l = [5; 0].
Proof.
  cbv zeta. split; [repeat split|]. split; [cbn; lra|].
  destruct (C132_cylinder_partial (fun _ => None) (V 2 0 0) (fun i j => if (Nat.eqb i 1 && Nat.eqb j 1)%bool then 5 else 0)) as (rest & E); [left; cbn; lra|repeat split|].
  eexists. split; [exact E|]. cbn. f_equal; [field|]. f_equal. field.
Qed.
