From Coquelicot Require Import Coquelicot.
From Verif Require Import Lib.Base Lib.Sums Lib.Writes Lib.Congruence Lib.Script Lib.Vec3 Model.Beam Spec.Beam Proofs.Beam Proofs.BeamThy.

(** ** Local to global axes *)
Definition locV (T : nat -> nat -> R) (u : nat -> R) (i : nat) : R := sumf 3 (fun a => T a (loc i) * u (blk i + a)%nat).

Lemma blk_dof a k : (1 <= a)%nat -> (1 <= k <= 3)%nat -> (blk (dof 3 a k) = 3 * (a - 1))%nat /\ loc (dof 3 a k) = k.
Proof.
  intros Ha Hk. unfold blk, loc, dof. split.
  - f_equal. replace (3 * (a - 1) + k - 1)%nat with (k - 1 + (a - 1) * 3)%nat by lia. rewrite Nat.div_add by lia. rewrite Nat.div_small by lia. lia.
  - replace (3 * (a - 1) + k - 1)%nat with (k - 1 + (a - 1) * 3)%nat by lia. rewrite Nat.mod_add by lia. rewrite Nat.mod_small by lia. lia.
Qed.

Lemma bil_blocks A v u : bil 12 A v u =
  sumf 4 (fun a => sumf 4 (fun b => sumf 3 (fun k => sumf 3 (fun l => v (dof 3 a k) * A (dof 3 a k) (dof 3 b l) * u (dof 3 b l))))).
Proof.
  unfold bil. change 12%nat with (3 * 4)%nat. rewrite sumf_dof. apply sumf_ext. intros a Ha.
  rewrite sumf_swap. apply sumf_ext. intros k Hk. unfold mv. rewrite sumf_dof, <- sumf_scal. apply sumf_ext. intros b Hb.
  rewrite <- sumf_scal. apply sumf_ext. intros l Hl. ring.
Qed.

Lemma global_bil T A v u : bil 12 (toGlobal T A) v u = bil 12 A (locV T v) (locV T u).
Proof.
  rewrite !bil_blocks. apply sumf_ext. intros a Ha. apply sumf_ext. intros b Hb.
  transitivity (sumf 3 (fun k => sumf 3 (fun l => v (dof 3 a k) * sumf 3 (fun c => sumf 3 (fun d => T k c * A (dof 3 a c) (dof 3 b d) * T l d)) * u (dof 3 b l)))).
  - apply sumf_ext. intros k Hk. apply sumf_ext. intros l Hl. unfold toGlobal.
    destruct (blk_dof a k) as [-> ->]; [lia|lia|]. destruct (blk_dof b l) as [-> ->]; [lia|lia|]. reflexivity.
  - transitivity (sumf 3 (fun c => sumf 3 (fun d => sumf 3 (fun k => T k c * v (dof 3 a k)) * A (dof 3 a c) (dof 3 b d) * sumf 3 (fun l => T l d * u (dof 3 b l))))).
    + cbn [sumf]. ring.
    + apply sumf_ext. intros c Hc. apply sumf_ext. intros d Hd. unfold locV.
      destruct (blk_dof a c) as [-> ->]; [lia|lia|]. destruct (blk_dof b d) as [-> ->]; [lia|lia|]. reflexivity.
Qed.

Definition toEnds (ecc : option (v3 * v3)) (u : nat -> R) : nat -> R := match ecc with None => u | Some (e1, e2) => eccV e1 e2 u end.
Lemma finalize_bil T ecc A v u : bil 12 (finalize (Some T) ecc A) v u = bil 12 A (locV T (toEnds ecc v)) (locV T (toEnds ecc u)).
Proof. destruct ecc as [[e1 e2]|]; cbn [finalize toEnds]; [rewrite ecc_bil|]; apply global_bil. Qed.

(** Any congruence keeps symmetry and definiteness. *)
Theorem finalize_symm T ecc A : symm 12 A -> symm 12 (finalize (Some T) ecc A).
Proof.
  intros S. apply bil_symm. intros u v. rewrite !finalize_bil. set (x := locV T (toEnds ecc v)). set (y := locV T (toEnds ecc u)).
  unfold bil, mv. rewrite (sumf_ext 12 _ (fun i => sumf 12 (fun j => x i * (A i j * y j)))) by (intros; now rewrite sumf_scal).
  rewrite sumf_swap. apply sumf_ext. intros j Hj. rewrite <- sumf_scal. apply sumf_ext. intros i Hi. rewrite (S i j) by assumption. ring.
Qed.
Theorem finalize_psd T ecc A u : (forall x, 0 <= quad 12 A x) -> 0 <= quad 12 (finalize (Some T) ecc A) u.
Proof. intros P. rewrite bil_quad, finalize_bil, <- bil_quad. apply P. Qed.

(** ** Rigid-body motions *)
Definition strainFree (L : R) (u : nat -> R) : Prop :=
  dax u = 0 /\ dtw u = 0 /\ dkz u = 0 /\ dgy L u = 0 /\ dky u = 0 /\ dgz L u = 0.

Lemma centre_free L Sy Sz u : strainFree L u -> strainFree L (atCentre Sy Sz u).
Proof.
  intros H. unfold atCentre. destruct (skewed Sy Sz); [|exact H]. destruct H as [H1 [H2 [H3 [H4 [H5 H6]]]]].
  unfold strainFree, dax, dtw, dkz, dgy, dky, dgz, shearV in *. repeat split; try assumption.
  - replace (u 10%nat) with (u 4%nat) by lra. lra.
  - replace (u 10%nat) with (u 4%nat) by lra. lra.
Qed.

Lemma free_null L EA GIt EIy EIz Aly Alz Sy Sz v u : L <> 0 -> 1 + Aly <> 0 -> 1 + Alz <> 0 -> strainFree L u ->
  bil 12 (stiffness L EA GIt EIy EIz Aly Alz Sy Sz) v u = 0.
Proof.
  intros HL Hy Hz F. rewrite stiffness_bil by assumption. cbn zeta. destruct (centre_free L Sy Sz u F) as [-> [-> [-> [-> [-> ->]]]]]. ring.
Qed.

Lemma ends_rigid a om X1 X2 e1 e2 i : eccV e1 e2 (rigidMotion a om (vadd X1 e1) (vadd X2 e2)) i = rigidMotion a om X1 X2 i.
Proof.
  destruct a as [a1 a2 a3], om as [o1 o2 o3], X1 as [x1 x2 x3], X2 as [y1 y2 y3], e1 as [g1 g2 g3], e2 as [f1 f2 f3]. unfold rigidMotion, nodal, eccV, vadd, vcross; cbn [vx vy vz].
  do 13 (destruct i as [|i]; [try reflexivity; try ring|]). reflexivity.
Qed.

Lemma locV_ext T u w i : (forall k, u k = w k) -> locV T u i = locV T w i.
Proof. intros H. unfold locV. apply sumf_ext. intros. now rewrite H. Qed.

Lemma rigid_local_free T a om X1 X2 L : frame T -> vsub X2 X1 = vscal L (col T 1) -> strainFree L (locV T (rigidMotion a om X1 X2)).
Proof.
  intros F E. destruct F as [F11 F22 F33 F12 F13 F23 FH].
  assert (C2 : X2 = vadd X1 (vscal L (col T 1))) by (rewrite <- E; destruct X1 as [x1 x2 x3], X2 as [y1 y2 y3]; unfold vadd, vsub; cbn; f_equal; ring). subst X2. clear E.
  assert (D : forall j, vdot (col T j) (vsub (vadd a (vcross om (vadd X1 (vscal L (col T 1))))) (vadd a (vcross om X1))) = L * vdot om (vcross (col T 1) (col T j))).
  { intros j. set (c1 := col T 1). set (cj := col T j). clearbody c1 cj. destruct a as [a1 a2 a3], om as [o1 o2 o3], X1 as [x1 x2 x3], c1 as [b1 b2 b3], cj as [d1 d2 d3]. unfold vdot, vsub, vadd, vcross, vscal; cbn. ring. }
  assert (S1 : vcross (col T 1) (col T 1) = vzero) by (unfold vcross; cbn; unfold vzero; f_equal; ring).
  assert (S3 : vcross (col T 1) (col T 3) = vscal (-1) (col T 2)).
  { rewrite <- FH. transitivity (vsub (vscal (vdot (col T 1) (col T 2)) (col T 1)) (vscal (vdot (col T 1) (col T 1)) (col T 2))).
    - set (p := col T 1). set (q := col T 2). clearbody p q. destruct p as [p1 p2 p3], q as [q1 q2 q3]. unfold vdot, vcross, vscal, vsub; cbn. f_equal; ring.
    - rewrite F11, F12. unfold vsub, vscal; cbn. f_equal; ring. }
  assert (W : forall j, T 1%nat j * vx om + T 2%nat j * vy om + T 3%nat j * vz om = vdot om (col T j)) by (intros; unfold vdot, col; cbn; ring).
  assert (D1 := D 1%nat). assert (D2 := D 2%nat). assert (D3 := D 3%nat). rewrite S1 in D1. rewrite FH in D2. rewrite S3 in D3.
  unfold strainFree, dax, dtw, dkz, dgy, dky, dgz, locV, rigidMotion, nodal, loc, blk.
  cbn [Nat.sub Nat.div Nat.divmod Nat.modulo Nat.mul Nat.add fst snd sumf].
  unfold vdot, vsub, col, vscal, vzero in *. cbn [vx vy vz] in *.
  repeat split; lra.
Qed.

(** No force for rigid motions, when the grid points are at the beam ends plus the
    eccentricities. *)
Theorem rigid_no_force L EA GIt EIy EIz Aly Alz Sy Sz T e1 e2 X1 X2 a om i :
  L <> 0 -> 1 + Aly <> 0 -> 1 + Alz <> 0 -> frame T -> vsub X2 X1 = vscal L (col T 1) -> (1 <= i <= 12)%nat ->
  mv 12 (finalize (Some T) (Some (e1, e2)) (stiffness L EA GIt EIy EIz Aly Alz Sy Sz)) (rigidMotion a om (vadd X1 e1) (vadd X2 e2)) i = 0 /\
  mv 12 (finalize (Some T) None (stiffness L EA GIt EIy EIz Aly Alz Sy Sz)) (rigidMotion a om X1 X2) i = 0.
Proof.
  intros HL Hy Hz F E Hi. split.
  - rewrite bil_mv, finalize_bil by assumption. apply free_null; try assumption. cbn [toEnds].
    assert (Q := rigid_local_free T a om X1 X2 L F E). unfold strainFree, dax, dtw, dkz, dgy, dky, dgz in *.
    rewrite !(locV_ext T (eccV e1 e2 (rigidMotion a om (vadd X1 e1) (vadd X2 e2))) (rigidMotion a om X1 X2)) by (intros; apply ends_rigid). exact Q.
  - rewrite bil_mv, finalize_bil by assumption. apply free_null; try assumption. now apply rigid_local_free.
Qed.

(** ** Geometric stiffness *)
Definition dy (u : nat -> R) := u 8%nat - u 2%nat.
Definition dz (u : nat -> R) := u 9%nat - u 3%nat.
Lemma geo_bil0 N L Aly Alz ItoA v u : L <> 0 -> 1 + Aly <> 0 -> 1 + Alz <> 0 ->
  bil 12 (exec zero (geoProg N L Aly Alz ItoA ++ mirror 12)) v u =
  N / L * (dy v * dy u + L ^ 2 / 12 * (dkz v * dkz u) + 1 / 5 / (1 + Aly) ^ 2 * (dgy L v * dgy L u)) +
  N / L * (dz v * dz u + L ^ 2 / 12 * (dky v * dky u) + 1 / 5 / (1 + Alz) ^ 2 * (dgz L v * dgz L u)) +
  N * ItoA / L * (dtw v * dtw u).
Proof. intros HL Hy Hz. unfold dax, dtw, dkz, dgy, dky, dgz, dy, dz. entries. field. auto. Qed.

Lemma geo_bil N L Aly Alz ItoA Sy Sz v u : L <> 0 -> 1 + Aly <> 0 -> 1 + Alz <> 0 ->
  bil 12 (geometric N L Aly Alz ItoA Sy Sz) v u =
  let v := atCentre Sy Sz v in let u := atCentre Sy Sz u in
  N / L * (dy v * dy u + L ^ 2 / 12 * (dkz v * dkz u) + 1 / 5 / (1 + Aly) ^ 2 * (dgy L v * dgy L u)) +
  N / L * (dz v * dz u + L ^ 2 / 12 * (dky v * dky u) + 1 / 5 / (1 + Alz) ^ 2 * (dgz L v * dgz L u)) +
  N * ItoA / L * (dtw v * dtw u).
Proof.
  intros HL Hy Hz. unfold geometric, atCentre. destruct (skewed Sy Sz).
  - rewrite app_assoc, exec_app, shear_bil, geo_bil0 by assumption. reflexivity.
  - rewrite app_nil_r, geo_bil0 by assumption. reflexivity.
Qed.

Theorem geometric_symm N L Aly Alz ItoA Sy Sz : L <> 0 -> 1 + Aly <> 0 -> 1 + Alz <> 0 -> symm 12 (geometric N L Aly Alz ItoA Sy Sz).
Proof. intros HL Hy Hz. apply bil_symm. intros u v. rewrite !geo_bil by assumption. cbn zeta. ring. Qed.

Theorem geometric_energy N L Aly Alz ItoA Sy Sz u wy wz : L <> 0 -> 1 + Aly <> 0 -> 1 + Alz <> 0 ->
  let s := atCentre Sy Sz u in
  beamField Aly L (s 2%nat) (s 6%nat) (s 8%nat) (s 12%nat) wy -> beamField Alz L (s 3%nat) (- s 5%nat) (s 9%nat) (- s 11%nat) wz ->
  is_RInt (fun x => N * slope wy x ^ 2 + N * slope wz x ^ 2 + N * ItoA * ((s 10%nat - s 4%nat) / L) ^ 2) 0 L
    (quad 12 (geometric N L Aly Alz ItoA Sy Sz) u).
Proof.
  intros HL Hy Hz s By Bz. rewrite bil_quad, geo_bil by assumption. fold s. cbn zeta.
  assert (Iy := slope_int N Aly L _ _ _ _ wy HL Hy By). assert (Iz := slope_int N Alz L _ _ _ _ wz HL Hz Bz).
  assert (Ia := const_int (N * ItoA * ((s 10%nat - s 4%nat) / L) ^ 2) L).
  assert (I1 := is_RInt_plus _ _ _ _ _ _ (is_RInt_plus _ _ _ _ _ _ Iy Iz) Ia).
  match type of I1 with is_RInt _ _ _ ?v => match goal with |- is_RInt _ _ _ ?w => replace w with v; [exact I1|] end end.
  unfold dax, dtw, dkz, dgy, dky, dgz, dy, dz, plus. cbn. field. auto.
Qed.

Theorem geometric_psd N L Aly Alz ItoA Sy Sz u : 0 < L -> 0 <= Aly -> 0 <= Alz -> 0 <= N -> 0 <= ItoA ->
  0 <= quad 12 (geometric N L Aly Alz ItoA Sy Sz) u.
Proof.
  intros HL Hy Hz HN HI. rewrite bil_quad, geo_bil by lra. cbn zeta. set (s := atCentre Sy Sz u).
  assert (P1 : 0 <= N / L) by (apply Rmult_le_pos; [lra|apply Rlt_le, Rinv_0_lt_compat; lra]).
  assert (P2 : 0 <= N * ItoA / L) by (apply Rmult_le_pos; [nra|apply Rlt_le, Rinv_0_lt_compat; lra]).
  assert (P3 : forall Al, 0 <= Al -> 0 <= 1 / 5 / (1 + Al) ^ 2) by (intros Al HA; apply Rmult_le_pos; [lra|apply Rlt_le, Rinv_0_lt_compat, pow_lt; lra]).
  assert (P4 : 0 <= L ^ 2 / 12) by nra.
  repeat apply Rplus_le_le_0_compat; apply Rmult_le_pos; try apply Rle_0_sqr; try assumption;
  repeat apply Rplus_le_le_0_compat; try apply Rle_0_sqr; apply Rmult_le_pos; try apply Rle_0_sqr; try apply P3; lra.
Qed.

(** Rigid motion of the beam from the origin along the local x axis: the couple of the axial
    force, acting at the shear centre. *)
Theorem geometric_rigid N L Aly Alz ItoA Sy Sz a om v : L <> 0 -> 1 + Aly <> 0 -> 1 + Alz <> 0 ->
  bil 12 (geometric N L Aly Alz ItoA Sy Sz) v (rigidMotion a om vzero (V L 0 0)) =
  let s := atCentre Sy Sz v in
  N * vy (vcross om (V 1 0 0)) * (s 8%nat - s 2%nat) + N * vz (vcross om (V 1 0 0)) * (s 9%nat - s 3%nat).
Proof.
  intros HL Hy Hz. rewrite geo_bil by assumption. cbn zeta. set (s := atCentre Sy Sz v).
  set (r := rigidMotion a om vzero (V L 0 0)).
  assert (E : strainFree L r).
  { unfold r, strainFree, dax, dtw, dkz, dgy, dky, dgz, rigidMotion, nodal, vadd, vcross, vzero; cbn [vx vy vz]. destruct a as [a1 a2 a3], om as [o1 o2 o3]; cbn. repeat split; field. }
  assert (E' := centre_free L Sy Sz r E). destruct E' as [_ [E2 [E3 [E4 [E5 E6]]]]]. rewrite E2, E3, E4, E5, E6.
  assert (Y : dy (atCentre Sy Sz r) = L * vz om).
  { unfold atCentre, dy, r, shearV, rigidMotion, nodal, vadd, vcross, vzero. destruct (skewed Sy Sz); destruct a as [a1 a2 a3], om as [o1 o2 o3]; cbn; ring. }
  assert (Z : dz (atCentre Sy Sz r) = - L * vy om).
  { unfold atCentre, dz, r, shearV, rigidMotion, nodal, vadd, vcross, vzero. destruct (skewed Sy Sz); destruct a as [a1 a2 a3], om as [o1 o2 o3]; cbn; ring. }
  rewrite Y, Z. unfold dy, dz, vcross; cbn. field. lra.
Qed.

Theorem geometric_couple N L Aly Alz ItoA a om i : L <> 0 -> 1 + Aly <> 0 -> 1 + Alz <> 0 -> (1 <= i <= 12)%nat ->
  mv 12 (geometric N L Aly Alz ItoA 0 0) (rigidMotion a om vzero (V L 0 0)) i =
  nodal (vscal (- N) (vcross om (V 1 0 0))) vzero (vscal N (vcross om (V 1 0 0))) vzero i.
Proof.
  intros HL Hy Hz Hi. rewrite bil_mv, geometric_rigid by assumption.
  assert (S : skewed 0 0 = false). { unfold skewed. destruct (Rlt_dec (/ 10 ^ 12) (Rabs 0 + Rabs 0)) as [C|]; [|reflexivity].
    rewrite Rabs_R0 in C. assert (0 < / 10 ^ 12) by (apply Rinv_0_lt_compat; lra). lra. }
  unfold atCentre. rewrite S. cbn zeta.
  assert (i = 1 \/ i = 2 \/ i = 3 \/ i = 4 \/ i = 5 \/ i = 6 \/ i = 7 \/ i = 8 \/ i = 9 \/ i = 10 \/ i = 11 \/ i = 12)%nat as H by lia.
  destruct a as [a1 a2 a3], om as [o1 o2 o3]. repeat destruct H as [-> | H]; try subst i; unfold kron, nodal, vscal, vcross, vzero; cbn; ring.
Qed.
