From Coquelicot Require Import Coquelicot.
From Verif Require Import Lib.Base Lib.Sums Lib.Writes Lib.Congruence Lib.Script Lib.Vec3 Model.Beam Spec.Beam Proofs.Beam Proofs.BeamThy Proofs.BeamGlobal.

Lemma mass_lt rhoA Ixx Iyy Izz L : mass Lt rhoA Ixx Iyy Izz L = mass Eq rhoA Ixx 0 0 L.
Proof. reflexivity. Qed.

Lemma cons_symm rhoA Ixx Iyy Izz L : L <> 0 -> symm 12 (mass Eq rhoA Ixx Iyy Izz L).
Proof. intros HL. apply bil_symm. intros u v. entries. field. auto. Qed.
Lemma lumped_symm rhoA Ixx Iyy Izz L : symm 12 (mass Gt rhoA Ixx Iyy Izz L).
Proof. apply bil_symm. intros u v. entries. field. Qed.
Theorem mass_symm k rhoA Ixx Iyy Izz L : L <> 0 -> symm 12 (mass k rhoA Ixx Iyy Izz L).
Proof. intros HL. destruct k; [now apply cons_symm|rewrite mass_lt; now apply cons_symm|apply lumped_symm]. Qed.
Lemma ecc_symm e1 e2 A : symm 12 A -> symm 12 (exec A (eccProg e1 e2)).
Proof.
  intros S. apply bil_symm. intros u v. rewrite !ecc_bil. set (x := eccV e1 e2 v). set (y := eccV e1 e2 u).
  unfold bil, mv. rewrite (sumf_ext 12 _ (fun i => sumf 12 (fun j => x i * (A i j * y j)))) by (intros; now rewrite sumf_scal).
  rewrite sumf_swap. apply sumf_ext. intros j Hj. rewrite <- sumf_scal. apply sumf_ext. intros i Hi. rewrite (S i j) by assumption. ring.
Qed.
Theorem massNA_symm k rhoA Ixx Iyy Izz L CGy CGz : L <> 0 -> symm 12 (massNA k rhoA Ixx Iyy Izz L CGy CGz).
Proof.
  intros HL. assert (M := mass_symm k rhoA Ixx Iyy Izz L HL). unfold massNA.
  destruct (Req_EM_T CGy 0); [destruct (Req_EM_T CGz 0)|]; try assumption; now apply ecc_symm.
Qed.

Lemma cons_quad rhoA Ixx Iyy Izz L u : L <> 0 ->
  quad 12 (mass Eq rhoA Ixx Iyy Izz L) u =
  rhoA * L / 3 * (u 1%nat * u 1%nat + u 1%nat * u 7%nat + u 7%nat * u 7%nat) +
  Ixx * L / 3 * (u 4%nat * u 4%nat + u 4%nat * u 10%nat + u 10%nat * u 10%nat) +
  hermite rhoA Izz L (u 2%nat) (u 6%nat) (u 8%nat) (u 12%nat) +
  hermite rhoA Iyy L (u 3%nat) (- u 5%nat) (u 9%nat) (- u 11%nat).
Proof. intros HL. rewrite bil_quad. unfold hermite. entries. field. auto. Qed.

(** The consistent mass gives the kinetic energy of the interpolated velocity field. *)
Theorem cons_energy rhoA Ixx Iyy Izz L u wy wz : L <> 0 ->
  beamField 0 L (u 2%nat) (u 6%nat) (u 8%nat) (u 12%nat) wy -> beamField 0 L (u 3%nat) (- u 5%nat) (u 9%nat) (- u 11%nat) wz ->
  is_RInt (fun x => rhoA * linear L (u 1%nat) (u 7%nat) x ^ 2 + Ixx * linear L (u 4%nat) (u 10%nat) x ^ 2 +
    (rhoA * defl wy x ^ 2 + Izz * slope wy x ^ 2) + (rhoA * defl wz x ^ 2 + Iyy * slope wz x ^ 2)) 0 L
    (quad 12 (mass Eq rhoA Ixx Iyy Izz L) u).
Proof.
  intros HL By Bz. rewrite cons_quad by assumption.
  assert (I1 := linear_int rhoA L (u 1%nat) (u 7%nat) HL). assert (I2 := linear_int Ixx L (u 4%nat) (u 10%nat) HL).
  assert (I3 := mass_int rhoA Izz L _ _ _ _ wy HL By). assert (I4 := mass_int rhoA Iyy L _ _ _ _ wz HL Bz).
  exact (is_RInt_plus _ _ _ _ _ _ (is_RInt_plus _ _ _ _ _ _ (is_RInt_plus _ _ _ _ _ _ I1 I2) I3) I4).
Qed.

Theorem cons_psd rhoA Ixx Iyy Izz L u : 0 < L -> 0 <= rhoA -> 0 <= Ixx -> 0 <= Iyy -> 0 <= Izz -> 0 <= quad 12 (mass Eq rhoA Ixx Iyy Izz L) u.
Proof.
  intros HL H1 H2 H3 H4.
  destruct (beamField_exists 0 L (u 2%nat) (u 6%nat) (u 8%nat) (u 12%nat)) as [wy [By _]]; [lra|lra|].
  destruct (beamField_exists 0 L (u 3%nat) (- u 5%nat) (u 9%nat) (- u 11%nat)) as [wz [Bz _]]; [lra|lra|].
  assert (E := cons_energy rhoA Ixx Iyy Izz L u wy wz ltac:(lra) By Bz).
  refine (is_RInt_le (fun _ => 0) _ 0 L 0 _ _ _ E _); [lra| |].
  - assert (Z := is_RInt_const (V := R_NormedModule) 0 L 0). unfold scal in Z; cbn in Z. unfold mult in Z; cbn in Z. rewrite Rmult_0_r in Z. exact Z.
  - intros x Hx. assert (S : forall c y, 0 <= c -> 0 <= c * y ^ 2) by (intros; apply Rmult_le_pos; [assumption|apply pow2_ge_0]).
    assert (S1 := S rhoA (linear L (u 1%nat) (u 7%nat) x) H1). assert (S2 := S Ixx (linear L (u 4%nat) (u 10%nat) x) H2).
    assert (S3 := S rhoA (defl wy x) H1). assert (S4 := S Izz (slope wy x) H4). assert (S5 := S rhoA (defl wz x) H1). assert (S6 := S Iyy (slope wz x) H3). lra.
Qed.

(** Lumped: a diagonal matrix. *)
Definition lumpedDiag (rhoA Ixx L : R) (i : nat) : R :=
  match i with
  | 1 | 2 | 3 | 7 | 8 | 9 => (rhoA * L / 2)%R
  | 4 | 10 => (Ixx * L / 2)%R
  | 5 | 6 | 11 | 12 => (rhoA * L ^ 3 / 420)%R
  | _ => 0%R
  end%nat.
Lemma lumped_entries rhoA Ixx Iyy Izz L i j : (1 <= i <= 12)%nat -> (1 <= j <= 12)%nat ->
  mass Gt rhoA Ixx Iyy Izz L i j = if (i =? j)%nat then lumpedDiag rhoA Ixx L i else 0.
Proof.
  intros Hi Hj.
  assert (i = 1 \/ i = 2 \/ i = 3 \/ i = 4 \/ i = 5 \/ i = 6 \/ i = 7 \/ i = 8 \/ i = 9 \/ i = 10 \/ i = 11 \/ i = 12)%nat as A by lia.
  assert (j = 1 \/ j = 2 \/ j = 3 \/ j = 4 \/ j = 5 \/ j = 6 \/ j = 7 \/ j = 8 \/ j = 9 \/ j = 10 \/ j = 11 \/ j = 12)%nat as B by lia.
  clear Hi Hj. repeat destruct A as [-> | A]; try subst i; repeat destruct B as [-> | B]; try subst j; lazy -[Rplus Rmult Rinv Rdiv Ropp Rminus IZR]; field.
Qed.

(** Rigid-body inertia. *)
Lemma cons_bil_rigid rhoA Ixx Iyy Izz L a om g th : L <> 0 ->
  bil 12 (mass Eq rhoA Ixx Iyy Izz L) (rigidMotion a om vzero (V L 0 0)) (rigidMotion g th vzero (V L 0 0)) =
  rhoA * L * (vdot a g + L / 2 * (vdot a (vcross th (V 1 0 0)) + vdot g (vcross om (V 1 0 0)))) +
  L * (Ixx * vx om * vx th + (rhoA * L ^ 2 / 3 + Iyy) * vy om * vy th + (rhoA * L ^ 2 / 3 + Izz) * vz om * vz th).
Proof.
  intros HL. destruct a as [a1 a2 a3], om as [o1 o2 o3], g as [g1 g2 g3], th as [t1 t2 t3]. entries. field. auto.
Qed.
Lemma lumped_bil_trans rhoA Ixx Iyy Izz L a om g P Q :
  bil 12 (mass Gt rhoA Ixx Iyy Izz L) (rigidMotion a om vzero (V L 0 0)) (rigidMotion g vzero P Q) =
  rhoA * L * (vdot a g + L / 2 * vdot g (vcross om (V 1 0 0))).
Proof. destruct a as [a1 a2 a3], om as [o1 o2 o3], g as [g1 g2 g3], P as [p1 p2 p3], Q as [q1 q2 q3]. entries. field. Qed.

Lemma trans_any g P Q P' Q' i : rigidMotion g vzero P Q i = rigidMotion g vzero P' Q' i.
Proof.
  destruct g as [g1 g2 g3], P as [p1 p2 p3], Q as [q1 q2 q3], P' as [r1 r2 r3], Q' as [s1 s2 s3].
  unfold rigidMotion, nodal, vadd, vcross, vzero; cbn [vx vy vz]. do 13 (destruct i as [|i]; [try reflexivity; try ring|]). reflexivity.
Qed.
Lemma bil_ext n A v v' u u' : (forall i, v i = v' i) -> (forall i, u i = u' i) -> bil n A v u = bil n A v' u'.
Proof. intros Hv Hu. unfold bil, mv. apply sumf_ext. intros i Hi. rewrite Hv. f_equal. apply sumf_ext. intros j Hj. now rewrite Hu. Qed.

Lemma mass_bil_trans k rhoA Ixx Iyy Izz L a om g P Q : L <> 0 ->
  bil 12 (mass k rhoA Ixx Iyy Izz L) (rigidMotion a om vzero (V L 0 0)) (rigidMotion g vzero P Q) =
  rhoA * L * (vdot a g + L / 2 * vdot g (vcross om (V 1 0 0))).
Proof.
  intros HL. assert (C : forall Iyy Izz, bil 12 (mass Eq rhoA Ixx Iyy Izz L) (rigidMotion a om vzero (V L 0 0)) (rigidMotion g vzero P Q) = rhoA * L * (vdot a g + L / 2 * vdot g (vcross om (V 1 0 0)))).
  { intros. rewrite (bil_ext _ _ _ (rigidMotion a om vzero (V L 0 0)) _ (rigidMotion g vzero vzero (V L 0 0))) by (try reflexivity; intros; apply trans_any).
    rewrite cons_bil_rigid by assumption. destruct a as [a1 a2 a3], om as [o1 o2 o3], g as [g1 g2 g3]. unfold vdot, vcross, vzero; cbn. field. }
  destruct k; [apply C|rewrite mass_lt; apply C|apply lumped_bil_trans].
Qed.

Lemma ecc_trans e1 e2 g P Q i : eccV e1 e2 (rigidMotion g vzero P Q) i = rigidMotion g vzero P Q i.
Proof.
  destruct e1 as [e1 e2' e3], e2 as [f1 f2 f3], g as [g1 g2 g3], P as [p1 p2 p3], Q as [q1 q2 q3]. unfold eccV, rigidMotion, nodal, vadd, vcross, vzero; cbn [vx vy vz].
  do 13 (destruct i as [|i]; [try reflexivity; try ring|]). reflexivity.
Qed.
Lemma ecc_shift e a om P Q i : eccV e e (rigidMotion a om P Q) i = rigidMotion (vsub a (vcross om e)) om P Q i.
Proof.
  destruct e as [e1 e2 e3], a as [a1 a2 a3], om as [o1 o2 o3], P as [p1 p2 p3], Q as [q1 q2 q3]. unfold eccV, rigidMotion, nodal, vadd, vsub, vcross; cbn [vx vy vz].
  do 13 (destruct i as [|i]; [try reflexivity; try ring|]). reflexivity.
Qed.

Lemma massNA_bil k rhoA Ixx Iyy Izz L CGy CGz v u :
  bil 12 (massNA k rhoA Ixx Iyy Izz L CGy CGz) v u = bil 12 (mass k rhoA Ixx Iyy Izz L) (eccV (V 0 (- CGy) (- CGz)) (V 0 (- CGy) (- CGz)) v) (eccV (V 0 (- CGy) (- CGz)) (V 0 (- CGy) (- CGz)) u).
Proof.
  unfold massNA. destruct (Req_EM_T CGy 0) as [->|]; [destruct (Req_EM_T CGz 0) as [->|]|]; [|apply ecc_bil|apply ecc_bil].
  assert (Z : forall w i, eccV (V 0 (- 0) (- 0)) (V 0 (- 0) (- 0)) w i = w i).
  { intros w i. unfold eccV; cbn [vx vy vz]. do 13 (destruct i as [|i]; [try reflexivity; try ring|]). reflexivity. }
  apply bil_ext; intros; now rewrite Z.
Qed.

(** Translation against any rigid motion about end 1: mass at the centre of gravity. *)
Theorem massNA_rigid k rhoA Ixx Iyy Izz L CGy CGz a om g P Q : L <> 0 ->
  bil 12 (massNA k rhoA Ixx Iyy Izz L CGy CGz) (rigidMotion a om vzero (V L 0 0)) (rigidMotion g vzero P Q) =
  rhoA * L * (vdot a g + vdot om (vcross (V (L / 2) CGy CGz) g)).
Proof.
  intros HL. rewrite massNA_bil.
  rewrite (bil_ext _ _ _ (rigidMotion (vsub a (vcross om (V 0 (- CGy) (- CGz)))) om vzero (V L 0 0)) _ (rigidMotion g vzero P Q)) by (intros; first [apply ecc_shift|apply ecc_trans]).
  rewrite mass_bil_trans by assumption. destruct a as [a1 a2 a3], om as [o1 o2 o3], g as [g1 g2 g3]. unfold vdot, vcross, vsub, vzero; cbn. field.
Qed.

Lemma gravity_mv Mm g i : gravityLoad Mm g i = mv 12 Mm (rigidMotion g vzero vzero vzero) i.
Proof.
  unfold gravityLoad, mv, rd. destruct g as [g1 g2 g3]. unfold rigidMotion, nodal, vadd, vcross, vzero. cbn [sumf vx vy vz]. ring.
Qed.

(** The nodal gravity loads have resultant rho*A*L*g, acting at the centre of gravity. *)
Theorem gravity_resultant k rhoA Ixx Iyy Izz L CGy CGz a om g : L <> 0 ->
  sumf 12 (fun i => rigidMotion a om vzero (V L 0 0) i * gravityLoad (massNA k rhoA Ixx Iyy Izz L CGy CGz) g i) =
  vdot a (vscal (rhoA * L) g) + vdot om (vcross (V (L / 2) CGy CGz) (vscal (rhoA * L) g)).
Proof.
  intros HL. rewrite (sumf_ext 12 _ (fun i => rigidMotion a om vzero (V L 0 0) i * mv 12 (massNA k rhoA Ixx Iyy Izz L CGy CGz) (rigidMotion g vzero vzero vzero) i)) by (intros; now rewrite gravity_mv).
  change (sumf 12 _) with (bil 12 (massNA k rhoA Ixx Iyy Izz L CGy CGz) (rigidMotion a om vzero (V L 0 0)) (rigidMotion g vzero vzero vzero)).
  rewrite massNA_rigid by assumption. destruct a as [a1 a2 a3], om as [o1 o2 o3], g as [g1 g2 g3]. unfold vdot, vcross, vscal; cbn. ring.
Qed.

(** Rotation about end 1. *)
Theorem cons_rotation rhoA Ixx Iyy Izz L om : L <> 0 ->
  quad 12 (mass Eq rhoA Ixx Iyy Izz L) (rigidMotion vzero om vzero (V L 0 0)) =
  L * Ixx * vx om ^ 2 + (rhoA * L ^ 3 / 3 + L * Iyy) * vy om ^ 2 + (rhoA * L ^ 3 / 3 + L * Izz) * vz om ^ 2.
Proof. intros HL. rewrite bil_quad, cons_bil_rigid by assumption. destruct om as [o1 o2 o3]. unfold vdot, vcross, vzero; cbn. field. Qed.

(** ** In global axes *)
Definition tr (T : nat -> nat -> R) (a : v3) : v3 := V (vdot (col T 1) a) (vdot (col T 2) a) (vdot (col T 3) a).
Lemma loc_trans T a P Q i : (1 <= i <= 12)%nat -> locV T (rigidMotion a vzero P Q) i = rigidMotion (tr T a) vzero P Q i.
Proof.
  intros Hi. assert (i = 1 \/ i = 2 \/ i = 3 \/ i = 4 \/ i = 5 \/ i = 6 \/ i = 7 \/ i = 8 \/ i = 9 \/ i = 10 \/ i = 11 \/ i = 12)%nat as H by lia. clear Hi.
  destruct a as [a1 a2 a3], P as [p1 p2 p3], Q as [q1 q2 q3].
  repeat destruct H as [-> | H]; try subst i; unfold locV, tr, rigidMotion, nodal, vadd, vcross, vzero, vdot, col, loc, blk;
  cbn [Nat.sub Nat.div Nat.divmod Nat.modulo Nat.mul Nat.add fst snd sumf vx vy vz]; ring.
Qed.
Lemma bil_ext_in n A v v' u u' : (forall i, (1 <= i <= n)%nat -> v i = v' i) -> (forall i, (1 <= i <= n)%nat -> u i = u' i) -> bil n A v u = bil n A v' u'.
Proof. intros Hv Hu. unfold bil, mv. apply sumf_ext. intros i Hi. rewrite Hv by assumption. f_equal. apply sumf_ext. intros j Hj. now rewrite Hu. Qed.

(** Rows of a frame are orthonormal as well. *)
Lemma frame_rows T : frame T -> (forall i j, (1 <= i <= 3)%nat -> (1 <= j <= 3)%nat -> sumf 3 (fun k => T i k * T j k) = kron i j).
Proof.
  intros [F11 F22 F33 F12 F13 F23 FH].
  assert (C1 : vcross (col T 2) (col T 3) = col T 1).
  { rewrite <- FH, triple, F22, (vdot_sym (col T 2)), F12. destruct (col T 1) as [a b c], (col T 2) as [d e f]. unfold vsub, vscal; cbn. f_equal; ring. }
  assert (C2 : vcross (col T 3) (col T 1) = col T 2).
  { assert (W : vcross (col T 3) (col T 1) = vscal (-1) (vcross (col T 1) (col T 3))) by (generalize (col T 1) (col T 3); veq).
    rewrite W, <- FH, triple, F11, F12. destruct (col T 1) as [a b c], (col T 2) as [d e f]. unfold vsub, vscal; cbn. f_equal; ring. }
  assert (Det : vdot (col T 1) (vcross (col T 2) (col T 3)) = 1) by now rewrite C1.
  injection FH as G1 G2 G3. injection C1 as A1 A2 A3. injection C2 as B1 B2 B3. unfold vdot, vcross in Det. cbn in *.
  intros i j Hi Hj. assert (i = 1 \/ i = 2 \/ i = 3)%nat as Ei by lia. assert (j = 1 \/ j = 2 \/ j = 3)%nat as Ej by lia. clear Hi Hj.
  destruct Ei as [-> | [-> | ->]]; destruct Ej as [-> | [-> | ->]]; unfold kron; cbn [sumf Nat.eqb].
  - rewrite <- A1 at 2. rewrite <- B1 at 2. rewrite <- G1 at 2. rewrite <- Det. ring.
  - rewrite <- A2, <- B2, <- G2. ring.
  - rewrite <- A3, <- B3, <- G3. ring.
  - rewrite <- A1, <- B1, <- G1. ring.
  - rewrite <- A2 at 2. rewrite <- B2 at 2. rewrite <- G2 at 2. rewrite <- Det. ring.
  - rewrite <- A3, <- B3, <- G3. ring.
  - rewrite <- A1, <- B1, <- G1. ring.
  - rewrite <- A2, <- B2, <- G2. ring.
  - rewrite <- A3 at 2. rewrite <- B3 at 2. rewrite <- G3 at 2. rewrite <- Det. ring.
Qed.

Lemma tr_dot T a b : frame T -> vdot (tr T a) (tr T b) = vdot a b.
Proof.
  intros F. assert (H := frame_rows T F).
  assert (H11 := H 1%nat 1%nat ltac:(lia) ltac:(lia)). assert (H12 := H 1%nat 2%nat ltac:(lia) ltac:(lia)). assert (H13 := H 1%nat 3%nat ltac:(lia) ltac:(lia)).
  assert (H22 := H 2%nat 2%nat ltac:(lia) ltac:(lia)). assert (H23 := H 2%nat 3%nat ltac:(lia) ltac:(lia)). assert (H33 := H 3%nat 3%nat ltac:(lia) ltac:(lia)).
  unfold kron in *; cbn [sumf Nat.eqb] in *. destruct a as [a1 a2 a3], b as [b1 b2 b3]. unfold tr, vdot, col; cbn [vx vy vz].
  transitivity (a1 * b1 * (0 + T 1%nat 1%nat * T 1%nat 1%nat + T 1%nat 2%nat * T 1%nat 2%nat + T 1%nat 3%nat * T 1%nat 3%nat) + a2 * b2 * (0 + T 2%nat 1%nat * T 2%nat 1%nat + T 2%nat 2%nat * T 2%nat 2%nat + T 2%nat 3%nat * T 2%nat 3%nat) + a3 * b3 * (0 + T 3%nat 1%nat * T 3%nat 1%nat + T 3%nat 2%nat * T 3%nat 2%nat + T 3%nat 3%nat * T 3%nat 3%nat)
    + (a1 * b2 + a2 * b1) * (0 + T 1%nat 1%nat * T 2%nat 1%nat + T 1%nat 2%nat * T 2%nat 2%nat + T 1%nat 3%nat * T 2%nat 3%nat) + (a1 * b3 + a3 * b1) * (0 + T 1%nat 1%nat * T 3%nat 1%nat + T 1%nat 2%nat * T 3%nat 2%nat + T 1%nat 3%nat * T 3%nat 3%nat) + (a2 * b3 + a3 * b2) * (0 + T 2%nat 1%nat * T 3%nat 1%nat + T 2%nat 2%nat * T 3%nat 2%nat + T 2%nat 3%nat * T 3%nat 3%nat)); [ring|].
  rewrite H11, H22, H33, H12, H13, H23. ring.
Qed.

Theorem global_mass k rhoA Ixx Iyy Izz L CGy CGz T ecc a b P Q : L <> 0 -> frame T ->
  bil 12 (finalize (Some T) ecc (massNA k rhoA Ixx Iyy Izz L CGy CGz)) (rigidMotion a vzero P Q) (rigidMotion b vzero P Q) = rhoA * L * vdot a b.
Proof.
  intros HL F. rewrite finalize_bil.
  assert (E : forall c i, (1 <= i <= 12)%nat -> locV T (toEnds ecc (rigidMotion c vzero P Q)) i = rigidMotion (tr T c) vzero vzero (V L 0 0) i).
  { intros c i Hi. rewrite (trans_any _ vzero (V L 0 0) P Q), <- loc_trans by assumption. apply locV_ext. intros j. destruct ecc as [[e1 e2]|]; cbn [toEnds]; [apply ecc_trans|reflexivity]. }
  rewrite (bil_ext_in _ _ _ _ _ _ (E a) (E b)), massNA_rigid, tr_dot by assumption. unfold vdot, vzero; cbn. ring.
Qed.

(** Diagonal transformation of the lumped matrix. *)
Theorem lumped_global T d : frame T ->
  d 7%nat = d 8%nat -> d 8%nat = d 9%nat ->
  (forall i, (i <= 3)%nat -> lumpedGlobal T d i = d i) /\
  (forall i, (7 <= i <= 9)%nat -> lumpedGlobal T d i = d i) /\
  lumpedGlobal T d 4%nat + lumpedGlobal T d 5%nat + lumpedGlobal T d 6%nat = d 4%nat + d 5%nat + d 6%nat /\
  lumpedGlobal T d 10%nat + lumpedGlobal T d 11%nat + lumpedGlobal T d 12%nat = d 10%nat + d 11%nat + d 12%nat.
Proof.
  intros F E1 E2. assert (RR := frame_rows T F). destruct F as [F11 F22 F33 _ _ _ _]. unfold vdot, col in *. cbn [vx vy vz] in *.
  split; [|split; [|split]].
  - intros i Hi. unfold lumpedGlobal. destruct (Nat.leb_spec i 3); [reflexivity|lia].
  - intros i Hi. assert (i = 7 \/ i = 8 \/ i = 9)%nat as H by lia. clear Hi.
    assert (R1 := RR 1%nat 1%nat ltac:(lia) ltac:(lia)). assert (R2 := RR 2%nat 2%nat ltac:(lia) ltac:(lia)). assert (R3 := RR 3%nat 3%nat ltac:(lia) ltac:(lia)).
    unfold kron in *; cbn [sumf Nat.eqb] in *.
    destruct H as [-> | [-> | ->]]; unfold lumpedGlobal, rd, rv, loc, blk; cbn [Nat.leb Nat.sub Nat.div Nat.divmod Nat.modulo Nat.mul Nat.add fst snd sumf]; rewrite ?E1, ?E2;
    [transitivity (d 9%nat * 1); [rewrite <- R1|]|transitivity (d 9%nat * 1); [rewrite <- R2|]|transitivity (d 9%nat * 1); [rewrite <- R3|]]; ring.
  - unfold lumpedGlobal, rd, rv, loc, blk; cbn [Nat.leb Nat.sub Nat.div Nat.divmod Nat.modulo Nat.mul Nat.add fst snd sumf].
    transitivity (d 4%nat * (T 1%nat 1%nat * T 1%nat 1%nat + T 2%nat 1%nat * T 2%nat 1%nat + T 3%nat 1%nat * T 3%nat 1%nat) + d 5%nat * (T 1%nat 2%nat * T 1%nat 2%nat + T 2%nat 2%nat * T 2%nat 2%nat + T 3%nat 2%nat * T 3%nat 2%nat) + d 6%nat * (T 1%nat 3%nat * T 1%nat 3%nat + T 2%nat 3%nat * T 2%nat 3%nat + T 3%nat 3%nat * T 3%nat 3%nat)); [ring|]. rewrite F11, F22, F33. ring.
  - unfold lumpedGlobal, rd, rv, loc, blk; cbn [Nat.leb Nat.sub Nat.div Nat.divmod Nat.modulo Nat.mul Nat.add fst snd sumf].
    transitivity (d 10%nat * (T 1%nat 1%nat * T 1%nat 1%nat + T 2%nat 1%nat * T 2%nat 1%nat + T 3%nat 1%nat * T 3%nat 1%nat) + d 11%nat * (T 1%nat 2%nat * T 1%nat 2%nat + T 2%nat 2%nat * T 2%nat 2%nat + T 3%nat 2%nat * T 3%nat 2%nat) + d 12%nat * (T 1%nat 3%nat * T 1%nat 3%nat + T 2%nat 3%nat * T 2%nat 3%nat + T 3%nat 3%nat * T 3%nat 3%nat)); [ring|]. rewrite F11, F22, F33. ring.
Qed.

(** Equal translational masses at a node: the eccentric terms are the diagonal of m(|e|^2 I - e e^t). *)
Theorem lumped_ecc e1 e2 d m1 m2 : d 1%nat = m1 -> d 2%nat = m1 -> d 3%nat = m1 -> d 7%nat = m2 -> d 8%nat = m2 -> d 9%nat = m2 ->
  forall k, (1 <= k <= 3)%nat ->
  lumpedEcc e1 e2 d k = d k /\ lumpedEcc e1 e2 d (6 + k)%nat = d (6 + k)%nat /\
  lumpedEcc e1 e2 d (3 + k)%nat = d (3 + k)%nat + m1 * (vdot e1 e1 - vc e1 k * vc e1 k) /\
  lumpedEcc e1 e2 d (9 + k)%nat = d (9 + k)%nat + m2 * (vdot e2 e2 - vc e2 k * vc e2 k).
Proof.
  intros H1 H2 H3 H7 H8 H9 k Hk. assert (k = 1 \/ k = 2 \/ k = 3)%nat as H by lia. clear Hk.
  destruct H as [-> | [-> | ->]]; unfold lumpedEcc, rv, vdot, vc; cbn [Nat.add]; rewrite ?H1, ?H2, ?H3, ?H7, ?H8, ?H9; repeat split; ring.
Qed.

(** ** Refutations *)
(* unequal eccentricities with the axes taken between the grid points *)
Definition idT (i j : nat) : R := if (i =? j)%nat then 1 else 0.
Lemma idT_frame : frame idT.
Proof. constructor; unfold vdot, vcross, col, idT; cbn; try ring. f_equal; ring. Qed.

Lemma unequal_ecc : exists i, mv 12 (finalize (Some idT) (Some (V 0 1 0, vzero)) (stiffness 1 1 1 1 1 0 0 0 0)) (rigidMotion vzero (V 0 0 1) vzero (V 1 0 0)) i <> 0.
Proof.
  exists 7%nat. rewrite bil_mv, finalize_bil, stiffness_bil by (try lia; lra). cbn zeta.
  assert (S : skewed 0 0 = false). { unfold skewed. destruct (Rlt_dec (/ 10 ^ 12) (Rabs 0 + Rabs 0)) as [C|]; [|reflexivity].
    rewrite Rabs_R0 in C. assert (0 < / 10 ^ 12) by (apply Rinv_0_lt_compat; lra). lra. }
  unfold atCentre. rewrite S. unfold dax, dtw, dkz, dgy, dky, dgz, locV, toEnds, eccV, rigidMotion, nodal, vadd, vcross, vzero, idT, kron, loc, blk.
  cbn [Nat.sub Nat.div Nat.divmod Nat.modulo Nat.mul Nat.add fst snd sumf vx vy vz Nat.eqb]. lra.
Qed.

(** Any diagonal: the transformed entry is that of the full eccentricity transformation. *)
Theorem lumped_ecc_full e1 e2 d i : (1 <= i <= 12)%nat ->
  lumpedEcc e1 e2 d i = sumf 12 (fun j => d j * (eccV e1 e2 (fun l => kron l i) j) ^ 2).
Proof.
  intros Hi. do 12 (destruct i as [|i]; [try lia; unfold lumpedEcc, rv, eccV, kron; cbn; ring|]). destruct i; [unfold lumpedEcc, rv, eccV, kron; cbn; ring|lia].
Qed.
Theorem ecc_vec_work e1 e2 b v : sumf 12 (fun i => v i * eccVec e1 e2 b i) = sumf 12 (fun i => eccV e1 e2 v i * b i).
Proof. unfold eccVec, rv, eccV. cbn. ring. Qed.
