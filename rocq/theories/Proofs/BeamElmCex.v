From Coquelicot Require Import Coquelicot.
From Verif Require Import Lib.Base Lib.Sums Lib.Writes Lib.Congruence Lib.Script Lib.Vec3 Model.Beam Model.Section Model.BeamElm Spec.Beam Spec.BeamElm.
From Verif Require Import Proofs.Beam Proofs.BeamThy Proofs.BeamGlobal Proofs.BeamMass Proofs.BeamElm Proofs.BeamElmFin Proofs.BeamElmThm.
From Verif Require Model.Modes.

(* unit beam, centre of gravity offset [cg] along the second axis *)
Definition unitProp (cg : R) : eprop := mkProp 1 1 1 1 0 0 1 cg 0 1 1 1 1 0 0.
Definition sideT (i j : nat) : R := match i, j with 1, 2 => (-1)%R | 2, 1 => 1%R | 3, 3 => 1%R | _, _ => 0%R end%nat.
Definition unitBeam (T : nat -> nat -> R) (e : v3) (cg : R) (g : v3) (lump : Z) : beam := mkBeam 1 T e e (unitProp cg) g lump (/ 10 ^ 6).
Definition cfg (p3 : QArith_base.Q) : Modes.config := Modes.mkCfg (fun k => if (k =? 3)%nat then p3 else QArith_base.Qmake 0 1) 1 1 false false false false true.

Lemma sideT_frame : frame sideT.
Proof. constructor; unfold vdot, vcross, col, sideT; cbn; try ring. f_equal; ring. Qed.
Lemma unit_regular T e cg g l : regular (unitBeam T e cg g l).
Proof. unfold regular, unitBeam, unitProp; cbn. lra. Qed.
Lemma tol_small : 0 < / 10 ^ 6 < 1.
Proof. split; [apply Rinv_0_lt_compat, pow_lt; lra|]. rewrite <- Rinv_1. apply Rinv_lt_contravar; [|]; lra. Qed.
Lemma isZero_zero t : 0 <= t -> isZero t vzero = true.
Proof. intros H. unfold isZero, gtb, vzero; cbn. rewrite Rabs_R0. destruct (Rlt_dec t 0); [lra|reflexivity]. Qed.
Lemma isZero_one : isZero (/ 10 ^ 6) (V 0 0 1) = false.
Proof. assert (H := tol_small). unfold isZero, gtb; cbn [vx vy vz]. rewrite Rabs_R0, Rabs_R1. destruct (Rlt_dec _ 1); [|lra]. rewrite orb_true_r. reflexivity. Qed.
Lemma unit_noecc T cg g l : hasEcc (unitBeam T vzero cg g l) = false.
Proof. unfold hasEcc, unitBeam; cbn [bTol bE1 bE2]. rewrite isZero_zero; [reflexivity|]. assert (H := tol_small). lra. Qed.
Lemma unit_ecc T cg g l : hasEcc (unitBeam T (V 0 0 1) cg g l) = true.
Proof. unfold hasEcc, unitBeam; cbn [bTol bE1 bE2]. now rewrite isZero_one. Qed.
Lemma unit_nograv F T e cg l : hasGrF F (unitBeam T e cg vzero l) = false.
Proof. unfold hasGrF, unitBeam; cbn [bTol bGrav]. rewrite isZero_zero; [reflexivity|]. assert (H := tol_small). lra. Qed.
Lemma unit_long T e cg g l : / 10 ^ 8 < bL (unitBeam T e cg g l).
Proof. unfold unitBeam; cbn [bL]. rewrite <- Rinv_1. apply Rinv_lt_contravar; lra. Qed.
Lemma unit_dis T e cg g l u i : (1 <= i <= 12)%nat -> u i = 1 -> hasDis (unitBeam T e cg g l) u = true.
Proof.
  intros Hi H. unfold hasDis. apply (larger_true u _ i Hi). rewrite H, Rabs_R1. unfold unitBeam; cbn [bL]. rewrite Rmult_1_r, <- Rinv_1. apply Rinv_lt_contravar; lra.
Qed.
Lemma ends_id e cg g l v i : hasEcc (unitBeam idT e cg g l) = false -> (1 <= i <= 12)%nat -> ends (unitBeam idT e cg g l) v i = v i.
Proof.
  intros H Hi. unfold ends, E1, E2. rewrite H. cbn [bT unitBeam]. twelve i Hi; unfold endMotion, nodal, along, vdot, col, disp1, disp2, rot1, rot2, vsub, vcross, vzero, idT; cbn; ring.
Qed.

(** ** The geometric part makes the matrix differ from the derivative of the forces *)
Definition force1 (r : res elm) : nat -> R := match r with Ret m => eB m 1 | _ => fun _ => 0 end.
Definition mat1 (r : res elm) : fmat := match r with Ret m => eA m 1 | _ => zero end.
Definition stretch (s : R) (i : nat) : R := kron i 7 + s * kron i 8.
Definition dirY (i : nat) : R := kron i 8.
Definition staticNL : slots := beamSlots (cfg (QArith_base.Qmake 0 1)) Modes.STATIC.
Definition plainBeam : beam := unitBeam idT vzero 0 vzero 0.

Lemma staticNL_eq : staticNL = mkSlots 1 1 0 1 1. Proof. reflexivity. Qed.
Lemma skewed0 : skewed 0 0 = false.
Proof. unfold skewed. destruct (Rlt_dec (/ 10 ^ 12) (Rabs 0 + Rabs 0)) as [C|]; [|reflexivity]. rewrite Rabs_R0 in C. assert (0 < / 10 ^ 12) by (apply Rinv_0_lt_compat; lra). lra. Qed.
Lemma stretch_accepted s : exists m, beamElement staticNL plainBeam (stretch s) = Ret m.
Proof. apply accepts. split; [apply unit_long|]. unfold plainBeam. rewrite unit_noecc. discriminate. Qed.
Lemma stretch_dis s : hasDis plainBeam (stretch s) = true.
Proof. apply (unit_dis _ _ _ _ _ _ 7%nat); [lia|]. unfold stretch, kron; cbn. ring. Qed.
Lemma stretch_force s : work dirY (force1 (beamElement staticNL plainBeam (stretch s))) = - 12 * s.
Proof.
  destruct (stretch_accepted s) as [m H]. rewrite H. cbn [force1].
  assert (R1 := residual staticNL plainBeam (stretch s) m dirY H (beamSlots_ok _ _) ltac:(rewrite staticNL_eq; cbn; lia) (or_introl (stretch_dis s))).
  rewrite staticNL_eq in R1 at 1. cbn [iS] in R1. rewrite R1. unfold plainBeam at 1. rewrite unit_nograv. cbn [andb].
  rewrite (bil_ext_in _ _ _ dirY _ (stretch s)) by (intros; apply ends_id; [apply unit_noecc|assumption]).
  unfold Km, plainBeam, unitBeam, unitProp; cbn [bL bP pEA pGIt pEIy pEIz pAly pAlz pSy pSz].
  rewrite stiffness_bil by lra. cbn zeta. unfold atCentre. rewrite skewed0. unfold dax, dtw, dkz, dgy, dky, dgz, dirY, stretch, kron; cbn. lra.
Qed.
Lemma stretch_matrix : bil 12 (mat1 (beamElement staticNL plainBeam (stretch 0))) dirY dirY = 12 + 6 / 5.
Proof.
  destruct (stretch_accepted 0) as [m H]. rewrite H. cbn [mat1].
  assert (R1 := tangent staticNL plainBeam (stretch 0) m dirY dirY H (unit_regular _ _ _ _ _) (beamSlots_ok _ _) ltac:(rewrite staticNL_eq; cbn; lia)).
  rewrite staticNL_eq in R1. cbn [eKm eKg Nat.eqb] in R1. rewrite R1. unfold axialForce. rewrite stretch_dis.
  rewrite !(bil_ext_in _ _ (ends plainBeam dirY) dirY (ends plainBeam dirY) dirY) by (intros; apply ends_id; [apply unit_noecc|assumption]).
  unfold Km, Kg, plainBeam, unitBeam, unitProp; cbn [bL bP bT pEA pGIt pEIy pEIz pAly pAlz pSy pSz pItoA].
  rewrite stiffness_bil, geo_bil by lra. cbn zeta. unfold atCentre. rewrite skewed0.
  unfold elongation, dax, dtw, dkz, dgy, dky, dgz, dy, dz, dirY, stretch, vdot, vsub, col, idT, disp1, disp2, kron; cbn. lra.
Qed.
Lemma stretch_derive : is_derive (fun s => work dirY (force1 (beamElement staticNL plainBeam (stretch s)))) 0 (-12).
Proof. apply (is_derive_ext (fun s => -12 * s)); [intros; now rewrite stretch_force|]. auto_derive; [exact I|ring]. Qed.

(** ** Eccentric elements are refused in some modes *)
Definition eccBeam : beam := unitBeam idT (V 0 0 1) 0 vzero 0.
Definition push (i : nat) : R := kron i 7.
Lemma ecc_modes :
  (exists m, beamElement (beamSlots (cfg (QArith_base.Qmake 1 1)) Modes.STATIC) eccBeam push = Ret m) /\
  ~ (exists m, beamElement (beamSlots (cfg (QArith_base.Qmake 0 1)) Modes.STATIC) eccBeam push = Ret m) /\
  ~ (exists m, beamElement (beamSlots (cfg (QArith_base.Qmake 1 1)) Modes.RHS_ONLY) eccBeam push = Ret m) /\
  ~ (exists m, beamElement (beamSlots (cfg (QArith_base.Qmake 1 1)) Modes.INT_FORCES) eccBeam push = Ret m).
Proof.
  assert (HE : hasEcc eccBeam = true) by apply unit_ecc. assert (HD : hasDis eccBeam push = true) by (apply (unit_dis _ _ _ _ _ _ 7%nat); [lia|reflexivity]).
  assert (HU : ~ forall i, (1 <= i <= 12)%nat -> push i = 0) by (intros C; specialize (C 7%nat ltac:(lia)); unfold push, kron in C; cbn in C; lra).
  rewrite !accepts, HE, HD. cbn. repeat split.
  - exact (unit_long idT (V 0 0 1) 0 vzero 0).
  - now left.
  - right. right. split; lia.
  - intros [_ H]. destruct (H eq_refl) as [[C|C] _]; discriminate.
  - intros [_ H]. destruct (H eq_refl) as [_ [C|[C|[C _]]]]; [discriminate|contradiction|lia].
  - intros [_ H]. destruct (H eq_refl) as [_ [C|[C|[C _]]]]; [discriminate|contradiction|lia].
Qed.

(** ** lumpedMass = 2: the coupling terms keep the local axes *)
Definition lumpBeam (l : Z) : beam := unitBeam sideT vzero 1 vzero l.
Definition vib : slots := beamSlots (cfg (QArith_base.Qmake 0 1)) Modes.VIBRATION.
Lemma lump_accepted l : exists m, beamElement vib (lumpBeam l) (fun _ => 0) = Ret m.
Proof. apply accepts. split; [apply unit_long|]. unfold lumpBeam. rewrite unit_noecc. discriminate. Qed.
Lemma lump_placed l : placed (lumpBeam l) vzero (V 0 1 0) vzero.
Proof.
  unfold placed, E1, E2, lumpBeam. rewrite unit_noecc. cbn [bT bL unitBeam]. split; [apply sideT_frame|].
  unfold vadd, vscal, col, vzero, sideT; cbn. split; f_equal; ring.
Qed.
Lemma lump_wrong : forall m, beamElement vib (lumpBeam 2) (fun _ => 0) = Ret m ->
  bil 12 (eA m (eM vib)) (rigidMotion vzero (V 0 0 1) vzero (V 0 1 0)) (rigidMotion (V 1 0 0) vzero vzero (V 0 1 0)) <>
  forceWork (vscal (pRhoA (bP (lumpBeam 2)) * bL (lumpBeam 2)) (V 1 0 0)) (centroid (lumpBeam 2) vzero) vzero (V 0 0 1).
Proof.
  intros m H. destruct (final_mats _ _ _ _ H) as [m0 [E EA]]. rewrite EA. change (eM vib) with 2%nat. cbn [Nat.eqb andb]. change (bLump (lumpBeam 2) =? 2)%Z with true. cbn [andb].
  assert (EM : eA m0 2 = Mm (lumpBeam 2)) by (apply (eval_mass vib (lumpBeam 2) (fun _ => 0) m0 E); cbn; lia). rewrite EM.
  assert (EC : effEcc (lumpBeam 2) = None) by (unfold effEcc, lumpBeam; now rewrite unit_noecc). rewrite EC.
  assert (MM : Mm (lumpBeam 2) = exec (mass Gt 1 1 1 1 1) (eccProg (V 0 (- (1)) (- 0)) (V 0 (- (1)) (- 0)))).
  { unfold Mm, massNA, lumpBeam, unitBeam, unitProp; cbn [bP bL bLump pCGy pCGz pRhoA pIxx pIyy pIzz Z.compare]. destruct (Req_EM_T 1 0); [lra|reflexivity]. }
  rewrite MM.
  assert (X : bil 12 (finalizeLumped (bT (lumpBeam 2)) None (exec (mass Gt 1 1 1 1 1) (eccProg (V 0 (- (1)) (- 0)) (V 0 (- (1)) (- 0))))) (rigidMotion vzero (V 0 0 1) vzero (V 0 1 0)) (rigidMotion (V 1 0 0) vzero vzero (V 0 1 0)) = - 3 / 2).
  { change (bT (lumpBeam 2)) with sideT. entries. field. }
  rewrite X. unfold forceWork, centroid, lumpBeam, unitBeam, unitProp, vdot, vadd, vcross, vscal, vzero, col, sideT; cbn. lra.
Qed.
