(** Which second moment of area enters bending and rotary inertia. *)
From Coquelicot Require Import Coquelicot.
From Verif Require Import Lib.Base Lib.Script Lib.Vec3 Model.Beam Spec.Beam Proofs.Beam Proofs.BeamThy Model.Section Spec.Section Proofs.Section.

(* uniform bending about the local z axis and about the local y axis *)
Definition bendZ (th : R) : nat -> R := nodal vzero (V 0 0 (- th)) vzero (V 0 0 th).
Definition bendY (th : R) : nat -> R := nodal vzero (V 0 (- th) 0) vzero (V 0 th 0).
Definition stiffOf (p : eprop) (L : R) : fmat := stiffness L (pEA p) (pGIt p) (pEIy p) (pEIz p) (pAly p) (pAlz p) 0 0.
Lemma not_skewed : skewed 0 0 = false.
Proof. unfold skewed. destruct (Rlt_dec _ _) as [H|]; [|reflexivity]. exfalso. rewrite Rabs_R0 in H. assert (0 < / 10 ^ 12) by (apply Rinv_0_lt_compat, pow_lt; lra). lra. Qed.

Theorem bend_energy L EA GIt EIy EIz Aly Alz th : L <> 0 -> 1 + Aly <> 0 -> 1 + Alz <> 0 ->
  quad 12 (stiffness L EA GIt EIy EIz Aly Alz 0 0) (bendZ th) = EIy * (2 * th) ^ 2 / L /\
  quad 12 (stiffness L EA GIt EIy EIz Aly Alz 0 0) (bendY th) = EIz * (2 * th) ^ 2 / L.
Proof.
  intros HL Hy Hz. rewrite !bil_quad, !stiffness_bil by assumption. unfold atCentre. rewrite not_skewed. cbn zeta.
  unfold dax, dtw, dkz, dky, dgy, dgz, bendZ, bendY, nodal, vzero; cbn [vx vy vz]. split; field; auto.
Qed.

(** Sections with equal moments. *)
Theorem bend_equal s L E G rho th : L <> 0 -> sIy s = sIz s ->
  let p := evalProp noFuncs s L E G rho false true in 1 + pAly p <> 0 -> 1 + pAlz p <> 0 ->
  quad 12 (stiffOf p L) (bendZ th) = E * sIz s * (2 * th) ^ 2 / L /\
  quad 12 (stiffOf p L) (bendY th) = E * sIy s * (2 * th) ^ 2 / L.
Proof.
  intros HL Hs p Hy Hz. unfold stiffOf. destruct (bend_energy L (pEA p) (pGIt p) (pEIy p) (pEIz p) (pAly p) (pAlz p) th HL Hy Hz) as [H1 H2].
  rewrite H1, H2. unfold p, evalProp, noFuncs. destruct (if Rlt_dec _ _ then _ else _). cbn [pEIy pEIz orElse fEIy fEIz fIy fIz]. rewrite Hs. split; reflexivity.
Qed.

(** A solid rectangle, higher than wide: bending about z does not use the integral of y^2. *)
Theorem bend_swapped : exists H B E G L th Iz, 0 < H /\ 0 < B /\ 0 < E /\ 0 < G /\ 0 < L /\
  rectIntegral (fun y _ => y ^ 2) B H Iz /\
  quad 12 (stiffOf (evalProp noFuncs (ofBox (boxSolid H B)) L E G 1 false true) L) (bendZ th) <> E * Iz * (2 * th) ^ 2 / L.
Proof.
  exists 2, 1, 1, 1, 1, 1, (1 / 6). repeat (split; [lra|]). split.
  { replace (1 / 6) with (2 * 1 ^ 3 / 12) by field. apply rect_yy. }
  set (p := evalProp _ _ _ _ _ _ _ _).
  assert (P1 : pEIy p = 2 / 3).
  { unfold p, evalProp, noFuncs. destruct (if Rlt_dec _ _ then _ else _). cbn [pEIy orElse fEIy fIy]. unfold ofBox, boxSolid. destruct (Rlt_dec 1 2); [|lra]. cbn [sIy bI1]. field. }
  assert (P2 : 0 <= pAly p /\ 0 <= pAlz p).
  { unfold p, evalProp, noFuncs. destruct (if Rlt_dec _ _ then _ else _). cbn [pAly pAlz orElse fEIy fIy fEIz fIz fAx fAy fAz]. unfold ofBox, boxSolid. destruct (Rlt_dec 1 2); [|lra]. cbn [sIy sIz bI1 bI2 sKy sKz sA bA bK1 bK2]. split; lra. }
  destruct (bend_energy 1 (pEA p) (pGIt p) (pEIy p) (pEIz p) (pAly p) (pAlz p) 1) as [H1 _]; [lra|lra|lra|].
  unfold stiffOf. rewrite H1, P1. lra.
Qed.

(** The rotary inertia of the same deflection plane does use the integral of y^2. *)
Theorem rotary_consistent s L E G rho : let p := evalProp noFuncs s L E G rho false true in pIzz p = rho * sIz s /\ pIyy p = rho * sIy s.
Proof. unfold evalProp, noFuncs. destruct (if Rlt_dec _ _ then _ else _). split; reflexivity. Qed.
