(** Properties C07-C09, C68, C69: the hyperelastic material. *)
From Verif.Lib Require Import Base Tensor3.
From Verif.Spec Require Import HyperElastic.
From Verif.Model Require Import NeoHooke.
From Verif.Proofs Require Import NeoHooke.
From Coquelicot Require Import Coquelicot.

Theorem C07_derivatives_partial : forall iv K J, (1 <= iv <= 3)%nat -> 0 < J ->
  is_derive (volU iv K) J (volUp iv K J) /\ is_derive (volUp iv K) J (volUpp iv K J).
Proof. intros iv K J Hi HJ. split; [exact (vol_first iv K J Hi HJ)|exact (vol_second iv K J Hi HJ)]. Qed.
Print Assumptions C07_derivatives_partial.

Theorem C07_law4_refuted : exists K J, 0 < J /\ ~ is_derive (volU 4 K) J (volUp 4 K J).
Proof. exists 1, 1. split; [lra|]. apply vol4_wrong; lra. Qed.
Print Assumptions C07_law4_refuted.

Theorem C08_stress_formula : forall m F, mVER m = 1%nat -> iVOL m = 3%nat -> 0 < det3 F ->
  exists U S C, neoEvaluate m F = Ret (U, S, C) /\
  forall i j, (1 <= i <= 3)%nat -> (1 <= j <= 3)%nat ->
    unvoigt S i j = (Smod m * (mul3 F (trn F) i j - kron i j) + Bmod m * ln (det3 F) * kron i j) / det3 F.
Proof. exact neo_std_formula. Qed.
Print Assumptions C08_stress_formula.

Theorem C08_objective : forall m F Q, ver_ok m -> det3 F <> 0 -> rotation Q ->
  neoW m (mul3 Q F) = neoW m F /\ eq3 (neoSig m (mul3 Q F)) (rotate Q (neoSig m F)).
Proof. exact objective. Qed.
Print Assumptions C08_objective.

Theorem C08_evaluates : forall m F, ver_ok m -> det3 F <> 0 -> exists U S C, neoEvaluate m F = Ret (U, S, C) /\
  neoW m F = U /\ neoSig m F = unvoigt S /\ neoC m F = el C.
Proof. exact neo_evaluates. Qed.
Print Assumptions C08_evaluates.

Theorem C08_symmetric : forall m F, symm 6 (neoC m F) /\ forall i j, neoSig m F i j = neoSig m F j i.
Proof. intros m F. split; [exact (tangent_symm m F)|exact (sig_symm m F)]. Qed.
Print Assumptions C08_symmetric.

Theorem C08_stress_free_partial : forall m, ver_ok m -> (1 <= iVOL m <= 3)%nat -> eq3 (neoSig m kron) (fun _ _ => 0).
Proof. exact reference_zero. Qed.
Print Assumptions C08_stress_free_partial.

Theorem C08_stress_free_refuted : exists m, ver_ok m /\ iVOL m = 4%nat /\ neoSig m kron 1%nat 1%nat <> 0.
Proof. exact reference_nonzero. Qed.
Print Assumptions C08_stress_free_refuted.

Theorem C08_small_strain_tangent : forall m, ver_ok m -> (1 <= iVOL m <= 3)%nat ->
  forall i j, (1 <= i <= 6)%nat -> (1 <= j <= 6)%nat ->
  neoC m kron i j =
    (if ((i <=? 3) && (j <=? 3))%nat%bool then (if Nat.eqb (mVER m) 1 then Bmod m else Bmod m - 2/3 * Smod m) else 0)
    + (if Nat.eqb i j then (if (i <=? 3)%nat then 2 else 1) * Smod m else 0).
Proof. exact reference_tangent. Qed.
Print Assumptions C08_small_strain_tangent.

Theorem C09_setups_partial : forall m, (nNu m <= 1/2 \/ (mVER m <> 1%nat /\ 0 < nEmod m)) ->
  forall n, setups (S n) m = setups 1 m.
Proof. exact setups_stable. Qed.
Print Assumptions C09_setups_partial.

Theorem C09_setups_refuted : exists m, mVER m = 1%nat /\ setups 2 m <> setups 1 m.
Proof. exact setups_unstable. Qed.
Print Assumptions C09_setups_refuted.

Theorem C68_energy_conjugate_partial : forall m F, ver_ok m -> (1 <= iVOL m <= 3)%nat -> 0 < det3 F ->
  energy_conjugate (neoW m) F (neoSig m F).
Proof. exact hyperelastic. Qed.
Print Assumptions C68_energy_conjugate_partial.

Theorem C68_consistent_tangent_partial : forall m F, ver_ok m -> (1 <= iVOL m <= 3)%nat -> 0 < det3 F ->
  spatial_tangent (neoSig m) F (neoC m F).
Proof. exact consistent_tangent. Qed.
Print Assumptions C68_consistent_tangent_partial.

Theorem C68_law4_refuted : exists m F, ver_ok m /\ iVOL m = 4%nat /\ 0 < det3 F /\
  ~ energy_conjugate (neoW m) F (neoSig m F).
Proof. exact hyperelastic_law4_wrong. Qed.
Print Assumptions C68_law4_refuted.

Theorem C69_safe_3d_partial : forall m F, neoEvaluate m F <> UB.
Proof. exact neo_3d_safe. Qed.
Print Assumptions C69_safe_3d_partial.

Theorem C69_plane_refuted : forall m J b,
  stdNeoHooke m 2 3 J b = UB /\ stdNeoHooke m 2 4 J b = UB /\ modNeoHooke m 2 3 J b = UB.
Proof. intros m J b. repeat split. Qed.
Print Assumptions C69_plane_refuted.

(** Non-vacuity: a sheared and stretched state of a rubber-like material meets all hypotheses. *)
Example hyperelastic_case :
  ver_ok (newNeo 10 (3/10) 12) /\ (1 <= iVOL (newNeo 10 (3/10) 12) <= 3)%nat /\ 0 < det3 exF /\ rotation exQ.
Proof. exact neo_case. Qed.
