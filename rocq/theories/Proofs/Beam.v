From Coquelicot Require Import Coquelicot.
From Verif Require Import Lib.Base Lib.Sums Lib.Writes Lib.Congruence Lib.Script Lib.Vec3 Model.Beam Spec.Beam.

(** ** Bilinear forms *)
Definition bil (n : nat) (A : nat -> nat -> R) (v u : nat -> R) : R := sumf n (fun i => v i * mv n A u i).
Lemma bil_quad n A u : quad n A u = bil n A u u.
Proof. reflexivity. Qed.
Lemma bil_mv n A u i : (1 <= i <= n)%nat -> mv n A u i = bil n A (fun k => kron k i) u.
Proof. intros Hi. unfold bil. now rewrite (sumf_kron n i (fun k => mv n A u k)). Qed.
Lemma bil_entry n A i j : (1 <= i <= n)%nat -> (1 <= j <= n)%nat -> A i j = bil n A (fun k => kron k i) (fun k => kron k j).
Proof.
  intros Hi Hj. rewrite <- bil_mv by assumption. unfold mv.
  rewrite (sumf_ext n _ (fun k => kron k j * A i k)) by (intros; ring). now rewrite sumf_kron.
Qed.
Lemma bil_symm n A : (forall u v, bil n A v u = bil n A u v) -> symm n A.
Proof. intros H i j Hi Hj. rewrite (bil_entry n A i j), (bil_entry n A j i) by assumption. apply H. Qed.

Ltac entries := unfold bil, mv; lazy -[Rplus Rmult Rinv Rdiv Ropp Rminus IZR].

(** ** Local material stiffness *)
Definition dax (u : nat -> R) := u 7%nat - u 1%nat.
Definition dtw (u : nat -> R) := u 10%nat - u 4%nat.
Definition dkz (u : nat -> R) := u 12%nat - u 6%nat.
Definition dgy (L : R) (u : nat -> R) := (u 8%nat - u 2%nat) - L / 2 * (u 6%nat + u 12%nat).
Definition dky (u : nat -> R) := u 11%nat - u 5%nat.
Definition dgz (L : R) (u : nat -> R) := (u 9%nat - u 3%nat) + L / 2 * (u 5%nat + u 11%nat).

Lemma den1 L A : L <> 0 -> 1 + A <> 0 -> L + L * A <> 0.
Proof. intros HL HA. replace (L + L * A) with (L * (1 + A)) by ring. now apply Rmult_integral_contrapositive_currified. Qed.
Lemma den3 L A : L <> 0 -> 1 + A <> 0 -> L * L * L + L * L * L * A <> 0.
Proof. intros HL HA. replace (L * L * L + L * L * L * A) with (L * L * L * (1 + A)) by ring. repeat apply Rmult_integral_contrapositive_currified; assumption. Qed.

Lemma stiff_bil L EA GIt EIy EIz Aly Alz v u : L <> 0 -> 1 + Aly <> 0 -> 1 + Alz <> 0 ->
  bil 12 (exec zero (stiffProg L EA GIt EIy EIz Aly Alz ++ mirror 12)) v u =
  EA / L * (dax v * dax u) + GIt / L * (dtw v * dtw u) +
  EIy / L * (dkz v * dkz u) + 12 * EIy / (L ^ 3 * (1 + Aly)) * (dgy L v * dgy L u) +
  EIz / L * (dky v * dky u) + 12 * EIz / (L ^ 3 * (1 + Alz)) * (dgz L v * dgz L u).
Proof.
  intros HL Hy Hz. unfold dax, dtw, dkz, dgy, dky, dgz. entries.
  field. repeat split; try assumption; try (now apply den1); now apply den3.
Qed.

(** ** Transformations are congruences *)
Lemma shear_bil A Sy Sz v u : bil 12 (exec A (shearProg Sy Sz)) v u = bil 12 A (shearV Sy Sz v) (shearV Sy Sz u).
Proof. entries. ring. Qed.
Lemma ecc_bil A e1 e2 v u : bil 12 (exec A (eccProg e1 e2)) v u = bil 12 A (eccV e1 e2 v) (eccV e1 e2 u).
Proof. destruct e1, e2. entries. ring. Qed.
