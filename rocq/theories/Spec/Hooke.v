(** Independent specification of isotropic linear elasticity of a three-dimensional solid. *)
From Verif.Lib Require Import Base.

(** A second-order tensor in 3D, components 1..3. *)
Definition tens := nat -> nat -> R.

Definition trace (e : tens) : R := e 1%nat 1%nat + e 2%nat 2%nat + e 3%nat 3%nat.

(** Hooke's law: sigma = lambda tr(eps) I + 2 mu eps. *)
Definition hooke (lambda mu : R) (e : tens) : tens :=
  fun i j => lambda * trace e * kron i j + 2 * mu * e i j.

Definition lame1 (E nu : R) : R := E * nu / ((1 + nu) * (1 - 2 * nu)).
Definition lame2 (E nu : R) : R := E / (2 * (1 + nu)).

(** Symmetric strain tensor from its six independent components (tensor shears). *)
Definition symt (xx yy zz xy yz xz : R) : tens :=
  fun i j => match i, j with
  | 1, 1 => xx | 2, 2 => yy | 3, 3 => zz
  | 1, 2 | 2, 1 => xy | 2, 3 | 3, 2 => yz | 1, 3 | 3, 1 => xz
  | _, _ => 0%R end%nat.

Definition vnz (n : nat) (x : nat -> R) : Prop := exists i, (1 <= i <= n)%nat /\ x i <> 0.
