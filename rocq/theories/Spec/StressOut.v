(** Components of a symmetric tensor in orthonormal directions, equivalent stress and principal values. *)
From Verif.Lib Require Import Base Vec3 Tensor3.
(** Stress acting in direction [b] on the plane with normal [a]. *)
Definition componentIn (s : t3) (a b : v3) : R :=
  vx a * (s 1%nat 1%nat * vx b + s 1%nat 2%nat * vy b + s 1%nat 3%nat * vz b) +
  vy a * (s 2%nat 1%nat * vx b + s 2%nat 2%nat * vy b + s 2%nat 3%nat * vz b) +
  vz a * (s 3%nat 1%nat * vx b + s 3%nat 2%nat * vy b + s 3%nat 3%nat * vz b).
(** Equivalent stress: the square root of 3/2 the square of the deviator. *)
Definition deviator (s : t3) : t3 := fun i j => s i j - tr3 s / 3 * kron i j.
Definition equivalent (s : t3) : R := sqrt (3 / 2 * ddot3 (deviator s) (deviator s)).
(** A principal value: the stress vector on some plane is this multiple of its normal. *)
Definition principalValue (s : t3) (p : R) : Prop := det3 (fun i j => s i j - p * kron i j) = 0.
