(** Signed distances and distribution weights. *)
From Verif Require Import Lib.Base Lib.Vec3.

(** [g] is the signed distance from [X] to [surf] and [n] the unit direction away from it. *)
Record signedDistance (surf inside : v3 -> Prop) (X : v3) (g : R) (n : v3) : Prop := {
  sd_unit : vlen n = 1;
  sd_foot : surf (vsub X (vscal g n));
  sd_closest : forall P, surf P -> Rabs g <= vlen (vsub X P);
  sd_sign : g < 0 <-> inside X }.

Definition onSphere (C : v3) (r : R) (P : v3) : Prop := vlen (vsub P C) = r.
Definition inSphere (C : v3) (r : R) (P : v3) : Prop := vlen (vsub P C) < r.
(** Part of [X - C] normal to the axis through [C] with unit direction [d]. *)
Definition radial (C d X : v3) : v3 := vsub (vsub X C) (vscal (vdot (vsub X C) d) d).
Definition onCylinder (C d : v3) (r : R) (P : v3) : Prop := vlen (radial C d P) = r.
Definition inCylinder (C d : v3) (r : R) (P : v3) : Prop := vlen (radial C d P) < r.

(** The weights sum to one ... *)
Definition total (N : list R) : R := fold_right Rplus 0 N.
(** ... and this is the point they place the force at. *)
Fixpoint place (N : list R) (P : list v3) : v3 :=
  match N, P with
  | w :: N, p :: P => vadd (vscal w p) (place N P)
  | _, _ => vzero end.
Definition mv3 (A : nat -> nat -> R) (v : v3) (i : nat) : R :=
  A i 1%nat * vx v + A i 2%nat * vy v + A i 3%nat * vz v.
