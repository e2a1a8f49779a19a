(** Beam element in space: motion of the beam ends from the nodal motion, virtual work, and
    weight.  Independent of the element matrices. *)
From Verif Require Import Lib.Base Lib.Vec3 Spec.Beam.

(** Translation and rotation of the nodes. *)
Definition disp1 (u : nat -> R) : v3 := V (u 1%nat) (u 2%nat) (u 3%nat).
Definition rot1 (u : nat -> R) : v3 := V (u 4%nat) (u 5%nat) (u 6%nat).
Definition disp2 (u : nat -> R) : v3 := V (u 7%nat) (u 8%nat) (u 9%nat).
Definition rot2 (u : nat -> R) : v3 := V (u 10%nat) (u 11%nat) (u 12%nat).

(** Components along the beam axes, the columns of [T]. *)
Definition along (T : nat -> nat -> R) (a : v3) : v3 := V (vdot (col T 1) a) (vdot (col T 2) a) (vdot (col T 3) a).

(** Motion of the beam ends, which are rigidly attached at -e1, -e2 from the nodes, in beam axes. *)
Definition endMotion (T : nat -> nat -> R) (e1 e2 : v3) (u : nat -> R) : nat -> R :=
  nodal (along T (vsub (disp1 u) (vcross (rot1 u) e1))) (along T (rot1 u))
        (along T (vsub (disp2 u) (vcross (rot2 u) e2))) (along T (rot2 u)).

(** Work of nodal forces and moments [b] in the motion [v]. *)
Definition work (v b : nat -> R) : R := sumf 12 (fun i => v i * b i).

(** Elongation of the beam axis. *)
Definition elongation (T : nat -> nat -> R) (u : nat -> R) : R := vdot (col T 1) (vsub (disp2 u) (disp1 u)).

(** Work of a force [F] attached at [P] in the rigid motion (a, om). *)
Definition forceWork (F P a om : v3) : R := vdot F (vadd a (vcross om P)).

(** A vector with a component beyond the tolerance [tol]. *)
Definition sizeable (tol : R) (e : v3) : Prop := tol < Rabs (vx e) \/ tol < Rabs (vy e) \/ tol < Rabs (vz e).
