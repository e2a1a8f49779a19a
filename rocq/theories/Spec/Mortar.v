(** Specification of the contact properties, in terms of node-wise forces and stiffnesses. *)
From Verif Require Import Lib.Base.

(** Force on the degrees of freedom from a set of nodal springs: node [n] of the set resists
    its gap opening [sum_I phi I n u_I / area n] with stiffness [eps] per unit area. *)
Definition gapRate (nd : nat) (area : nat -> R) (phi : nat -> nat -> R) (u : nat -> R) (n : nat) : R :=
  sumf nd (fun I => phi I n * u I) / area n.
Definition springEnergy (nd : nat) (eps : R) (area : nat -> R) (phi : nat -> nat -> R) (set : list nat) (u : nat -> R) : R :=
  sumL (fun n => eps * area n * (gapRate nd area phi u n * gapRate nd area phi u n)) set.

(** Common translation by [t] of all nodes, with [d] components per node. *)
Definition translation (d : nat) (t : nat -> R) (I : nat) : R := t (S ((I - 1) mod d)).
