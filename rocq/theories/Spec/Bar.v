(** Strain energy of a bar as a function of its end positions. *)
From Coquelicot Require Import Coquelicot.
From Verif Require Import Lib.Base Lib.Vec3.

Definition strainOf (greenLog : nat) (lam : R) : R :=
  match greenLog with 0%nat => (lam ^ 2 - 1) / 2 | 1%nat => ln lam | _ => lam - 1 end.
(** Half the stiffness times the strain squared, over the initial length. *)
Definition barEnergy (kind : nat) (k L0 : R) (r : v3) : R := L0 * (k / 2 * strainOf kind (vlen r / L0) ^ 2).
