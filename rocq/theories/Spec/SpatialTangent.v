(** Rates of stress under a superposed deformation. *)
From Verif.Lib Require Import Base Tensor3.

Definition diag3 (d : nat -> R) : t3 := fun i j => if Nat.eqb i j then d i else 0.
(** Components in the axes given by the columns of F. *)
Definition cj (F X : t3) : t3 := mul3 (trn F) (mul3 X F).
(** Deformation superposed on the current state, with velocity gradient L, and the left Cauchy-Green tensor carried along. *)
Definition super (L : t3) (t : R) : t3 := fun i j => kron i j + t * L i j.
Definition carried (L b : t3) (t : R) : t3 := mul3 (super L t) (mul3 b (trn (super L t))).
(** Convected (Oldroyd) rate, and rate of deformation. *)
Definition oldroyd (L S0 S' : t3) : t3 := fun i j => S' i j - mul3 L S0 i j - mul3 S0 (trn L) i j.
Definition symp (L : t3) : t3 := fun i j => (L i j + L j i) / 2.
(** Hencky law for the principal Kirchhoff stresses. *)
Definition hencky (Bm Sm : R) (e : nat -> R) (a : nat) : R :=
  Bm * (e 1%nat + e 2%nat + e 3%nat) + 2 * Sm * (e a - (e 1%nat + e 2%nat + e 3%nat) / 3).
