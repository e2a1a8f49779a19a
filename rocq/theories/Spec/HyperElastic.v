(** Independent specification of hyperelasticity: stress and tangent as derivatives of a stored energy. *)
From Verif.Lib Require Import Base Tensor3.
From Coquelicot Require Import Coquelicot.

(** The superposed deformation (I + t L) F. *)
Definition superpose (L F : t3) (t : R) : t3 := mul3 (fun i j => kron i j + t * L i j) F.

(** sigma is the Cauchy stress of the stored energy W at F: d/dt W((I+tL)F) = J sigma:L for every L. *)
Definition energy_conjugate (W : t3 -> R) (F sigma : t3) : Prop :=
  forall L, is_derive (fun t => W (superpose L F t)) 0 (det3 F * ddot3 sigma L).

(** Voigt product of a 6x6 matrix with a symmetric tensor (engineering shears), as tensor. *)
Definition apply6 (C : nat -> nat -> R) (D : t3) : t3 :=
  unvoigt (mv 6 C (fun k => if (k <=? 3)%nat then tovoigt D k else 2 * tovoigt D k)).

(** C is the spatial tangent of the stress function sig at F: for every symmetric rate D, the Lie
    (Truesdell) derivative of the Kirchhoff stress tau = J sigma along (I+tD)F is J C:D. *)
Definition spatial_tangent (sig : t3 -> t3) (F : t3) (C : nat -> nat -> R) : Prop :=
  forall D, (forall i j, D i j = D j i) ->
  forall i j, (1 <= i <= 3)%nat -> (1 <= j <= 3)%nat ->
  is_derive (fun t => det3 (superpose D F t) * sig (superpose D F t) i j) 0
    (det3 F * (apply6 C D i j + mul3 D (sig F) i j + mul3 (sig F) D i j)).
