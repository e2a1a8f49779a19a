(** What a user expects of the evaluation of one material at many points by many threads: each point gets its own result. *)
From Coq Require Import List.
From Verif.Lib Require Import Base.
Import ListNotations.

(** Shear modulus of an elastic solid, and its bulk modulus or (standard neo-Hookean) first Lame parameter. *)
Definition shearOf (E nu : R) : R := E / (2 * (1 + nu)).
Definition bulkOf (ver : nat) (E nu : R) : R :=
  if Nat.eqb ver 1 then E * nu / ((1 + nu) * (1 - 2 * nu)) else E / (3 * (1 - 2 * nu)).
(** Poisson's ratio at a point: the function if there is one, else the constant. *)
Definition nuAt {Pt} (f : option (Pt -> R)) (nu : R) (x : Pt) : R := match f with Some f => f x | None => nu end.
