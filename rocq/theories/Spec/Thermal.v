(** Thermo-elastic law of the three-dimensional solid. *)
From Verif.Lib Require Import Base.
From Verif.Spec Require Import Hooke.

Definition thermo (E nu eT : R) (e : tens) : tens :=
  hooke (lame1 E nu) (lame2 E nu) (fun i j => e i j - eT * kron i j).
