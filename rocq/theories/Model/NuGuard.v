(** Model of the Poisson's ratio guard of LinIsotropic::evaluate over IEEE-754 binary64 values.
    LinIsotropic.C:241 and 332: [else if (nu < 0.0 || nu >= 0.5) ... return false]. *)
From Coq Require Import ZArith Bool SpecFloat.

(** C++ comparison operators on doubles: every comparison with a NaN is false. *)
Definition flt (x y : spec_float) : bool := SFltb x y.
Definition fge (x y : spec_float) : bool := SFleb y x.

Definition fzero : spec_float := S754_zero false.
(** 0.5 = 2^52 * 2^-53 in canonical binary64 form. *)
Definition fhalf : spec_float := S754_finite false 4503599627370496 (-53).

(** true: "return false" of the C++ function. *)
Definition nu_rejected (nu : spec_float) : bool := flt nu fzero || fge nu fhalf.
Definition evaluate_ok (nsd : nat) (nu : spec_float) : bool :=
  if Nat.eqb nsd 1 then true else negb (nu_rejected nu).
Definition lame_ok (nu : spec_float) : bool := negb (nu_rejected nu).
