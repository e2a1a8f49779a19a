(** Hardening laws by the names of their parameters: yield stress at the equivalent plastic strain [e]. *)
From Verif.Lib Require Import Base.
From Verif.Model Require Import PlasticInput.

Definition orElse (o : option R) (d : R) : R := match o with Some v => v | None => d end.
Definition voce (a : attrs) (e : R) : R :=
  let y0 := orElse (aY0 a) 0 in let yi := orElse (aYinf a) 0 in
  yi + (y0 - yi) * exp (- orElse (aBeta a) 0 * e) + orElse (aHiso a) 0 * e.
(** Power law A + B e^n, [A], [B], [n] by their own names or those of the first law. *)
Definition power (a : attrs) (e : R) : R :=
  orElse (aA a) (orElse (aY0 a) 0) + orElse (aB a) (orElse (aYinf a) 0) * Rpower e (orElse (aN a) (orElse (aBeta a) 0)) + orElse (aHiso a) 0 * e.
Definition doubleVoce (a : attrs) (e : R) : R :=
  orElse (aY0 a) 0 + orElse (aQ1 a) (orElse (aYinf a) 0) * (1 - exp (- orElse (aC1 a) (orElse (aBeta a) 0) * e))
  + orElse (aQ2 a) 0 * (1 - exp (- orElse (aC2 a) 0 * e)) + orElse (aHiso a) 0 * e.
