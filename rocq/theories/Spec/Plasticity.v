(** Independent specification of the plasticity laws: yield stresses, equivalent stresses, elastic constants. *)
From Verif.Lib Require Import Base Tensor3.
From Verif.Spec Require Import Hooke.
From Coquelicot Require Import Coquelicot.

(** Bulk modulus from (E, nu): one third of tr(sigma)/tr(eps) of Hooke's law; the shear modulus is the second
    Lame parameter. *)
Definition bulk (E nu : R) : R := lame1 E nu + 2/3 * lame2 E nu.

(** The admissible elastic constants. *)
Definition admissible (E nu : R) : Prop := 0 < E /\ -1 < nu < 1/2.

(** Hardening laws (uniaxial yield stress as function of the accumulated plastic strain e). *)
Inductive law :=
| Saturation (y0 yinf beta h : R)          (* yinf + (y0-yinf) exp(-beta e) + h e *)
| Linear (y0 h : R)                        (* y0 + h e *)
| PowerLaw (a b n h : R)                   (* a + b e^n + h e *)
| Curve (f : R -> R)
| Voce (y0 q1 c1 q2 c2 h : R).             (* y0 + q1(1-exp(-c1 e)) + q2(1-exp(-c2 e)) + h e *)

Definition sigy (l : law) (e : R) : R :=
  match l with
  | Saturation y0 yinf beta h => yinf + (y0 - yinf) * exp (- beta * e) + h * e
  | Linear y0 h => y0 + h * e
  | PowerLaw a b n h => a + b * Rpower e n + h * e
  | Curve f => f e
  | Voce y0 q1 c1 q2 c2 h => y0 + q1 * (1 - exp (- c1 * e)) + q2 * (1 - exp (- c2 * e)) + h * e
  end.

(** Equivalent uniaxial stresses of the invariants I1, J2, J3. *)
Definition mises_eq (J2 : R) : R := sqrt (3 * J2).
Definition dp_eq (a I1 J2 : R) : R := sqrt (3 * J2) + a * I1 / 3.
Definition lode_eq (c J2 J3 : R) : R := sqrt (3 * J2) + c * sqrt (27/2) * J3 / J2.

(** A linear law that derives from a quadratic energy: symmetric and linear. *)
Record sym_linear (A : t3 -> t3) := {
  sl_add : forall a x y i j, A (fun i j => a * x i j + y i j) i j = a * A x i j + A y i j;
  sl_sym : forall x y, ddot3 (A x) y = ddot3 x (A y) }.
