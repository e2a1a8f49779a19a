(** What an accepted arc-length step has to satisfy. *)
From Coq Require Import List SpecFloat Reals.
From Verif Require Import Lib.Base Model.ArcLength.
Import ListNotations.

Definition finite (x : spec_float) : Prop := match x with S754_zero _ | S754_finite _ _ _ => True | _ => False end.

(** The norm [x] is below the tolerance: relative to the first norm [n0] of the step or to
    the reference [ref0] carried over from earlier steps, or absolute. *)
Definition accurate (c : ctl) (ref0 n0 x : spec_float) : Prop :=
  SFltb (SFabs x) (aTol c) = true \/ SFltb (SFabs (fdiv x fone)) (aTol c) = true \/
  exists r, (r = SFabs n0 \/ r = ref0) /\ SFltb (SFabs (fdiv x r)) (rTol c) = true.

Section Path.
Variable n : nat.
Open Scope R_scope.
Notation dot := (dot n).
(** Squared length of the increment in displacement-load space. *)
Definition arc2 (s : pstate) : R := dot (inc s) (inc s) + dlam s * dlam s.

(** The normal planes met by the iterations are not parallel to the tangents. *)
Fixpoint regular (beta : R) (s : pstate) (h : list ((nat -> R) * (nat -> R))) : Prop :=
  match h with
  | [] => True
  | (r, v) :: h => dot (inc s) v + dlam s <> 0 /\ regular beta (corrector n beta s r v) h
  end.

End Path.
