(** What the history of a material point should be: the state after the last converged increment. *)
From Coq Require Import List Bool Arith.
Import ListNotations.

Section Spec.
Context {H T O : Type}.
Variable upd : H -> T -> T -> nat -> bool -> option (H * O).

(** State (history, deformation gradient) after an increment: the update from the last converged state with
    the last trial, kept only when the increment converged. *)
Definition result (s : H * T) (first : bool) (trials : list T) : option (H * T) :=
  match rev trials with
  | [] => Some s
  | F :: _ => match upd (fst s) (snd s) F (length trials - 1) first with
              | Some (h, _) => Some (h, F)
              | None => None
              end
  end.
End Spec.
