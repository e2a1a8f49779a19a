(** The history of a material point following a sequence of deformations: state (history, deformation before) and the results. *)
From Coq Require Import List.
Import ListNotations.
Section S.
Context {H T O : Type}.
Variable law : H -> T -> T -> option (H * O).
Fixpoint follow (h : H) (f : T) (Fs : list T) : list (option O) :=
  match Fs with
  | [] => []
  | F :: r => match law h f F with
              | Some (h', o) => Some o :: follow h' F r
              | None => None :: follow h F r
              end
  end.
End S.
