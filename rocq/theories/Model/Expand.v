(** Expansion of the number of nodal components of a projected reference solution, main_LinEl.C 577-586.
    The array is a map from indices to values; resizing (IFEM) keeps the old values. *)
From Coq Require Import List Arith.
Import ListNotations.

Section Expand.
Context {A : Type} (zero : A).
Definition put (v : nat -> A) (k : nat) (x : A) : nat -> A := fun i => if i =? k then x else v i.
(** main_LinEl.C 582-583: the components of node [i], [j] counting up *)
Definition cell (ndim ncmp i : nat) (v : nat -> A) (j : nat) : nat -> A :=
  put v (ncmp * i + j) (if j <? ndim then v (ndim * i + j) else zero).
Definition node (ndim ncmp : nat) (v : nat -> A) (i : nat) : nat -> A := fold_left (cell ndim ncmp i) (seq 0 ncmp) v.
(** main_LinEl.C 577-586: the nodes counting down to one, then the new components of node zero *)
Definition expandNodalVec (v : nat -> A) (size nnod ncmp : nat) : nat -> A :=
  let ndim := size / nnod in
  let v := fold_left (node ndim ncmp) (rev (seq 1 (nnod - 1))) v in
  fold_left (fun v j => put v j zero) (seq ndim (ncmp - ndim)) v.
End Expand.
