(** Shared definitions: finite sums, 1-based bounded matrices, evaluation results.
    Nothing here is specific to the modelled code. *)
From Coq Require Export Reals Lra Psatz List Lia Arith ZArith Bool.
Export ListNotations.
#[global] Open Scope R_scope.

(** [sumf n f] is the sum of [f 1 .. f n]. *)
Fixpoint sumf (n : nat) (f : nat -> R) : R :=
  match n with O => 0 | S k => sumf k f + f (S k) end.

(** [sumL f l] is the sum of [f a] over the list. *)
Definition sumL {A : Type} (f : A -> R) (l : list A) : R :=
  fold_right (fun a s => f a + s) 0 l.

(** Result of a C++ call: undefined behaviour, an error return, or a value. *)
Inductive res (A : Type) : Type := UB | Rejected | Ret (a : A).
Arguments UB {A}.
Arguments Rejected {A}.
Arguments Ret {A} _.

Definition bind {A B} (x : res A) (k : A -> res B) : res B :=
  match x with UB => UB | Rejected => Rejected | Ret a => k a end.
Notation "'let*' x := e 'in' k" := (bind e (fun x => k))
  (at level 200, x name, e at level 100, k at level 200).

(** A matrix with explicit dimensions; entries are addressed from 1. *)
Record mat := mkMat { rows : nat; cols : nat; el : nat -> nat -> R }.

Definition zeros (r c : nat) : mat := mkMat r c (fun _ _ => 0).

Definition inb (M : mat) (i j : nat) : bool :=
  (1 <=? i)%nat && (i <=? rows M)%nat && (1 <=? j)%nat && (j <=? cols M)%nat.

Definition mget (M : mat) (i j : nat) : res R :=
  if inb M i j then Ret (el M i j) else UB.

Definition upd2 (f : nat -> nat -> R) (i j : nat) (v : R) : nat -> nat -> R :=
  fun a b => if (Nat.eqb a i && Nat.eqb b j)%bool then v else f a b.

Definition mset (M : mat) (i j : nat) (v : R) : res mat :=
  if inb M i j then Ret (mkMat (rows M) (cols M) (upd2 (el M) i j v)) else UB.

(** [C(i,j) = C(k,l)] *)
Definition mcopy (M : mat) (i j k l : nat) : res mat :=
  let* v := mget M k l in mset M i j v.

(** Matrix-vector product, quadratic form and symmetry over index range 1..n. *)
Definition mv (n : nat) (A : nat -> nat -> R) (x : nat -> R) (i : nat) : R :=
  sumf n (fun j => A i j * x j).
Definition quad (n : nat) (A : nat -> nat -> R) (x : nat -> R) : R :=
  sumf n (fun i => x i * mv n A x i).
Definition symm (n : nat) (A : nat -> nat -> R) : Prop :=
  forall i j, (1 <= i <= n)%nat -> (1 <= j <= n)%nat -> A i j = A j i.
Definition kron (i j : nat) : R := if Nat.eqb i j then 1 else 0.
Definition mm (n : nat) (A B : nat -> nat -> R) (i j : nat) : R :=
  sumf n (fun k => A i k * B k j).

(** Case split of an index bounded by hypotheses in the context. *)
Ltac idx i := destruct i as [|i]; [ try (exfalso; lia) | first [ exfalso; lia | idx i ] ].
