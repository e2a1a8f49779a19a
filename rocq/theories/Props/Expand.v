(** Expansion of nodal components (C93). *)
From Coq Require Import List Arith Lia.
From Verif Require Import Model.Expand Proofs.Expand.
Import ListNotations.

(** What the result is, for all arrays and sizes ... *)
Theorem C93_value_partial : forall (A : Type) (zero : A) v nnod ndim ncmp i j, 0 < ndim < ncmp -> i < nnod -> j < ncmp ->
  expandNodalVec zero v (nnod * ndim) nnod ncmp (ncmp * i + j) =
  if j <? ndim then v (ndim * i + (if i =? 0 then j else j mod ((ncmp - ndim) * i))) else zero.
Proof. intros. now apply expand_spec. Qed.
(** ... so every node keeps its components and gets zeros, except for nodes of small index when few components are added. *)
Theorem C93_keeps_partial : forall (A : Type) (zero : A) v nnod ndim ncmp i j, 0 < ndim < ncmp -> i < nnod -> j < ncmp -> i = 0 \/ ndim <= (ncmp - ndim) * i ->
  expandNodalVec zero v (nnod * ndim) nnod ncmp (ncmp * i + j) = if j <? ndim then v (ndim * i + j) else zero.
Proof.
  intros A zero v nnod ndim ncmp i j H I1 J C. rewrite expand_spec by assumption. destruct (Nat.ltb_spec j ndim); [|reflexivity].
  destruct (Nat.eqb_spec i 0) as [->|N]; [reflexivity|]. rewrite Nat.mod_small by lia. reflexivity.
Qed.
(** Plates, three moments and two shear forces: the twisting moment of the second node becomes its first bending moment. *)
Theorem C93_plate_refuted : (forall (A : Type) (zero : A) v nnod, 2 <= nnod -> expandNodalVec zero v (nnod * 3) nnod 5 (5 * 1 + 2) = v (3 * 1 + 0)) /\
  exists v, expandNodalVec 0 v (2 * 3) 2 5 (5 * 1 + 2) <> v (3 * 1 + 2).
Proof. split; [intros A zero v nnod N; rewrite expand_spec by lia; reflexivity|]. exists (fun k => k). vm_compute. discriminate. Qed.
Example C93_ex : map (expandNodalVec 0 (fun k => S k) 9 3 5) (seq 0 15) = [1; 2; 3; 0; 0; 4; 5; 4; 0; 0; 7; 8; 9; 0; 0].
Proof. reflexivity. Qed.

Print Assumptions C93_value_partial.
Print Assumptions C93_keeps_partial.
Print Assumptions C93_plate_refuted.
