From Coq Require Import List Bool Arith Lia.
From Verif Require Import Model.Expand.
Import ListNotations.

Section P.
Context {A : Type} (zero : A).
Notation cell := (cell zero). Notation node := (node zero).
(* value written for component j of node i when the sources are intact before *)
Definition val (ndim ncmp i : nat) (v : nat -> A) (j : nat) : A :=
  if j <? ndim then v (ndim * i + j mod ((ncmp - ndim) * i)) else zero.
Lemma mod_sub j d : 0 < d -> d <= j -> j mod d = (j - d) mod d.
Proof. intros D L. rewrite <- (Nat.mod_add (j - d) 1 d) by lia. f_equal. lia. Qed.
Lemma node_prefix ndim ncmp i v : ndim < ncmp -> 0 < i -> forall n, n <= ncmp -> forall k,
  fold_left (cell ndim ncmp i) (seq 0 n) v k =
  if (ncmp * i <=? k) && (k <? ncmp * i + n) then val ndim ncmp i v (k - ncmp * i) else v k.
Proof.
  intros H I0. induction n as [|n IH]; intros N k.
  - cbn [seq fold_left]. destruct (Nat.leb_spec (ncmp * i) k), (Nat.ltb_spec k (ncmp * i + 0)); cbn [andb]; try reflexivity; lia.
  - rewrite seq_S, fold_left_app. cbn [fold_left plus]. unfold cell at 1, put. destruct (Nat.eqb_spec k (ncmp * i + n)) as [->|NE].
    + destruct (Nat.leb_spec (ncmp * i) (ncmp * i + n)); [|lia]. destruct (Nat.ltb_spec (ncmp * i + n) (ncmp * i + S n)); [|lia]. cbn [andb].
      replace (ncmp * i + n - ncmp * i) with n by lia. unfold val at 1. destruct (Nat.ltb_spec n ndim); [|reflexivity].
      rewrite (IH ltac:(lia)). set (d := (ncmp - ndim) * i). assert (D : ncmp * i = ndim * i + d) by (unfold d; nia). assert (D0 : 0 < d) by (unfold d; nia).
      destruct (Nat.leb_spec (ncmp * i) (ndim * i + n)); cbn [andb].
      * destruct (Nat.ltb_spec (ndim * i + n) (ncmp * i + n)); [|nia]. unfold val. fold d.
        replace (ndim * i + n - ncmp * i) with (n - d) by lia. destruct (Nat.ltb_spec (n - d) ndim); [|lia]. rewrite (mod_sub n d) by lia. reflexivity.
      * rewrite Nat.mod_small by lia. reflexivity.
    + rewrite (IH ltac:(lia)). destruct (Nat.leb_spec (ncmp * i) k); cbn [andb]; [|reflexivity].
      destruct (Nat.ltb_spec k (ncmp * i + n)), (Nat.ltb_spec k (ncmp * i + S n)); try reflexivity; lia.
Qed.
Lemma node_spec ndim ncmp v i k : ndim < ncmp -> 0 < i ->
  node ndim ncmp v i k = if (ncmp * i <=? k) && (k <? ncmp * i + ncmp) then val ndim ncmp i v (k - ncmp * i) else v k.
Proof. intros. now apply node_prefix. Qed.
(* nodes m+1..m+n done, counting down *)
Lemma nodes_spec ndim ncmp (v0 : nat -> A) : 0 < ndim < ncmp -> forall n m v, 0 < m ->
  (forall i j, i < m + n -> j < ndim -> v (ndim * i + j) = v0 (ndim * i + j)) ->
  let r := fold_left (node ndim ncmp) (rev (seq m n)) v in
  (forall i j, m <= i < m + n -> j < ncmp -> r (ncmp * i + j) = val ndim ncmp i v0 j) /\ (forall k, k < ncmp * m \/ ncmp * (m + n) <= k -> r k = v k).
Proof.
  intros H. induction n as [|n IH]; intros m v M V; [cbn; split; [lia|reflexivity]|].
  rewrite seq_S, rev_app_distr. cbn [rev app fold_left]. cbv zeta.
  destruct (IH m (node ndim ncmp v (m + n)) M) as [R1 R2].
  { intros i j I1 J. rewrite node_spec by lia. destruct (Nat.leb_spec (ncmp * (m + n)) (ndim * i + j)); cbn [andb]; [nia|]. apply V; lia. }
  split.
  - intros i j I1 J. destruct (Nat.eq_dec i (m + n)) as [->|NE]; [|apply R1; lia]. rewrite R2 by nia.
    rewrite node_spec by lia. destruct (Nat.leb_spec (ncmp * (m + n)) (ncmp * (m + n) + j)); [|lia]. destruct (Nat.ltb_spec (ncmp * (m + n) + j) (ncmp * (m + n) + ncmp)); [|lia]. cbn [andb].
    replace (ncmp * (m + n) + j - ncmp * (m + n)) with j by lia. unfold val. destruct (Nat.ltb_spec j ndim); [|reflexivity]. apply V; [lia|].
    apply Nat.le_lt_trans with j; [apply Nat.mod_le; nia|assumption].
  - intros k K. rewrite R2 by nia. rewrite node_spec by lia. destruct (Nat.leb_spec (ncmp * (m + n)) k), (Nat.ltb_spec k (ncmp * (m + n) + ncmp)); cbn [andb]; try reflexivity. nia.
Qed.
Lemma zero_spec : forall n m (v : nat -> A) k, fold_left (fun v j => put v j zero) (seq m n) v k = if (m <=? k) && (k <? m + n) then zero else v k.
Proof.
  induction n as [|n IH]; intros m v k; cbn [seq fold_left].
  - destruct (Nat.leb_spec m k), (Nat.ltb_spec k (m + 0)); cbn; try reflexivity; lia.
  - rewrite IH. unfold put. destruct (Nat.eqb_spec k m) as [E|].
    + destruct (Nat.leb_spec (S m) k), (Nat.leb_spec m k), (Nat.ltb_spec k (S m + n)), (Nat.ltb_spec k (m + S n)); cbn [andb]; try reflexivity; lia.
    + destruct (Nat.leb_spec (S m) k), (Nat.leb_spec m k), (Nat.ltb_spec k (S m + n)), (Nat.ltb_spec k (m + S n)); cbn [andb]; try reflexivity; lia.
Qed.
Theorem expand_spec (v : nat -> A) nnod ndim ncmp i j : 0 < ndim < ncmp -> i < nnod -> j < ncmp ->
  expandNodalVec zero v (nnod * ndim) nnod ncmp (ncmp * i + j) =
  if j <? ndim then v (ndim * i + (if i =? 0 then j else j mod ((ncmp - ndim) * i))) else zero.
Proof.
  intros H I1 J. unfold expandNodalVec. rewrite Nat.mul_comm, Nat.div_mul by lia. cbv zeta. rewrite zero_spec.
  destruct (nodes_spec ndim ncmp v H (nnod - 1) 1 v) as [R1 R2]; [lia|auto|]. cbv zeta in R1, R2. destruct i as [|i].
  - cbn [Nat.eqb]. rewrite !Nat.mul_0_r. cbn [plus]. destruct (Nat.leb_spec ndim j), (Nat.ltb_spec j (ndim + (ncmp - ndim))), (Nat.ltb_spec j ndim); cbn [andb]; try lia; try reflexivity. apply R2. lia.
  - destruct (Nat.ltb_spec (ncmp * S i + j) (ndim + (ncmp - ndim))); [nia|]. rewrite Bool.andb_false_r. rewrite R1 by lia. reflexivity.
Qed.
End P.
