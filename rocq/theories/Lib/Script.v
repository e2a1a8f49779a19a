(** Sequences of assignments [A(i,j) = e] to a matrix, where [e] may read the matrix. *)
From Verif Require Import Lib.Base.

Definition fmat := nat -> nat -> R.
Definition asg : Type := (nat * nat * (fmat -> R))%type.
Definition exec1 (A : fmat) (s : asg) : fmat := let '(i, j, e) := s in upd2 A i j (e A).
Definition exec (A : fmat) (l : list asg) : fmat := fold_left exec1 l A.
Definition zero : fmat := fun _ _ => 0.

(** All assignments hit an [n] by [n] matrix. *)
Definition within (n : nat) (l : list asg) : bool :=
  forallb (fun s => let '(i, j, _) := s in (1 <=? i) && (i <=? n) && (1 <=? j) && (j <=? n))%nat%bool l.

Lemma exec_app A l1 l2 : exec A (l1 ++ l2) = exec (exec A l1) l2.
Proof. unfold exec. apply fold_left_app. Qed.

(** Lower triangle from the upper one: for i = 2..n, for j = 1..i-1, A(i,j) = A(j,i). *)
Definition mirrorRow (i m : nat) : list asg := map (fun j => (i, j, fun A : fmat => A j i)) (seq 1 m).
Definition mirror (n : nat) : list asg :=
  flat_map (fun i => mirrorRow i (i - 1)) (seq 2 (n - 1)).

Lemma exec_outside l : forall A i j, (forall a b e, In (a, b, e) l -> a <> i \/ b <> j) -> exec A l i j = A i j.
Proof.
  induction l as [|[[a b] e] l IH]; intros A i j H; [reflexivity|]. cbn [exec fold_left]. fold (exec (exec1 A (a, b, e)) l).
  rewrite IH by (intros; apply (H a0 b0 e0); now right). unfold exec1, upd2.
  destruct (Nat.eqb_spec i a); destruct (Nat.eqb_spec j b); cbn [andb]; try reflexivity.
  destruct (H a b e (or_introl eq_refl)); congruence.
Qed.

Lemma mirror_row i : forall m A, (m <= i - 1)%nat ->
  let B := exec A (mirrorRow i m) in
  (forall j, (1 <= j <= m)%nat -> B i j = A j i) /\ (forall a b, (a <> i \/ m < b \/ b = 0)%nat -> B a b = A a b).
Proof.
  induction m as [|m IH]; intros A Hm.
  - split; [intros; lia|reflexivity].
  - cbn zeta. unfold mirrorRow. rewrite seq_S, map_app, exec_app. fold (mirrorRow i m). specialize (IH A ltac:(lia)). cbn zeta in IH. destruct IH as [I1 I2].
    set (B := exec A (mirrorRow i m)) in *. cbn [map exec fold_left exec1 Nat.add]. unfold upd2. split.
    + intros j Hj. rewrite Nat.eqb_refl. destruct (Nat.eqb_spec j (S m)) as [->|N]; cbn [andb].
      * apply I2. lia.
      * apply I1. lia.
    + intros a b H. destruct (Nat.eqb_spec a i); destruct (Nat.eqb_spec b (S m)); cbn [andb]; try (apply I2; lia). lia.
Qed.

Lemma mirror_spec n A i j : (1 <= i <= n)%nat -> (1 <= j <= n)%nat -> exec A (mirror n) i j = if (j <? i)%nat then A j i else A i j.
Proof.
  intros Hi Hj. unfold mirror.
  assert (G : forall k s A, let B := exec A (flat_map (fun i => mirrorRow i (i - 1)) (seq s k)) in
    forall a b, (1 <= b)%nat -> B a b = if ((s <=? a) && (a <? s + k) && (b <? a))%nat%bool then A b a else A a b).
  { clear. induction k as [|k IH]; intros s A B a b Hb; unfold B; cbn [seq flat_map].
    - replace ((s <=? a) && (a <? s + 0) && (b <? a))%nat%bool with false; [reflexivity|].
      destruct (Nat.leb_spec s a); destruct (Nat.ltb_spec a (s + 0)); cbn; try reflexivity; lia.
    - rewrite exec_app. specialize (IH (S s)). cbn zeta in IH.
      destruct (mirror_row s (s - 1) A (Nat.le_refl _)) as [M1 M2]. set (C := exec A (mirrorRow s (s - 1))) in *.
      rewrite (IH C a b Hb). clear IH B.
      destruct (Nat.eq_dec a s) as [->|Na].
      + replace ((S s <=? s) && (s <? S s + k) && (b <? s))%nat%bool with false by (destruct (Nat.leb_spec (S s) s); [lia|reflexivity]).
        destruct (Nat.leb_spec s s); [|lia]. destruct (Nat.ltb_spec s (s + S k)); [|lia]. cbn [andb].
        destruct (Nat.ltb_spec b s); [apply M1; lia|apply M2; lia].
      + replace ((S s <=? a) && (a <? S s + k))%nat%bool with ((s <=? a) && (a <? s + S k))%nat%bool.
        2:{ destruct (Nat.leb_spec (S s) a); destruct (Nat.leb_spec s a); destruct (Nat.ltb_spec a (S s + k)); destruct (Nat.ltb_spec a (s + S k)); cbn; try reflexivity; lia. }
        destruct (Nat.ltb_spec b a).
        * rewrite andb_true_r. destruct (Nat.leb_spec s a); destruct (Nat.ltb_spec a (s + S k)); cbn [andb]; try (apply M2; lia).
        * rewrite andb_false_r. apply M2. lia. }
  rewrite G by lia. destruct (Nat.ltb_spec j i).
  - destruct (Nat.leb_spec 2 i); [|lia]. destruct (Nat.ltb_spec i (2 + (n - 1))); [reflexivity|lia].
  - rewrite andb_false_r. reflexivity.
Qed.
