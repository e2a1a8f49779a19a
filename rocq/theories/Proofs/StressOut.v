From Coq Require Import List Lia Lra.
From Verif.Lib Require Import Base Vec3 Tensor3.
From Verif.Spec Require Import StressOut.
From Verif.Model Require Import StressOut.
Import ListNotations.
Local Open Scope R_scope.

Definition row (T : t3) (i : nat) : v3 := V (T i 1%nat) (T i 2%nat) (T i 3%nat).
Definition symmetric (s : t3) : Prop := s 2%nat 1%nat = s 1%nat 2%nat /\ s 3%nat 2%nat = s 2%nat 3%nat /\ s 3%nat 1%nat = s 1%nat 3%nat.
Lemma transform_component T s i j : transform T s i j = componentIn s (row T i) (row T j).
Proof. unfold transform, componentIn, row, mul3, trn. cbn [vx vy vz]. ring. Qed.
Lemma symmetric_transform T s : symmetric s -> symmetric (transform T s).
Proof. intros (A & B & C). unfold symmetric, transform, mul3, trn. rewrite A, B, C. repeat split; ring. Qed.
Lemma vonMises_equivalent s : symmetric s -> vonMises s = equivalent s.
Proof.
  intros (A & B & C). unfold vonMises, equivalent. f_equal. unfold ddot3, deviator, tr3, kron. cbn [Nat.eqb]. rewrite A, B, C. field.
Qed.
(** Invariants. *)
Lemma tr3_ext A B : eq3 A B -> tr3 A = tr3 B. Proof. intros H. unfold tr3. rewrite !H by lia. reflexivity. Qed.
Lemma det3_ext A B : eq3 A B -> det3 A = det3 B. Proof. intros H. unfold det3. rewrite !H by lia. reflexivity. Qed.
Lemma orth_flip Q : orth3 Q -> eq3 (mul3 (trn Q) Q) kron.
Proof.
  intros O. assert (D : det3 Q * det3 Q = 1).
  { transitivity (det3 (mul3 Q (trn Q))); [rewrite det3_mul; unfold det3, trn; ring|]. rewrite (det3_ext _ _ O). unfold det3, kron. cbn. ring. }
  assert (N : det3 Q <> 0) by (intro H; rewrite H in D; lra).
  assert (I : eq3 (trn Q) (inv3 Q)).
  { intros i j Hi Hj. pose proof (inv3_l Q N) as L.
    transitivity (mul3 (mul3 (inv3 Q) Q) (trn Q) i j).
    - unfold mul3 at 1. rewrite !L by lia. unfold kron. clear -Hi. idx i; cbn [Nat.eqb]; ring.
    - rewrite <- mul3_assoc. unfold mul3 at 1. rewrite !O by lia. unfold kron. clear -Hj. idx j; cbn [Nat.eqb]; ring. }
  intros i j Hi Hj. transitivity (mul3 (inv3 Q) Q i j); [|apply (inv3_l Q N); assumption].
  unfold mul3. rewrite !I by lia. reflexivity.
Qed.
Lemma shift_transform Q s p : orth3 Q -> eq3 (fun i j => transform Q s i j - p * kron i j) (transform Q (fun i j => s i j - p * kron i j)).
Proof.
  intros O i j Hi Hj. transitivity (transform Q s i j - p * mul3 Q (trn Q) i j); [rewrite (O i j Hi Hj); reflexivity|].
  unfold transform, mul3, trn, kron. cbn [Nat.eqb]. ring.
Qed.
Lemma det_transform Q s : orth3 Q -> det3 (transform Q s) = det3 s.
Proof.
  intros O. unfold transform. rewrite !det3_mul.
  assert (D : det3 Q * det3 (trn Q) = 1) by (rewrite <- det3_mul, (det3_ext _ _ O); unfold det3, kron; cbn; ring).
  transitivity (det3 s * (det3 Q * det3 (trn Q))); [ring|]. rewrite D. ring.
Qed.
Lemma principal_transform Q s p : orth3 Q -> (principalValue (transform Q s) p <-> principalValue s p).
Proof. intros O. unfold principalValue. rewrite (det3_ext _ _ (shift_transform Q s p O)), det_transform by exact O. tauto. Qed.
(** Trace and square of a rotated tensor. *)
Lemma tr_transform Q s : orth3 Q -> tr3 (transform Q s) = tr3 s.
Proof.
  intros O. pose proof (orth_flip Q O) as F.
  transitivity (tr3 (mul3 s (mul3 (trn Q) Q))); [unfold tr3, transform, mul3, trn; ring|].
  unfold tr3. unfold mul3 at 1 3 5. rewrite !F by lia. unfold kron. cbn [Nat.eqb]. ring.
Qed.
Lemma ddot_transform Q s : orth3 Q -> ddot3 (transform Q s) (transform Q s) = ddot3 s s.
Proof.
  intros O. pose proof (orth_flip Q O) as F.
  transitivity (ddot3 (mul3 (mul3 (trn Q) Q) (mul3 s (mul3 (trn Q) Q))) s).
  { unfold ddot3, transform, mul3, trn. ring. }
  assert (E : eq3 (mul3 (mul3 (trn Q) Q) (mul3 s (mul3 (trn Q) Q))) s).
  { intros i j Hi Hj. unfold mul3 at 1. rewrite !F by lia.
    assert (G : forall k, mul3 s (mul3 (trn Q) Q) k j = s k j).
    { intros k. unfold mul3 at 1. rewrite !F by lia. unfold kron. clear -Hj. idx j; cbn [Nat.eqb]; ring. }
    rewrite !G. unfold kron. clear -Hi. idx i; cbn [Nat.eqb]; ring. }
  unfold ddot3. rewrite !E by lia. reflexivity.
Qed.
Lemma equivalent_transform Q s : orth3 Q -> equivalent (transform Q s) = equivalent s.
Proof.
  intros O. unfold equivalent. do 2 f_equal.
  assert (Dv : forall t, ddot3 (deviator t) (deviator t) = ddot3 t t - tr3 t * tr3 t / 3).
  { intros t. unfold ddot3, deviator, kron. cbn [Nat.eqb]. unfold tr3. field. }
  rewrite !Dv, ddot_transform, tr_transform by exact O. reflexivity.
Qed.
