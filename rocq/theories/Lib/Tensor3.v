(** 3x3 tensors as functions of two indices 1..3. *)
From Verif.Lib Require Import Base.

Definition t3 := nat -> nat -> R.
Definition mul3 (A B : t3) : t3 := fun i j => A i 1%nat * B 1%nat j + A i 2%nat * B 2%nat j + A i 3%nat * B 3%nat j.
Definition tr3 (A : t3) : R := A 1%nat 1%nat + A 2%nat 2%nat + A 3%nat 3%nat.
Definition trn (A : t3) : t3 := fun i j => A j i.
Definition det3 (A : t3) : R :=
  A 1%nat 1%nat * (A 2%nat 2%nat * A 3%nat 3%nat - A 2%nat 3%nat * A 3%nat 2%nat)
  - A 1%nat 2%nat * (A 2%nat 1%nat * A 3%nat 3%nat - A 2%nat 3%nat * A 3%nat 1%nat)
  + A 1%nat 3%nat * (A 2%nat 1%nat * A 3%nat 2%nat - A 2%nat 2%nat * A 3%nat 1%nat).
(** Equality on the index range. *)
Definition eq3 (A B : t3) : Prop := forall i j, (1 <= i <= 3)%nat -> (1 <= j <= 3)%nat -> A i j = B i j.
Definition orth3 (Q : t3) : Prop := eq3 (mul3 Q (trn Q)) kron.
(** Double contraction. *)
Definition ddot3 (A B : t3) : R :=
  A 1%nat 1%nat * B 1%nat 1%nat + A 1%nat 2%nat * B 1%nat 2%nat + A 1%nat 3%nat * B 1%nat 3%nat +
  A 2%nat 1%nat * B 2%nat 1%nat + A 2%nat 2%nat * B 2%nat 2%nat + A 2%nat 3%nat * B 2%nat 3%nat +
  A 3%nat 1%nat * B 3%nat 1%nat + A 3%nat 2%nat * B 3%nat 2%nat + A 3%nat 3%nat * B 3%nat 3%nat.

(** Voigt order xx,yy,zz,xy,yz,xz. *)
Definition voigt (i j : nat) : nat :=
  match i, j with
  | 1, 1 => 1 | 2, 2 => 2 | 3, 3 => 3
  | 1, 2 | 2, 1 => 4 | 2, 3 | 3, 2 => 5 | 1, 3 | 3, 1 => 6
  | _, _ => 0 end%nat.
Definition unvoigt (v : nat -> R) : t3 := fun i j => v (voigt i j).
Definition tovoigt (A : t3) : nat -> R := fun k =>
  match k with
  | 1 => A 1%nat 1%nat | 2 => A 2%nat 2%nat | 3 => A 3%nat 3%nat
  | 4 => A 1%nat 2%nat | 5 => A 2%nat 3%nat | 6 => A 1%nat 3%nat | _ => 0%R end%nat.

Lemma det3_mul A B : det3 (mul3 A B) = det3 A * det3 B.
Proof. unfold det3, mul3; ring. Qed.

Lemma mul3_assoc A B C i j : mul3 A (mul3 B C) i j = mul3 (mul3 A B) C i j.
Proof. unfold mul3; ring. Qed.

(** Inverse by cofactors (meaningful when the determinant is non-zero). *)
Definition inv3 (A : t3) : t3 := fun i j =>
  let a := A in
  (match i, j return R with
  | 1%nat, 1%nat => a 2%nat 2%nat * a 3%nat 3%nat - a 2%nat 3%nat * a 3%nat 2%nat | 1%nat, 2%nat => a 1%nat 3%nat * a 3%nat 2%nat - a 1%nat 2%nat * a 3%nat 3%nat | 1%nat, 3%nat => a 1%nat 2%nat * a 2%nat 3%nat - a 1%nat 3%nat * a 2%nat 2%nat
  | 2%nat, 1%nat => a 2%nat 3%nat * a 3%nat 1%nat - a 2%nat 1%nat * a 3%nat 3%nat | 2%nat, 2%nat => a 1%nat 1%nat * a 3%nat 3%nat - a 1%nat 3%nat * a 3%nat 1%nat | 2%nat, 3%nat => a 1%nat 3%nat * a 2%nat 1%nat - a 1%nat 1%nat * a 2%nat 3%nat
  | 3%nat, 1%nat => a 2%nat 1%nat * a 3%nat 2%nat - a 2%nat 2%nat * a 3%nat 1%nat | 3%nat, 2%nat => a 1%nat 2%nat * a 3%nat 1%nat - a 1%nat 1%nat * a 3%nat 2%nat | 3%nat, 3%nat => a 1%nat 1%nat * a 2%nat 2%nat - a 1%nat 2%nat * a 2%nat 1%nat
  | _, _ => 0 end) / det3 A.

Lemma inv3_l A : det3 A <> 0 -> eq3 (mul3 (inv3 A) A) kron.
Proof.
  intros H i j Hi Hj. unfold mul3, inv3.
  idx i; idx j; unfold kron; cbn [Nat.eqb]; unfold det3 in *; field; assumption.
Qed.
Lemma inv3_r A : det3 A <> 0 -> eq3 (mul3 A (inv3 A)) kron.
Proof.
  intros H i j Hi Hj. unfold mul3, inv3.
  idx i; idx j; unfold kron; cbn [Nat.eqb]; unfold det3 in *; field; assumption.
Qed.

Lemma mul3_ext A A' B B' : eq3 A A' -> eq3 B B' -> eq3 (mul3 A B) (mul3 A' B').
Proof. intros HA HB i j Hi Hj. unfold mul3. rewrite !HA, !HB by lia. reflexivity. Qed.
Lemma eq3_refl A : eq3 A A. Proof. intros i j _ _; reflexivity. Qed.
Lemma eq3_sym A B : eq3 A B -> eq3 B A. Proof. intros H i j Hi Hj; symmetry; apply H; assumption. Qed.
Lemma eq3_trans A B C : eq3 A B -> eq3 B C -> eq3 A C.
Proof. intros H1 H2 i j Hi Hj; rewrite H1, H2 by assumption; reflexivity. Qed.
