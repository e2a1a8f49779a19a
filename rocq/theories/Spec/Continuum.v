(** Continuum-mechanics notions used to state the element properties; independent of the model. *)
From Verif Require Export Lib.Base.

(** Gradient of the displacement field interpolated from nodal values stored node by node,
    [u (d*(a-1)+i)] being component [i] at node [a]. *)
Definition gradient (d n : nat) (G : nat -> nat -> R) (u : nat -> R) (i j : nat) : R :=
  sumf n (fun a => u (d * (a - 1) + i)%nat * G a j).

(** Voigt pairs: 11, 22, 12 in the plane; 11, 22, 33, 12, 23, 13 in space. *)
Definition vpair (d r : nat) : nat * nat :=
  match d, r with
  | 2, 1 => (1, 1) | 2, 2 => (2, 2) | 2, _ => (1, 2)
  | _, 1 => (1, 1) | _, 2 => (2, 2) | _, 3 => (3, 3) | _, 4 => (1, 2) | _, 5 => (2, 3) | _, _ => (1, 3)
  end%nat.
Definition nvoigt (d : nat) : nat := (d * (d + 1) / 2)%nat.

(** Right Cauchy-Green tensor and Green strain in engineering Voigt form. *)
Definition cauchyGreen (d : nat) (F : nat -> nat -> R) (i j : nat) : R := sumf d (fun k => F k i * F k j).
Definition greenVoigt (d : nat) (F : nat -> nat -> R) (r : nat) : R :=
  let '(i, j) := vpair d r in
  if (i =? j)%nat then (cauchyGreen d F i i - 1) / 2 else cauchyGreen d F i j.
(** The part of the Green strain of an increment that is quadratic in its gradient [h]. *)
Definition quadVoigt (d : nat) (h : nat -> nat -> R) (r : nat) : R :=
  let '(i, j) := vpair d r in
  if (i =? j)%nat then cauchyGreen d h i i / 2 else cauchyGreen d h i j.

Definition isometry (d : nat) (F : nat -> nat -> R) : Prop :=
  forall i j, (1 <= i <= d)%nat -> (1 <= j <= d)%nat -> cauchyGreen d F i j = kron i j.

(** Second Piola-Kirchhoff stress tensor from its Voigt components. *)
Definition stressTensor (d : nat) (Sv : nat -> R) (i j : nat) : R :=
  sumf (nvoigt d) (fun r => let '(p, q) := vpair d r in
    if ((i =? p) && (j =? q) || (i =? q) && (j =? p))%nat%bool then Sv r else 0).

(** Symmetric rank-two tensors. *)
Definition symT (d : nat) (s : nat -> nat -> R) : Prop :=
  forall i j, (1 <= i <= d)%nat -> (1 <= j <= d)%nat -> s i j = s j i.

(** The interpolated value of component [i]. *)
Definition interp (d n : nat) (N : nat -> R) (u : nat -> R) (i : nat) : R :=
  sumf n (fun a => N a * u (d * (a - 1) + i)%nat).

(** Cross product, plane rotation by -90 degrees, matrix action. *)
Definition cross (a b : nat -> R) (i : nat) : R :=
  match i with
  | 1%nat => a 2%nat * b 3%nat - a 3%nat * b 2%nat
  | 2%nat => a 3%nat * b 1%nat - a 1%nat * b 3%nat
  | 3%nat => a 1%nat * b 2%nat - a 2%nat * b 1%nat
  | _ => 0 end.
Definition rotm90 (a : nat -> R) (i : nat) : R :=
  match i with 1%nat => a 2%nat | 2%nat => - a 1%nat | _ => 0 end.

(** Fourth-order tensor with the minor symmetries from a Voigt matrix. *)
Definition vindex (d i j : nat) : nat :=
  if (i =? j)%nat then i else match d with 2%nat => 3%nat
  | _ => if (i + j =? 3)%nat then 4%nat else if (i + j =? 5)%nat then 5%nat else 6%nat end.
Definition tensor4 (d : nat) (C : nat -> nat -> R) (i j k l : nat) : R := C (vindex d i j) (vindex d k l).
