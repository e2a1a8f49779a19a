(** Notions used to state the F-bar and mixed element properties; independent of the model. *)
From Verif Require Export Lib.Base Spec.Continuum.

(** Spatial first elasticity tensor: c_(ij)(kl) + delta_jl sigma_ik, i and k being derivative directions. *)
Definition firstElasticity (d : nat) (C Sg : nat -> nat -> R) (i j k l : nat) : R :=
  tensor4 d C i j k l + kron j l * Sg i k.

(** Row pairs of the gradient vector: (direction, component). *)
Definition gpair (d k : nat) : nat * nat := (S ((k - 1) / d), S ((k - 1) mod d)).
(** Axisymmetric: the in-plane pairs, then the hoop pair. *)
Definition gpairAx (k : nat) : nat * nat := if (k =? 5)%nat then (3, 3)%nat else gpair 2 k.

(** Determinants. *)
Definition dt2 (F : nat -> nat -> R) : R := F 1%nat 1%nat * F 2%nat 2%nat - F 1%nat 2%nat * F 2%nat 1%nat.
Definition dt3 (F : nat -> nat -> R) : R :=
  F 1%nat 1%nat * (F 2%nat 2%nat * F 3%nat 3%nat - F 2%nat 3%nat * F 3%nat 2%nat)
  - F 1%nat 2%nat * (F 2%nat 1%nat * F 3%nat 3%nat - F 2%nat 3%nat * F 3%nat 1%nat)
  + F 1%nat 3%nat * (F 2%nat 1%nat * F 3%nat 2%nat - F 2%nat 2%nat * F 3%nat 1%nat).
Definition dt (d : nat) (F : nat -> nat -> R) : R := if (d =? 2)%nat then dt2 F else dt3 F.

(** [F'] is [F] up to a positive factor, i.e. they have the same isochoric part. *)
Definition sameShape (d : nat) (F F' : nat -> nat -> R) : Prop :=
  exists c, 0 < c /\ forall i j, (1 <= i <= d)%nat -> (1 <= j <= d)%nat -> F' i j = c * F i j.

(** A permutation-free description of the mixed degrees of freedom: displacement k, volume change j, pressure j. *)
Inductive mdof := DU (k : nat) | DT (j : nat) | DP (j : nat).
Definition validDof (n m : nat) (x : mdof) : Prop :=
  match x with DU k => (1 <= k <= n)%nat | DT j | DP j => (1 <= j <= m)%nat end.
Definition place (n : nat) (x : mdof) : nat :=
  match x with DU k => k | DT j => (n + 2 * j - 1)%nat | DP j => (n + 2 * j)%nat end.
(** The symmetric three-field operator. *)
Definition threeField (Kuu Kut Kup Ktt Ktp : nat -> nat -> R) (x y : mdof) : R :=
  match x, y with
  | DU i, DU j => Kuu i j
  | DU i, DT j => Kut i j | DT j, DU i => Kut i j
  | DU i, DP j => Kup i j | DP j, DU i => Kup i j
  | DT i, DT j => Ktt i j
  | DT i, DP j => Ktp i j | DP j, DT i => Ktp i j
  | DP _, DP _ => 0
  end.

(** Deviatoric-volumetric split of a strain and a volume rate: column [j] of the 6x7 matrix [P | m/3]. *)
Definition mvec (i : nat) : R := if ((1 <=? i) && (i <=? 3))%nat%bool then 1 else 0.
Definition splitCol (k j : nat) : R := if (j =? 7)%nat then mvec k / 3 else kron k j - mvec k * mvec j / 3.
(** 2*I0 with I0 = diag(1,1,1,1/2,1/2,1/2). *)
Definition twoI0 (i j : nat) : R := if (i =? j)%nat then (if (i <=? 3)%nat then 2 else 1) else 0.
(** The projected tangent of the mixed method (Simo and Taylor). *)
Definition projected (D : nat -> nat -> R) (sg : nat -> R) (pbar p : R) (i j : nat) : R :=
  let s k := 2 / 3 * (sg k - pbar * mvec k) in
  sumf 6 (fun k => sumf 6 (fun l => splitCol k i * D k l * splitCol l j)) +
  match (i =? 7)%nat, (j =? 7)%nat with
  | false, false => - mvec i * s j - s i * mvec j + (p - 2 / 3 * pbar) * mvec i * mvec j + (pbar - p) * twoI0 i j
  | true, false => s j
  | false, true => s i
  | true, true => - pbar / 3
  end.

(** Engineering strain (Voigt order 11,22,33,12,23,13) and modified volume rate (component 7) caused by a unit
    displacement of component [i] of a node with gradient [s], hoop value [sr] and modified gradient [sb]. *)
Definition strain7 (hoop : bool) (sr : R) (s sb : nat -> R) (r i : nat) : R :=
  match r with
  | 1%nat => kron i 1 * s 1%nat
  | 2%nat => kron i 2 * s 2%nat
  | 3%nat => if hoop then kron i 1 * sr else kron i 3 * s 3%nat
  | 4%nat => kron i 1 * s 2%nat + kron i 2 * s 1%nat
  | 5%nat => kron i 2 * s 3%nat + kron i 3 * s 2%nat
  | 6%nat => kron i 1 * s 3%nat + kron i 3 * s 1%nat
  | 7%nat => sb i
  | _ => 0
  end.
