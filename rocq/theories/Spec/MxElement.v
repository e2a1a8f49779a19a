(** Specification of the mixed element: strain energy with a projected volume change. *)
From Coquelicot Require Import Coquelicot.
From Verif Require Export Lib.Base Lib.Tensor3 Spec.Continuum Spec.HyperElastic Model.MxElement.

(** Gradient of a displacement field in the reference configuration; the hoop stretch rate in axisymmetric solids. *)
Definition dispGrad (k : kind) (n : nat) (p : mxIn) (v : nat -> R) : t3 := fun i j =>
  if ((i <=? kdim k) && (j <=? kdim k))%nat%bool then gradient (kdim k) n (iG p) v i j
  else if (isAxi k && (i =? 3)%nat && (j =? 3)%nat)%bool then interp 2 n (iN p) v 1 / iX p else 0.
Definition deformation (k : kind) (n : nat) (p : mxIn) (u : nat -> R) : t3 := fun i j => kron i j + dispGrad k n p u i j.
(** Volume of the point: revolved in axisymmetric solids. *)
Definition volume (k : kind) (p : mxIn) : R := if isAxi k then 2 * PI * iX p * iW p else iW p.

(** [th] is the projection of [J] on the span of the first [m] modes. *)
Definition projection (k : kind) (m : nat) (ps : list mxIn) (J th : mxIn -> R) : Prop :=
  (exists c, forall p, In p ps -> th p = sumf m (fun i => c i * iPhi p i)) /\
  forall i, (1 <= i <= m)%nat -> sumL (fun p => volume k p * iPhi p i * th p) ps = sumL (fun p => volume k p * iPhi p i * J p) ps.
(** The deformation with its volume change replaced by [th]. *)
Definition withVolume (th : R) (F : t3) : t3 := fun i j => F i j * Rpower (th / det3 F) (1 / 3).
(** Strain energy of the element. *)
Definition mxEnergy (k : kind) (n : nat) (ps : list mxIn) (W : mxIn -> t3 -> R) (th : mxIn -> R) (u : nat -> R) : R :=
  sumL (fun p => volume k p * W p (withVolume (th p) (deformation k n p u))) ps.

(** [Hi] is an inverse of the moment matrix of the modes. *)
Definition modesInverse (k : kind) (m : nat) (ps : list mxIn) (Hi : nat -> nat -> R) : Prop :=
  forall i j, (1 <= i <= m)%nat -> (1 <= j <= m)%nat ->
    sumf m (fun l => sumL (fun p => volume k p * iPhi p i * iPhi p l) ps * Hi l j) = kron i j.

(** A path of deformations through [F] with rate [L]. *)
Definition path (F L : t3) (c : R -> t3) : Prop :=
  eq3 (c 0) F /\ forall i j, (1 <= i <= 3)%nat -> (1 <= j <= 3)%nat -> is_derive (fun t => c t i j) 0 (mul3 L F i j).
(** [s] is the Cauchy stress of the stored energy [W] at [F], along every path. *)
Definition stressOf (W : t3 -> R) (F s : t3) : Prop :=
  forall L c, path F L c -> is_derive (fun t => W (c t)) 0 (det3 F * ddot3 s L).
(** Symmetric part. *)
Definition sympart (L : t3) : t3 := fun i j => (L i j + L j i) / 2.
(** [C] is the spatial tangent of the stress function at [F]: along every path the convected rate of the Kirchhoff stress is det F times C:d. *)
Definition tangentOf (sig : t3 -> t3) (F : t3) (C : nat -> nat -> R) : Prop :=
  forall L c, path F L c -> forall i j, (1 <= i <= 3)%nat -> (1 <= j <= 3)%nat ->
    is_derive (fun t => det3 (c t) * sig (c t) i j) 0
      (det3 F * (apply6 C (sympart L) i j + mul3 L (sig F) i j + mul3 (sig F) (trn L) i j)).

(** Input of the element: nodes, points off the axis, a constant mode when there is one mode only. *)
Record validInput (k : kind) (n m : nat) (ps : list mxIn) (Hi : nat -> nat -> R) : Prop := {
  viNodes : (1 <= n)%nat;
  viAxis : forall p, In p ps -> isAxi k = true -> epsR < iX p;
  viOne : m = 1%nat -> forall p, In p ps -> iPhi p 1%nat = 1;
  viInverse : modesInverse k m ps Hi }.
(** Material: symmetric stresses depending on the nine components of the deformation gradient; the test for zero stress is sound. *)
Record validMaterial (ps : list mxIn) (stress : mxIn -> t3 -> t3) (isz : t3 -> bool) : Prop := {
  vmExt : forall p X Y, In p ps -> eq3 X Y -> eq3 (stress p X) (stress p Y);
  vmSym : forall p X i j, In p ps -> (1 <= i <= 3)%nat -> (1 <= j <= 3)%nat -> stress p X i j = stress p X j i;
  vmZero : forall s, isz s = true -> eq3 s (fun _ _ => 0) }.
(** Displaced by [t] times [v]. *)
Definition moved (u v : nat -> R) (t : R) : nat -> R := fun i => u i + t * v i.
(** Work of a force increment. *)
Definition work (N : nat) (b0 b v : nat -> R) : R := sumf N (fun i => (b0 i - b i) * v i).
(** Rate of the logarithm of the radius. *)
Definition hoopRate (n : nat) (p : mxIn) (u v : nat -> R) : R := interp 2 n (iN p) v 1 / (iX p + interp 2 n (iN p) u 1).
(** Stress of the mixed method: the mean stress is replaced by its projection, pulled to the displaced volume. *)
Definition mixedStress (S : t3) (J th pr : R) : t3 := fun i j => S i j + kron i j * (pr * J / th - tr3 S / 3).
(** Work of the forces [A v] on [q]. *)
Definition stiffWork (N : nat) (A : nat -> nat -> R) (q v : nat -> R) : R := sumf N (fun i => sumf N (fun j => q i * A i j * v j)).
(** Work of the hoop compression on the rates of the radius, axisymmetric solids. *)
Definition hoopCompression (k : kind) (n : nat) (ps : list mxIn) (s : mxIn -> t3) (th : mxIn -> R) (u q v : nat -> R) : R :=
  if isAxi k then sumL (fun p => volume k p * th p * Rmin 0 (s p 3%nat 3%nat) * hoopRate n p u q * hoopRate n p u v) ps else 0.
(** [K] is the derivative of the forces [b] (a function of the displacements, [None] where the element fails) at [u]: the work on
    every [q] of the change of [b] along every [v]. *)
Definition derivativeOf (N : nat) (b : (nat -> R) -> option (nat -> R)) (b0 : nat -> R) (K : nat -> nat -> R) (u : nat -> R) : Prop :=
  forall q v, exists f, locally 0 (fun t => exists b1, b (moved u v t) = Some b1 /\ work N b0 b1 q = f t) /\ is_derive f 0 (stiffWork N K q v).
