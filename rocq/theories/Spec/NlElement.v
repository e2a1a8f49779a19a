(** Specification of the large-deformation elements: kinematics, material contracts, derivatives. *)
From Coquelicot Require Import Coquelicot.
From Verif Require Export Spec.MxElement Spec.Mixed.

(** Components of a tensor that exist for a kind of solid. *)
Definition inKind (k : kind) (i j : nat) : bool :=
  (((i <=? kdim k) && (j <=? kdim k)) || (isAxi k && (i =? 3) && (j =? 3)))%nat%bool.
Definition mask (k : kind) (A : t3) : t3 := fun i j => if inKind k i j then A i j else 0.
(** Rates and deformations of a kind of solid. *)
Definition rateOf (k : kind) (L : t3) : Prop :=
  forall i j, (1 <= i <= 3)%nat -> (1 <= j <= 3)%nat -> inKind k i j = false -> L i j = 0.
Definition defOf (k : kind) (F : t3) : Prop := rateOf k (fun i j => F i j - kron i j).

(** Row of the component (i,j) in the stress vector, engineering strain vector of a symmetric tensor. *)
Definition srow (k : kind) (i j : nat) : nat :=
  match k with Plane => if (i =? j)%nat then i else 3%nat | _ => voigt i j end.
Definition scomp (k : kind) (r : nat) : nat * nat :=
  match k, r with
  | Plane, 3%nat => (1, 2) | _, 1%nat => (1, 1) | _, 2%nat => (2, 2) | _, 3%nat => (3, 3)
  | _, 4%nat => (1, 2) | _, 5%nat => (2, 3) | _, _ => (1, 3) end%nat.
Definition eng (k : kind) (D : t3) (r : nat) : R :=
  let '(i, j) := scomp k r in if (i =? j)%nat then D i j else D i j + D j i.
Definition applyK (k : kind) (C : nat -> nat -> R) (D : t3) : t3 :=
  fun i j => sumf (nstr k) (fun s => C (srow k i j) s * eng k D s).

(** [s] is the Cauchy stress of the stored energy [W] at [F], along the deformations of the kind of solid. *)
Definition stressIn (k : kind) (W : t3 -> R) (F s : t3) : Prop :=
  forall L c, path F L c -> rateOf k L -> (forall t, defOf k (c t)) -> is_derive (fun t => W (c t)) 0 (det3 F * ddot3 s L).
(** [C] is the spatial tangent of the stress function at [F]. *)
Definition tangentIn (k : kind) (sig : t3 -> t3) (F : t3) (C : nat -> nat -> R) : Prop :=
  forall L c, path F L c -> rateOf k L -> (forall t, defOf k (c t)) ->
    forall i j, (1 <= i <= 3)%nat -> (1 <= j <= 3)%nat -> inKind k i j = true ->
    is_derive (fun t => det3 (c t) * sig (c t) i j) 0
      (det3 F * (applyK k C (sympart L) i j + mul3 L (sig F) i j + mul3 (sig F) (trn L) i j)).

(** Reference configuration: a curve of deformations with derivative [H]. *)
Definition curve (F H : t3) (c : R -> t3) : Prop :=
  eq3 (c 0) F /\ forall i j, (1 <= i <= 3)%nat -> (1 <= j <= 3)%nat -> is_derive (fun t => c t i j) 0 (H i j).
(** Rate of the Green strain. *)
Definition greenRate (F H : t3) : t3 := sympart (mul3 (trn F) H).
(** [s] is the second Piola-Kirchhoff stress of [W], [C] the derivative of [sig] with respect to the Green strain. *)
Definition stress2In (k : kind) (W : t3 -> R) (F s : t3) : Prop :=
  forall H c, curve F H c -> rateOf k H -> (forall t, defOf k (c t)) -> is_derive (fun t => W (c t)) 0 (ddot3 s (greenRate F H)).
Definition tangent2In (k : kind) (sig : t3 -> t3) (F : t3) (C : nat -> nat -> R) : Prop :=
  forall H c, curve F H c -> rateOf k H -> (forall t, defOf k (c t)) ->
    forall i j, (1 <= i <= 3)%nat -> (1 <= j <= 3)%nat -> inKind k i j = true ->
    is_derive (fun t => sig (c t) i j) 0 (applyK k C (greenRate F H) i j).

(** Strain energy of an element. *)
Definition energy (k : kind) (n : nat) (ps : list mxIn) (W : mxIn -> t3 -> R) (u : nat -> R) : R :=
  sumL (fun p => volume k p * W p (deformation k n p u)) ps.

(** Material: symmetric stresses given by the components that exist, none without deformation of lengths. *)
Record solidMaterial (k : kind) (ps : list mxIn) (stress : mxIn -> t3 -> t3) : Prop := {
  smExt : forall p X Y, In p ps -> eq3 X Y -> eq3 (stress p X) (stress p Y);
  smSym : forall p X i j, In p ps -> (1 <= i <= 3)%nat -> (1 <= j <= 3)%nat -> stress p X i j = stress p X j i;
  smFree : forall p X i j, In p ps -> defOf k X -> isometry 3 X -> (1 <= i <= 3)%nat -> (1 <= j <= 3)%nat -> inKind k i j = true -> stress p X i j = 0 }.
(** The test for zero strains is sound. *)
Definition soundTest (k : kind) (isz : (nat -> R) -> bool) : Prop := forall E, isz E = true -> forall r, (1 <= r <= nstr k)%nat -> E r = 0.

(** The lengths in the plane (in space for solids) are changed. *)
Definition strained (k : kind) (F : t3) : Prop := ~ isometry (kdim k) F.
(** Lengths in the plane start to change along [v]. *)
Definition straining (k : kind) (n : nat) (p : mxIn) (v : nat -> R) : Prop :=
  exists i j, (1 <= i <= kdim k)%nat /\ (1 <= j <= kdim k)%nat /\ sympart (dispGrad k n p v) i j <> 0.
Definition undeformed (k : kind) (n : nat) (p : mxIn) (u : nat -> R) : Prop := eq3 (deformation k n p u) kron.

(** The point is strained, or undeformed; an undeformed axisymmetric point must start to strain. *)
Definition regularAt (k : kind) (n : nat) (u v : nat -> R) (p : mxIn) : Prop :=
  strained k (deformation k n p u) \/ (undeformed k n p u /\ (k <> Axi \/ straining k n p v)).
(** Nodes, points off the axis before and after the displacement, positive volumes. *)
Record validState (k : kind) (n : nat) (ps : list mxIn) (u : nat -> R) : Prop := {
  vsNodes : (1 <= n)%nat;
  vsAxis : forall p, In p ps -> isAxi k = true -> epsR < iX p /\ epsR < iX p + interp 2 n (iN p) u 1;
  vsVolume : forall p, In p ps -> 0 < det3 (deformation k n p u) }.
(** [K] is the derivative of the forces [b] at [u] along [v]. *)
Definition derivativeAlong (N : nat) (b : (nat -> R) -> option (nat -> R)) (b0 : nat -> R) (K : nat -> nat -> R) (u v : nat -> R) : Prop :=
  forall q, exists f, locally 0 (fun t => exists b1, b (moved u v t) = Some b1 /\ work N b0 b1 q = f t) /\ is_derive f 0 (stiffWork N K q v).
(** Sizes of the element arrays. *)
Definition dims (k : kind) (n : nat) (st : mat * (nat -> R)) : Prop := rows (fst st) = (kdim k * n)%nat /\ cols (fst st) = (kdim k * n)%nat.
(** Forces returned by an element. *)
Definition forcesOf (r : res (mat * (nat -> R))) : option (nat -> R) := match r with Ret s => Some (snd s) | _ => None end.

(** Stiffness of the hoop compression on the rates of the radius, axisymmetric solids; [w] is the displaced volume. *)
Definition hoopK (k : kind) (n : nat) (ps : list mxIn) (s : mxIn -> t3) (u : nat -> R) (q v : nat -> R) : R :=
  hoopCompression k n ps s (fun p => det3 (deformation k n p u)) u q v.
(** Modified volume ratio of the F-bar method: extrapolation from the sampling points, or the volume ratio of the point itself. *)
Definition fbarVolume (k : kind) (n : nat) (qs : list mxIn) (p : mxIn) (u : nat -> R) : R :=
  match qs with
  | [] => det3 (deformation k n p u)
  | [q] => det3 (deformation k n q u)
  | _ => sumL (fun x => iPhi p (fst x) * det3 (deformation k n (snd x) u)) (combine (seq 1 (length qs)) qs)
  end.
(** The deformation with its volume change replaced: in the plane in plane strain. *)
Definition modified (k : kind) (th : R) (F : t3) : t3 := fun i j =>
  match k with
  | Plane => if ((i <=? 2) && (j <=? 2))%nat%bool then F i j * Rpower (th / det3 F) (1 / 2) else F i j
  | _ => F i j * Rpower (th / det3 F) (1 / 3)
  end.
(** Virtual work of the Cauchy stresses [s] in the displaced configuration. *)
Definition virtualWork (k : kind) (n : nat) (ps : list mxIn) (s : mxIn -> t3) (u v : nat -> R) : R :=
  sumL (fun p => volume k p * det3 (deformation k n p u) * ddot3 (s p) (mul3 (dispGrad k n p v) (inv3 (deformation k n p u)))) ps.
(** Sampling and integration points valid, modified volumes positive. *)
Definition fbarState (k : kind) (n : nat) (qs ps : list mxIn) (u : nat -> R) : Prop :=
  validState k n qs u /\ validState k n ps u /\ (forall p, In p ps -> 0 < fbarVolume k n qs p u).
(** The point is strained, or undeformed with the volume kept and about to strain. *)
Definition fbarRegular (k : kind) (n : nat) (qs : list mxIn) (u v : nat -> R) (p : mxIn) : Prop :=
  strained k (deformation k n p u) \/ (undeformed k n p u /\ fbarVolume k n qs p u = 1 /\ straining k n p v).
(** Solids: work of the difference of two shear stresses on one component of the rates. *)
Definition shearSwap (k : kind) (n : nat) (ps : list mxIn) (s : mxIn -> t3) (u q v : nat -> R) : R :=
  match k with
  | Solid => sumL (fun p => volume k p * det3 (deformation k n p u) * (s p 1%nat 2%nat - s p 1%nat 3%nat)
               * mul3 (dispGrad k n p q) (inv3 (deformation k n p u)) 3%nat 3%nat * mul3 (dispGrad k n p v) (inv3 (deformation k n p u)) 3%nat 1%nat) ps
  | _ => 0
  end.
