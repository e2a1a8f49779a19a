(** Specification of the three-field element: potential of displacements, volume change and pressure. *)
From Coquelicot Require Import Coquelicot.
From Verif Require Export Spec.NlElement Model.ThreeField.

(** Nodal values of the three fields. *)
Record fields := mkF { fU : nat -> R; fT : nat -> R; fP : nat -> R }.
Definition movedF (x y : fields) (t : R) : fields := mkF (moved (fU x) (fU y) t) (moved (fT x) (fT y) t) (moved (fP x) (fP y) t).
(** Value of a field on the second basis. *)
Definition at2 (m : nat) (p : mxIn) (f : nat -> R) : R := sumf m (fun b => f b * iPhi p b).
Definition volumeAt (m : nat) (p : mxIn) (x : fields) : R := 1 + at2 m p (fT x).
Definition pressureAt (m : nat) (p : mxIn) (x : fields) : R := at2 m p (fP x).

(** Strain energy with the volume change replaced by the field, plus the pressure times the volume constraint. *)
Definition tfPotential (k : kind) (n m : nat) (ps : list mxIn) (W : mxIn -> t3 -> R) (x : fields) : R :=
  sumL (fun p => volume k p * (W p (withVolume (volumeAt m p x) (deformation k n p (fU x)))
    + pressureAt m p x * (det3 (deformation k n p (fU x)) - volumeAt m p x))) ps.
(** Work of the unbalanced forces added by the element, against the loads. *)
Definition tfWork (N m : nat) (s s' : tfMats) (y : fields) : R :=
  work N (bU s) (bU s') (fU y) + work m (bT s) (bT s') (fT y) + work m (bP s) (bP s') (fP y).
(** Quadratic form of the symmetric three-field matrix added by the element. *)
Definition tfForm (N m : nat) (s s' : tfMats) (q y : fields) : R :=
  let d (f : tfMats -> nat -> nat -> R) i j := f s' i j - f s i j in
  sumf N (fun i => sumf N (fun j => fU q i * d (fun z => el (aUU z)) i j * fU y j))
  + sumf N (fun i => sumf m (fun b => d (fun z => el (aUT z)) i b * (fU q i * fT y b + fT q b * fU y i)))
  + sumf N (fun i => sumf m (fun b => d (fun z => el (aUP z)) i b * (fU q i * fP y b + fP q b * fU y i)))
  + sumf m (fun a => sumf m (fun b => d aTT a b * (fT q a * fT y b)))
  + sumf m (fun a => sumf m (fun b => d aTP a b * (fT q a * fP y b + fP q b * fT y a))).

(** Sizes of the element arrays. *)
Definition tfDims (k : kind) (n m : nat) (s : tfMats) : Prop :=
  rows (aUU s) = (kdim k * n)%nat /\ cols (aUU s) = (kdim k * n)%nat /\ rows (aUT s) = (kdim k * n)%nat /\ cols (aUT s) = m /\ rows (aUP s) = (kdim k * n)%nat /\ cols (aUP s) = m.
(** Material: symmetric stresses given by the deformation gradient, none without deformation of lengths; symmetric tangent. *)
Record tfMaterial (ps : list mxIn) (stress : mxIn -> t3 -> t3) (tangent : mxIn -> t3 -> nat -> nat -> R) : Prop := {
  tmExt : forall p X Y, In p ps -> eq3 X Y -> eq3 (stress p X) (stress p Y);
  tmSym : forall p X i j, In p ps -> (1 <= i <= 3)%nat -> (1 <= j <= 3)%nat -> stress p X i j = stress p X j i;
  tmFree : forall p X i j, In p ps -> isometry 3 X -> 0 < det3 X -> (1 <= i <= 3)%nat -> (1 <= j <= 3)%nat -> stress p X i j = 0;
  tmTan : forall p X Y i j, In p ps -> eq3 X Y -> tangent p X i j = tangent p Y i j;
  tmMajor : forall p X i j, In p ps -> (1 <= i <= 6)%nat -> (1 <= j <= 6)%nat -> tangent p X i j = tangent p X j i }.
(** Valid displacements, positive volume changes. *)
Record tfState (k : kind) (n m : nat) (ps : list mxIn) (x : fields) : Prop := {
  tsDisp : validState k n ps (fU x);
  tsVolume : forall p, In p ps -> 0 < volumeAt m p x }.
(** The point is strained, or lengths, volume and pressure are those of the stress-free state. *)
Definition tfRegular (k : kind) (n m : nat) (x : fields) (p : mxIn) : Prop :=
  strained k (deformation k n p (fU x)) \/ (isometry 3 (deformation k n p (fU x)) /\ volumeAt m p x = 1 /\ pressureAt m p x = 0).
(** Virtual work of the state [x] along [q]. *)
Definition tfVariation (k : kind) (n m : nat) (ps : list mxIn) (stress : mxIn -> t3 -> t3) (x q : fields) : R :=
  sumL (fun p => let F := deformation k n p (fU x) in let L := mul3 (dispGrad k n p (fU q)) (inv3 F) in
    let S := stress p (withVolume (volumeAt m p x) F) in let th := volumeAt m p x in let pr := pressureAt m p x in
    volume k p * (th * ddot3 (fun i j => S i j - kron i j * (tr3 S / 3)) L + pr * (det3 F * tr3 L)
      + (tr3 S / 3 - pr) * at2 m p (fT q) + (det3 F - th) * at2 m p (fP q))) ps.
(** Stress of the three-field element in the displaced configuration. *)
Definition tfStress (k : kind) (n m : nat) (stress : mxIn -> t3 -> t3) (x : fields) (p : mxIn) : t3 :=
  mixedStress (stress p (withVolume (volumeAt m p x) (deformation k n p (fU x)))) (det3 (deformation k n p (fU x))) (volumeAt m p x) (pressureAt m p x).
