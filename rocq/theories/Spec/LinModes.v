(** Vibrations and buckling of a mesh, independent of matrices and of the assembly. *)
From Verif Require Export Spec.LinSystem Model.LinModes.

(** Twice the kinetic energy of the velocities, and the work of the stresses of [u] in the rotations of [v] and [w]. *)
Definition mMesh (k : solid) (els : list elt) (v w : nat -> R) : R := sumL (fun e => mForm k (enen e) (epts e) (restrict (sdim k) e v) (restrict (sdim k) e w)) els.
Definition gMesh (k : solid) (els : list elt) (u v w : nat -> R) : R :=
  sumL (fun e => gForm k (enen e) (epts e) (restrict (sdim k) e u) (restrict (sdim k) e v) (restrict (sdim k) e w)) els.
(** [u] is a mode with eigenvalue [lam]: it vanishes where it is prescribed, and elsewhere the forces of the first matrix are [lam] times those of the second. *)
Record isMode (N : nat) (A B : nat -> nat -> R) (fixed : nat -> bool) (lam : R) (u : nat -> R) : Prop := {
  mdFixed : forall i, (1 <= i <= N)%nat -> fixed i = true -> u i = 0;
  mdFree : forall i, (1 <= i <= N)%nat -> fixed i = false -> mv N A u i = lam * mv N B u i }.
Definition totalMass (k : solid) (els : list elt) : R := sumL (fun e => sumL (fun p => vol k p * pRho p) (epts e)) els.
(** The stresses of [u] are tensile (or zero) in every direction. *)
Definition inTension (k : solid) (els : list elt) (u : nat -> R) : Prop := forall e p q, In e els -> In p (epts e) ->
  0 <= sumf (sdim k) (fun i => sumf (sdim k) (fun j => q i * hookeOf k p (strainOf k (enen e) p (restrict (sdim k) e u)) i j * q j)).
(** A combination of modes. *)
Definition superpose (l : list (R * (R * (nat -> R)))) (i : nat) : R := sumL (fun q => fst q * snd (snd q) i) l.
Definition seenMesh (k : solid) (els : list elt) (u : nat -> R) : Prop := forall e, In e els -> seenAll k (enen e) (epts e) (restrict (sdim k) e u).
