(** Specification of the linear static problem of a mesh, independent of matrices and of the assembly. *)
From Verif Require Export Spec.LinElement Model.LinSystem.

(** The values of a global field in the nodes of an element. *)
Definition restrict (d : nat) (e : elt) (u : nat -> R) : nat -> R :=
  fun i => u (dof d (conn e ((i - 1) / d + 1)) ((i - 1) mod d + 1)).
(** Energy and loads of the mesh. *)
Definition aMesh (k : solid) (els : list elt) (u v : nat -> R) : R :=
  sumL (fun e => aForm k (enen e) (epts e) (restrict (sdim k) e u) (restrict (sdim k) e v)) els.
Definition fMesh (k : solid) (els : list elt) (v : nat -> R) : R := sumL (fun e => fForm k (enen e) (epts e) (restrict (sdim k) e v)) els.
Definition tMesh (k : solid) (els : list elt) (v : nat -> R) : R := sumL (fun e => tForm k (enen e) (epts e) (restrict (sdim k) e v)) els.
Definition qMesh (k : solid) (els : list elt) (v : nat -> R) : R :=
  sumL (fun e => aForm k (enen e) (epts e) (field (extr e)) (restrict (sdim k) e v)) els.
(** Elements that can be integrated and refer to nodes 1..nnod. *)
Record wfElt (k : solid) (nnod : nat) (e : elt) : Prop := {
  wfN : (1 <= enen e)%nat;
  wfC : forall a, (1 <= a <= enen e)%nat -> (1 <= conn e a <= nnod)%nat;
  wfP : forall p, In p (epts e) -> validPt k p;
  wfX : given (extr e) (seenAll k (enen e) (epts e)) }.
(** Work of nodal forces. *)
Definition work (N : nat) (f v : nat -> R) : R := sumf N (fun i => f i * v i).
(** Displacements [u] and reactions [R] are an equilibrium under the forces [f]; reactions act at prescribed unknowns only. *)
Record equilibrium (N : nat) (K : nat -> nat -> R) (f R u : nat -> R) (fixed : nat -> Prop) : Prop := {
  eqForce : forall i, (1 <= i <= N)%nat -> mv N K u i = f i + R i;
  eqFree : forall i, (1 <= i <= N)%nat -> ~ fixed i -> R i = 0 }.
(** Rigid motions and affine fields of the nodes [X a], a >= 1. *)
Definition affine (d : nat) (X : nat -> nat -> R) (c : nat -> R) (W : nat -> nat -> R) (u : nat -> R) : Prop :=
  forall a i, (1 <= a)%nat -> (1 <= i <= d)%nat -> u (dof d a i) = c i + sumf d (fun j => W i j * X a j).
Definition rigidMotion (d : nat) (X : nat -> nat -> R) (u : nat -> R) : Prop :=
  exists c W, (forall i j, (1 <= i <= d)%nat -> (1 <= j <= d)%nat -> W i j = - W j i) /\ affine d X c W u.
(** The shape functions of the mesh add up to one and reproduce the coordinates. *)
Definition completeMesh (d : nat) (X : nat -> nat -> R) (els : list elt) : Prop :=
  forall e p, In e els -> In p (epts e) -> complete d (enen e) (fun a => X (conn e a)) p.
Definition unityMesh (els : list elt) : Prop := forall e p, In e els -> In p (epts e) -> sumf (enen e) (pN p) = 1.
(** Total of the body forces. *)
Definition totalLoad (k : solid) (els : list elt) (i : nat) : R := sumL (fun e => sumL (fun p => vol k p * pF p i) (epts e)) els.
(** Potential energy. *)
Definition potential (k : solid) (els : list elt) (N : nat) (f u : nat -> R) : R := aMesh k els u u / 2 - work N f u.
(** The integral of the gradient of the function of a node over the mesh: zero for functions that vanish on the boundary. *)
Definition gradTotal (k : solid) (els : list elt) (m j : nat) : R :=
  sumL (fun e => sumL (fun p => vol k p * sumf (enen e) (fun a => if (conn e a =? m)%nat then pG p a j else 0)) (epts e)) els.
