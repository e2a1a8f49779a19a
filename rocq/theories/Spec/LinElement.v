(** Specification of the linear continuum element: strains, energy and loads of a field given by nodal values.
    Independent of the B-matrix, of the order of the stress components and of the element loops. *)
From Verif Require Export Spec.Continuum Spec.Hooke Lib.Tensor3 Model.LinElement.

Inductive solid := PlaneStress | PlaneStrain | AxiSolid | Solid3.
Definition sdim (k : solid) : nat := match k with Solid3 => 3 | _ => 2 end.
Definition isAx (k : solid) : bool := match k with AxiSolid => true | _ => false end.
(** The settings describe an element with [n] nodes of this kind. *)
Definition isKind (k : solid) (n : nat) (s : lset) : Prop :=
  lnsd s = sdim k /\ lax s = isAx k /\ lnen s = n /\ match k with PlaneStress => lps s = true | PlaneStrain => lps s = false | _ => True end.

(** Strain tensor of the field with nodal values [u]; the hoop strain is u_r/r. *)
Definition strainOf (k : solid) (n : nat) (p : lpt) (u : nat -> R) : t3 := fun i j =>
  if ((i <=? sdim k) && (j <=? sdim k))%nat%bool
  then (gradient (sdim k) n (pG p) u i j + gradient (sdim k) n (pG p) u j i) / 2
  else if (isAx k && (i =? 3)%nat && (j =? 3)%nat)%bool then interp 2 n (pN p) u 1 / pX p else 0.
(** First Lame parameter; in plane stress the one with the normal stress eliminated. *)
Definition lamOf (k : solid) (E nu : R) : R :=
  match k with PlaneStress => 2 * lame1 E nu * lame2 E nu / (lame1 E nu + 2 * lame2 E nu) | _ => lame1 E nu end.
(** Stress of a strain (in-plane part for plane stress), and its work on another strain. *)
Definition hookeOf (k : solid) (p : lpt) (e : t3) : t3 := hooke (lamOf k (pE p) (pNu p)) (lame2 (pE p) (pNu p)) e.
Definition density (k : solid) (p : lpt) (A B : t3) : R :=
  lamOf k (pE p) (pNu p) * tr3 A * tr3 B + 2 * lame2 (pE p) (pNu p) * ddot3 A B.
Definition vol (k : solid) (p : lpt) : R := if isAx k then 2 * PI * pX p * pW p else pW p.

(** Bilinear forms of the element: strain energy, mass, stress stiffness; linear forms: body and thermal loads. *)
Definition aForm (k : solid) (n : nat) (ps : list lpt) (u v : nat -> R) : R :=
  sumL (fun p => vol k p * density k p (strainOf k n p u) (strainOf k n p v)) ps.
Definition mForm (k : solid) (n : nat) (ps : list lpt) (u v : nat -> R) : R :=
  sumL (fun p => vol k p * pRho p * sumf (sdim k) (fun i => interp (sdim k) n (pN p) u i * interp (sdim k) n (pN p) v i)) ps.
Definition gForm (k : solid) (n : nat) (ps : list lpt) (u v w : nat -> R) : R :=
  sumL (fun p => vol k p * sumf (sdim k) (fun c => sumf (sdim k) (fun i => sumf (sdim k) (fun j =>
    gradient (sdim k) n (pG p) v c i * hookeOf k p (strainOf k n p u) i j * gradient (sdim k) n (pG p) w c j)))) ps.
Definition fForm (k : solid) (n : nat) (ps : list lpt) (v : nat -> R) : R :=
  sumL (fun p => vol k p * sumf (sdim k) (fun i => pF p i * interp (sdim k) n (pN p) v i)) ps.
(** Isotropic thermal expansion in the directions the element has. *)
Definition expansion (k : solid) (p : lpt) : t3 := fun i j =>
  if ((i =? j) && ((i <=? sdim k) || (isAx k && (i =? 3))))%nat%bool then pT p else 0.
Definition tForm (k : solid) (n : nat) (ps : list lpt) (v : nat -> R) : R :=
  sumL (fun p => vol k p * density k p (expansion k p) (strainOf k n p v)) ps.

(** Work of a matrix and of a vector. *)
Definition bilin (N : nat) (A : nat -> nat -> R) (v w : nat -> R) : R := sumf N (fun i => v i * mv N A w i).
Definition lwork (N : nat) (b : mat) (v : nat -> R) : R := sumf N (fun i => v i * el b i 1%nat).

(** Points the program can integrate: moduli in range, off the axis, the test for vanishing body forces sound. *)
Record validPt (k : solid) (p : lpt) : Prop := {
  vpNu : 0 <= pNu p < 1 / 2;
  vpAx : isAx k = true -> epsR < pX p;
  vpF : pIsz p = true -> forall i, (1 <= i <= sdim k)%nat -> pF p i = 0 }.
(** Element matrices and vectors of the right size. *)
Definition sized (N : nat) (st : lst) : Prop :=
  (forall s, rows (lA st s) = N /\ cols (lA st s) = N) /\ (forall s, rows (bvec (lB st) s) = N /\ cols (bvec (lB st) s) = 1%nat).
(** The strain is zero, or it has a component above the threshold 1e-16 (engineering shears). *)
Definition engineering (k : solid) (e : t3) (i j : nat) : R := if (i =? j)%nat then e i j else 2 * e i j.
Definition seen (k : solid) (e : t3) : Prop :=
  (forall i j, (1 <= i <= 3)%nat -> (1 <= j <= 3)%nat -> e i j = 0) \/
  exists i j, (1 <= i <= 3)%nat /\ (1 <= j <= 3)%nat /\ epsR < Rabs (engineering k e i j).
Definition seenAll (k : solid) (n : nat) (ps : list lpt) (u : nat -> R) : Prop := forall p, In p ps -> seen k (strainOf k n p u).

(** Rigid motions and functions that reproduce linear fields; [X a] are the nodes. *)
Definition rigid (d : nat) (X : nat -> nat -> R) (u : nat -> R) : Prop :=
  exists c W, (forall i j, (1 <= i <= d)%nat -> (1 <= j <= d)%nat -> W i j = - W j i) /\
    forall a i, (1 <= i <= d)%nat -> u (d * (a - 1) + i)%nat = c i + sumf d (fun j => W i j * X a j).
Definition complete (d n : nat) (X : nat -> nat -> R) (p : lpt) : Prop :=
  (forall j, (1 <= j <= d)%nat -> sumf n (fun a => pG p a j) = 0) /\
  (forall i j, (1 <= i <= d)%nat -> (1 <= j <= d)%nat -> sumf n (fun a => X a i * pG p a j) = kron i j).
(** A contribution that goes to one position only; positions are counted from one. *)
Definition atZ (pos : Z) (s : nat) (x : R) : R := if (pos =? Z.of_nat s)%Z then x else 0.
Definition atN (pos s : nat) (x : R) : R := if (pos =? s)%nat then x else 0.
(** The displacements of the element; none means zero. *)
Definition field (o : option (nat -> R)) : nat -> R := match o with Some u => u | None => fun _ => 0 end.
Definition given (o : option (nat -> R)) (P : (nat -> R) -> Prop) : Prop := match o with Some u => P u | None => True end.
(** The vectors of an element: strains of the displacements are zero or above the threshold, the same for the
    extraction function; no displacements in elements outside the domain of the extraction function. *)
Definition validVecs (k : solid) (n : nat) (s : lset) (ps : list lpt) (vecs : list (option (nat -> R))) : Prop :=
  given (nth 0 vecs None) (seenAll k n ps) /\ given (nth 1 vecs None) (seenAll k n ps) /\
  ((2 <= dS s)%nat -> (2 <= length vecs)%nat -> nth 1 vecs None = None -> nth 0 vecs None = None).
