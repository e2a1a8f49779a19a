(** Specification of the energies of a linear analysis: strain energy, work of the loads, complementary energy of a stress. *)
From Verif Require Export Spec.LinElement Spec.LinSystem Model.LinNorms.

(** The stress that belongs to the components of the kind: the normal stress of plane stress is zero, that of plane strain
    is given by the others. *)
Definition complete3 (k : solid) (nu : R) (S : t3) : t3 := fun i j =>
  match k with
  | Solid3 => S i j
  | AxiSolid => if ((i =? 3) && (j =? 3))%nat%bool then S 3%nat 3%nat else if ((i <=? 2) && (j <=? 2))%nat%bool then S i j else 0
  | _ => if ((i <=? 2) && (j <=? 2))%nat%bool then S i j
         else if ((i =? 3) && (j =? 3))%nat%bool then match k with PlaneStrain => nu * (S 1%nat 1%nat + S 2%nat 2%nat) | _ => 0 end else 0
  end.
(** Complementary energy: S : C^-1 T. *)
Definition compliance (k : solid) (p : lpt) (S T : t3) : R :=
  (1 + pNu p) / pE p * ddot3 (complete3 k (pNu p) S) (complete3 k (pNu p) T)
  - pNu p / pE p * tr3 (complete3 k (pNu p) S) * tr3 (complete3 k (pNu p) T).
(** Elastic strain: without the thermal expansion. *)
Definition elasticOf (k : solid) (n : nat) (th : bool) (p : lpt) (u : nat -> R) : t3 := fun i j =>
  strainOf k n p u i j - (if th then expansion k p i j else 0).
Definition minus3 (A B : t3) : t3 := fun i j => A i j - B i j.
(** What one point adds to the norms: strain energy, work of the body forces, with an analytical stress [sg] the
    complementary energies of it and of the error, volume, and for every dual field (none: outside its domain) the
    virtual work of the stresses on it. *)
Definition dualWork (k : solid) (n : nat) (p : lpt) (T : t3) (z : option (nat -> R)) : R :=
  match z with Some w => ddot3 T (strainOf k n p w) | None => 0 end.
Definition pointNorms (k : solid) (n : nat) (th h anasol : bool) (p : lpt) (sg : t3) (u : nat -> R) (zs : list (option (nat -> R))) : list R :=
  let e := elasticOf k n th p u in let S := hookeOf k p e in
  [vol k p * density k p e e; if h then vol k p * sumf (sdim k) (fun i => pF p i * interp (sdim k) n (pN p) u i) else 0] ++
  (if anasol then [vol k p * compliance k p sg sg; vol k p * compliance k p (minus3 sg S) (minus3 sg S)] else []) ++ [vol k p] ++
  flat_map (fun z => vol k p * dualWork k n p S z :: if anasol then [vol k p * dualWork k n p sg z] else []) zs.
(** Sums over the mesh. *)
Definition overMesh (els : list nelt) (f : nelt -> lpt -> t3 -> R) : R :=
  sumL (fun x => sumL (fun q => f x (fst q) (snd q)) (combine (epts (ne x)) (nsig x))) els.
Definition exactEnergy (k : solid) (els : list nelt) : R := overMesh els (fun _ p sg => vol k p * compliance k p sg sg).
Definition errorEnergy (k : solid) (els : list nelt) (u : nat -> R) : R := overMesh els (fun x p sg =>
  let d := minus3 sg (hookeOf k p (strainOf k (enen (ne x)) p (restrict (sdim k) (ne x) u))) in vol k p * compliance k p d d).
(** Virtual work of the given stresses. *)
Definition stressWork (k : solid) (els : list nelt) (v : nat -> R) : R := overMesh els (fun x p sg =>
  vol k p * ddot3 sg (strainOf k (enen (ne x)) p (restrict (sdim k) (ne x) v))).
Definition volMesh (k : solid) (els : list nelt) : R := overMesh els (fun _ p _ => vol k p).
Definition meshOf (els : list nelt) : list elt := map ne els.
(** A dual field with values [w] in the domain of its elements. *)
Definition inDomain (x : nelt) (j : nat) : bool := match nth j (nz x) None with Some _ => true | None => false end.
Definition wfNelt (k : solid) (nnod : nat) (x : nelt) : Prop :=
  wfElt k nnod (ne x) /\ length (nsig x) = length (epts (ne x)) /\ (forall T, In T (nsig x) -> forall i j, T i j = T j i) /\
  (forall p, In p (epts (ne x)) -> 0 < pE p).
