(** The Saint Venant-Kirchhoff solid: Hooke's law between Green strain and second Piola-Kirchhoff stress. *)
From Verif Require Export Spec.Hooke Spec.NlElement.

Definition green (F : t3) : t3 := fun i j => (mul3 (trn F) F i j - kron i j) / 2.
(** First Lame constant; in plane stress the one of the membrane. *)
Definition lam (k : kind) (ps : bool) (E nu : R) : R :=
  match k with Plane => if ps then E * nu / (1 - nu * nu) else lame1 E nu | _ => lame1 E nu end.
(** Stress law in the reference configuration, pushed to the current one, and stored energy. *)
Definition svkLaw (k : kind) (ps : bool) (E nu : R) (e : t3) : t3 := hooke (lam k ps E nu) (lame2 E nu) e.
Definition pushed (F S : t3) : t3 := fun i j => mul3 F (mul3 S (trn F)) i j / det3 F.
Definition svkStress (k : kind) (ps : bool) (E nu : R) (F : t3) : t3 := pushed F (svkLaw k ps E nu (green F)).
Definition svkEnergy (k : kind) (ps : bool) (E nu : R) (F : t3) : R := 1 / 2 * ddot3 (svkLaw k ps E nu (green F)) (green F).
(** Equality of the components of a kind of solid. *)
Definition eqKind (k : kind) (A B : t3) : Prop :=
  forall i j, (1 <= i <= 3)%nat -> (1 <= j <= 3)%nat -> inKind k i j = true -> A i j = B i j.
