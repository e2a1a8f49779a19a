(** What it means that everything an evaluation writes exists, and the complete list of exceptions. *)
From Coq Require Import ZArith QArith List Bool.
From Verif Require Import Model.Modes.
Import ListNotations.
Open Scope Z_scope.

(** Slot [z] (1-based, 0 = not written) denotes an entry of the right size. *)
Definition present (l : list bool) (z : Z) : Prop :=
  z = 0 \/ (1 <= z /\ nth_error l (Z.to_nat (z - 1)) = Some true).

(** Modes in which element matrices are integrated, and those with boundary contributions (Elasticity.C 245-250). *)
Definition assembles (m : mode) : Prop := m <> INIT /\ m <> RECOVERY /\ m <> NORMS.
Definition hasBoundary (m : mode) : Prop :=
  m = STATIC \/ m = ARCLEN \/ m = DYNAMIC \/ m = RHS_ONLY \/ m = INT_FORCES.

Definition interiorSafe (k : integrand) (c : config) (d : bool) (m : mode) : Prop :=
  let '(m', s) := setMode k c d m in
  forall C, getLocalIntegral k c (dS s) m' false = Some C ->
    (forall z, In z (matWrites k s) -> present (mats C) z) /\ (forall z, In z (vecWrites k s) -> present (vecs C) z).

Definition boundarySafe (k : integrand) (c : config) (d : bool) (m : mode) : Prop :=
  let '(m', s) := setMode k c d m in
  forall C, getLocalIntegral k c (dS s) m' true = Some C ->
    (forall z, In z (bouMatWrites k c s) -> present (mats C) z) /\ (forall z, In z (bouVecWrites k s) -> present (vecs C) z).

(** All exceptions. *)
Definition interiorGap (k : integrand) (c : config) (d : bool) (m : mode) : Prop :=
  let linear := (0 < prm c 3%nat)%Q in let hht := (prm c 4%nat == 1)%Q in
  match k with
  | LinEl => m = STATIC /\ d = true /\ bdf c = true /\ linear /\ ~ hht
  | TotLag | NonLin | UpdLag | Plate | Shell => False
  | Fbar => m = ARCLEN \/ m = DYNAMIC \/ m = STIFF_ONLY \/ m = MASS_ONLY \/ m = INT_FORCES
  | PresModes => m = DYNAMIC
  | Mixed => ~ ((m = STATIC \/ m = ARCLEN \/ m = RHS_ONLY) /\ ~ linear)
  | Bar | Cable => (m = DYNAMIC /\ linear /\ hht) \/ (m = RHS_ONLY /\ (nCS c < nSV c)%nat)
  | Beam => (m = DYNAMIC \/ (m = RHS_ONLY /\ (nCS c < nSV c)%nat)) /\ hht /\ (linear \/ localAxes c = false)
  | NLShell => m = INT_FORCES
  end.

Definition boundaryGap (k : integrand) (c : config) (m : mode) : Prop :=
  let linear := (0 < prm c 3%nat)%Q in let hht := (prm c 4%nat == 1)%Q in
  match k with
  | Fbar | PresModes => m = ARCLEN \/ (m = DYNAMIC /\ hht)
  | Mixed => m = ARCLEN \/ (m = DYNAMIC /\ hht)
  | Cable => (m = DYNAMIC /\ linear /\ hht) \/ (m = DYNAMIC /\ ~ linear /\ moment c = true /\ lcStif c = true)
      \/ (m = RHS_ONLY /\ (nCS c < nSV c)%nat /\ (hht \/ ((prm c 3%nat == 0)%Q /\ moment c = true /\ lcStif c = true)))
  | _ => False
  end.

(** After a sequence of set-up calls: the container made now holds everything evaluation writes. *)
Definition safeNow (k : integrand) (s : setup) (b : bool) : Prop :=
  forall C, getLocalIntegral k (cfg s) (dS (slt s)) (cur s) b = Some C ->
    (forall z, In z (if b then bouMatWrites k (cfg s) (slt s) else matWrites k (slt s)) -> present (mats C) z) /\
    (forall z, In z (if b then bouVecWrites k (slt s) else vecWrites k (slt s)) -> present (vecs C) z).

(** The matrices last integrated for element [iel] in a list of visits. *)
Fixpoint lastFor {M} (iel : nat) (l : list (nat * M * M)) : option (M * M) :=
  match l with
  | [] => None
  | (i, K, Mm) :: r => match lastFor iel r with Some x => Some x | None => if (i =? iel)%nat then Some (K, Mm) else None end
  end.

(** What a linear static analysis assembles: one matrix, the load vector and, with a dual problem, its load. *)
Definition nonzero (l : list Z) : list Z := filter (fun z => negb (z =? 0)) l.
