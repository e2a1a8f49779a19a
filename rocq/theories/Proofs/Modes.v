From Coq Require Import ZArith QArith List Bool Lia.
From Verif Require Import Lib.Base Model.Modes Spec.Modes.
Import ListNotations.
Open Scope Z_scope.

Lemma isPos_spec q : isPos q = true <-> (0 < q)%Q.
Proof.
  unfold isPos. rewrite negb_true_iff. split.
  - intros H. apply Qnot_le_lt. intros L. apply Qle_bool_iff in L. congruence.
  - intros H. destruct (Qle_bool q 0) eqn:E; [|reflexivity]. apply Qle_bool_iff in E. exfalso. apply (Qlt_not_le _ _ H E).
Qed.
Lemma isNeg_spec q : isNeg q = true <-> (q < 0)%Q.
Proof.
  unfold isNeg. rewrite negb_true_iff. split.
  - intros H. apply Qnot_le_lt. intros L. apply Qle_bool_iff in L. congruence.
  - intros H. destruct (Qle_bool 0 q) eqn:E; [|reflexivity]. apply Qle_bool_iff in E. exfalso. apply (Qlt_not_le _ _ H E).
Qed.

Lemma present_dec l z : {present l z} + {~ present l z}.
Proof.
  unfold present. destruct (Z.eq_dec z 0); [left; auto|]. destruct (Z_le_dec 1 z); [|right; intuition lia].
  destruct (nth_error l (Z.to_nat (z - 1))) as [[|]|]; [left; right; auto|right; intuition congruence|right; intuition congruence].
Qed.

(** Boolean form. *)
Definition presentb (l : list bool) (z : Z) : bool :=
  (z =? 0) || ((1 <=? z) && match nth_error l (Z.to_nat (z - 1)) with Some true => true | _ => false end).
Lemma presentb_spec l z : presentb l z = true <-> present l z.
Proof.
  unfold presentb, present. rewrite orb_true_iff, andb_true_iff, Z.eqb_eq, Z.leb_le.
  destruct (nth_error l (Z.to_nat (z - 1))) as [[|]|]; intuition congruence.
Qed.
Lemma forallb_present l w : forallb (presentb l) w = true <-> forall z, In z w -> present l z.
Proof. rewrite forallb_forall. split; intros H z I; apply presentb_spec, H, I. Qed.

Definition okInt (k : integrand) (c : config) (d : bool) (m : mode) : bool :=
  let '(m', s) := setMode k c d m in
  match getLocalIntegral k c (dS s) m' false with
  | Some C => forallb (presentb (mats C)) (matWrites k s) && forallb (presentb (vecs C)) (vecWrites k s)
  | None => true
  end.
Definition okBou (k : integrand) (c : config) (d : bool) (m : mode) : bool :=
  let '(m', s) := setMode k c d m in
  match getLocalIntegral k c (dS s) m' true with
  | Some C => forallb (presentb (mats C)) (bouMatWrites k c s) && forallb (presentb (vecs C)) (bouVecWrites k s)
  | None => true
  end.

Lemma okInt_spec k c d m : okInt k c d m = true <-> interiorSafe k c d m.
Proof.
  unfold okInt, interiorSafe. destruct (setMode k c d m) as [m' s]. destruct (getLocalIntegral k c (dS s) m' false) as [C|].
  - rewrite andb_true_iff, !forallb_present. split; [intros H C' E; injection E as <-; exact H|intros H; apply H; reflexivity].
  - split; [intros _ C E; discriminate|reflexivity].
Qed.
Lemma okBou_spec k c d m : okBou k c d m = true <-> boundarySafe k c d m.
Proof.
  unfold okBou, boundarySafe. destruct (setMode k c d m) as [m' s]. destruct (getLocalIntegral k c (dS s) m' true) as [C|].
  - rewrite andb_true_iff, !forallb_present. split; [intros H C' E; injection E as <-; exact H|intros H; apply H; reflexivity].
  - split; [intros _ C E; discriminate|reflexivity].
Qed.

(** Boolean forms of the exceptions. *)
Definition gapInt (k : integrand) (c : config) (d : bool) (m : mode) : bool :=
  let linear := isPos (prm c 3%nat) in let hht := Qeq_bool (prm c 4%nat) 1 in
  match k with
  | LinEl => mode_eqb m STATIC && (d && (bdf c && (linear && negb hht)))
  | TotLag | NonLin | UpdLag | Plate | Shell => false
  | Fbar => mode_eqb m ARCLEN || (mode_eqb m DYNAMIC || (mode_eqb m STIFF_ONLY || (mode_eqb m MASS_ONLY || mode_eqb m INT_FORCES)))
  | PresModes => mode_eqb m DYNAMIC
  | Mixed => negb ((mode_eqb m STATIC || (mode_eqb m ARCLEN || mode_eqb m RHS_ONLY)) && negb linear)
  | Bar | Cable => (mode_eqb m DYNAMIC && (linear && hht)) || (mode_eqb m RHS_ONLY && newmark c)
  | Beam => (mode_eqb m DYNAMIC || (mode_eqb m RHS_ONLY && newmark c)) && (hht && (linear || negb (localAxes c)))
  | NLShell => mode_eqb m INT_FORCES
  end.
Definition gapBou (k : integrand) (c : config) (m : mode) : bool :=
  let linear := isPos (prm c 3%nat) in let hht := Qeq_bool (prm c 4%nat) 1 in
  match k with
  | Fbar | PresModes | Mixed => mode_eqb m ARCLEN || (mode_eqb m DYNAMIC && hht)
  | Cable => (mode_eqb m DYNAMIC && (linear && hht)) || ((mode_eqb m DYNAMIC && (negb linear && (moment c && lcStif c)))
      || (mode_eqb m RHS_ONLY && (newmark c && (hht || (Qeq_bool (prm c 3%nat) 0 && (moment c && lcStif c))))))
  | _ => false
  end.

Lemma mode_eqb_eq a b : mode_eqb a b = true <-> a = b.
Proof. split; [destruct a, b; cbn; congruence|intros ->; destruct b; reflexivity]. Qed.
Lemma negb_iff (b : bool) (P : Prop) : (b = true <-> P) -> (negb b = true <-> ~ P).
Proof. intros H. rewrite negb_true_iff. destruct b; intuition congruence. Qed.
Lemma and_iff (a b : bool) (P Q : Prop) : (a = true <-> P) -> (b = true <-> Q) -> (a && b = true <-> P /\ Q).
Proof. rewrite andb_true_iff. tauto. Qed.
Lemma or_iff (a b : bool) (P Q : Prop) : (a = true <-> P) -> (b = true <-> Q) -> (a || b = true <-> P \/ Q).
Proof. rewrite orb_true_iff. tauto. Qed.
Lemma newmark_spec c : newmark c = true <-> (nCS c < nSV c)%nat.
Proof. apply Nat.ltb_lt. Qed.
Lemma true_spec (b : bool) : b = true <-> b = true. Proof. tauto. Qed.
Lemma negb_false_spec (b : bool) : negb b = true <-> b = false. Proof. apply negb_true_iff. Qed.
Lemma false_spec : false = true <-> False. Proof. split; [discriminate|tauto]. Qed.

Ltac refl := repeat first
  [ apply or_iff | apply and_iff | apply isPos_spec | apply Qeq_bool_iff | apply newmark_spec | apply mode_eqb_eq
  | apply negb_false_spec | apply false_spec | apply negb_iff | apply true_spec ].

Lemma gapInt_spec k c d m : gapInt k c d m = true <-> interiorGap k c d m.
Proof. destruct k; unfold gapInt, interiorGap; refl. Qed.
Lemma gapBou_spec k c m : gapBou k c m = true <-> boundaryGap k c m.
Proof. destruct k; unfold gapBou, boundaryGap; refl. Qed.

Lemma isNegPos q : isPos q = true -> isNeg q = false.
Proof.
  intros H. destruct (isNeg q) eqn:E; [|reflexivity]. apply isPos_spec in H. apply isNeg_spec in E.
  exfalso. apply (Qlt_irrefl 0), (Qlt_trans _ _ _ H E).
Qed.
Lemma zeroPos q : Qeq_bool q 0 = true -> isPos q = false.
Proof.
  intros H. apply Qeq_bool_iff in H. destruct (isPos q) eqn:E; [|reflexivity]. apply isPos_spec in E. rewrite H in E. exfalso. apply (Qlt_irrefl 0 E).
Qed.

Ltac prep c :=
  destruct c as [p nc ns bd mo mt lc la];
  cbv [okInt okBou setMode getLocalIntegral slotsLin slotsNL slotsKL slotsNLShell slotsBase contElasticity contFbar contMX contMixed
       contBar contCable contBeam beamDyn contKL newmark prm nCS nSV bdf modal moment lcStif localAxes gapInt gapBou bouMatWrites];
  pose proof (isNegPos (p 3%nat)) as HP; pose proof (zeroPos (p 3%nat)) as HZ; revert HP HZ;
  generalize ((nc <? ns)%nat) (isPos (p 3%nat)) (isNeg (p 3%nat)) (Qeq_bool (p 4%nat) 1) (Qeq_bool (p 3%nat) 0) (Qeq_bool (p 2%nat) 0);
  clear p nc ns; intros b1 b2 b3 b4 b5 b6 HP HZ.
Ltac split1 :=
  match goal with
  | |- context [if ?x then _ else _] => is_var x; destruct x
  | |- context [andb ?x _] => is_var x; destruct x
  | |- context [orb ?x _] => is_var x; destruct x
  | |- context [negb ?x] => is_var x; destruct x
  end.
Ltac go := cbn; try reflexivity; try (match goal with H : true = true -> _ |- _ => specialize (H eq_refl); discriminate H end); try (split1; go).

Theorem interior_exact k c d m : assembles m -> (interiorSafe k c d m <-> ~ interiorGap k c d m).
Proof.
  intros [A1 [A2 A3]]. rewrite <- okInt_spec, <- gapInt_spec.
  enough (okInt k c d m = negb (gapInt k c d m)) as -> by (rewrite negb_true_iff; destruct (gapInt k c d m); intuition congruence).
  prep c. destruct m; try congruence; clear A1 A2 A3; destruct k; go.
Qed.

Theorem boundary_exact k c d m : hasBoundary m -> (boundarySafe k c d m <-> ~ boundaryGap k c m).
Proof.
  intros A. rewrite <- okBou_spec, <- gapBou_spec.
  enough (okBou k c d m = negb (gapBou k c m)) as -> by (rewrite negb_true_iff; destruct (gapBou k c m); intuition congruence).
  prep c. destruct A as [->|[->|[->|[->| ->]]]]; destruct k; go.
Qed.

Theorem calls_exact k mo mt lc la l m (b : bool) :
  let s := runCalls k (l ++ [SetMode m]) (construct k mo mt lc la) in
  (if b then hasBoundary m else assembles m) ->
  (safeNow k s b <-> ~ (if b then boundaryGap k (cfg s) m else interiorGap k (cfg s) (negb (dual s =? 0)%nat) m)).
Proof.
  cbv zeta. unfold runCalls. rewrite fold_left_app. cbn [fold_left].
  generalize (fold_left (step k) l (construct k mo mt lc la)). intros s A. cbn [step].
  destruct (setMode k (cfg s) (negb (dual s =? 0)%nat) m) as [m' t] eqn:E. unfold safeNow. cbn [cfg dual cur slt].
  destruct b.
  - rewrite <- (boundary_exact k (cfg s) (negb (dual s =? 0)%nat) m A). unfold boundarySafe. rewrite E. reflexivity.
  - rewrite <- (interior_exact k (cfg s) (negb (dual s =? 0)%nat) m A). unfold interiorSafe. rewrite E. reflexivity.
Qed.

