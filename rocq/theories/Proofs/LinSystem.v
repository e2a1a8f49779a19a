(** Lemmas for Props/LinSystem.v: writes as bilinear forms, the assembled system. *)
From Verif Require Import Lib.Base Lib.Sums Lib.Writes Lib.Tensor3 Spec.Hooke Spec.Continuum Model.Continuum Model.LinIsotropic
  Proofs.Continuum Proofs.ContinuumK Model.LinElement Spec.LinElement Proofs.LinElement Model.LinSystem Spec.LinSystem.
Import ListNotations.

Lemma sumL_zero {A} (l : list A) : sumL (fun _ => 0) l = 0.
Proof. induction l as [|x l IH]; [reflexivity|]. change (0 + sumL (fun _ : A => 0) l = 0). rewrite IH. ring. Qed.
Lemma sumL_cons {A} (f : A -> R) x l : sumL f (x :: l) = f x + sumL f l.
Proof. reflexivity. Qed.
Lemma sumL_flat {A B} (f : B -> R) (g : A -> list B) l : sumL f (flat_map g l) = sumL (fun a => sumL f (g a)) l.
Proof. induction l as [|x l IH]; [reflexivity|]. cbn [flat_map]. rewrite sumL_app, IH. reflexivity. Qed.
Lemma sumL_seq (f : nat -> R) n : sumL f (seq 1 n) = sumf n f.
Proof. induction n as [|n IH]; [reflexivity|]. rewrite seq_S, sumL_app, IH. cbn [sumf sumL fold_right]. replace (1 + n)%nat with (S n) by lia. ring. Qed.
Lemma sumL_loop (f : wr -> R) n g : sumL f (loop n g) = sumf n (fun a => sumL f (g a)).
Proof. unfold loop. rewrite sumL_flat. apply sumL_seq. Qed.

Definition wform (v w : nat -> R) (x : wr) : R := let '(i, j, c) := x in v i * c * w j.
Lemma hit_form N ws v w : (forall i j c, In (i, j, c) ws -> (1 <= i <= N)%nat /\ (1 <= j <= N)%nat) ->
  sumf N (fun i => v i * sumf N (fun j => hitsum i j ws * w j)) = sumL (wform v w) ws.
Proof.
  induction ws as [|[[a b] c] ws IH]; intros H.
  - change (sumL (wform v w) []) with 0. apply sumf_0. intros i _. rewrite sumf_0; [ring|]. intros j _. unfold hitsum. cbn. ring.
  - rewrite sumL_cons, <- IH by (intros; apply (H i j c0); right; assumption).
    destruct (H a b c (or_introl eq_refl)) as [Ha Hb].
    rewrite <- (sumf_kron N a (fun i => wform v w (i, b, c)) Ha), <- sumf_plus. apply sumf_ext. intros i Hi.
    assert (E : sumf N (fun j => hitsum i j ((a, b, c) :: ws) * w j) = kron i a * c * w b + sumf N (fun j => hitsum i j ws * w j)).
    { rewrite <- (sumf_kron N b (fun j => kron i a * c * w j) Hb), <- sumf_plus. apply sumf_ext. intros j Hj.
      unfold hitsum. rewrite sumL_cons. unfold hit, wval, kron. destruct (i =? a)%nat, (j =? b)%nat; cbn [andb]; ring. }
    rewrite E. unfold wform, kron. destruct (i =? a)%nat; ring.
Qed.
Lemma run_form N ws M v w : rows M = N -> cols M = N -> (forall i j c, In (i, j, c) ws -> (1 <= i <= N)%nat /\ (1 <= j <= N)%nat) ->
  exists M', run_add M ws = Ret M' /\ rows M' = N /\ cols M' = N /\ (forall i j, el M' i j = el M i j + hitsum i j ws) /\
    bilin N (el M') v w = bilin N (el M) v w + sumL (wform v w) ws.
Proof.
  intros HR HC H. destruct (run_add_ok ws M) as [M' [E [R1 [C1 V]]]].
  { intros i j c Hi. destruct (H i j c Hi). apply inb_true; lia. }
  exists M'. split; [exact E|]. split; [congruence|]. split; [congruence|]. split; [exact V|].
  rewrite <- (hit_form N) by exact H. unfold bilin, mv. rewrite <- sumf_plus. apply sumf_ext. intros i _. rewrite <- Rmult_plus_distr_l. f_equal.
  rewrite <- sumf_plus. apply sumf_ext. intros j _. rewrite V. ring.
Qed.
Lemma run_vec N ws M : rows M = N -> cols M = 1%nat -> (forall i j c, In (i, j, c) ws -> (1 <= i <= N)%nat /\ j = 1%nat) ->
  exists M', run_add M ws = Ret M' /\ rows M' = N /\ cols M' = 1%nat /\
    forall v, work N (fun i => el M' i 1%nat) v = work N (fun i => el M i 1%nat) v + sumL (wform v (fun _ => 1)) ws.
Proof.
  intros HR HC H. destruct (run_add_ok ws M) as [M' [E [R1 [C1 V]]]].
  { intros i j c Hi. destruct (H i j c Hi). apply inb_true; lia. }
  exists M'. split; [exact E|]. split; [congruence|]. split; [congruence|]. intros v.
  unfold work. rewrite (sumf_ext N (fun i => el M' i 1%nat * v i) (fun i => el M i 1%nat * v i + v i * hitsum i 1 ws)) by (intros; rewrite V; ring).
  rewrite sumf_plus. f_equal. clear -H. induction ws as [|[[a b] c] ws IH].
  - change (sumL (wform v (fun _ => 1)) []) with 0. apply sumf_0. intros. unfold hitsum. cbn. ring.
  - rewrite sumL_cons, <- IH by (intros; apply (H i j c0); right; assumption).
    destruct (H a b c (or_introl eq_refl)) as [Ha ->].
    rewrite <- (sumf_kron N a (fun i => wform v (fun _ => 1) (i, 1%nat, c)) Ha), <- sumf_plus. apply sumf_ext. intros i Hi.
    unfold hitsum. rewrite sumL_cons. unfold hit, wval, kron, wform. rewrite Nat.eqb_refl. destruct (i =? a)%nat; cbn [andb]; ring.
Qed.

Lemma restrict_dof d e u a i : (1 <= a)%nat -> (1 <= i <= d)%nat -> restrict d e u (dof d a i) = u (dof d (conn e a) i).
Proof.
  intros Ha Hi. unfold restrict. unfold dof at 2 3. replace (d * (a - 1) + i - 1)%nat with (i - 1 + (a - 1) * d)%nat by nia.
  rewrite Nat.div_add, Nat.mod_add, Nat.div_small, Nat.mod_small by lia. f_equal. f_equal; [f_equal; lia|lia].
Qed.
Lemma asmMat_form d e Ke v w : sumL (wform v w) (asmMat d e Ke) = bilin (d * enen e) (el Ke) (restrict d e v) (restrict d e w).
Proof.
  unfold asmMat, bilin, mv. rewrite sumL_loop, sumf_dof. apply sumf_ext. intros a Ha. rewrite sumL_loop. apply sumf_ext. intros i Hi.
  rewrite sumL_loop, sumf_dof, restrict_dof, <- sumf_scal by lia. apply sumf_ext. intros b Hb. rewrite sumL_loop, <- sumf_scal. apply sumf_ext. intros j Hj.
  rewrite restrict_dof by lia. unfold sumL, wform. cbn [fold_right]. ring.
Qed.
Lemma asmVec_form d e be v : sumL (wform v (fun _ => 1)) (asmVec d e be) = lwork (d * enen e) be (restrict d e v).
Proof.
  unfold asmVec, lwork. rewrite sumL_loop, sumf_dof. apply sumf_ext. intros a Ha. rewrite sumL_loop. apply sumf_ext. intros i Hi.
  rewrite restrict_dof by lia. unfold sumL, wform. cbn [fold_right]. ring.
Qed.
Lemma asmMat_range d nnod e Ke : (forall a, (1 <= a <= enen e)%nat -> (1 <= conn e a <= nnod)%nat) ->
  forall i j c, In (i, j, c) (asmMat d e Ke) -> (1 <= i <= d * nnod)%nat /\ (1 <= j <= d * nnod)%nat.
Proof.
  intros H i j c Hi. unfold asmMat in Hi. do 4 (apply In_loop in Hi; destruct Hi as [? [? Hi]]). destruct Hi as [Hi|[]]. injection Hi as <- <- _.
  split; apply dof_range; auto.
Qed.
Lemma asmVec_range d nnod e be : (forall a, (1 <= a <= enen e)%nat -> (1 <= conn e a <= nnod)%nat) ->
  forall i j c, In (i, j, c) (asmVec d e be) -> (1 <= i <= d * nnod)%nat /\ j = 1%nat.
Proof.
  intros H i j c Hi. unfold asmVec in Hi. do 2 (apply In_loop in Hi; destruct Hi as [? [? Hi]]). destruct Hi as [Hi|[]]. injection Hi as <- <- _.
  split; [apply dof_range; auto|reflexivity].
Qed.

(** Equal values in the range of the element give equal forms. *)
Lemma strainOf_ext k n p u v : (forall a i, (1 <= a <= n)%nat -> (1 <= i <= sdim k)%nat -> u (dof (sdim k) a i) = v (dof (sdim k) a i)) ->
  eq3 (strainOf k n p u) (strainOf k n p v).
Proof.
  intros H. assert (G : forall i j, (1 <= i <= sdim k)%nat -> gradient (sdim k) n (pG p) u i j = gradient (sdim k) n (pG p) v i j).
  { intros i j Hi. unfold gradient. apply sumf_ext. intros a Ha. f_equal. apply H; assumption. }
  intros i j Hi Hj. unfold strainOf. destruct (Nat.leb_spec i (sdim k)), (Nat.leb_spec j (sdim k)); cbn [andb]; try (rewrite !G by lia; reflexivity).
  all: destruct (isAx k) eqn:A; cbn [andb]; try reflexivity.
  all: destruct ((i =? 3)%nat && (j =? 3)%nat)%bool; [|reflexivity].
  all: f_equal; unfold interp; apply sumf_ext; intros a Ha; f_equal; destruct k; try discriminate; apply (H a 1%nat); cbn; lia.
Qed.
