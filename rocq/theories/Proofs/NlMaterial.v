(** Sample materials for the large-deformation elements: neo-Hookean and Saint-Venant solids. *)
From Coquelicot Require Import Coquelicot.
From Verif Require Import Lib.Base Lib.Sums Lib.Writes Lib.Congruence Lib.Tensor3 Model.MxElement Model.NlElement Spec.Continuum Spec.Mixed Spec.MxElement Spec.NlElement
  Proofs.Continuum Proofs.ContinuumKin Proofs.MxPure Proofs.MxList Proofs.MxElement Proofs.NlPure.
Open Scope R_scope.

(** Neo-Hookean solid with shear modulus [mu]. *)
Definition nhStress (mu : R) (F : t3) : t3 := fun i j => mu * (mul3 F (trn F) i j - kron i j) / det3 F.
Definition nhTangent (k : kind) (mu : R) (F : t3) (r s : nat) : R :=
  if (r =? s)%nat then (if (r <=? ndf k)%nat then 2 else 1) * mu / det3 F else 0.
Definition nhEnergy (mu : R) (F : t3) : R := mu / 2 * ddot3 F F - mu * ln (det3 F).

Lemma iso_left F : isometry 3 F -> det3 F <> 0 /\ eq3 (mul3 F (trn F)) kron.
Proof.
  intros H. assert (E : det3 (cauchyGreen 3 F) = det3 F * det3 F) by (unfold det3, cauchyGreen; cbn [sumf]; ring).
  assert (E1 : det3 (cauchyGreen 3 F) = 1) by (transitivity (det3 kron); [apply det3_ext; intros i j Hi Hj; now apply H|unfold det3, kron; cbn; ring]).
  assert (N : det3 F <> 0) by nra. split; [exact N|].
  assert (T : eq3 (trn F) (inv3 F)).
  { intros i j Hi Hj. transitivity (mul3 (trn F) (mul3 F (inv3 F)) i j).
    - pose proof (inv3_r F N) as Q. unfold mul3 at 1. rewrite !Q by lia. unfold kron. idx j; cbn; ring.
    - rewrite mul3_assoc. assert (C : eq3 (mul3 (trn F) F) kron) by (intros a b Ha Hb; rewrite <- (H a b Ha Hb); unfold mul3, trn, cauchyGreen; cbn [sumf]; ring).
      unfold mul3 at 1. rewrite !C by lia. unfold kron. idx i; cbn; ring. }
  intros i j Hi Hj. rewrite <- (inv3_r F N i j Hi Hj). apply mul3_ext; [apply eq3_refl|exact T|exact Hi|exact Hj].
Qed.
Lemma nh_material k ps (mu : mxIn -> R) : solidMaterial k ps (fun p => nhStress (mu p)).
Proof.
  split.
  - intros p X Y _ E i j Hi Hj. unfold nhStress. rewrite (det3_ext _ _ E). unfold mul3, trn. rewrite !E by lia. reflexivity.
  - intros p X i j _ Hi Hj. unfold nhStress, mul3, trn, kron. rewrite (Nat.eqb_sym j i). unfold Rdiv. f_equal. f_equal. f_equal. ring.
  - intros p X i j _ _ I0 Hi Hj _. destruct (iso_left X I0) as [N E]. unfold nhStress. rewrite E by assumption. unfold Rdiv. ring.
Qed.
Lemma ddot_derive (c : R -> t3) H : (forall i j, (1 <= i <= 3)%nat -> (1 <= j <= 3)%nat -> is_derive (fun t => c t i j) 0 (H i j)) -> is_derive (fun t => ddot3 (c t) (c t)) 0 (2 * ddot3 H (c 0)).
Proof.
  intros D. pose proof (ddot3_derive c c H H D D) as Q. eapply dv; [|exact Q]. unfold ddot3. ring.
Qed.
Lemma nh_stress k (mu : R) X : 0 < det3 X -> stressIn k (nhEnergy mu) X (nhStress mu X).
Proof.
  intros P L c [P0 P1] HL HD. unfold nhEnergy.
  assert (D0 : det3 (c 0) = det3 X) by (apply det3_ext; exact P0).
  eapply dv; cycle 1.
  - apply (dplus _ (fun t => - (mu * ln (det3 (c t))))); [apply dscal; apply (ddot_derive c (mul3 L X) P1)|].
    apply (@is_derive_opp R_AbsRing R_NormedModule (fun t => mu * ln (det3 (c t)))). apply dscal.
    apply (is_derive_comp ln (fun t => det3 (c t)) 0 (/ det3 X) (det3 X * tr3 L)); [|apply (det3_path X L c); split; assumption].
    apply is_derive_Reals. rewrite D0. apply derivable_pt_lim_ln. exact P.
  - assert (EX : ddot3 (mul3 L X) (c 0) = ddot3 (mul3 L X) X) by (unfold ddot3; rewrite !P0 by lia; reflexivity).
    rewrite EX. change (opp (mu * scal (det3 X * tr3 L) (/ det3 X))) with (- (mu * (det3 X * tr3 L * / det3 X))).
    unfold nhStress, ddot3, mul3, trn, tr3, kron. cbn. field. lra.
Qed.
Lemma nh_tangent k (mu : R) X : 0 < det3 X -> tangentIn k (nhStress mu) X (nhTangent k mu X).
Proof.
  intros P L c [P0 P1] HL HD i j Hi Hj IK.
  assert (PP : path X L c) by (split; assumption).
  assert (LN : locally 0 (fun t => 0 < det3 (c t))) by (apply (locally_pos (fun t => det3 (c t)) _ (det3_path X L c PP)); rewrite (det3_ext _ _ P0); exact P).
  apply (dext_loc (fun t => mu * (mul3 (c t) (trn (c t)) i j - kron i j))).
  { revert LN. apply filter_imp. intros t Pt. unfold nhStress. field. lra. }
  eapply dv; cycle 1.
  - apply dscal. apply (dplus _ (fun _ => - kron i j)); [|apply dconst]. unfold mul3 at 1, trn. apply dplus; [apply dplus|]; apply dmult; apply P1; lia.
  - cbv beta. rewrite !P0 by lia.
    assert (A : det3 X * applyK k (nhTangent k mu X) (sympart L) i j = mu * (L i j + L j i)).
    { unfold applyK, nhTangent, eng, sympart. destruct k; cbn [nstr ndf sumf]; idx i; idx j; cbn in IK; try discriminate; cbn; field; lra. }
    transitivity (det3 X * applyK k (nhTangent k mu X) (sympart L) i j + det3 X * (mul3 L (nhStress mu X) i j + mul3 (nhStress mu X) (trn L) i j)); [|ring].
    rewrite A. unfold nhStress, mul3, trn, kron. idx i; idx j; cbn; field; lra.
Qed.

(** Saint-Venant solid: stress proportional to the Green strain. *)
Definition svStress (mu : R) (F : t3) : t3 := fun i j => mu * (cauchyGreen 3 F i j - kron i j).
Definition svTangent (k : kind) (mu : R) (r s : nat) : R := if (r =? s)%nat then (if (r <=? ndf k)%nat then 2 else 1) * mu else 0.
Definition svEnergy (mu : R) (F : t3) : R :=
  mu / 4 * ddot3 (fun i j => cauchyGreen 3 F i j - kron i j) (fun i j => cauchyGreen 3 F i j - kron i j).
Lemma sv_material k ps (mu : mxIn -> R) : solidMaterial k ps (fun p => svStress (mu p)).
Proof.
  split.
  - intros p X Y _ E i j Hi Hj. unfold svStress, cauchyGreen. cbn [sumf]. rewrite !E by lia. reflexivity.
  - intros p X i j _ Hi Hj. unfold svStress, cauchyGreen, kron. cbn [sumf]. rewrite (Nat.eqb_sym j i). f_equal. f_equal. ring.
  - intros p X i j _ _ I0 Hi Hj _. unfold svStress. rewrite I0 by assumption. ring.
Qed.
Lemma green_derive F H c : curve F H c -> forall i j, (1 <= i <= 3)%nat -> (1 <= j <= 3)%nat -> is_derive (fun t => cauchyGreen 3 (c t) i j - kron i j) 0 (2 * greenRate F H i j).
Proof.
  intros [C0 CD] i j Hi Hj. eapply dv; cycle 1.
  - apply (dplus _ (fun _ => - kron i j)); [|apply dconst]. unfold cauchyGreen. cbn [sumf]. apply dplus; [apply dplus; [apply dplus; [apply dconst|]|]|]; apply dmult; apply CD; lia.
  - cbv beta. rewrite !C0 by lia. unfold greenRate, sympart, mul3, trn. field.
Qed.
Lemma sv_stress k mu X : stress2In k (svEnergy mu) X (svStress mu X).
Proof.
  intros H c C HH HD. unfold svEnergy.
  pose proof (ddot_derive (fun t i j => cauchyGreen 3 (c t) i j - kron i j) (fun i j => 2 * greenRate X H i j) (green_derive X H c C)) as D.
  eapply dv; cycle 1; [apply dscal; exact D|]. cbv beta. destruct C as [C0 _].
  unfold svStress, ddot3, cauchyGreen. cbn [sumf]. rewrite !C0 by lia. field.
Qed.
Lemma sv_tangent k mu X : tangent2In k (svStress mu) X (svTangent k mu).
Proof.
  intros H c C HH HD i j Hi Hj IK. unfold svStress. eapply dv; cycle 1; [apply dscal; apply (green_derive X H c C); assumption|].
  unfold applyK, svTangent, eng. destruct k; cbn [nstr ndf sumf]; idx i; idx j; cbn in IK; try discriminate; cbn; unfold greenRate, sympart; field.
Qed.
(** Exact test for zero strains. *)
Definition exactZero (k : kind) (E : nat -> R) : bool :=
  (fix go m := match m with O => true | S m' => ((if Req_EM_T (E m) 0 then true else false) && go m')%bool end) (nstr k).
Lemma exactZero_iff k E : exactZero k E = true <-> forall r, (1 <= r <= nstr k)%nat -> E r = 0.
Proof.
  unfold exactZero. generalize (nstr k). induction n as [|m IH].
  - split; [intros _ r Hr; lia|reflexivity].
  - rewrite Bool.andb_true_iff, IH. split.
    + intros [A B] r Hr. destruct (Nat.eq_dec r (S m)) as [->|Nr]; [destruct (Req_EM_T (E (S m)) 0); [assumption|discriminate]|apply B; lia].
    + intros A. split; [destruct (Req_EM_T (E (S m)) 0) as [|C]; [reflexivity|exfalso; apply C; apply A; lia]|intros; apply A; lia].
Qed.
Lemma exact_sound k : soundTest k (exactZero k). Proof. intros E H. now apply exactZero_iff. Qed.
