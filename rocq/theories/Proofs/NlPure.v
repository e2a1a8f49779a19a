(** Algebra of the linearised internal forces. *)
From Coquelicot Require Import Coquelicot.
From Verif Require Import Lib.Base Lib.Sums Lib.Tensor3 Model.Continuum Model.Mixed Model.MxElement Model.NlElement Spec.Continuum Spec.Mixed Spec.MxElement Spec.NlElement
  Proofs.Continuum Proofs.MxPure Proofs.MxList.
Open Scope R_scope.

Ltac zeros H := repeat (rewrite (H 1%nat 3%nat) by (lia || reflexivity)); repeat (rewrite (H 2%nat 3%nat) by (lia || reflexivity));
  repeat (rewrite (H 3%nat 1%nat) by (lia || reflexivity)); repeat (rewrite (H 3%nat 2%nat) by (lia || reflexivity)).
Definition cForm (k : kind) (C : nat -> nat -> R) (Lq L : t3) : R := sumf (nstr k) (fun r => sumf (nstr k) (fun s => eng k Lq r * C r s * eng k L s)).

Lemma eng_sym k L r : eng k (sympart L) r = eng k L r.
Proof. unfold eng. destruct (scomp k r) as [i j]. unfold sympart. destruct (Nat.eqb_spec i j) as [->|N]; field. Qed.

Lemma mask_ddot k A L : rateOf k L -> ddot3 (mask k A) L = ddot3 A L.
Proof.
  intros H. unfold ddot3, mask. destruct k; unfold inKind; cbn [kdim isAxi Nat.leb Nat.eqb andb orb].
  - reflexivity.
  - zeros H. rewrite (H 3%nat 3%nat) by (lia || reflexivity). ring.
  - zeros H. ring.
Qed.
Lemma rateOf_mul k A B : rateOf k A -> rateOf k B -> rateOf k (mul3 A B).
Proof.
  intros HA HB i j Hi Hj E. destruct k; unfold inKind in E; cbn [kdim isAxi andb orb] in E.
  - exfalso. destruct (Nat.leb_spec i 3); destruct (Nat.leb_spec j 3); cbn in E; try discriminate; lia.
  - unfold mul3. idx i; idx j; cbn in E; try discriminate; zeros HA; zeros HB; try (rewrite (HA 3%nat 3%nat) by (lia || reflexivity)); try (rewrite (HB 3%nat 3%nat) by (lia || reflexivity)); ring.
  - unfold mul3. idx i; idx j; cbn in E; try discriminate; zeros HA; zeros HB; ring.
Qed.

Lemma apply_form k C L Lq : rateOf k Lq -> ddot3 (mask k (applyK k C (sympart L))) Lq = cForm k C Lq L.
Proof.
  intros HQ. rewrite mask_ddot by exact HQ. unfold cForm, ddot3, applyK.
  set (w := fun s => eng k (sympart L) s).
  rewrite (sumf_ext (nstr k) (fun r => sumf (nstr k) (fun s => eng k Lq r * C r s * eng k L s)) (fun r => eng k Lq r * sumf (nstr k) (fun s => C r s * w s))).
  2: { intros r _. rewrite <- sumf_scal. apply sumf_ext. intros s _. unfold w. rewrite eng_sym. ring. }
  set (a := fun r => sumf (nstr k) (fun s => C r s * w s)).
  change (fun s => C ?r s * eng k (sympart L) s) with (fun s => C r s * w s).
  repeat match goal with |- context [sumf (nstr k) (fun s => C ?r s * w s)] => change (sumf (nstr k) (fun s => C r s * w s)) with (a r) end.
  change (fun r => eng k Lq r * sumf (nstr k) (fun s => C r s * w s)) with (fun r => eng k Lq r * a r). clearbody a. clear w C L.
  destruct k; cbn [nstr sumf srow voigt Nat.eqb eng scomp].
  - unfold voigt, eng; cbn. ring.
  - unfold eng; cbn. zeros HQ. rewrite (HQ 3%nat 3%nat) by (lia || reflexivity). ring.
  - unfold eng; cbn. zeros HQ. ring.
Qed.

Theorem ul_identity k C Sg Lq L : sym3 Sg -> rateOf k L -> rateOf k Lq ->
  ddot3 (mask k (fun i j => applyK k C (sympart L) i j + mul3 L Sg i j + mul3 Sg (trn L) i j)) Lq - ddot3 (mask k Sg) (mul3 Lq L)
  = cForm k C Lq L + kgForm Sg Lq L.
Proof.
  intros [S1 [S2 S3]] HL HQ. rewrite <- (apply_form k C L Lq HQ). rewrite !mask_ddot by (try exact HQ; apply rateOf_mul; assumption).
  set (A := applyK k C (sympart L)). clearbody A. unfold ddot3, kgForm, mul3, trn. cbn [sumf].
  destruct k; [rewrite S1, S2, S3; ring| |].
  - zeros HL; zeros HQ. rewrite (HL 3%nat 3%nat), (HQ 3%nat 3%nat) by (lia || reflexivity). rewrite S1. ring.
  - zeros HL; zeros HQ. rewrite S1. ring.
Qed.

(** Unit tensor of the kind of solid, divided by its dimension. *)
Definition unitK (k : kind) : t3 := fun i j => if inKind k i j then kron i j / INR (ndf k) else 0.
Lemma rateOf_bar k L t : rateOf k L -> rateOf k (fun i j => L i j + unitK k i j * t).
Proof. intros H i j Hi Hj E. rewrite (H i j Hi Hj E). unfold unitK. rewrite E. ring. Qed.
Lemma cForm_plus k C Lq A B t : cForm k C Lq (fun i j => A i j + B i j * t) = cForm k C Lq A + t * cForm k C Lq B.
Proof.
  unfold cForm. rewrite <- sumf_scal, <- sumf_plus. apply sumf_ext. intros r _. rewrite <- sumf_scal, <- sumf_plus. apply sumf_ext. intros s _.
  unfold eng. destruct (scomp k s) as [i j]. destruct (i =? j)%nat; ring.
Qed.
(** Stress of a unit volume rate with the volume of the point kept. *)
Definition volForm (k : kind) (C : nat -> nat -> R) (Sg Lq : t3) : R := cForm k C Lq (unitK k) + (2 / INR (ndf k) - 1) * ddot3 Sg Lq.
Theorem fbar_identity k C Sg Lq L rb : sym3 Sg -> rateOf k L -> rateOf k Lq ->
  let Lb := fun i j => L i j + unitK k i j * (rb - tr3 L) in
  ddot3 (mask k (fun i j => applyK k C (sympart Lb) i j + mul3 Lb Sg i j + mul3 Sg (trn Lb) i j)) Lq - ddot3 (mask k Sg) (mul3 Lq L) + (tr3 L - rb) * ddot3 (mask k Sg) Lq
  = cForm k C Lq L + kgForm Sg Lq L + (rb - tr3 L) * volForm k C Sg Lq.
Proof.
  intros HS HL HQ Lb. assert (HB : rateOf k Lb) by (apply rateOf_bar; exact HL).
  pose proof (ul_identity k C Sg Lq Lb HS HB HQ) as I0.
  assert (E1 : cForm k C Lq Lb = cForm k C Lq L + (rb - tr3 L) * cForm k C Lq (unitK k)) by apply cForm_plus. rewrite E1 in I0.
  assert (E2 : kgForm Sg Lq Lb = kgForm Sg Lq L + (rb - tr3 L) / INR (ndf k) * ddot3 Sg Lq).
  { destruct HS as [S1 [S2 S3]]. unfold Lb. generalize (rb - tr3 L). intros t. unfold kgForm, ddot3, unitK. destruct k; unfold inKind, kron; cbn [sumf kdim isAxi Nat.leb Nat.eqb andb orb ndf INR].
    - rewrite S1, S2, S3. field.
    - zeros HL; zeros HQ. rewrite (HL 3%nat 3%nat), (HQ 3%nat 3%nat) by (lia || reflexivity). rewrite S1. field.
    - zeros HL; zeros HQ. rewrite S1. field. }
  assert (E3 : ddot3 (mask k Sg) (mul3 Lq Lb) = ddot3 (mask k Sg) (mul3 Lq L) + (rb - tr3 L) / INR (ndf k) * ddot3 Sg Lq).
  { unfold Lb. rewrite !mask_ddot by (apply rateOf_mul; assumption). generalize (rb - tr3 L). intros t. unfold ddot3, mul3, unitK.
    destruct k; unfold inKind, kron; cbn [sumf kdim isAxi Nat.leb Nat.eqb andb orb ndf INR].
    - field.
    - zeros HL; zeros HQ. rewrite (HL 3%nat 3%nat), (HQ 3%nat 3%nat) by (lia || reflexivity). field.
    - zeros HL; zeros HQ. field. }
  rewrite E2, E3 in I0. rewrite (mask_ddot k Sg Lq HQ). unfold volForm.
  assert (N : INR (ndf k) <> 0) by (destruct k; cbn; lra).
  match type of I0 with ?X - _ = _ => set (Y := X) in * end. 
  assert (E4 : Y = cForm k C Lq L + (rb - tr3 L) * cForm k C Lq (unitK k) + (kgForm Sg Lq L + (rb - tr3 L) / INR (ndf k) * ddot3 Sg Lq)
     + (ddot3 (mask k Sg) (mul3 Lq L) + (rb - tr3 L) / INR (ndf k) * ddot3 Sg Lq)) by lra.
  rewrite E4. field. exact N.
Qed.

(** ** Inverses and derivatives *)
Lemma rateOf_inv k G X : rateOf k G -> defOf k X -> rateOf k (mul3 G (inv3 X)).
Proof.
  intros HG HX i j Hi Hj E. destruct k; unfold inKind in E; cbn [kdim isAxi andb orb] in E.
  - exfalso. destruct (Nat.leb_spec i 3); destruct (Nat.leb_spec j 3); cbn in E; try discriminate; lia.
  - assert (Z : forall a b, (1 <= a <= 3)%nat -> (1 <= b <= 3)%nat -> inKind Plane a b = false -> X a b = kron a b) by (intros a b Ha Hb Hab; pose proof (HX a b Ha Hb Hab) as Q; cbn in Q; lra).
    unfold mul3, inv3. zeros Z. unfold kron. cbn [Nat.eqb]. idx i; idx j; cbn in E; try discriminate; zeros HG; try (rewrite (HG 3%nat 3%nat) by (lia || reflexivity)); unfold Rdiv; ring.
  - assert (Z : forall a b, (1 <= a <= 3)%nat -> (1 <= b <= 3)%nat -> inKind Axi a b = false -> X a b = kron a b) by (intros a b Ha Hb Hab; pose proof (HX a b Ha Hb Hab) as Q; cbn in Q; lra).
    unfold mul3, inv3. zeros Z. unfold kron. cbn [Nat.eqb]. idx i; idx j; cbn in E; try discriminate; zeros HG; unfold Rdiv; ring.
Qed.
Lemma inv_rate F L c G : det3 F <> 0 -> path F L c -> forall i j, (1 <= i <= 3)%nat -> (1 <= j <= 3)%nat ->
  is_derive (fun t => mul3 G (inv3 (c t)) i j) 0 (- mul3 (mul3 G (inv3 F)) L i j).
Proof.
  intros N P i j Ii Ij. pose proof (inv3_path F L c N P) as D. unfold mul3 at 1.
  eapply dv; cycle 1.
  - apply dplus; [apply dplus|]; apply dscal; apply D; lia.
  - unfold mul3. ring.
Qed.
Lemma ddot3_mask_derive k (X Y : R -> t3) X' Y' :
  (forall i j, (1 <= i <= 3)%nat -> (1 <= j <= 3)%nat -> inKind k i j = true -> is_derive (fun t => X t i j) 0 (X' i j)) ->
  (forall i j, (1 <= i <= 3)%nat -> (1 <= j <= 3)%nat -> is_derive (fun t => Y t i j) 0 (Y' i j)) ->
  is_derive (fun t => ddot3 (mask k (X t)) (Y t)) 0 (ddot3 (mask k X') (Y 0) + ddot3 (mask k (X 0)) Y').
Proof.
  intros HX HY. apply (ddot3_derive (fun t => mask k (X t)) Y (mask k X') Y'); [|exact HY].
  intros i j Hi Hj. unfold mask. destruct (inKind k i j) eqn:E; [now apply HX|apply dconst].
Qed.

Theorem fbar_work k F L c cb G sg C (jb : R -> R) rb : 0 < det3 F -> 0 < jb 0 -> c 0 = F -> path F L c -> rateOf k L -> rateOf k G -> (forall t, defOf k (c t)) -> (forall t, defOf k (cb t)) ->
  is_derive jb 0 (jb 0 * rb) -> path (cb 0) (fun i j => L i j + unitK k i j * (rb - tr3 L)) cb -> locally 0 (fun t => det3 (cb t) = jb t) ->
  tangentIn k sg (cb 0) C -> sym3 (sg (cb 0)) ->
  let Lq := mul3 G (inv3 F) in
  is_derive (fun t => det3 (c t) * ddot3 (sg (cb t)) (mul3 G (inv3 (c t)))) 0
    (det3 F * (cForm k C Lq L + kgForm (sg (cb 0)) Lq L + (rb - tr3 L) * volForm k C (sg (cb 0)) Lq)).
Proof.
  intros PF PJ C0 P HL HG Hc Hcb DJ PB ED HT HS Lq.
  assert (HQ : forall t, rateOf k (mul3 G (inv3 (c t)))) by (intros t; apply rateOf_inv; auto).
  assert (HQ0 : rateOf k Lq) by (unfold Lq; rewrite <- C0; apply HQ).
  pose proof (locally_singleton _ _ ED) as ED0. cbn beta in ED0.
  set (Lb := fun i j => L i j + unitK k i j * (rb - tr3 L)) in *.
  set (Rt := fun i j => applyK k C (sympart Lb) i j + mul3 Lb (sg (cb 0)) i j + mul3 (sg (cb 0)) (trn Lb) i j).
  assert (D1 : is_derive (fun t => ddot3 (mask k (fun i j => det3 (cb t) * sg (cb t) i j)) (mul3 G (inv3 (c t)))) 0
     (ddot3 (mask k (fun i j => det3 (cb 0) * Rt i j)) (mul3 G (inv3 (c 0))) + ddot3 (mask k (fun i j => det3 (cb 0) * sg (cb 0) i j)) (fun i j => - mul3 Lq L i j))).
  { apply (ddot3_mask_derive k (fun t i j => det3 (cb t) * sg (cb t) i j) (fun t => mul3 G (inv3 (c t))) (fun i j => det3 (cb 0) * Rt i j) (fun i j => - mul3 Lq L i j)).
    - intros i j Hi Hj E. apply (HT Lb cb PB (rateOf_bar k L _ HL) Hcb i j Hi Hj E).
    - intros i j Hi Hj. apply (inv_rate F L c G); [lra|exact P|exact Hi|exact Hj]. }
  rewrite C0 in D1. fold Lq in D1. rewrite ED0 in D1.
  assert (D2 : is_derive (fun t => det3 (c t) * / jb t) 0 (det3 F * / jb 0 * (tr3 L - rb))).
  { eapply dv; cycle 1.
    - apply (dmult (fun t => det3 (c t)) (fun t => / jb t) 0 (det3 F * tr3 L) (- (jb 0 * rb) / (jb 0) ^ 2)); [apply det3_path; exact P|].
      apply (is_derive_inv jb 0 (jb 0 * rb) DJ). lra.
    - rewrite C0. field. lra. }
  pose proof (dmult _ _ _ _ _ D2 D1) as D3. cbn beta in D3.
  assert (PL : locally 0 (fun t => 0 < jb t)) by (apply (locally_pos jb _ DJ PJ)).
  apply (dext_loc (fun t => det3 (c t) * / jb t * ddot3 (mask k (fun i j => det3 (cb t) * sg (cb t) i j)) (mul3 G (inv3 (c t))))).
  - generalize (filter_and _ _ ED PL). apply filter_imp. intros t [E1 P1]. rewrite mask_ddot by apply HQ. rewrite E1.
    unfold ddot3. field. lra.
  - eapply dv; [|exact D3]. rewrite C0. fold Lq. rewrite ED0.
    rewrite <- (fbar_identity k C (sg (cb 0)) Lq L rb HS HL HQ0). fold Lb. change (fun i j => applyK k C (sympart Lb) i j + mul3 Lb (sg (cb 0)) i j + mul3 (sg (cb 0)) (trn Lb) i j) with Rt.
    rewrite (mask_ddot k Rt Lq HQ0), (mask_ddot k (sg (cb 0)) Lq HQ0), (mask_ddot k (sg (cb 0)) (mul3 Lq L)) by (apply rateOf_mul; assumption).
    rewrite (mask_ddot k (fun i j => jb 0 * sg (cb 0) i j) Lq HQ0), (mask_ddot k (fun i j => jb 0 * Rt i j) Lq HQ0).
    assert (E5 : ddot3 (mask k (fun i j => jb 0 * sg (cb 0) i j)) (fun i j => - mul3 Lq L i j) = - jb 0 * ddot3 (sg (cb 0)) (mul3 Lq L)).
    { rewrite mask_ddot; [unfold ddot3; ring|]. intros i j Hi Hj E. rewrite (rateOf_mul k Lq L HQ0 HL i j Hi Hj E). ring. }
    rewrite E5. unfold ddot3. field. lra.
Qed.

Theorem ul_work k F L c G sg C : 0 < det3 F -> c 0 = F -> path F L c -> rateOf k L -> rateOf k G -> (forall t, defOf k (c t)) ->
  tangentIn k sg F C -> sym3 (sg F) ->
  let Lq := mul3 G (inv3 F) in
  is_derive (fun t => det3 (c t) * ddot3 (sg (c t)) (mul3 G (inv3 (c t)))) 0 (det3 F * (cForm k C Lq L + kgForm (sg F) Lq L)).
Proof.
  intros PF C0 P HL HG Hc HT HS Lq.
  pose proof (fbar_work k F L c c G sg C (fun t => det3 (c t)) (tr3 L) PF) as W. cbn beta in W. rewrite C0 in W.
  eapply dv; [|apply W; try assumption].
  - fold Lq. ring.
  - reflexivity.
  - apply det3_path. exact P.
  - destruct P as [P0 P1]. split; [exact P0|]. intros i j Hi Hj. eapply dv; [|apply P1; assumption]. unfold mul3. ring.
  - apply filter_forall. reflexivity.
Qed.
