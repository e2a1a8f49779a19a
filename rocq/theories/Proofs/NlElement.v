(** Large-deformation elements: forces as energy derivatives, stiffness as force derivative. *)
From Coquelicot Require Import Coquelicot.
From Coq Require Import FunctionalExtensionality.
From Verif Require Import Lib.Base Lib.Sums Lib.Writes Lib.Congruence Lib.Tensor3 Model.Continuum Model.Mixed Model.MxElement Model.NlElement Spec.Continuum Spec.Mixed Spec.MxElement Spec.NlElement
  Proofs.Continuum Proofs.ContinuumKin Proofs.ContinuumK Proofs.ContinuumAxi Proofs.ContinuumHoop Proofs.Mixed Proofs.Mixed3 Proofs.MxPure Proofs.MxList Proofs.MxPoint Proofs.MxElement Proofs.NlPure Proofs.NlPoint.
Open Scope R_scope.


(** ** Sums over the points *)
Lemma over_ok k n f ps u (P : Prop) (fo : mxIn -> (nat -> R) -> R) (sk : mxIn -> (nat -> R) -> (nat -> R) -> R) :
  (forall p st, In p ps -> dims k n st -> exists st', f p u st = Ret st' /\ dims k n st' /\
     (forall v, work (kdim k * n) (snd st) (snd st') v = fo p v) /\
     (P -> forall q v, bil (kdim k * n) (el (fst st')) q v = bil (kdim k * n) (el (fst st)) q v + sk p q v)) ->
  forall st, dims k n st -> exists st', overPts f ps u st = Ret st' /\ dims k n st' /\
     (forall v, work (kdim k * n) (snd st) (snd st') v = sumL (fun p => fo p v) ps) /\
     (P -> forall q v, bil (kdim k * n) (el (fst st')) q v = bil (kdim k * n) (el (fst st)) q v + sumL (fun p => sk p q v) ps).
Proof.
  induction ps as [|p ps IH]; intros H st D.
  - exists st. split; [reflexivity|]. split; [exact D|]. split; [intros v; unfold work, sumL; cbn; apply sumf_0; intros; ring|]. intros _ q v. unfold sumL. cbn. ring.
  - cbn [overPts]. destruct (H p st (or_introl eq_refl) D) as [s1 [E1 [D1 [W1 K1]]]]. rewrite E1. cbn [bind].
    destruct (IH (fun p0 s0 I0 => H p0 s0 (or_intror I0)) s1 D1) as [s2 [E2 [D2 [W2 K2]]]].
    exists s2. split; [exact E2|]. split; [exact D2|]. split.
    + intros v. change (sumL (fun p0 => fo p0 v) (p :: ps)) with (fo p v + sumL (fun p0 => fo p0 v) ps). rewrite <- W1, <- W2. unfold work. rewrite <- sumf_plus. apply sumf_ext. intros. ring.
    + intros HP q v. change (sumL (fun p0 => sk p0 q v) (p :: ps)) with (sk p q v + sumL (fun p0 => sk p0 q v) ps). rewrite K2, K1 by exact HP. ring.
Qed.

(** ** Updated Lagrangian points *)
Lemma eng_ext k A B r : (1 <= r <= nstr k)%nat -> eq3 A B -> eng k A r = eng k B r.
Proof. intros Hr E. unfold eng. destruct k; cbn [nstr] in Hr; idx r; cbn; rewrite ?E by lia; reflexivity. Qed.
Lemma cForm_ext k C A A' B B' : eq3 A A' -> eq3 B B' -> cForm k C A B = cForm k C A' B'.
Proof. intros EA EB. unfold cForm. apply sumf_ext. intros r Hr. apply sumf_ext. intros s Hs. rewrite (eng_ext k A A' r Hr EA), (eng_ext k B B' s Hs EB). reflexivity. Qed.
Lemma kgForm_ext s s' A A' B B' : eq3 s s' -> eq3 A A' -> eq3 B B' -> kgForm s A B = kgForm s' A' B'.
Proof. intros ES EA EB. unfold kgForm. cbn [sumf]. rewrite !ES, !EA, !EB by lia. reflexivity. Qed.
Lemma hoopComp_ext k s s' A A' B B' : eq3 s s' -> eq3 A A' -> eq3 B B' -> hoopComp k s A B = hoopComp k s' A' B'.
Proof. intros ES EA EB. unfold hoopComp. rewrite !ES, !EA, !EB by lia. reflexivity. Qed.
Lemma ddot3_ext A A' B B' : eq3 A A' -> eq3 B B' -> ddot3 A B = ddot3 A' B'.
Proof. intros EA EB. unfold ddot3. rewrite !EA, !EB by lia. reflexivity. Qed.
Lemma kgForm_zero k s A B : rateOf k A -> rateOf k B -> (forall i j, (1 <= i <= 3)%nat -> (1 <= j <= 3)%nat -> inKind k i j = true -> s i j = 0) -> kgForm s A B = 0.
Proof.
  intros HA HB HS. unfold kgForm. cbn [sumf]. destruct k.
  - rewrite !HS by (lia || reflexivity). ring.
  - zeros HA. zeros HB. rewrite (HA 3%nat 3%nat), (HB 3%nat 3%nat) by (lia || reflexivity). rewrite !(HS 1%nat 1%nat), !(HS 1%nat 2%nat), !(HS 2%nat 1%nat), !(HS 2%nat 2%nat) by (lia || reflexivity). ring.
  - zeros HA. zeros HB. rewrite !(HS 1%nat 1%nat), !(HS 1%nat 2%nat), !(HS 2%nat 1%nat), !(HS 2%nat 2%nat), !(HS 3%nat 3%nat) by (lia || reflexivity). ring.
Qed.
Lemma hoopComp_zero k s A B : (forall i j, (1 <= i <= 3)%nat -> (1 <= j <= 3)%nat -> inKind k i j = true -> s i j = 0) -> hoopComp k s A B = 0.
Proof.
  intros HS. unfold hoopComp. destruct k; cbn [isAxi]; try reflexivity. rewrite (HS 3%nat 3%nat) by (lia || reflexivity). destruct (Rlt_dec 0 0); ring.
Qed.
Lemma ddot3_zero k s B : rateOf k B -> (forall i j, (1 <= i <= 3)%nat -> (1 <= j <= 3)%nat -> inKind k i j = true -> s i j = 0) -> ddot3 s B = 0.
Proof.
  intros HB HS. rewrite <- (mask_ddot k s B HB). unfold ddot3, mask.
  assert (Z : forall i j, (1 <= i <= 3)%nat -> (1 <= j <= 3)%nat -> (if inKind k i j then s i j else 0) = 0).
  { intros i j Hi Hj. destruct (inKind k i j) eqn:E; [now apply HS|reflexivity]. }
  rewrite !Z by lia. ring.
Qed.
Lemma det3_kron : det3 kron = 1. Proof. unfold det3, kron. cbn. ring. Qed.
Lemma Lr_kind k n p u v : rateOf k (Lr k n p u v).
Proof. apply rateOf_inv; [apply dispGrad_kind|apply deformation_kind]. Qed.
Lemma Lr_undeformed k n p u v : undeformed k n p u -> eq3 (Lr k n p u v) (dispGrad k n p v).
Proof.
  intros H i j Hi Hj. unfold Lr.
  assert (E : forall a b, (1 <= a <= 3)%nat -> (1 <= b <= 3)%nat -> inv3 (deformation k n p u) a b = kron a b).
  { intros a b Ha Hb. unfold inv3. rewrite (det3_ext _ _ H), det3_kron, !H by lia. idx a; idx b; unfold kron; cbn; field. }
  unfold mul3. rewrite !E by lia. idx j; unfold kron; cbn; ring.
Qed.
Lemma dispGrad_cur k n p G r v : (isAxi k = true -> r = iX p) -> G = iG p -> eq3 (dispGrad k n (curIn (iN p) G r) v) (dispGrad k n p v).
Proof.
  intros Hr -> i j Hi Hj. unfold dispGrad. cbn [iG iN iX curIn]. destruct (isAxi k) eqn:A; [rewrite Hr by reflexivity|]; reflexivity.
Qed.

Section UL.
Variables (k : kind) (n : nat) (stress : mxIn -> t3 -> t3) (tangent : mxIn -> t3 -> nat -> nat -> R) (isz : (nat -> R) -> bool) (ps : list mxIn).
Hypothesis (HM : solidMaterial k ps stress) (Hz : soundTest k isz).
Lemma ssym p X : In p ps -> sym3 (stress p X).
Proof. intros I0. repeat split; apply (smSym _ _ _ HM p X); (exact I0 || lia). Qed.
(** The deformation gradient seen by the material. *)
Definition seenF (p : mxIn) (u : nat -> R) : t3 := match pushUL k n isz p u with Ret c => cF c | _ => kron end.
Definition ulForce (u : nat -> R) (p : mxIn) (v : nat -> R) : R :=
  volume k p * det3 (deformation k n p u) * ddot3 (stress p (deformation k n p u)) (Lr k n p u v).
Definition ulStiff (u : nat -> R) (p : mxIn) (q v : nat -> R) : R :=
  volume k p * det3 (deformation k n p u) * (cForm k (tangent p (seenF p u)) (Lr k n p u q) (Lr k n p u v)
    + (kgForm (stress p (deformation k n p u)) (Lr k n p u q) (Lr k n p u v) - hoopComp k (stress p (deformation k n p u)) (Lr k n p u q) (Lr k n p u v))).
Definition freeAt (u : nat -> R) (p : mxIn) : Prop := isometry (kdim k) (deformation k n p u) ->
  forall i j, (1 <= i <= 3)%nat -> (1 <= j <= 3)%nat -> inKind k i j = true -> stress p (deformation k n p u) i j = 0.

Theorem ulPt_ok u p st : In p ps -> (1 <= n)%nat -> (isAxi k = true -> epsR < iX p /\ epsR < iX p + interp 2 n (iN p) u 1) -> 0 < det3 (deformation k n p u) ->
  freeAt u p -> dims k n st ->
  exists st', ulPt k n stress tangent isz p u st = Ret st' /\ dims k n st' /\
    (forall v, work (kdim k * n) (snd st) (snd st') v = ulForce u p v) /\
    ((isometry (kdim k) (deformation k n p u) -> undeformed k n p u) ->
      forall q v, bil (kdim k * n) (el (fst st')) q v = bil (kdim k * n) (el (fst st)) q v + ulStiff u p q v).
Proof.
  intros Ip Hn Hx HJ Hf [DR DC]. destruct (push_ok k n isz p u Hn (fun A => proj1 (Hx A)) HJ Hz) as [c [E [eF Hc]]].
  unfold ulPt, ulStiff, seenF. rewrite E. cbn [bind]. set (s := stress p (cF c)).
  assert (ES : eq3 s (stress p (deformation k n p u))) by (apply (smExt _ _ _ HM); assumption).
  assert (Ss : sym3 s) by (apply ssym; exact Ip).
  destruct (cHave c) eqn:CH.
  - destruct Hc as [cj [cr [_ cg]]].
    assert (R0 : isAxi k = true -> epsR < cR c) by (intros A; rewrite cr by exact A; apply Hx; exact A).
    destruct (bmat_ok k n (iN p) (cG c) (cR c) R0) as [B [EB eB]]. rewrite EB. cbn [bind].
    set (dV := wgt0 k p * cJ c). set (K1 := addBtCB k B (tangent p (cF c)) dV (fst st)).
    destruct (kg_ok k n (iN p) (cG c) (cR c) s dV K1) as [K2 [EK [R2 [C2 kf]]]]; [intros A; pose proof (R0 A); pose proof epsR_pos; lra|exact DR|exact DC|].
    rewrite EK. cbn [bind]. eexists. split; [reflexivity|]. split; [split; cbn [fst]; [rewrite R2; exact DR|rewrite C2; exact DC]|].
    assert (EV : forall v r, (1 <= r <= nstr k)%nat -> mv (kdim k * n) (el B) v r = eng k (Lr k n p u v) r).
    { intros v r Hr. rewrite eB by exact Hr. apply eng_ext; [exact Hr|apply cg]. }
    cbn [fst snd]. split.
    + intros v. unfold work. rewrite (bts_form k n B s (- dV) (snd st) v (eng k (Lr k n p u v))) by (intros; now apply EV).
      rewrite stress_form by (exact Ss || apply Lr_kind). unfold ulForce, dV, wgt0, volume. rewrite cj. rewrite (ddot3_ext s (stress p (deformation k n p u)) _ (Lr k n p u v)) by (exact ES || (intros ? ? _ _; reflexivity)). ring.
    + intros _ q v. rewrite kf. unfold K1. rewrite (btcb_form k n B _ dV (fst st) q v (eng k (Lr k n p u q)) (eng k (Lr k n p u v))) by (intros; now apply EV).
      fold (cForm k (tangent p (cF c)) (Lr k n p u q) (Lr k n p u v)).
      rewrite (kgForm_ext s (stress p (deformation k n p u)) _ (Lr k n p u q) _ (Lr k n p u v)) by (exact ES || apply cg).
      rewrite (hoopComp_ext k s (stress p (deformation k n p u)) _ (Lr k n p u q) _ (Lr k n p u v)) by (exact ES || apply cg).
      unfold dV, wgt0, volume. rewrite cj. ring.
  - destruct Hc as [iso [cj [cr cg]]].
    assert (R0 : isAxi k = true -> epsR < cR c) by (intros A; rewrite cr; apply Hx; exact A).
    destruct (bmat_ok k n (iN p) (cG c) (cR c) R0) as [B [EB eB]]. rewrite EB. cbn [bind].
    eexists. split; [reflexivity|]. split; [split; [exact DR|exact DC]|]. cbn [fst snd]. pose proof (Hf iso) as Z. split.
    + intros v. unfold work, ulForce. rewrite (ddot3_zero k _ _ (Lr_kind k n p u v) Z). rewrite Rmult_0_r. apply sumf_0. intros. ring.
    + intros HU q v. pose proof (HU iso) as U0.
      assert (EV : forall v r, (1 <= r <= nstr k)%nat -> mv (kdim k * n) (el B) v r = eng k (Lr k n p u v) r).
      { intros z r Hr. rewrite eB by exact Hr. apply eng_ext; [exact Hr|]. intros i j Hi Hj. rewrite Lr_undeformed by assumption. apply dispGrad_cur; [intros _; exact cr|exact cg|exact Hi|exact Hj]. }
      rewrite (btcb_form k n B _ _ (fst st) q v (eng k (Lr k n p u q)) (eng k (Lr k n p u v))) by (intros; now apply EV).
      fold (cForm k (tangent p (cF c)) (Lr k n p u q) (Lr k n p u v)).
      rewrite (kgForm_zero k _ _ _ (Lr_kind k n p u q) (Lr_kind k n p u v) Z), (hoopComp_zero k _ _ _ Z). rewrite cj, (det3_ext _ _ U0), det3_kron. unfold wgt0, volume. ring.
Qed.
End UL.
Lemma sumL_derive {A} (ps : list A) (f : A -> R -> R) (d : A -> R) : (forall p, In p ps -> is_derive (f p) 0 (d p)) -> is_derive (fun t => sumL (fun p => f p t) ps) 0 (sumL d ps).
Proof.
  induction ps as [|p ps IH]; intros H.
  - unfold sumL. cbn. apply dconst.
  - change (is_derive (fun t => f p t + sumL (fun a => f a t) ps) 0 (d p + sumL d ps)). apply dplus; [apply H; now left|apply IH; intros; apply H; now right].
Qed.
Lemma ex_sum n (f : nat -> R -> R) : (forall i, (1 <= i <= n)%nat -> exists d, is_derive (f i) 0 d) -> exists d, is_derive (fun t => sumf n (fun i => f i t)) 0 d.
Proof.
  induction n as [|n IH]; intros H.
  - exists 0. cbn [sumf]. apply dconst.
  - destruct (IH ltac:(intros; apply H; lia)) as [d D]. destruct (H (S n) ltac:(lia)) as [e E]. exists (d + e). cbn [sumf]. apply dplus; assumption.
Qed.
Lemma sumf_term_le n f i : (forall j, (1 <= j <= n)%nat -> 0 <= f j) -> (1 <= i <= n)%nat -> f i <= sumf n f.
Proof.
  induction n as [|n IH]; intros H Hi; [lia|]. cbn [sumf]. destruct (Nat.eq_dec i (S n)) as [->|N].
  - pose proof (sumf_nonneg n f ltac:(intros; apply H; lia)). lra.
  - pose proof (IH ltac:(intros; apply H; lia) ltac:(lia)). pose proof (H (S n) ltac:(lia)). lra.
Qed.

(** ** Nearby states *)
Lemma iso3_kind k n p u : k <> Axi -> isometry (kdim k) (deformation k n p u) -> isometry 3 (deformation k n p u).
Proof.
  intros K H i j Hi Hj. destruct k; try contradiction; [now apply H|]. cbn [kdim] in H.
  pose proof (deformation_kind Plane n p u) as Z0. set (F := deformation Plane n p u) in *.
  assert (Z : forall a b, (1 <= a <= 3)%nat -> (1 <= b <= 3)%nat -> inKind Plane a b = false -> F a b = kron a b) by (intros a b Ha Hb E; pose proof (Z0 a b Ha Hb E) as Q; cbn in Q; lra).
  pose proof (H 1%nat 1%nat ltac:(lia) ltac:(lia)) as H11. pose proof (H 1%nat 2%nat ltac:(lia) ltac:(lia)) as H12. pose proof (H 2%nat 1%nat ltac:(lia) ltac:(lia)) as H21. pose proof (H 2%nat 2%nat ltac:(lia) ltac:(lia)) as H22.
  unfold cauchyGreen in *. cbn [sumf] in *.
  zeros Z. rewrite ?(Z 3%nat 3%nat) by (lia || reflexivity). unfold kron in *.
  idx i; idx j; cbn [Nat.eqb] in *; rewrite ?(Z 1%nat 3%nat), ?(Z 2%nat 3%nat), ?(Z 3%nat 1%nat), ?(Z 3%nat 2%nat), ?(Z 3%nat 3%nat) by (lia || reflexivity); unfold kron; cbn [Nat.eqb]; lra.
Qed.
Lemma iso3_kron : isometry 3 kron.
Proof. intros i j Hi Hj. unfold cauchyGreen, kron. cbn [sumf]. idx i; idx j; cbn; ring. Qed.
Lemma iso_ext d A B : (d <= 3)%nat -> eq3 A B -> isometry d A -> isometry d B.
Proof. intros Hd E H i j Hi Hj. rewrite <- (H i j Hi Hj). unfold cauchyGreen. apply sumf_ext. intros m Hm. rewrite !E by lia. reflexivity. Qed.
Lemma entry_derive k n p u v i j : is_derive (fun t => deformation k n p (moved u v t) i j) 0 (dispGrad k n p v i j).
Proof.
  apply (dext (fun t => deformation k n p u i j + t * dispGrad k n p v i j)); [intros t; unfold deformation; rewrite dispGrad_move; ring|].
  auto_derive; [exact I|ring].
Qed.
Lemma strained_near k n p u v : strained k (deformation k n p u) -> locally 0 (fun t => strained k (deformation k n p (moved u v t))).
Proof.
  intros H. set (df := fun t => sumf (kdim k) (fun i => sumf (kdim k) (fun j => (cauchyGreen (kdim k) (deformation k n p (moved u v t)) i j - kron i j) * (cauchyGreen (kdim k) (deformation k n p (moved u v t)) i j - kron i j)))).
  assert (P : 0 < df 0).
  { destruct (Rle_lt_dec (df 0) 0) as [L|L]; [|exact L]. exfalso. apply H. intros i j Hi Hj. unfold df in L. rewrite moved_0 in L.
    set (D := fun a b => cauchyGreen (kdim k) (deformation k n p u) a b - kron a b) in *.
    assert (NN : forall a, 0 <= sumf (kdim k) (fun b => D a b * D a b)) by (intros; apply sumf_nonneg; intros; apply Rle_0_sqr).
    assert (A0 : sumf (kdim k) (fun b => D i b * D i b) = 0).
    { apply Rle_antisym; [|apply NN]. refine (Rle_trans _ _ _ _ L). apply (sumf_term_le (kdim k) (fun a => sumf (kdim k) (fun b => D a b * D a b))); [intros; apply NN|exact Hi]. }
    assert (B0 : D i j * D i j <= 0) by (rewrite <- A0; apply (sumf_term_le (kdim k) (fun b => D i b * D i b)); [intros; apply Rle_0_sqr|exact Hj]).
    pose proof (Rle_0_sqr (D i j)) as C0. unfold Rsqr in C0. assert (D0 : D i j = 0) by (destruct (Rmult_integral (D i j) (D i j) ltac:(lra)); assumption). unfold D in D0. lra. }
  assert (X : exists d, is_derive df 0 d).
  { unfold df. apply ex_sum. intros i _. apply ex_sum. intros j _.
    assert (C : exists d, is_derive (fun t => cauchyGreen (kdim k) (deformation k n p (moved u v t)) i j - kron i j) 0 d).
    { assert (C1 : exists d, is_derive (fun t => cauchyGreen (kdim k) (deformation k n p (moved u v t)) i j) 0 d) by (unfold cauchyGreen; apply ex_sum; intros m _; eexists; apply dmult; apply entry_derive).
      destruct C1 as [d D]. exists (d + - 0). apply dplus; [exact D|]. apply (dext (fun _ => - kron i j)); [reflexivity|]. replace (- 0) with 0 by ring. apply dconst. }
    destruct C as [d D]. eexists. apply dmult; exact D. }
  destruct X as [d D]. generalize (locally_pos df d D P). apply filter_imp. intros t Ht I0. assert (Z : df t = 0); [|lra].
  unfold df. apply sumf_0. intros i Hi. apply sumf_0. intros j Hj. rewrite (I0 i j Hi Hj). ring.
Qed.
Lemma near_zero k n p u v : undeformed k n p u -> straining k n p v -> locally 0 (fun t => isometry (kdim k) (deformation k n p (moved u v t)) -> t = 0).
Proof.
  intros U [i [j [Hi [Hj H]]]]. set (h := dispGrad k n p v) in *. set (q := sumf (kdim k) (fun m => h m i * h m j)).
  assert (L : locally 0 (fun t => 0 < (h i j + h j i + t * q) * (h i j + h j i + t * q))).
  { eapply (locally_pos (fun t => (h i j + h j i + t * q) * (h i j + h j i + t * q))); [auto_derive; [exact I|reflexivity]|].
    assert (h i j + h j i <> 0) by (unfold sympart in H; lra). replace (h i j + h j i + 0 * q) with (h i j + h j i) by ring. nra. }
  revert L. apply filter_imp. intros t P I0. pose proof (I0 i j Hi Hj) as E.
  assert (E1 : cauchyGreen (kdim k) (deformation k n p (moved u v t)) i j = kron i j + t * (h i j + h j i + t * q)).
  { unfold cauchyGreen.
    assert (DF : forall a b, (1 <= a <= kdim k)%nat -> (1 <= b <= kdim k)%nat -> deformation k n p (moved u v t) a b = kron a b + t * h a b).
    { intros a b Ha Hb. assert (K3 : (kdim k <= 3)%nat) by (destruct k; cbn; lia). pose proof (U a b ltac:(lia) ltac:(lia)) as U0. unfold deformation in U0 |- *. rewrite dispGrad_move. fold h. lra. }
    rewrite (sumf_ext (kdim k) _ (fun m => (kron m i + t * h m i) * (kron m j + t * h m j))) by (intros m Hm; rewrite !DF by assumption; reflexivity).
    unfold q. destruct k; cbn [kdim sumf] in *; idx i; idx j; unfold kron; cbn [Nat.eqb]; ring. }
  rewrite E in E1. assert (Z : t * (h i j + h j i + t * q) = 0) by lra. apply Rmult_integral in Z. destruct Z as [Z|Z]; [exact Z|]. rewrite Z in P. lra.
Qed.
Lemma near_iso k n p u v : regularAt k n u v p -> locally 0 (fun t => isometry (kdim k) (deformation k n p (moved u v t)) -> isometry 3 (deformation k n p (moved u v t))).
Proof.
  intros [H|[U [H|H]]].
  - generalize (strained_near k n p u v H). apply filter_imp. intros t S0 I0. contradiction.
  - apply filter_forall. intros t. apply iso3_kind. exact H.
  - generalize (near_zero k n p u v U H). apply filter_imp. intros t Z I0. rewrite (Z I0), moved_0. apply (iso_ext 3 kron); [lia| |apply iso3_kron]. intros a b Ha Hb. symmetry. now apply U.
Qed.
Lemma tangentIn_ext k s X Y C : (forall A B, eq3 A B -> eq3 (s A) (s B)) -> eq3 X Y -> tangentIn k s X C -> tangentIn k s Y C.
Proof.
  intros Hs E T L c [P0 P1] HL HD i j Ii Ij IK.
  assert (P : path X L c).
  { split; [intros a b Ha Hb; rewrite P0, E by assumption; reflexivity|]. intros a b Ha Hb. eapply dv; [|apply P1; assumption]. unfold mul3. rewrite !E by lia. reflexivity. }
  eapply dv; [|exact (T L c P HL HD i j Ii Ij IK)]. rewrite (det3_ext _ _ E). unfold mul3. rewrite !(Hs _ _ E) by lia. reflexivity.
Qed.
Lemma hoop_rate n p u w : epsR < iX p -> 0 < det3 (deformation Axi n p u) -> Lr Axi n p u w 3%nat 3%nat = hoopRate n p u w.
Proof.
  intros X0 JP. pose proof epsR_pos as EPS.
  assert (O : forall i, (1 <= i <= 2)%nat -> deformation Axi n p u i 3%nat = 0 /\ deformation Axi n p u 3%nat i = 0) by (intros; apply deformation_off; [discriminate|assumption]).
  assert (D33 : deformation Axi n p u 3%nat 3%nat = 1 + interp 2 n (iN p) u 1 / iX p) by (unfold deformation, dispGrad, kron; cbn; ring).
  unfold Lr. set (A := deformation Axi n p u) in *.
  assert (dA : det3 A = (A 1%nat 1%nat * A 2%nat 2%nat - A 1%nat 2%nat * A 2%nat 1%nat) * A 3%nat 3%nat).
  { unfold det3. rewrite (proj1 (O 1%nat ltac:(lia))), (proj1 (O 2%nat ltac:(lia))), (proj2 (O 1%nat ltac:(lia))), (proj2 (O 2%nat ltac:(lia))). ring. }
  assert (N2 : A 1%nat 1%nat * A 2%nat 2%nat - A 1%nat 2%nat * A 2%nat 1%nat <> 0) by (intros C; rewrite C in dA; lra).
  assert (N3 : A 3%nat 3%nat <> 0) by (intros C; rewrite C in dA; lra).
  assert (I33 : inv3 A 3%nat 3%nat = / A 3%nat 3%nat) by (unfold inv3; rewrite dA; field; split; assumption).
  unfold mul3. rewrite I33. unfold dispGrad. cbn [kdim isAxi Nat.leb Nat.eqb andb]. unfold hoopRate.
  assert (N4 : iX p + interp 2 n (iN p) u 1 <> 0).
  { intros C. apply N3. rewrite D33. replace (1 + interp 2 n (iN p) u 1 / iX p) with ((iX p + interp 2 n (iN p) u 1) / iX p) by (field; lra). rewrite C. unfold Rdiv. ring. }
  rewrite D33. field. repeat split; lra.
Qed.
Lemma interp_move d n N u v t c : interp d n N (moved u v t) c = interp d n N u c + t * interp d n N v c.
Proof. unfold interp, moved. rewrite <- sumf_scal, <- sumf_plus. apply sumf_ext. intros. ring. Qed.
Lemma valid_near k n ps u v : validState k n ps u -> locally 0 (fun t => validState k n ps (moved u v t)).
Proof.
  intros [Vn Va Vd].
  assert (A : locally 0 (fun t => forall p, In p ps -> (isAxi k = true -> epsR < iX p + interp 2 n (iN p) (moved u v t) 1) /\ 0 < det3 (deformation k n p (moved u v t)))).
  { apply locally_all. intros p Ip. apply (filter_and (fun t => isAxi k = true -> epsR < iX p + interp 2 n (iN p) (moved u v t) 1)).
    - destruct (isAxi k); [|apply filter_forall; intros; discriminate].
      assert (L : locally 0 (fun t => 0 < iX p + (interp 2 n (iN p) u 1 + t * interp 2 n (iN p) v 1) - epsR)).
      { eapply (locally_pos (fun t => iX p + (interp 2 n (iN p) u 1 + t * interp 2 n (iN p) v 1) - epsR)); [auto_derive; [exact I|reflexivity]|]. pose proof (proj2 (Va p Ip eq_refl)). lra. }
      revert L. apply filter_imp. intros t L _. rewrite interp_move. lra.
    - apply (locally_pos (fun t => det3 (deformation k n p (moved u v t))) (det3 (deformation k n p u) * tr3 (Lr k n p u v))).
      + apply det3_path. apply def_path. pose proof (Vd p Ip). lra.
      + rewrite moved_0. now apply Vd. }
  revert A. apply filter_imp. intros t A. split; [exact Vn| |].
  - intros p Ip X. split; [apply Va; assumption|apply A; assumption].
  - intros p Ip. apply A; assumption.
Qed.

(** ** Updated Lagrangian elements *)
Lemma bil_diff N A A' q v : stiffWork N (fun i j => A i j - A' i j) q v = bil N A q v - bil N A' q v.
Proof.
  unfold bil, mv, stiffWork. unfold Rminus at 2. replace (- sumf N (fun i => q i * sumf N (fun j => A' i j * v j))) with (-1 * sumf N (fun i => q i * sumf N (fun j => A' i j * v j))) by ring.
  rewrite <- sumf_scal, <- sumf_plus. apply sumf_ext. intros i _. rewrite <- !sumf_scal, <- sumf_plus. apply sumf_ext. intros. ring.
Qed.
Section ULElement.
Variables (k : kind) (n : nat) (stress : mxIn -> t3 -> t3) (tangent : mxIn -> t3 -> nat -> nat -> R) (isz : (nat -> R) -> bool) (ps : list mxIn).
Hypothesis (HM : solidMaterial k ps stress) (Hz : soundTest k isz).
Lemma free_at u p : In p ps -> (isometry (kdim k) (deformation k n p u) -> isometry 3 (deformation k n p u)) -> freeAt k n stress u p.
Proof. intros Ip H I0 i j Hi Hj E. apply (smFree _ _ _ HM); auto. apply deformation_kind. Qed.
Theorem ulElement_ok u st : validState k n ps u -> (forall p, In p ps -> freeAt k n stress u p) -> dims k n st ->
  exists st', ulElement k n stress tangent isz ps u st = Ret st' /\ dims k n st' /\
    (forall v, work (kdim k * n) (snd st) (snd st') v = sumL (fun p => ulForce k n stress u p v) ps) /\
    ((forall p, In p ps -> isometry (kdim k) (deformation k n p u) -> undeformed k n p u) ->
      forall q v, bil (kdim k * n) (el (fst st')) q v = bil (kdim k * n) (el (fst st)) q v + sumL (fun p => ulStiff k n stress tangent isz u p q v) ps).
Proof.
  intros [Vn Va Vd] Hf D. unfold ulElement.
  apply (over_ok k n (ulPt k n stress tangent isz) ps u (forall p, In p ps -> isometry (kdim k) (deformation k n p u) -> undeformed k n p u) (ulForce k n stress u) (ulStiff k n stress tangent isz u)); [|exact D].
  intros p s Ip Ds. destruct (ulPt_ok k n stress tangent isz ps HM Hz u p s Ip Vn (Va p Ip) (Vd p Ip) (Hf p Ip) Ds) as [s' [E [D' [W K]]]].
  exists s'. split; [exact E|]. split; [exact D'|]. split; [exact W|]. intros HP. apply K. now apply HP.
Qed.

Theorem ul_energy W u v st : validState k n ps u -> dims k n st ->
  (forall p, In p ps -> k <> Axi \/ strained k (deformation k n p u) \/ isometry 3 (deformation k n p u)) ->
  (forall p X, In p ps -> 0 < det3 X -> stressIn k (W p) X (stress p X)) ->
  exists st', ulElement k n stress tangent isz ps u st = Ret st' /\
    is_derive (fun t => energy k n ps W (moved u v t)) 0 (work (kdim k * n) (snd st) (snd st') v).
Proof.
  intros V D HR HW. destruct (ulElement_ok u st V) as [st' [E [_ [Wk _]]]]; [|exact D|].
  { intros p Ip. apply free_at; [exact Ip|]. intros I0. destruct (HR p Ip) as [H|[H|H]]; [now apply iso3_kind|contradiction|exact H]. }
  exists st'. split; [exact E|]. rewrite Wk. unfold energy. apply (sumL_derive ps (fun p t => volume k p * W p (deformation k n p (moved u v t))) (fun p => ulForce k n stress u p v)).
  intros p Ip. pose proof (vsVolume _ _ _ _ V p Ip) as JP. unfold ulForce. eapply dv; cycle 1.
  - apply dscal. apply (HW p _ Ip JP (Lr k n p u v)); [apply def_path; lra|apply Lr_kind|intros; apply deformation_kind].
  - ring.
Qed.

Theorem ul_force_derive u v : validState k n ps u ->
  locally 0 (fun t => forall p, In p ps -> isometry (kdim k) (deformation k n p (moved u v t)) -> isometry 3 (deformation k n p (moved u v t))) ->
  (forall p X, In p ps -> 0 < det3 X -> tangentIn k (stress p) X (tangent p X)) ->
  forall q, (forall st, dims k n st -> locally 0 (fun t => exists b1, forcesOf (ulElement k n stress tangent isz ps (moved u v t) st) = Some b1 /\ work (kdim k * n) (snd st) b1 q = sumL (fun p => ulForce k n stress (moved u v t) p q) ps)) /\
    is_derive (fun t => sumL (fun p => ulForce k n stress (moved u v t) p q) ps) 0
      (sumL (fun p => volume k p * (det3 (deformation k n p u) * (cForm k (tangent p (seenF k n isz p u)) (Lr k n p u q) (Lr k n p u v) + kgForm (stress p (deformation k n p u)) (Lr k n p u q) (Lr k n p u v)))) ps).
Proof.
  intros V NI HT q. split.
  - intros st D. generalize (filter_and _ _ NI (valid_near k n ps u v V)). apply filter_imp. intros t [N0 V0].
    destruct (ulElement_ok (moved u v t) st V0) as [s1 [E1 [_ [W1 _]]]]; [intros p Ip; apply free_at; auto|exact D|].
    exists (snd s1). rewrite E1. split; [reflexivity|apply W1].
  - apply (sumL_derive ps (fun p t => ulForce k n stress (moved u v t) p q) (fun p => volume k p * (det3 (deformation k n p u) * (cForm k (tangent p (seenF k n isz p u)) (Lr k n p u q) (Lr k n p u v) + kgForm (stress p (deformation k n p u)) (Lr k n p u q) (Lr k n p u v))))).
    intros p Ip. pose proof (vsVolume _ _ _ _ V p Ip) as JP.
    apply (dext (fun t => volume k p * (det3 (deformation k n p (moved u v t)) * ddot3 (stress p (deformation k n p (moved u v t))) (mul3 (dispGrad k n p q) (inv3 (deformation k n p (moved u v t))))))); [intros t; unfold ulForce, Lr; ring|].
    apply dscal. apply (ul_work k (deformation k n p u) (Lr k n p u v) (fun t => deformation k n p (moved u v t)) (dispGrad k n p q) (stress p) (tangent p (seenF k n isz p u)) JP).
    + rewrite moved_0. reflexivity.
    + apply def_path. lra.
    + apply Lr_kind.
    + apply dispGrad_kind.
    + intros; apply deformation_kind.
    + destruct (push_ok k n isz p u (vsNodes _ _ _ _ V) (fun A => proj1 (vsAxis _ _ _ _ V p Ip A)) JP Hz) as [c [Ec [eF _]]].
      unfold seenF. rewrite Ec. apply (tangentIn_ext k (stress p) (cF c)); [intros; now apply (smExt _ _ _ HM)|exact eF|]. apply HT; [exact Ip|]. rewrite (det3_ext _ _ eF). exact JP.
    + apply ssym with (k := k) (ps := ps); assumption.
Qed.
Theorem ul_tangent u v st : validState k n ps u -> dims k n st -> (forall p, In p ps -> regularAt k n u v p) ->
  (forall p X, In p ps -> 0 < det3 X -> tangentIn k (stress p) X (tangent p X)) ->
  exists st', ulElement k n stress tangent isz ps u st = Ret st' /\
    forall q, exists f, locally 0 (fun t => exists b1, forcesOf (ulElement k n stress tangent isz ps (moved u v t) st) = Some b1 /\ work (kdim k * n) (snd st) b1 q = f t) /\
      is_derive f 0 (stiffWork (kdim k * n) (fun i j => el (fst st') i j - el (fst st) i j) q v + hoopK k n ps (fun p => stress p (deformation k n p u)) u q v).
Proof.
  intros V D HR HT.
  assert (NI : locally 0 (fun t => forall p, In p ps -> isometry (kdim k) (deformation k n p (moved u v t)) -> isometry 3 (deformation k n p (moved u v t)))) by (apply locally_all; intros p Ip; apply near_iso; auto).
  assert (HU : forall p, In p ps -> isometry (kdim k) (deformation k n p u) -> undeformed k n p u) by (intros p Ip I0; destruct (HR p Ip) as [H|[H _]]; [contradiction|exact H]).
  destruct (ulElement_ok u st V) as [st' [E [_ [_ Kf]]]]; [|exact D|].
  { intros p Ip. apply free_at; [exact Ip|]. pose proof (locally_singleton _ _ NI p Ip) as H. rewrite moved_0 in H. exact H. }
  exists st'. split; [exact E|]. intros q. destruct (ul_force_derive u v V NI HT q) as [FL FD]. eexists. split; [exact (FL st D)|].
  eapply dv; [|exact FD].
  rewrite bil_diff, Kf by exact HU. replace (bil (kdim k * n) (el (fst st)) q v + sumL (fun p => ulStiff k n stress tangent isz u p q v) ps - bil (kdim k * n) (el (fst st)) q v) with (sumL (fun p => ulStiff k n stress tangent isz u p q v) ps) by ring.
  unfold hoopK, hoopCompression. destruct (isAxi k) eqn:AX.
  + rewrite <- sumL_plus. apply sumL_ext. intros p Ip. unfold ulStiff, hoopComp. rewrite AX. destruct k; try discriminate.
    pose proof (vsVolume _ _ _ _ V p Ip) as JP. pose proof (proj1 (vsAxis _ _ _ _ V p Ip eq_refl)) as XP.
    rewrite !(hoop_rate n p u) by assumption. unfold Rmin. set (s := stress p _ 3%nat 3%nat). destruct (Rle_dec 0 s), (Rlt_dec 0 s); try lra; try ring. replace s with 0 by lra. ring.
  + rewrite Rplus_0_r. apply sumL_ext. intros p Ip. unfold ulStiff, hoopComp. rewrite AX. ring.
Qed.
(** Points whose strains are found to be zero: initial gradients, no forces. *)
Theorem ul_unstrained u p st : (1 <= n)%nat -> (isAxi k = true -> epsR < iX p) -> 0 < det3 (deformation k n p u) -> dims k n st ->
  (forall c, pushUL k n isz p u = Ret c -> cHave c = false) ->
  exists st', ulPt k n stress tangent isz p u st = Ret st' /\ dims k n st' /\ snd st' = snd st /\
    forall q v, bil (kdim k * n) (el (fst st')) q v = bil (kdim k * n) (el (fst st)) q v + volume k p * cForm k (tangent p (seenF k n isz p u)) (dispGrad k n p q) (dispGrad k n p v).
Proof.
  intros Hn Hx HJ [DR DC] HN. destruct (push_ok k n isz p u Hn Hx HJ Hz) as [c [E [eF Hc]]]. pose proof (HN c E) as CH. rewrite CH in Hc. destruct Hc as [iso [cj [cr cg]]].
  unfold ulPt, seenF. rewrite E. cbn [bind].
  destruct (bmat_ok k n (iN p) (cG c) (cR c)) as [B [EB eB]]; [intros A; rewrite cr; now apply Hx|]. rewrite EB. cbn [bind]. rewrite CH. cbn [bind].
  eexists. split; [reflexivity|]. split; [split; [exact DR|exact DC]|]. cbn [fst snd]. split; [reflexivity|]. intros q v.
  assert (EV : forall v r, (1 <= r <= nstr k)%nat -> mv (kdim k * n) (el B) v r = eng k (dispGrad k n p v) r).
  { intros z r Hr. rewrite eB by exact Hr. apply eng_ext; [exact Hr|]. apply dispGrad_cur; [intros _; exact cr|exact cg]. }
  rewrite (btcb_form k n B _ _ (fst st) q v (eng k (dispGrad k n p q)) (eng k (dispGrad k n p v))) by (intros; now apply EV).
  rewrite cj. unfold wgt0, volume, cForm. ring.
Qed.
End ULElement.

Lemma along_unique N b b0 K u v q f d : derivativeAlong N b b0 K u v -> locally 0 (fun t => exists b1, b (moved u v t) = Some b1 /\ work N b0 b1 q = f t) -> is_derive f 0 d -> stiffWork N K q v = d.
Proof.
  intros H L D. destruct (H q) as [g [Lg Dg]]. assert (E : is_derive f 0 (stiffWork N K q v)).
  { apply (dext_loc g); [|exact Dg]. generalize (filter_and _ _ L Lg). apply filter_imp. intros t [[b1 [E1 W1]] [b2 [E2 W2]]]. rewrite E1 in E2. injection E2 as <-. congruence. }
  rewrite <- (is_derive_unique _ _ _ E). exact (is_derive_unique _ _ _ D).
Qed.

(** ** Total Lagrangian elements *)
Lemma inKind_sym k i j : inKind k i j = inKind k j i.
Proof. unfold inKind. destruct k; cbn [kdim isAxi andb orb]; destruct (i <=? 3)%nat, (j <=? 3)%nat, (i <=? 2)%nat, (j <=? 2)%nat, (i =? 3)%nat, (j =? 3)%nat; reflexivity. Qed.
Lemma tangent2In_ext k s X Y C : eq3 X Y -> tangent2In k s X C -> tangent2In k s Y C.
Proof.
  intros E T H c [P0 P1] HL HD i j Ii Ij IK.
  assert (P : curve X H c) by (split; [intros a b Ha Hb; rewrite P0, E by assumption; reflexivity|exact P1]).
  eapply dv; [|exact (T H c P HL HD i j Ii Ij IK)]. unfold applyK. apply sumf_ext. intros r Hr. f_equal. apply eng_ext; [exact Hr|].
  intros a b Ha Hb. unfold greenRate, sympart, mul3, trn. rewrite !E by lia. reflexivity.
Qed.
Lemma green_kind k n p u v : rateOf k (greenRate (deformation k n p u) (dispGrad k n p v)).
Proof.
  assert (Q : rateOf k (mul3 (trn (deformation k n p u)) (dispGrad k n p v))).
  { intros i j Hi Hj E. pose proof (dispGrad_kind k n p v) as HG. pose proof (deformation_kind k n p u) as HX. set (X := deformation k n p u) in *. set (G := dispGrad k n p v) in *.
    assert (Z : forall a b, (1 <= a <= 3)%nat -> (1 <= b <= 3)%nat -> inKind k a b = false -> X a b = kron a b) by (intros a b Ha Hb Hab; pose proof (HX a b Ha Hb Hab) as Q; cbn in Q; lra).
    unfold mul3, trn. destruct k; unfold inKind in E; cbn [kdim isAxi andb orb] in E.
    - exfalso. destruct (Nat.leb_spec i 3); destruct (Nat.leb_spec j 3); cbn in E; try discriminate; lia.
    - idx i; idx j; cbn in E; try discriminate; rewrite ?(Z 1%nat 3%nat), ?(Z 2%nat 3%nat), ?(Z 3%nat 1%nat), ?(Z 3%nat 2%nat), ?(Z 3%nat 3%nat) by (lia || reflexivity); unfold kron; cbn [Nat.eqb]; zeros HG; try (rewrite (HG 3%nat 3%nat) by (lia || reflexivity)); ring.
    - idx i; idx j; cbn in E; try discriminate; rewrite ?(Z 1%nat 3%nat), ?(Z 2%nat 3%nat), ?(Z 3%nat 1%nat), ?(Z 3%nat 2%nat) by (lia || reflexivity); unfold kron; cbn [Nat.eqb]; zeros HG; ring. }
  intros i j Hi Hj E. unfold greenRate, sympart. rewrite !Q; [field|lia|lia| |lia|lia|exact E].
  unfold inKind in *. destruct (isAxi k); [|rewrite !Bool.orb_false_r in *; rewrite Bool.andb_comm; exact E].
  rewrite (Bool.andb_comm (j <=? kdim k)%nat). rewrite <- !Bool.andb_assoc in *. rewrite (Bool.andb_comm (j =? 3)%nat). exact E.
Qed.
Section TL.
Variables (k : kind) (n : nat) (stress : mxIn -> t3 -> t3) (tangent : mxIn -> t3 -> nat -> nat -> R) (isz : (nat -> R) -> bool) (ps : list mxIn).
Hypothesis (HM : solidMaterial k ps stress) (Hz : soundTest k isz) (HK : k <> Axi).
Definition tlF (p : mxIn) (u : nat -> R) : t3 :=
  match kinematicsTL (inElm k n p) (kdim k * n) u with Ret x => ext3 (mkMat (nDF (inElm k n p)) (nDF (inElm k n p)) (el (fst (fst x)))) | _ => kron end.
Lemma tlkin_ok p u : (1 <= n)%nat -> exists F E B, kinematicsTL (inElm k n p) (kdim k * n) u = Ret (F, E, B) /\
  eq3 (ext3 (mkMat (nDF (inElm k n p)) (nDF (inElm k n p)) (el F))) (deformation k n p u) /\
  ((forall r, (1 <= r <= nstr k)%nat -> el E r 1 = 0) -> isometry (kdim k) (deformation k n p u)) /\
  forall v r, (1 <= r <= nstr k)%nat -> mv (kdim k * n) (el B) v r = eng k (greenRate (deformation k n p u) (dispGrad k n p v)) r.
Proof.
  intros Hn. assert (Kd : (kdim k = 2 \/ kdim k = 3)%nat) by (destruct k; auto).
  assert (EE : inElm k n p = plane (kdim k) n (iN p) (iG p) (iX p)) by (destruct k; reflexivity || contradiction).
  destruct (ContinuumKin.kin_ok (kdim k) n (iN p) (iG p) (iX p) u Kd Hn) as [F [E [B [EQ [eF [eE [RB [CB eB]]]]]]]].
  exists F, E, B. rewrite EE. split; [exact EQ|].
  assert (GR : forall w i j, (1 <= i <= kdim k)%nat -> (1 <= j <= kdim k)%nat -> dispGrad k n p w i j = gradient (kdim k) n (iG p) w i j).
  { intros w i j Hi Hj. unfold dispGrad. rewrite (proj2 (Nat.leb_le i (kdim k))), (proj2 (Nat.leb_le j (kdim k))) by lia. reflexivity. }
  assert (DF : forall i j, (1 <= i <= kdim k)%nat -> (1 <= j <= kdim k)%nat -> el F i j = deformation k n p u i j) by (intros i j Hi Hj; rewrite eF by assumption; unfold deformation; rewrite GR by assumption; reflexivity).
  split; [|split].
  - intros i j Hi Hj. unfold ext3.
    change (nDF (plane (kdim k) n (iN p) (iG p) (iX p))) with (kdim k). cbn [rows el].
    destruct ((i <=? kdim k) && (j <=? kdim k))%nat%bool eqn:L.
    + apply andb_prop in L. destruct L as [L1 L2]. apply Nat.leb_le in L1, L2. apply DF; lia.
    + pose proof (deformation_kind k n p u i j Hi Hj) as Z. cbn in Z. assert (inKind k i j = false) by (unfold inKind; rewrite L; destruct k; reflexivity || contradiction). specialize (Z H). lra.
  - intros H. assert (Z : forall v, (1 <= v <= nvoigt (kdim k))%nat -> greenVoigt (kdim k) (el F) v = 0) by (intros v Hv; rewrite <- eE by exact Hv; apply H; destruct k; cbn in *; (lia || contradiction)).
    pose proof (proj1 (green_zero_iff (kdim k) (el F) Kd) Z) as I0. intros i j Hi Hj. rewrite <- (I0 i j Hi Hj). unfold cauchyGreen. apply sumf_ext. intros m Hm. rewrite !DF by assumption. reflexivity.
  - intros v r Hr. rewrite (bnl_mv (kdim k) n (el B) (el F) (iG p) v r Kd) by (intros; apply eB; [destruct k; cbn in *; (lia || contradiction)|assumption|assumption]).
    assert (KR : forall w i, dispGrad k n p w i 3%nat = (if (match k with Solid => true | _ => false end) then dispGrad k n p w i 3%nat else 0)).
    { intros w i. destruct k; try reflexivity; [|contradiction]. unfold dispGrad. cbn. rewrite Bool.andb_false_r. reflexivity. }
    unfold greenRate, eng, sympart, mul3, trn.
    destruct k; [| |contradiction]; cbn [kdim nstr] in *.
    + idx r; cbn [scomp vpair Nat.eqb sumf]; rewrite !DF, <- !GR by lia; field.
    + assert (Z3 : dispGrad Plane n p v 3%nat 1%nat = 0 /\ dispGrad Plane n p v 3%nat 2%nat = 0) by (split; reflexivity). destruct Z3 as [Z1 Z2].
      idx r; cbn [scomp vpair Nat.eqb sumf]; rewrite !DF, <- !GR by lia; rewrite ?Z1, ?Z2; field.
Qed.
Definition tlForce (u : nat -> R) (p : mxIn) (v : nat -> R) : R := volume k p * ddot3 (stress p (deformation k n p u)) (greenRate (deformation k n p u) (dispGrad k n p v)).
Definition tlStiff (u : nat -> R) (p : mxIn) (q v : nat -> R) : R :=
  volume k p * (cForm k (tangent p (tlF p u)) (greenRate (deformation k n p u) (dispGrad k n p q)) (greenRate (deformation k n p u) (dispGrad k n p v))
    + kgForm (stress p (deformation k n p u)) (dispGrad k n p q) (dispGrad k n p v)).
Lemma ax_false : isAxi k = false. Proof. destruct k; reflexivity || contradiction. Qed.
Theorem tlPt_ok u p st : In p ps -> (1 <= n)%nat -> dims k n st ->
  exists st', tlPt k n stress tangent isz p u st = Ret st' /\ dims k n st' /\
    (forall v, work (kdim k * n) (snd st) (snd st') v = tlForce u p v) /\
    (True -> forall q v, bil (kdim k * n) (el (fst st')) q v = bil (kdim k * n) (el (fst st)) q v + tlStiff u p q v).
Proof.
  intros Ip Hn [DR DC]. destruct (tlkin_ok p u Hn) as [F [E [B [EQ [eF [eE eB]]]]]].
  unfold tlPt, tlStiff, tlF. rewrite EQ. cbn [bind fst snd]. set (X := ext3 _) in *. set (s := stress p X).
  assert (ES : eq3 s (stress p (deformation k n p u))) by (apply (smExt _ _ _ HM); assumption).
  assert (Ss : sym3 s) by (apply ssym with (k := k) (ps := ps); assumption).
  assert (WG : wgt0 k p = volume k p) by reflexivity.
  pose proof ax_false as AX. set (K1 := addBtCB k B (tangent p X) (wgt0 k p) (fst st)).
  assert (BK : forall q v, bil (kdim k * n) (el K1) q v = bil (kdim k * n) (el (fst st)) q v + volume k p * cForm k (tangent p X) (greenRate (deformation k n p u) (dispGrad k n p q)) (greenRate (deformation k n p u) (dispGrad k n p v))).
  { intros q v. unfold K1. rewrite (btcb_form k n B _ _ (fst st) q v _ _ (eB q) (eB v)). rewrite WG. reflexivity. }
  destruct (isz (fun r => el E r 1)) eqn:Z; cbn [negb].
  - assert (S0 : forall i j, (1 <= i <= 3)%nat -> (1 <= j <= 3)%nat -> inKind k i j = true -> stress p (deformation k n p u) i j = 0).
    { intros i j Hi Hj IK. apply (smFree _ _ _ HM); try assumption; [apply deformation_kind|]. apply iso3_kind; [exact HK|]. apply eE. intros r Hr. exact (Hz _ Z r Hr). }
    cbn [bind]. eexists. split; [reflexivity|]. split; [split; [exact DR|exact DC]|]. cbn [fst snd]. split.
    + intros v. unfold work, tlForce. rewrite (ddot3_zero k _ _ (green_kind k n p u v) S0), Rmult_0_r. apply sumf_0. intros. ring.
    + intros _ q v. rewrite BK. rewrite (kgForm_zero k _ _ _ (dispGrad_kind k n p q) (dispGrad_kind k n p v) S0). ring.
  - assert (EI : inElm k n p = mkElm (kdim k) (isAxi k) n (kdim k) (iN p) (iG p) (iX p)) by reflexivity. rewrite EI.
    destruct (kg_ok k n (iN p) (iG p) (iX p) s (wgt0 k p) K1) as [K2 [EK [R2 [C2 kf]]]]; [intros A; rewrite AX in A; discriminate|exact DR|exact DC|].
    rewrite EK. cbn [bind]. eexists. split; [reflexivity|]. split; [split; cbn [fst]; [rewrite R2; exact DR|rewrite C2; exact DC]|]. cbn [fst snd]. split.
    + intros v. unfold work. rewrite (bts_form k n B s _ (snd st) v _ (eB v)). rewrite stress_form by (exact Ss || apply green_kind). unfold tlForce. rewrite WG.
      rewrite (ddot3_ext s (stress p (deformation k n p u)) _ (greenRate (deformation k n p u) (dispGrad k n p v)) ES (fun _ _ _ _ => eq_refl)). ring.
    + intros _ q v. rewrite kf, BK.
      assert (CU : forall w, eq3 (dispGrad k n (curIn (iN p) (iG p) (iX p)) w) (dispGrad k n p w)) by (intros w i j Hi Hj; reflexivity).
      rewrite (kgForm_ext s (stress p (deformation k n p u)) _ (dispGrad k n p q) _ (dispGrad k n p v)) by (exact ES || apply CU).
      unfold hoopComp. rewrite AX. rewrite WG. ring.
Qed.
Theorem tlElement_ok u st : (1 <= n)%nat -> dims k n st ->
  exists st', tlElement k n stress tangent isz ps u st = Ret st' /\ dims k n st' /\
    (forall v, work (kdim k * n) (snd st) (snd st') v = sumL (fun p => tlForce u p v) ps) /\
    (True -> forall q v, bil (kdim k * n) (el (fst st')) q v = bil (kdim k * n) (el (fst st)) q v + sumL (fun p => tlStiff u p q v) ps).
Proof.
  intros Hn D. apply (over_ok k n (tlPt k n stress tangent isz) ps u True (tlForce u) (tlStiff u)); [|exact D]. intros p s Ip Ds. now apply tlPt_ok.
Qed.
Lemma def_curve p u v : curve (deformation k n p u) (dispGrad k n p v) (fun t => deformation k n p (moved u v t)).
Proof. split; [intros i j _ _; rewrite moved_0; reflexivity|]. intros i j _ _. apply entry_derive. Qed.
Theorem tl_energy W u v st : (1 <= n)%nat -> dims k n st ->
  (forall p, In p ps -> stress2In k (W p) (deformation k n p u) (stress p (deformation k n p u))) ->
  exists st', tlElement k n stress tangent isz ps u st = Ret st' /\
    is_derive (fun t => energy k n ps W (moved u v t)) 0 (work (kdim k * n) (snd st) (snd st') v).
Proof.
  intros Hn D HW. destruct (tlElement_ok u st Hn D) as [st' [E [_ [Wk _]]]]. exists st'. split; [exact E|]. rewrite Wk.
  unfold energy. apply (sumL_derive ps (fun p t => volume k p * W p (deformation k n p (moved u v t))) (fun p => tlForce u p v)).
  intros p Ip. unfold tlForce. apply dscal. apply (HW p Ip); [apply def_curve|apply dispGrad_kind|intros; apply deformation_kind].
Qed.
Lemma tl_work F H c G sg C : c 0 = F -> curve F H c -> rateOf k H -> (forall t, defOf k (c t)) -> (forall t, rateOf k (greenRate (c t) G)) ->
  tangent2In k sg F C -> sym3 (sg F) ->
  rateOf k G -> is_derive (fun t => ddot3 (sg (c t)) (greenRate (c t) G)) 0 (cForm k C (greenRate F G) (greenRate F H) + kgForm (sg F) G H).
Proof.
  intros C0 [_ CD] HH HD HR HT [S1 [S2 S3]] HG.
  apply (dext (fun t => ddot3 (mask k (sg (c t))) (greenRate (c t) G))); [intros t; apply mask_ddot; apply HR|].
  eapply dv; cycle 1.
  - apply (ddot3_mask_derive k (fun t => sg (c t)) (fun t => greenRate (c t) G) (applyK k C (greenRate F H)) (fun i j => sympart (mul3 (trn H) G) i j)).
    + intros i j Hi Hj IK. apply (HT H c); try assumption. split; [rewrite C0; intros ? ? _ _; reflexivity|exact CD].
    + intros i j Hi Hj. unfold greenRate, sympart, mul3, trn. eapply dv; cycle 1.
      * apply dscal_r. apply dplus; (apply dplus; [apply dplus|]); apply dscal_r; apply CD; lia.
      * reflexivity.
  - rewrite C0. unfold greenRate at 1. rewrite apply_form by (rewrite <- C0; apply HR). f_equal.
    + unfold cForm. apply sumf_ext. intros r _. apply sumf_ext. intros s _. unfold greenRate. rewrite !eng_sym. reflexivity.
    + rewrite mask_ddot.
      * unfold ddot3, kgForm, sympart, mul3, trn. cbn [sumf]. rewrite S1, S2, S3. field.
      * assert (Q : rateOf k (mul3 (trn H) G)).
        { apply rateOf_mul; [|exact HG]. intros i j Hi Hj E. unfold trn. apply HH; [exact Hj|exact Hi|]. rewrite inKind_sym. exact E. }
        intros i j Hi Hj E. unfold sympart. rewrite (Q i j), (Q j i) by (try assumption; rewrite inKind_sym; exact E). field.
Qed.
Theorem tl_tangent u v st : (1 <= n)%nat -> dims k n st ->
  (forall p, In p ps -> 0 < det3 (deformation k n p u)) ->
  (forall p X, In p ps -> 0 < det3 X -> tangent2In k (stress p) X (tangent p X)) ->
  exists st', tlElement k n stress tangent isz ps u st = Ret st' /\
    derivativeAlong (kdim k * n) (fun w => forcesOf (tlElement k n stress tangent isz ps w st)) (snd st) (fun i j => el (fst st') i j - el (fst st) i j) u v.
Proof.
  intros Hn D HJ HT. destruct (tlElement_ok u st Hn D) as [st' [E [_ [_ Kf]]]]. exists st'. split; [exact E|].
  intros q. exists (fun t => sumL (fun p => tlForce (moved u v t) p q) ps). split.
  - apply filter_forall. intros t. destruct (tlElement_ok (moved u v t) st Hn D) as [s1 [E1 [_ [W1 _]]]]. exists (snd s1). rewrite E1. split; [reflexivity|apply W1].
  - rewrite bil_diff, Kf by exact I. replace (bil (kdim k * n) (el (fst st)) q v + sumL (fun p => tlStiff u p q v) ps - bil (kdim k * n) (el (fst st)) q v) with (sumL (fun p => tlStiff u p q v) ps) by ring.
    apply (sumL_derive ps (fun p t => tlForce (moved u v t) p q) (fun p => tlStiff u p q v)). intros p Ip. unfold tlForce, tlStiff. apply dscal.
    apply (tl_work (deformation k n p u) (dispGrad k n p v) (fun t => deformation k n p (moved u v t)) (dispGrad k n p q) (stress p)).
    + rewrite moved_0. reflexivity.
    + apply def_curve.
    + apply dispGrad_kind.
    + intros; apply deformation_kind.
    + intros; apply green_kind.
    + destruct (tlkin_ok p u Hn) as [F [E0 [B [EQ [eF _]]]]]. unfold tlF. rewrite EQ. cbn [fst]. set (X := ext3 _) in *.
      apply (tangent2In_ext k (stress p) X); [exact eF|]. apply HT; [exact Ip|]. rewrite (det3_ext _ _ eF). now apply HJ.
    + apply ssym with (k := k) (ps := ps); assumption.
    + apply dispGrad_kind.
Qed.
End TL.
