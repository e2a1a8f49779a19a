(** The three-field element: residual as derivative of the potential, Newton matrix as its second derivative. *)
From Coquelicot Require Import Coquelicot.
From Verif Require Import Lib.Base Lib.Sums Lib.Writes Lib.Congruence Lib.Tensor3 Model.Continuum Model.Mixed Model.MxElement Model.NlElement Model.ThreeField
  Spec.Continuum Spec.Mixed Spec.MxElement Spec.NlElement Spec.ThreeField
  Proofs.Continuum Proofs.ContinuumKin Proofs.ContinuumK Proofs.ContinuumAxi Proofs.ContinuumHoop Proofs.Mixed Proofs.Mixed2 Proofs.Mixed3 Proofs.MxPure Proofs.MxList Proofs.MxPoint Proofs.MxElement Proofs.NlPure Proofs.NlPoint Proofs.NlElement.
Open Scope R_scope.

(** ** Linear forms of the coupling blocks *)
Lemma lin_e7 k n x sb u r : (1 <= r <= 7)%nat ->
  lin (kdim k) n (fun a i => strain7 (isAxi k) (pN x a) (fun c => if (c <=? kdim k)%nat then pG x a c else 0) (sb a) r i) u
  = e7 (spat k n x u) (barOf k n sb u) r.
Proof.
  intros Hr.
  assert (Z : forall g : nat -> nat -> R, (forall a m, (1 <= m <= kdim k)%nat -> g a m = 0) -> lin (kdim k) n g u = 0).
  { intros g Hg. unfold lin. apply sumf_0. intros a _. apply sumf_0. intros m Hm. rewrite Hg by exact Hm. ring. }
  assert (P : forall g g' h : nat -> nat -> R, (forall a m, (1 <= m <= kdim k)%nat -> h a m = g a m + g' a m) -> lin (kdim k) n h u = lin (kdim k) n g u + lin (kdim k) n g' u).
  { intros g g' h Hh. unfold lin. rewrite <- sumf_plus. apply sumf_ext. intros a _. rewrite <- sumf_plus. apply sumf_ext. intros m Hm. rewrite Hh by exact Hm. ring. }
  destruct k; cbn [kdim isAxi] in *.
  - unfold e7, spat. cbn [kdim isAxi]. idx r; cbn [strain7 Nat.leb andb]; try (rewrite lin_kron by lia; reflexivity); [| | |reflexivity].
    + rewrite (P (fun a m => kron m 1 * pG x a 2%nat) (fun a m => kron m 2 * pG x a 1%nat)) by (intros; reflexivity). rewrite !lin_kron by lia. reflexivity.
    + rewrite (P (fun a m => kron m 2 * pG x a 3%nat) (fun a m => kron m 3 * pG x a 2%nat)) by (intros; reflexivity). rewrite !lin_kron by lia. reflexivity.
    + rewrite (P (fun a m => kron m 1 * pG x a 3%nat) (fun a m => kron m 3 * pG x a 1%nat)) by (intros; reflexivity). rewrite !lin_kron by lia. reflexivity.
  - unfold e7, spat. cbn [kdim isAxi]. idx r; cbn [strain7 Nat.leb andb]; try (rewrite lin_kron by lia; reflexivity); [| | | |reflexivity].
    + apply Z. intros a m Hm. ring.
    + rewrite (P (fun a m => kron m 1 * pG x a 2%nat) (fun a m => kron m 2 * pG x a 1%nat)) by (intros; reflexivity). rewrite !lin_kron by lia. reflexivity.
    + rewrite Rplus_0_r. apply Z. intros a m Hm. unfold kron. destruct (Nat.eqb_spec m 3); [lia|]. ring.
    + rewrite Rplus_0_r. apply Z. intros a m Hm. unfold kron. destruct (Nat.eqb_spec m 3); [lia|]. ring.
  - unfold e7, spat. cbn [kdim isAxi]. idx r; cbn [strain7 Nat.leb Nat.eqb andb]; try (rewrite lin_kron by lia; reflexivity); try (apply lin_hoop); [| | |reflexivity].
    + rewrite (P (fun a m => kron m 1 * pG x a 2%nat) (fun a m => kron m 2 * pG x a 1%nat)) by (intros; reflexivity). rewrite !lin_kron by lia. reflexivity.
    + rewrite Rplus_0_r. apply Z. intros a m Hm. unfold kron. destruct (Nat.eqb_spec m 3); [lia|]. ring.
    + rewrite Rplus_0_r. apply Z. intros a m Hm. unfold kron. destruct (Nat.eqb_spec m 3); [lia|]. ring.
Qed.
Lemma bar_zero k n u : barOf k n (fun _ _ => 0) u = 0.
Proof. unfold barOf, lin. apply sumf_0. intros a _. apply sumf_0. intros. ring. Qed.

(** A block whose entries are a displacement functional times the second basis. *)
Lemma rank_block d n m (f : nat -> nat -> R) (A B : nat -> nat -> R) N2 qu qt yu yt :
  (forall a i b, (1 <= a <= n)%nat -> (1 <= i <= d)%nat -> (1 <= b <= m)%nat -> A (dof d a i) b - B (dof d a i) b = f a i * N2 b) ->
  sumf (d * n) (fun i => sumf m (fun b => (A i b - B i b) * (qu i * yt b + qt b * yu i)))
  = lin d n f qu * sumf m (fun b => yt b * N2 b) + lin d n f yu * sumf m (fun b => qt b * N2 b).
Proof.
  intros H. rewrite sumf_dof. unfold lin. rewrite <- !sumf_scal_r, <- sumf_plus. apply sumf_ext. intros a Ha.
  cbv beta. rewrite <- !sumf_scal_r, <- sumf_plus. apply sumf_ext. intros i Hi. rewrite <- !sumf_scal, <- sumf_plus. apply sumf_ext. intros b Hb. rewrite H by assumption. ring.
Qed.
Lemma rank_small m (A B : nat -> nat -> R) c N2 f g : (forall a b, A a b - B a b = N2 a * (N2 b * c)) ->
  sumf m (fun a => sumf m (fun b => (A a b - B a b) * (f a * g b))) = c * sumf m (fun a => f a * N2 a) * sumf m (fun b => g b * N2 b).
Proof.
  intros H. set (G := sumf m (fun b => g b * N2 b)). rewrite <- sumf_scal, <- sumf_scal_r. apply sumf_ext. intros a _. unfold G. rewrite <- sumf_scal. apply sumf_ext. intros b _. rewrite H. ring.
Qed.
Lemma rank_small2 m (A B : nat -> nat -> R) c N2 f g f' g' : (forall a b, A a b - B a b = N2 a * (N2 b * c)) ->
  sumf m (fun a => sumf m (fun b => (A a b - B a b) * (f a * g b + f' b * g' a))) =
  c * (sumf m (fun a => f a * N2 a) * sumf m (fun b => g b * N2 b) + sumf m (fun a => f' a * N2 a) * sumf m (fun b => g' b * N2 b)).
Proof.
  intros H. rewrite (sumf_ext m _ (fun a => sumf m (fun b => (A a b - B a b) * (f a * g b)) + sumf m (fun b => (A a b - B a b) * (g' a * f' b)))).
  - rewrite sumf_plus, (rank_small m A B c N2 f g H), (rank_small m A B c N2 g' f' H). ring.
  - intros a _. rewrite <- sumf_plus. apply sumf_ext. intros. ring.
Qed.

(** ** Deformations with replaced volume *)
Lemma mixedF_ok k th F G : eq3 F G -> defOf k G -> 0 < th -> 0 < det3 G -> eq3 (mixedF (ndf k) th (det3 F) F) (withVolume th G).
Proof.
  intros E D T J i j Hi Hj. rewrite (det3_ext _ _ E). unfold mixedF, withVolume.
  pose proof (Rdiv_lt_0_compat _ _ T J) as Q. rewrite Rabs_pos_eq by lra. unfold cpow. destruct (Req_EM_T (th / det3 G) 0); [lra|].
  set (r := Rpower (th / det3 G) (1 / 3)).
  destruct k; cbn [ndf Nat.eqb]; try (rewrite E by assumption; reflexivity).
  assert (O : inKind Plane i j = false -> G i j = kron i j) by (intros I0; pose proof (D i j Hi Hj I0) as Q0; cbn in Q0; lra).
  idx i; idx j; cbn [Nat.eqb andb orb]; try (rewrite E by lia; reflexivity); rewrite O by reflexivity; unfold kron; cbn; ring.
Qed.
Lemma iso_det F : isometry 3 F -> 0 < det3 F -> det3 F = 1.
Proof.
  intros H P. assert (S : det3 F * det3 F = 1).
  { transitivity (det3 (fun i j => cauchyGreen 3 F i j)).
    - unfold det3, cauchyGreen. cbn [sumf]. ring.
    - rewrite (det3_ext _ kron); [apply det3_kron|]. intros i j Hi Hj. now apply H. }
  nra.
Qed.
Lemma withVolume_one F : det3 F = 1 -> eq3 (withVolume 1 F) F.
Proof. intros E i j _ _. unfold withVolume. rewrite E. replace (1 / 1) with 1 by field. unfold Rpower. rewrite ln_1, Rmult_0_r, exp_0. ring. Qed.
Lemma iso_eq A B : eq3 A B -> isometry 3 A -> isometry 3 B.
Proof. intros E H. now apply (iso_ext 3 A). Qed.

(** ** One integration point *)
Lemma d7_split P Lq bq L b : symm 7 P ->
  d7Form P (e7 Lq bq) (e7 L b) = d7Form P (e7 Lq 0) (e7 L 0) + b * sumf 6 (fun r => P r 7%nat * e7 Lq 0 r) + bq * sumf 6 (fun r => P r 7%nat * e7 L 0 r) + bq * b * P 7%nat 7%nat.
Proof.
  intros S. unfold d7Form. cbn [sumf]. rewrite !(S 7%nat) by lia. cbn [e7]. ring.
Qed.
Lemma spat_cur k n N G r z : eq3 (spat k n (mkMpt (curIn N G r) kron (fun a => N a / r) G 0) z) (dispGrad k n (curIn N G r) z).
Proof.
  intros i j Hi Hj. unfold spat, dispGrad. cbn [iG iN iX curIn pG pN].
  destruct ((i <=? kdim k) && (j <=? kdim k))%nat%bool; [reflexivity|]. destruct (isAxi k && (i =? 3)%nat && (j =? 3)%nat)%bool; [|reflexivity].
  unfold interp. unfold Rdiv. rewrite <- sumf_scal_r. apply sumf_ext. intros. ring.
Qed.
Lemma ext3_eq (A B C : t3) : eq3 A B -> eq3 B C -> eq3 A C.
Proof. intros E E' i j Hi Hj. rewrite E by assumption. now apply E'. Qed.

Section Pt.
Variables (k : kind) (n m : nat) (stress : mxIn -> t3 -> t3) (tangent : mxIn -> t3 -> nat -> nat -> R) (isz : (nat -> R) -> bool) (ps : list mxIn) (x : fields).
Hypothesis (HM : tfMaterial ps stress tangent) (Hz : soundTest k isz).
Definition Fp p : t3 := deformation k n p (fU x).
Definition Jp p : R := det3 (Fp p).
Definition thp p : R := volumeAt m p x.
Definition prp p : R := pressureAt m p x.
Definition Sp p : t3 := stress p (withVolume (thp p) (Fp p)).
Definition Cp p := tangent p (withVolume (thp p) (Fp p)).
Definition Ly p (y : fields) : t3 := Lr k n p (fU x) (fU y).
Definition Pp p := projected (Cp p) (tovoigt (Sp p)) (tr3 (Sp p) / 3) (prp p * Jp p / thp p).
Definition totp p : t3 := tfStress k n m stress x p.
Definition ptWork p q : R := volume k p * (thp p * ddot3 (dev (Sp p)) (Ly p q) + prp p * (Jp p * tr3 (Ly p q))
  + (tr3 (Sp p) / 3 - prp p) * at2 m p (fT q) + (Jp p - thp p) * at2 m p (fP q)).
Definition ptForm p q y : R := volume k p * (thp p * (kgForm (totp p) (Ly p q) (Ly p y) - hoopComp k (totp p) (Ly p q) (Ly p y)
    + d7Form (Pp p) (e7 (Ly p q) (at2 m p (fT q) / thp p)) (e7 (Ly p y) (at2 m p (fT y) / thp p)))
  + (Jp p * tr3 (Ly p q) * at2 m p (fP y) + Jp p * tr3 (Ly p y) * at2 m p (fP q) - (at2 m p (fT q) * at2 m p (fP y) + at2 m p (fP q) * at2 m p (fT y)))).

Lemma theta_ok p : tfTheta m p (fT x) = thp p.
Proof. unfold tfTheta, thp, volumeAt, at2. rewrite Rplus_comm. f_equal. apply sumf_ext. intros. ring. Qed.
Lemma press_ok p : tfPress m p (fP x) = prp p.
Proof. unfold tfPress, prp, pressureAt, at2. apply sumf_ext. intros. ring. Qed.

Theorem tfPt_ok p st : In p ps -> (1 <= n)%nat -> (isAxi k = true -> epsR < iX p /\ epsR < iX p + interp 2 n (iN p) (fU x) 1) -> 0 < Jp p -> 0 < thp p ->
  tfRegular k n m x p -> tfDims k n m st ->
  exists st', tfPt k n m stress tangent isz p (fU x) (fT x) (fP x) st = Ret st' /\ tfDims k n m st' /\
    (forall y, tfWork (kdim k * n) m st st' y = ptWork p y) /\ forall q y, tfForm (kdim k * n) m st st' q y = ptForm p q y.
Proof.
  intros Ip Hn Hx HJ HT HR (D1 & D2 & D3 & D4 & D5 & D6).
  destruct (kinUL_ok k n p (fU x) Hn (fun A => proj1 (Hx A))) as [F0 [E0 [EK [_ eE]]]].
  destruct (push_ok k n (fun _ => false) p (fU x) Hn (fun A => proj1 (Hx A)) HJ ltac:(discriminate)) as [c [Ec [eF Hc]]].
  assert (CH : cHave c = true).
  { unfold pushUL in Ec. rewrite EK in Ec. cbn [bind] in Ec. destruct (Req_EM_T _ 0) in Ec; [discriminate|]. injection Ec as <-. reflexivity. }
  rewrite CH in Hc. destruct Hc as [cj [cr [_ cg]]]. fold (Fp p) in *. fold (Jp p) in cj.
  unfold tfPt. rewrite EK. cbn [bind snd]. rewrite Ec. cbn [bind]. rewrite theta_ok, press_ok.
  set (have := negb (isz (fun r => el E0 r 1))).
  assert (HV : have = true \/ (have = false /\ isometry 3 (Fp p) /\ thp p = 1 /\ prp p = 0)).
  { unfold have. destruct (isz _) eqn:Z; [right|left; reflexivity]. split; [reflexivity|]. destruct HR as [H|H]; [|exact H].
    exfalso. apply H. apply strain_zero. intros r Hr. rewrite <- eE by exact Hr. exact (Hz _ Z r Hr). }
  set (Fb := mixedF (ndf k) (thp p) (det3 (cF c)) (cF c)).
  assert (eFb : eq3 Fb (withVolume (thp p) (Fp p))) by (apply mixedF_ok; [exact eF|apply deformation_kind|exact HT|exact HJ]).
  set (Sig := stress p Fb).
  assert (eS : eq3 Sig (Sp p)) by (apply (tmExt _ _ _ HM); assumption).
  assert (SS : forall i j, (1 <= i <= 3)%nat -> (1 <= j <= 3)%nat -> Sp p i j = Sp p j i) by (intros; now apply (tmSym _ _ _ HM)).
  assert (S0 : have = false -> eq3 (Sp p) (fun _ _ => 0)).
  { intros H0. destruct HV as [H|(_ & I3 & T1 & _)]; [congruence|]. intros i j Hi Hj. unfold Sp. rewrite T1.
    apply (tmFree _ _ _ HM); try assumption; [|rewrite det_withVolume by (lra || exact HJ); lra].
    apply (iso_eq (Fp p)); [|exact I3]. intros a b Ha Hb. symmetry. apply withVolume_one; [now apply iso_det|exact Ha|exact Hb]. }
  assert (Bp : (if have then tr3 Sig / 3 else 0) = tr3 (Sp p) / 3).
  { destruct have; [now rewrite (tr3_ext _ _ eS)|]. unfold tr3. rewrite !(S0 eq_refl) by lia. field. }
  assert (Mp : (if have then prp p * cJ c / thp p else 0) = prp p * Jp p / thp p).
  { destruct HV as [->|(-> & _ & T1 & P0)]; [now rewrite cj|]. rewrite P0. field. lra. }
  rewrite Bp, Mp, cj.
  set (Sigma := fun i j : nat => Sig i j + kron i j * (prp p * Jp p / thp p - tr3 (Sp p) / 3)).
  assert (eSg : eq3 Sigma (totp p)) by (intros i j Hi Hj; unfold Sigma, totp, tfStress, mixedStress; rewrite eS by assumption; reflexivity).
  assert (T0 : have = false -> eq3 (totp p) (fun _ _ => 0)).
  { intros H0. destruct HV as [H|(_ & I3 & T1 & P0)]; [congruence|]. pose proof (S0 H0) as Q. intros i j Hi Hj. unfold totp, tfStress, mixedStress.
    fold (Fp p) (thp p) (prp p) (Sp p) (Jp p). rewrite Q by assumption. unfold tr3. rewrite !Q by lia. rewrite P0. unfold Rdiv. ring. }
  assert (Sy : sym3 Sigma).
  { unfold sym3, Sigma. rewrite !(eS 2%nat 1%nat), !(eS 1%nat 2%nat), !(eS 3%nat 2%nat), !(eS 2%nat 3%nat), !(eS 3%nat 1%nat), !(eS 1%nat 3%nat) by lia. rewrite (SS 2%nat 1%nat), (SS 3%nat 2%nat), (SS 3%nat 1%nat) by lia. unfold kron; cbn. auto. }
  assert (R0 : isAxi k = true -> epsR < cR c) by (intros A; rewrite cr by exact A; apply Hx; exact A).
  assert (R1 : isAxi k = true -> 0 < cR c) by (intros A; pose proof (R0 A); pose proof epsR_pos; lra).
  set (e := mkElm (kdim k) (isAxi k) n (kdim k) (iN p) (cG c) (cR c)).
  set (dV := thp p * wgt0 k p).
  assert (EV : forall y, eq3 (dispGrad k n (curIn (iN p) (cG c) (cR c)) (fU y)) (Ly p y)) by (intros; apply cg).
  (* geometric stiffness *)
  assert (K1 : exists K1, (if have then formKG e (cR c) Sigma dV (aUU st) else Ret (aUU st)) = Ret K1 /\ rows K1 = rows (aUU st) /\ cols K1 = cols (aUU st) /\
    forall q y, bil (kdim k * n) (el K1) (fU q) (fU y) = bil (kdim k * n) (el (aUU st)) (fU q) (fU y) + dV * (kgForm (totp p) (Ly p q) (Ly p y) - hoopComp k (totp p) (Ly p q) (Ly p y))).
  { destruct have eqn:HE.
    - destruct (kg_ok k n (iN p) (cG c) (cR c) Sigma dV (aUU st) R1 D1 D2) as [K1 [E1 [r1 [c1 f1]]]]. exists K1. split; [exact E1|]. split; [exact r1|]. split; [exact c1|]. intros q y. rewrite f1.
      rewrite (NlElement.kgForm_ext Sigma (totp p) _ (Ly p q) _ (Ly p y)), (hoopComp_ext k Sigma (totp p) _ (Ly p q) _ (Ly p y)) by (exact eSg || apply EV). reflexivity.
    - exists (aUU st). split; [reflexivity|]. split; [reflexivity|]. split; [reflexivity|]. intros q y. pose proof (T0 eq_refl) as Q. unfold Ly.
      rewrite (kgForm_zero k (totp p) _ _ (Lr_kind k n p (fU x) (fU q)) (Lr_kind k n p (fU x) (fU y))), (hoopComp_zero k (totp p)) by (intros; now apply Q). ring. }
  destruct K1 as [K1 [E1 [r1 [c1 f1]]]]. rewrite E1. cbn [bind].
  (* material stiffness *)
  set (D := fun i j : nat => addVolumetric (tangent p Fb) (tovoigt Sig) (tr3 (Sp p) / 3) (prp p * Jp p / thp p) i j * dV).
  assert (eD : forall i j, (1 <= i <= 7)%nat -> (1 <= j <= 7)%nat -> D i j = Pp p i j * dV).
  { intros i j Hi Hj. unfold D. rewrite addVolumetric_ok by assumption. f_equal. unfold Pp, projected. f_equal.
    - apply sumf_ext. intros a _. apply sumf_ext. intros b _. unfold Cp. rewrite (tmTan _ _ _ HM p Fb (withVolume (thp p) (Fp p))) by assumption. reflexivity.
    - destruct (i =? 7)%nat, (j =? 7)%nat; rewrite ?(fun r => tovoigt_ext _ _ r eS); reflexivity. }
  set (mp := mkMpt (curIn (iN p) (cG c) (cR c)) kron (fun a => iN p a / cR c) (cG c) 0).
  destruct (acc_form k n mp (fun _ _ => 0) D K1 ltac:(congruence) ltac:(congruence)) as [K2 [E2 [r2 [c2 f2]]]].
  match goal with |- context [bind (match k with Solid => _ | _ => _ end) _] => idtac end.
  assert (SP : forall y, eq3 (spat k n mp (fU y)) (Ly p y)) by (intros y; eapply ext3_eq; [apply spat_cur|apply EV]).
  match goal with |- context [bind ?M _] => replace M with (Ret K2) end.
  2:{ rewrite <- E2. destruct k; cbn [isAxi andb pN pG mp]; [reflexivity|reflexivity|]. destruct (Rlt_dec 0 (cR c)) as [_|C]; [reflexivity|]. pose proof (R1 eq_refl). contradiction. }
  cbn [bind].
  destruct (kut_ok (kdim k) (isAxi k) n m (fun a => iN p a / cR c) (cG c) (iPhi p) (fun i => D i 7%nat / thp p) (aUT st)) as [K3 [E3 [r3 [c3 f3]]]]; [destruct k; cbn; split; auto; discriminate|exact D3|exact D4|].
  change (fun i : nat => addVolumetric (tangent p Fb) (tovoigt Sig) (tr3 (Sp p) / 3) (prp p * Jp p / thp p) i 7%nat * dV / thp p) with (fun i => D i 7%nat / thp p).
  change (addVolumetric (tangent p Fb) (tovoigt Sig) (tr3 (Sp p) / 3) (prp p * Jp p / thp p) 7%nat 7%nat * dV) with (D 7%nat 7%nat).
  rewrite E3. cbn [bind].
  destruct (kup_ok (kdim k) (isAxi k) n m (fun a => iN p a / cR c) (cG c) (iPhi p) (Jp p * wgt0 k p) (aUP st)) as [K4 [E4 [r4 [c4 f4]]]]; [destruct k; cbn; lia|exact D5|exact D6|].
  rewrite E4. cbn [bind].
  assert (RU : exists ru, (if have then let* B := bmat e in Ret (addBts k B Sigma (- dV) (bU st)) else Ret (bU st)) = Ret ru /\
    forall y, work (kdim k * n) (bU st) ru (fU y) = dV * ddot3 (totp p) (Ly p y)).
  { destruct have eqn:HE.
    - destruct (bmat_ok k n (iN p) (cG c) (cR c) R0) as [B [EB eB]]. fold e in EB. rewrite EB. cbn [bind]. eexists. split; [reflexivity|]. intros y. unfold work.
      rewrite (bts_form k n B Sigma (- dV) (bU st) (fU y) (eng k (Ly p y))) by (intros r Hr; rewrite eB by exact Hr; apply eng_ext; [exact Hr|apply EV]).
      rewrite stress_form by (exact Sy || apply Lr_kind). rewrite (NlElement.ddot3_ext Sigma (totp p) _ (Ly p y)) by (exact eSg || (intros ? ? _ _; reflexivity)). ring.
    - eexists. split; [reflexivity|]. intros y. unfold Ly. rewrite (ddot3_zero k (totp p) _ (Lr_kind k n p (fU x) (fU y))) by (intros; now apply (T0 eq_refl)). unfold work. rewrite Rmult_0_r. apply sumf_0. intros. ring. }
  destruct RU as [ru [ER wr]]. rewrite ER. cbn [bind].
  eexists. split; [reflexivity|]. split; [unfold tfDims; cbn [aUU aUT aUP]; repeat split; congruence|].
  assert (EW : wgt0 k p = volume k p) by reflexivity.
  split.
  - intros y. unfold tfWork. cbn [bU bT bP]. rewrite wr.
    assert (WT : work m (bT st) (fun i => bT st i + rtAdd have (iPhi p) (prp p) (tr3 (Sp p) / 3) (wgt0 k p) i) (fT y) = volume k p * ((tr3 (Sp p) / 3 - prp p) * at2 m p (fT y))).
    { unfold work, at2. rewrite <- !sumf_scal. apply sumf_ext. intros i _. unfold rtAdd. rewrite EW. destruct have eqn:HE; [ring|].
      assert (Z : tr3 (Sp p) / 3 = 0) by (symmetry; exact Bp). destruct HV as [H|(_ & _ & _ & P0)]; [discriminate|]. rewrite Z, P0. ring. }
    assert (WP : work m (bP st) (fun i => bP st i + rpAdd have (iPhi p) (thp p) (Jp p) (wgt0 k p) i) (fP y) = volume k p * ((Jp p - thp p) * at2 m p (fP y))).
    { unfold work, at2. rewrite <- !sumf_scal. apply sumf_ext. intros i _. unfold rpAdd. rewrite EW. destruct have eqn:HE; [ring|].
      destruct HV as [H|(_ & I3 & T1 & P0)]; [discriminate|]. rewrite T1. unfold Jp. rewrite iso_det by assumption. ring. }
    rewrite WT, WP. unfold ptWork, dV. rewrite EW.
    assert (ED : thp p * ddot3 (totp p) (Ly p y) = thp p * ddot3 (dev (Sp p)) (Ly p y) + prp p * (Jp p * tr3 (Ly p y))).
    { unfold totp, tfStress, mixedStress. fold (Fp p) (thp p) (prp p) (Jp p) (Sp p). unfold ddot3, dev, tr3, kron. cbn. field. lra. }
    rewrite (Rmult_comm (thp p) (volume k p)), Rmult_assoc, ED. ring.
  - intros q y. unfold tfForm. cbn [aUU aUT aUP aTT aTP].
    set (NN := (kdim k * n)%nat) in *.
    replace (sumf NN (fun i => sumf NN (fun j => fU q i * (el K2 i j - el (aUU st) i j) * fU y j))) with (bil NN (el K2) (fU q) (fU y) - bil NN (el (aUU st)) (fU q) (fU y)) by (symmetry; apply (bil_diff NN (el K2) (el (aUU st)))).
    rewrite f2, f1, !bar_zero.
    rewrite (d7_ext D (fun i j => Pp p i j * dV) _ (e7 (Ly p q) 0) _ (e7 (Ly p y) 0) eD) by (intros; apply e7_ext; [apply SP|reflexivity]).
    rewrite d7_scal.
    (* coupling blocks *)
    set (g3 := fun a i => sumf 6 (fun r => strain7 (isAxi k) (iN p a / cR c) (fun j => if (j <=? kdim k)%nat then cG c a j else 0) (fun _ => 0) r i * (D r 7%nat / thp p))).
    unfold NN. rewrite (rank_block (kdim k) n m g3 (el K3) (el (aUT st)) (iPhi p)) by (intros a i b Ha Hi Hb; rewrite f3 by assumption; unfold g3; ring).
    assert (L3 : forall z, lin (kdim k) n g3 (fU z) = volume k p * sumf 6 (fun r => Pp p r 7%nat * e7 (Ly p z) 0 r)).
    { intros z. unfold g3. transitivity (sumf 6 (fun r => D r 7%nat / thp p * lin (kdim k) n (fun a i => strain7 (isAxi k) (pN mp a) (fun j => if (j <=? kdim k)%nat then pG mp a j else 0) ((fun _ _ => 0) a) r i) (fU z))).
      - unfold lin. rewrite (sumf_ext 6 _ (fun r => sumf n (fun a => sumf (kdim k) (fun i => D r 7%nat / thp p * (strain7 (isAxi k) (pN mp a) (fun j => if (j <=? kdim k)%nat then pG mp a j else 0) (fun _ => 0) r i * fU z (dof (kdim k) a i))))))
          by (intros r _; rewrite <- sumf_scal; apply sumf_ext; intros a _; rewrite <- sumf_scal; reflexivity).
        rewrite (sumf_swap 6 n). apply sumf_ext. intros a _. rewrite (sumf_swap 6 (kdim k)). apply sumf_ext. intros i _. rewrite <- sumf_scal_r. apply sumf_ext. intros r _. cbn [pN pG mp]. ring.
      - rewrite <- sumf_scal. apply sumf_ext. intros r Hr. rewrite (lin_e7 k n mp (fun _ _ => 0) (fU z) r) by lia. rewrite bar_zero. rewrite (e7_ext _ _ 0 0 (SP z) eq_refl r). rewrite eD by lia. unfold dV. rewrite EW. field. lra. }
    rewrite !L3.
    set (g4 := fun a i => (cG c a i + (if isAxi k then kron i 1 * (iN p a / cR c) else 0)) * (Jp p * wgt0 k p)).
    rewrite (rank_block (kdim k) n m g4 (el K4) (el (aUP st)) (iPhi p)) by (intros a i b Ha Hi Hb; rewrite f4 by assumption; unfold g4; ring).
    assert (L4 : forall z, lin (kdim k) n g4 (fU z) = volume k p * (Jp p * tr3 (Ly p z))).
    { intros z. rewrite <- (tr3_ext _ _ (SP z)). rewrite <- (lin_trace k n mp (fU z)). cbn [grd toMx]. unfold lin. rewrite <- !sumf_scal. apply sumf_ext. intros a _. rewrite <- !sumf_scal. apply sumf_ext. intros i Hi.
      unfold g4. rewrite EW. cbn [pG pN mp]. destruct k; cbn [isAxi andb] in *; try ring. unfold kron. destruct (i =? 1)%nat; cbn [andb]; ring. }
    rewrite !L4.
    rewrite (rank_small m (fun i j => aTT st i j + kttAdd (iPhi p) (D 7%nat 7%nat / (thp p * thp p)) i j) (aTT st) (D 7%nat 7%nat / (thp p * thp p)) (iPhi p)) by (intros; unfold kttAdd; ring).
    rewrite (rank_small2 m (fun i j => aTP st i j + ktpAdd (iPhi p) (wgt0 k p) i j) (aTP st) (- wgt0 k p) (iPhi p)) by (intros; unfold ktpAdd; ring).
    fold (at2 m p (fT q)) (at2 m p (fT y)) (at2 m p (fP q)) (at2 m p (fP y)).
    rewrite (eD 7%nat 7%nat) by lia. unfold ptForm.
    rewrite (d7_split (Pp p) (Ly p q) (at2 m p (fT q) / thp p) (Ly p y) (at2 m p (fT y) / thp p)) by (apply projected_symm; intros a b Ha Hb; now apply (tmMajor _ _ _ HM)).
    unfold dV. rewrite EW. field. lra.
Qed.
End Pt.

(** ** The element *)
Section Element.
Variables (k : kind) (n m : nat) (stress : mxIn -> t3 -> t3) (tangent : mxIn -> t3 -> nat -> nat -> R) (isz : (nat -> R) -> bool).
Lemma work_trans N b0 b1 b2 v : work N b0 b2 v = work N b0 b1 v + work N b1 b2 v.
Proof. unfold work. rewrite <- sumf_plus. apply sumf_ext. intros. ring. Qed.
Lemma dsum_trans N M (A B C c : nat -> nat -> R) :
  sumf N (fun i => sumf M (fun j => (C i j - A i j) * c i j)) = sumf N (fun i => sumf M (fun j => (B i j - A i j) * c i j)) + sumf N (fun i => sumf M (fun j => (C i j - B i j) * c i j)).
Proof. rewrite <- sumf_plus. apply sumf_ext. intros i _. rewrite <- sumf_plus. apply sumf_ext. intros. ring. Qed.
Lemma dsum_trans3 N (A B C : nat -> nat -> R) q y :
  sumf N (fun i => sumf N (fun j => q i * (C i j - A i j) * y j)) = sumf N (fun i => sumf N (fun j => q i * (B i j - A i j) * y j)) + sumf N (fun i => sumf N (fun j => q i * (C i j - B i j) * y j)).
Proof. rewrite <- sumf_plus. apply sumf_ext. intros i _. rewrite <- sumf_plus. apply sumf_ext. intros. ring. Qed.
Lemma form_trans N s0 s1 s2 q y : tfForm N m s0 s2 q y = tfForm N m s0 s1 q y + tfForm N m s1 s2 q y.
Proof.
  unfold tfForm. rewrite (dsum_trans3 N (el (aUU s0)) (el (aUU s1)) (el (aUU s2))).
  rewrite (dsum_trans N m (el (aUT s0)) (el (aUT s1)) (el (aUT s2)) (fun i b => fU q i * fT y b + fT q b * fU y i)).
  rewrite (dsum_trans N m (el (aUP s0)) (el (aUP s1)) (el (aUP s2)) (fun i b => fU q i * fP y b + fP q b * fU y i)).
  rewrite (dsum_trans m m (aTT s0) (aTT s1) (aTT s2) (fun a b => fT q a * fT y b)).
  rewrite (dsum_trans m m (aTP s0) (aTP s1) (aTP s2) (fun a b => fT q a * fP y b + fP q b * fT y a)). ring.
Qed.
Lemma form_refl N s q y : tfForm N m s s q y = 0.
Proof.
  assert (H := form_trans N s s s q y). lra.
Qed.
Lemma tfWork_refl N s y : tfWork N m s s y = 0.
Proof. unfold tfWork, work. rewrite !sumf_0 by (intros; ring). ring. Qed.

Theorem tfElement_ok ps x : tfMaterial ps stress tangent -> soundTest k isz -> tfState k n m ps x -> (forall p, In p ps -> tfRegular k n m x p) ->
  forall st, tfDims k n m st -> exists st', tfElement k n m stress tangent isz ps (fU x) (fT x) (fP x) st = Ret st' /\ tfDims k n m st' /\
    (forall y, tfWork (kdim k * n) m st st' y = tfVariation k n m ps stress x y) /\
    forall q y, tfForm (kdim k * n) m st st' q y = sumL (fun p => ptForm k n m stress tangent x p q y) ps.
Proof.
  intros HM Hz [[Vn Va Vd] HT] HR.
  assert (HI : forall l, (forall p, In p l -> In p ps) -> forall st, tfDims k n m st -> exists st', tfElement k n m stress tangent isz l (fU x) (fT x) (fP x) st = Ret st' /\ tfDims k n m st' /\
    (forall y, tfWork (kdim k * n) m st st' y = sumL (fun p => ptWork k n m stress x p y) l) /\
    forall q y, tfForm (kdim k * n) m st st' q y = sumL (fun p => ptForm k n m stress tangent x p q y) l).
  { induction l as [|p l IH]; intros Hl st D.
    - exists st. split; [reflexivity|]. split; [exact D|]. split; [intros y; apply tfWork_refl|intros q y; apply form_refl].
    - cbn [tfElement]. assert (Ip : In p ps) by (apply Hl; now left).
      destruct (tfPt_ok k n m stress tangent isz ps x HM Hz p st Ip Vn (Va p Ip) (Vd p Ip) (HT p Ip) (HR p Ip) D) as [s1 [E1 [D1 [W1 F1]]]]. rewrite E1. cbn [bind].
      destruct (IH (fun q Hq => Hl q (or_intror Hq)) s1 D1) as [s2 [E2 [D2 [W2 F2]]]]. exists s2. split; [exact E2|]. split; [exact D2|]. split.
      + intros y. specialize (W1 y). specialize (W2 y). unfold tfWork in *. rewrite (work_trans _ (bU st) (bU s1) (bU s2)), (work_trans _ (bT st) (bT s1) (bT s2)), (work_trans _ (bP st) (bP s1) (bP s2)).
        change (sumL (fun p0 => ptWork k n m stress x p0 y) (p :: l)) with (ptWork k n m stress x p y + sumL (fun p0 => ptWork k n m stress x p0 y) l). lra.
      + intros q y. rewrite (form_trans _ st s1 s2), F1, F2. reflexivity. }
  intros st D. destruct (HI ps (fun p H => H) st D) as [s [E [D' [W F]]]]. exists s. split; [exact E|]. split; [exact D'|]. split; [|exact F].
  intros y. rewrite W. apply sumL_ext. intros p _. reflexivity.
Qed.

(** ** Derivatives *)
Lemma at2_move p f g t : at2 m p (moved f g t) = at2 m p f + t * at2 m p g.
Proof. unfold at2, moved. rewrite <- sumf_scal, <- sumf_plus. apply sumf_ext. intros. ring. Qed.
Lemma lin_derive (a b : R) : is_derive (fun t => a + t * b) 0 b.
Proof. auto_derive; [exact I|ring]. Qed.
Lemma vol_derive x y p : is_derive (fun t => volumeAt m p (movedF x y t)) 0 (at2 m p (fT y)).
Proof. apply (dext (fun t => volumeAt m p x + t * at2 m p (fT y))); [intros t; unfold volumeAt; cbn [fT movedF]; rewrite at2_move; ring|]. apply lin_derive. Qed.
Lemma prs_derive x y p : is_derive (fun t => pressureAt m p (movedF x y t)) 0 (at2 m p (fP y)).
Proof. apply (dext (fun t => pressureAt m p x + t * at2 m p (fP y))); [intros t; unfold pressureAt; cbn [fP movedF]; rewrite at2_move; ring|]. apply lin_derive. Qed.
Lemma movedF_0 x y : movedF x y 0 = x.
Proof. unfold movedF. rewrite !moved_0. now destruct x. Qed.

Theorem potential_derive ps W x y : tfState k n m ps x ->
  (forall p, In p ps -> stressOf (W p) (withVolume (volumeAt m p x) (deformation k n p (fU x))) (stress p (withVolume (volumeAt m p x) (deformation k n p (fU x))))) ->
  is_derive (fun t => tfPotential k n m ps W (movedF x y t)) 0 (tfVariation k n m ps stress x y).
Proof.
  intros [[Vn Va Vd] HT] HS. unfold tfPotential, tfVariation.
  apply (dsumLin (fun t p => volume k p * (W p (withVolume (volumeAt m p (movedF x y t)) (deformation k n p (moved (fU x) (fU y) t))) + pressureAt m p (movedF x y t) * (det3 (deformation k n p (moved (fU x) (fU y) t)) - volumeAt m p (movedF x y t))))).
  intros p Ip. apply dscal. pose proof (Vd p Ip) as HJ. pose proof (HT p Ip) as H0.
  pose proof (def_path k n p (fU x) (fU y) (Rgt_not_eq _ _ HJ)) as PF. fold (Lr k n p (fU x) (fU y)).
  change (Lv k n (fU x) (fU y) p) with (Lr k n p (fU x) (fU y)) in PF. set (L := Lr k n p (fU x) (fU y)) in *.
  pose proof (vol_derive x y p) as DT. pose proof (prs_derive x y p) as DP.
  pose proof (scaled_path _ L _ (fun t => volumeAt m p (movedF x y t)) (at2 m p (fT y)) PF HJ) as SC. cbv beta in SC. rewrite movedF_0 in SC. specialize (SC H0 DT).
  eapply dv; cycle 1.
  - apply dplus; [exact (HS p Ip _ _ SC)|]. apply dmult; [exact DP|]. apply (dplus _ (fun t => - volumeAt m p (movedF x y t))); [apply (det3_path _ _ _ PF)|].
    apply (@is_derive_opp _ _ (fun t => volumeAt m p (movedF x y t))). exact DT.
  - cbv beta. rewrite movedF_0, moved_0. rewrite det_withVolume by assumption. cbv [opp]. cbn [R_AbsRing AbsRing.AbelianGroup]. cbn.
    set (S := stress p _). unfold ddot3, tr3, kron. cbn. field. lra.
Qed.

Theorem variation_derive ps x y q : tfMaterial ps stress tangent -> tfState k n m ps x ->
  (forall p, In p ps -> tangentOf (stress p) (withVolume (volumeAt m p x) (deformation k n p (fU x))) (tangent p (withVolume (volumeAt m p x) (deformation k n p (fU x))))) ->
  is_derive (fun t => tfVariation k n m ps stress (movedF x y t) q) 0
    (sumL (fun p => ptForm k n m stress tangent x p q y + volume k p * thp m x p * hoopComp k (totp k n m stress x p) (Ly k n x p q) (Ly k n x p y)) ps).
Proof.
  intros HM [[Vn Va Vd] HT] HC. unfold tfVariation.
  eapply (dsumLin (fun t p => let F := deformation k n p (moved (fU x) (fU y) t) in let L := mul3 (dispGrad k n p (fU q)) (inv3 F) in
    let S := stress p (withVolume (volumeAt m p (movedF x y t)) F) in let th := volumeAt m p (movedF x y t) in let pr := pressureAt m p (movedF x y t) in
    volume k p * (th * ddot3 (fun i j => S i j - kron i j * (tr3 S / 3)) L + pr * (det3 F * tr3 L)
      + (tr3 S / 3 - pr) * at2 m p (fT q) + (det3 F - th) * at2 m p (fP q)))).
  intros p Ip. cbv zeta.
  pose proof (Vd p Ip) as HJ. pose proof (HT p Ip) as H0.
  pose proof (def_path k n p (fU x) (fU y) (Rgt_not_eq _ _ HJ)) as PF.
  change (Lv k n (fU x) (fU y) p) with (Ly k n x p y) in PF. set (L := Ly k n x p y) in *.
  pose proof (vol_derive x y p) as DT. pose proof (prs_derive x y p) as DP.
  pose proof (scaled_path _ L _ (fun t => volumeAt m p (movedF x y t)) (at2 m p (fT y)) PF HJ) as SC. cbv beta in SC. rewrite movedF_0 in SC. specialize (SC H0 DT).
  set (cv := fun t => withVolume (volumeAt m p (movedF x y t)) (deformation k n p (moved (fU x) (fU y) t))) in *.
  set (th := fun t => volumeAt m p (movedF x y t)) in *.
  set (T := fun t i j => det3 (cv t) * stress p (cv t) i j).
  set (Lq := fun t => mul3 (dispGrad k n p (fU q)) (inv3 (deformation k n p (moved (fU x) (fU y) t)))).
  assert (L0 : Lq 0 = Ly k n x p q) by (unfold Lq; rewrite moved_0; reflexivity).
  assert (c0 : cv 0 = withVolume (volumeAt m p x) (deformation k n p (fU x))) by (unfold cv; now rewrite movedF_0, moved_0).
  set (tau := at2 m p (fT y)) in *. set (pi := at2 m p (fP y)) in *.
  set (S := Sp k n m stress x p).
  assert (S0 : stress p (cv 0) = S) by (rewrite c0; reflexivity).
  assert (t0 : th 0 = thp m x p) by (unfold th; now rewrite movedF_0).
  set (RT := rate (Cp k n m tangent x p) S (volRate L (tau / thp m x p))).
  assert (DTt : forall i j, (1 <= i <= 3)%nat -> (1 <= j <= 3)%nat -> is_derive (fun t => T t i j) 0 (thp m x p * RT i j)).
  { intros i j Hi Hj. eapply dv; [|exact (HC p Ip _ _ SC i j Hi Hj)]. rewrite det_withVolume by assumption. reflexivity. }
  assert (DLq : forall i j, (1 <= i <= 3)%nat -> (1 <= j <= 3)%nat -> is_derive (fun t => Lq t i j) 0 (- mul3 (Ly k n x p q) L i j)).
  { intros i j Hi Hj. pose proof (inv3_path _ L _ (Rgt_not_eq _ _ HJ) PF) as D. unfold Lq. unfold mul3 at 1. eapply dv; cycle 1.
    - apply dplus; [apply dplus|]; apply dscal; apply D; lia.
    - cbv beta. unfold Ly, Lr, mul3. ring. }
  assert (T0 : forall i j, T 0 i j = thp m x p * S i j) by (intros i j; unfold T; rewrite S0, c0, det_withVolume by assumption; reflexivity).
  assert (DJ := det3_path _ _ _ PF).
  (* pieces *)
  pose proof (ddot3_derive (fun t => dev (T t)) Lq (dev (fun i j => thp m x p * RT i j)) (fun i j => - mul3 (Ly k n x p q) L i j)
    (fun i j Hi Hj => dev_derive T _ i j DTt Hi Hj) DLq) as D1.
  pose proof (dmult _ _ 0 _ _ DP (dmult _ _ 0 _ _ DJ (tr3_derive Lq _ DLq))) as D2.
  assert (D3 : is_derive (fun t => tr3 (T t) / 3 * / th t) 0 (tr3 RT / 3 - tr3 S / 3 * (tau / thp m x p))).
  { eapply dv; cycle 1.
    - apply (dmult (fun t => tr3 (T t) / 3) (fun t => / th t)); [apply (dscal_r _ (/ 3)); apply (tr3_derive T _ DTt)|].
      apply (is_derive_inv th); [exact DT|]. rewrite t0. unfold thp. lra.
    - cbv beta. rewrite t0. unfold tr3. rewrite !T0. cbn. field. unfold thp. lra. }
  assert (TD : is_derive (fun t => ddot3 (dev (T t)) (Lq t) + pressureAt m p (movedF x y t) * (det3 (deformation k n p (moved (fU x) (fU y) t)) * tr3 (Lq t))
     + (tr3 (T t) / 3 * / th t + - pressureAt m p (movedF x y t)) * at2 m p (fT q) + (det3 (deformation k n p (moved (fU x) (fU y) t)) + - th t) * at2 m p (fP q)) 0
     (thp m x p * (ddot3 (dev RT) (Ly k n x p q) - ddot3 (dev S) (mul3 (Ly k n x p q) L) + prp m x p * Jp k n x p / thp m x p * (tr3 L * tr3 (Ly k n x p q) - tr3 (mul3 (Ly k n x p q) L))
        + (tr3 RT / 3 - tr3 S / 3 * (tau / thp m x p)) * (at2 m p (fT q) / thp m x p))
      + (Jp k n x p * tr3 (Ly k n x p q) * pi + Jp k n x p * tr3 L * at2 m p (fP q) - (at2 m p (fT q) * pi + at2 m p (fP q) * tau)))).
  { eapply dv; cycle 1.
    - apply dplus; [apply dplus; [apply dplus; [exact D1|exact D2]|]|].
      + apply dscal_r. apply dplus; [exact D3|]. apply (@is_derive_opp _ _ (fun t => pressureAt m p (movedF x y t))). exact DP.
      + apply dscal_r. apply dplus; [exact DJ|]. apply (@is_derive_opp _ _ th). exact DT.
    - cbv beta. rewrite L0, movedF_0, moved_0. fold (Fp k n x p). fold (Jp k n x p) (prp m x p).
      cbv [opp]. cbn [R_AbsRing AbsRing.AbelianGroup]. cbn [AbelianGroup.opp R_AbelianGroup AbelianGroup.class].
      assert (N0 : thp m x p <> 0) by (unfold thp; lra). revert N0 T0. generalize (thp m x p) (Jp k n x p) (prp m x p). intros a b c N0 T0.
      set (LL := mul3 (Ly k n x p q) L). clearbody LL. set (Q := Ly k n x p q). clearbody Q. clearbody RT S L. unfold ddot3, dev, tr3. rewrite !T0. cbn. field. exact N0. }
  eapply dv; cycle 1.
  - apply dscal. eapply dext_loc; [|exact TD].
    assert (LP : locally 0 (fun t => 0 < th t /\ 0 < det3 (deformation k n p (moved (fU x) (fU y) t)))).
    { apply (filter_and (fun t => 0 < th t)); [apply (locally_pos th tau DT); rewrite t0; exact H0|].
      apply (locally_pos _ _ DJ). rewrite moved_0. exact HJ. }
    revert LP. apply filter_imp. intros t [A1 A2].
    assert (dC : det3 (cv t) = th t) by (apply det_withVolume; assumption).
    unfold T. rewrite dC. fold (Lq t). fold (cv t). fold (th t). unfold ddot3, dev, tr3. field. lra.
  - cbv beta. unfold RT, L. rewrite (point_identity (Cp k n m tangent x p) S (Ly k n x p q) (Ly k n x p y) (at2 m p (fT q) / thp m x p) (tau / thp m x p) (prp m x p * Jp k n x p / thp m x p)).
    + unfold ptForm. fold tau pi S. unfold Pp. fold S. change (fun i j => S i j + kron i j * (prp m x p * Jp k n x p / thp m x p - tr3 S / 3)) with (totp k n m stress x p). ring.
    + unfold sym3, S, Sp. repeat split; apply (tmSym _ _ _ HM); (exact Ip || lia).
Qed.
End Element.
