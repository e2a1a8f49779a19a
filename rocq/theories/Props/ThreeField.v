(** C134: the three-field element (displacements, volume change, pressure). *)
From Coquelicot Require Import Coquelicot.
From Verif Require Import Lib.Base Lib.Sums Lib.Writes Lib.Tensor3 Model.Continuum Model.Mixed Model.MxElement Model.NlElement Model.ThreeField
  Spec.Continuum Spec.Mixed Spec.MxElement Spec.NlElement Spec.ThreeField
  Proofs.ContinuumK Proofs.ContinuumAxi Proofs.Mixed Proofs.Mixed2 Proofs.Mixed3 Proofs.MxPure Proofs.MxList Proofs.MxPoint Proofs.MxElement Proofs.NlPure Proofs.NlPoint Proofs.NlElement Proofs.NlMaterial Proofs.ThreeField Props.MxElement.
Open Scope R_scope.

(** The unbalanced forces are the derivatives of the potential, where the points are strained or in the stress-free state. *)
Theorem C134_forces_partial k n m ps stress tangent isz W x y st :
  tfMaterial ps stress tangent -> soundTest k isz -> tfState k n m ps x -> (forall p, In p ps -> tfRegular k n m x p) -> tfDims k n m st ->
  (forall p X, In p ps -> 0 < det3 X -> stressOf (W p) X (stress p X)) ->
  exists st', tfElement k n m stress tangent isz ps (fU x) (fT x) (fP x) st = Ret st' /\
    is_derive (fun t => tfPotential k n m ps W (movedF x y t)) 0 (tfWork (kdim k * n) m st st' y).
Proof.
  intros HM Hz HS HR HD HW. destruct (tfElement_ok k n m stress tangent isz ps x HM Hz HS HR st HD) as [st' [E [_ [Wk _]]]].
  exists st'. split; [exact E|]. rewrite Wk. apply potential_derive; [exact HS|]. intros p Ip. apply HW; [exact Ip|].
  destruct HS as [[_ _ Vd] HT]. rewrite det_withVolume by auto. now apply HT.
Qed.

Lemma hoop_terms k n m ps stress x q y : tfState k n m ps x ->
  sumL (fun p => volume k p * thp m x p * hoopComp k (totp k n m stress x p) (Ly k n x p q) (Ly k n x p y)) ps
  = hoopCompression k n ps (tfStress k n m stress x) (fun p => volumeAt m p x) (fU x) (fU q) (fU y).
Proof.
  intros [V _]. unfold hoopCompression. destruct (isAxi k) eqn:A.
  - apply sumL_ext. intros p Ip. unfold hoopComp. rewrite A. destruct k; try discriminate. unfold Ly.
    rewrite !hoop_rate by (apply (vsAxis _ _ _ _ V p Ip eq_refl) || apply (vsVolume _ _ _ _ V p Ip)). unfold totp, thp. unfold Rmin. generalize (tfStress Axi n m stress x p 3%nat 3%nat). intros s.
    destruct (Rlt_dec 0 s), (Rle_dec 0 s); try lra; try ring. replace s with 0 by lra. ring.
  - induction ps as [|p l IH]; [reflexivity|]. change (volume k p * thp m x p * hoopComp k (totp k n m stress x p) (Ly k n x p q) (Ly k n x p y) + sumL (fun p => volume k p * thp m x p * hoopComp k (totp k n m stress x p) (Ly k n x p q) (Ly k n x p y)) l = 0).
    rewrite IH by (destruct V as [a b c]; constructor; [exact a|intros; apply b; [now right|assumption]|intros; apply c; now right]). unfold hoopComp. rewrite A. ring.
Qed.

(** The Newton matrix: second variation of the potential, without the hoop compression; in particular at the stress-free state. *)
Theorem C134_second_variation_partial k n m ps stress tangent isz x q y st :
  tfMaterial ps stress tangent -> soundTest k isz -> tfState k n m ps x -> (forall p, In p ps -> tfRegular k n m x p) -> tfDims k n m st ->
  (forall p X, In p ps -> 0 < det3 X -> tangentOf (stress p) X (tangent p X)) ->
  exists st', tfElement k n m stress tangent isz ps (fU x) (fT x) (fP x) st = Ret st' /\
    is_derive (fun t => tfVariation k n m ps stress (movedF x y t) q) 0
      (tfForm (kdim k * n) m st st' q y + hoopCompression k n ps (tfStress k n m stress x) (fun p => volumeAt m p x) (fU x) (fU q) (fU y)).
Proof.
  intros HM Hz HS HR HD HC. destruct (tfElement_ok k n m stress tangent isz ps x HM Hz HS HR st HD) as [st' [E [_ [_ Fm]]]].
  exists st'. split; [exact E|]. rewrite Fm, <- hoop_terms by exact HS. rewrite <- sumL_plus. apply variation_derive; [exact HM|exact HS|].
  intros p Ip. apply HC; [exact Ip|]. destruct HS as [[_ _ Vd] HT]. rewrite det_withVolume by auto. now apply HT.
Qed.

Lemma state_near k n m ps x y : tfState k n m ps x -> locally 0 (fun t => tfState k n m ps (movedF x y t)).
Proof.
  intros [V HT].
  assert (A : locally 0 (fun t => forall p, In p ps -> 0 < volumeAt m p (movedF x y t))).
  { apply locally_all. intros p Ip. apply (locally_pos _ _ (vol_derive m x y p)). rewrite movedF_0. now apply HT. }
  generalize (filter_and _ _ (valid_near k n ps (fU x) (fU y) V) A). apply filter_imp. intros t [B C]. constructor; assumption.
Qed.
(** The matrix is the derivative of the unbalanced forces along every change of the three fields, for strained points. *)
Theorem C134_tangent_partial k n m ps stress tangent isz x q y st :
  tfMaterial ps stress tangent -> soundTest k isz -> tfState k n m ps x -> (forall p, In p ps -> strained k (deformation k n p (fU x))) -> tfDims k n m st ->
  (forall p X, In p ps -> 0 < det3 X -> tangentOf (stress p) X (tangent p X)) ->
  exists st' f, tfElement k n m stress tangent isz ps (fU x) (fT x) (fP x) st = Ret st' /\
    locally 0 (fun t => exists s1, tfElement k n m stress tangent isz ps (fU (movedF x y t)) (fT (movedF x y t)) (fP (movedF x y t)) st = Ret s1 /\ tfWork (kdim k * n) m st s1 q = f t) /\
    is_derive f 0 (tfForm (kdim k * n) m st st' q y + hoopCompression k n ps (tfStress k n m stress x) (fun p => volumeAt m p x) (fU x) (fU q) (fU y)).
Proof.
  intros HM Hz HS HR HD HC.
  destruct (C134_second_variation_partial k n m ps stress tangent isz x q y st HM Hz HS (fun p Ip => or_introl (HR p Ip)) HD HC) as [st' [E D]].
  exists st', (fun t => tfVariation k n m ps stress (movedF x y t) q). split; [exact E|]. split; [|exact D].
  assert (SN : locally 0 (fun t => forall p, In p ps -> strained k (deformation k n p (moved (fU x) (fU y) t)))) by (apply locally_all; intros p Ip; apply strained_near, HR; exact Ip).
  generalize (filter_and _ _ (state_near k n m ps x y HS) SN). apply filter_imp. intros t [A B].
  destruct (tfElement_ok k n m stress tangent isz ps (movedF x y t) HM Hz A (fun p Ip => or_introl (B p Ip)) st HD) as [s1 [E1 [_ [W1 _]]]].
  exists s1. split; [exact E1|]. apply W1.
Qed.
(** Solids and plane strain: nothing is left out. *)
Theorem C134_tangent_solid_partial k n m ps stress tangent isz x q y st : k <> Axi ->
  tfMaterial ps stress tangent -> soundTest k isz -> tfState k n m ps x -> (forall p, In p ps -> strained k (deformation k n p (fU x))) -> tfDims k n m st ->
  (forall p X, In p ps -> 0 < det3 X -> tangentOf (stress p) X (tangent p X)) ->
  exists st' f, tfElement k n m stress tangent isz ps (fU x) (fT x) (fP x) st = Ret st' /\
    locally 0 (fun t => exists s1, tfElement k n m stress tangent isz ps (fU (movedF x y t)) (fT (movedF x y t)) (fP (movedF x y t)) st = Ret s1 /\ tfWork (kdim k * n) m st s1 q = f t) /\
    is_derive f 0 (tfForm (kdim k * n) m st st' q y).
Proof.
  intros Hk HM Hz HS HR HD HC. destruct (C134_tangent_partial k n m ps stress tangent isz x q y st HM Hz HS HR HD HC) as [st' [f [E [L D]]]].
  exists st', f. split; [exact E|]. split; [exact L|]. unfold hoopCompression in D. replace (isAxi k) with false in D by (destruct k; [reflexivity|reflexivity|contradiction]). rewrite Rplus_0_r in D. exact D.
Qed.

(** ** The two-point ring of C113 and the material with energy (J-1)^2/2 *)
Definition tf0 : tfMats := mkTf (zeros 8 8) (zeros 8 1) (zeros 8 1) (fun _ _ => 0) (fun _ _ => 0) (fun _ => 0) (fun _ => 0) (fun _ => 0).
Lemma tf0_dims k : k <> Solid -> tfDims k 4 1 tf0.
Proof. intros H. unfold tfDims. destruct k; [contradiction| |]; cbn; auto 10. Qed.
Lemma vol_tf ps : tfMaterial ps volStress volTangent.
Proof.
  constructor.
  - intros p X Y _ E i j _ _. unfold volStress. rewrite (det3_ext _ _ E). reflexivity.
  - intros p X i j _ _ _. unfold volStress, kron. now rewrite Nat.eqb_sym.
  - intros p X i j _ I0 P _ _. unfold volStress. rewrite iso_det by assumption. ring.
  - intros p X Y i j _ E. unfold volTangent. rewrite (det3_ext _ _ E). reflexivity.
  - intros p X i j _ Hi Hj. unfold volTangent, twoI0. rewrite (Nat.eqb_sym i j). destruct (Nat.eqb_spec j i) as [->|_]; ring.
Qed.
(** Both radii moved by [a], the upper nodes by [b]. *)
Definition squeeze (a b : R) (i : nat) : R := if Nat.odd i then a else if (i =? 6)%nat || (i =? 8)%nat then b else 0.
Lemma ring_sq x i a b : x <> 0 -> det3 (deformation Axi 4 (ringPt x i) (squeeze a b)) = (1 + b) * (1 + a / x).
Proof. intros N. unfold deformation, dispGrad, gradient, interp, det3, kron, squeeze, ringPt. destruct i; cbn; field; exact N. Qed.
Lemma ring_strained x i a b : b <> 0 -> 0 < 1 + b -> strained Axi (deformation Axi 4 (ringPt x i) (squeeze a b)).
Proof.
  intros N P H. specialize (H 2%nat 2%nat ltac:(cbn; lia) ltac:(cbn; lia)). revert H. unfold cauchyGreen, deformation, dispGrad, gradient, squeeze, ringPt, kron. destruct i; cbn; intros H; nra.
Qed.
Lemma ring_state a b c d : 0 < 1 + b -> -1/2 <= a -> -1 < c -> tfState Axi 4 1 ring2 (mkF (squeeze a b) (fun _ => c) (fun _ => d)).
Proof.
  intros B A C. pose proof epsR_lt1 as E. assert (EH : epsR < / 2) by (unfold epsR in *; lra). constructor.
  - constructor; [lia| |].
    + intros p [<-|[<-|[]]] _; unfold interp, squeeze; cbn; lra.
    + intros p [<-|[<-|[]]]; cbn [fU]; rewrite ring_sq by lra; apply Rmult_lt_0_compat; lra.
  - intros p [<-|[<-|[]]]; unfold volumeAt, at2; cbn; lra.
Qed.

Example C134_forces_used : exists st', tfElement Axi 4 1 volStress volTangent (exactZero Axi) ring2 (squeeze (- / 2) 1) (fun _ => - 3 / 8) (fun _ => - 3 / 8) tf0 = Ret st' /\
  is_derive (fun t => tfPotential Axi 4 1 ring2 volEnergy (movedF (mkF (squeeze (- / 2) 1) (fun _ => - 3 / 8) (fun _ => - 3 / 8)) (mkF (squeeze 1 0) (fun _ => 1) (fun _ => 2)) t)) 0
    (tfWork 8 1 tf0 st' (mkF (squeeze 1 0) (fun _ => 1) (fun _ => 2))).
Proof.
  apply (C134_forces_partial Axi 4 1 ring2 volStress volTangent (exactZero Axi) volEnergy (mkF (squeeze (- / 2) 1) (fun _ => - 3 / 8) (fun _ => - 3 / 8))).
  - apply vol_tf.
  - apply exact_sound.
  - apply ring_state; lra.
  - intros p [<-|[<-|[]]]; left; apply ring_strained; lra.
  - apply tf0_dims. discriminate.
  - intros p X _ _. apply vol_stressOf.
Qed.
(** The stress-free state is regular. *)
Example C134_second_variation_used : exists st', tfElement Axi 4 1 volStress volTangent (exactZero Axi) ring2 (squeeze 0 0) (fun _ => 0) (fun _ => 0) tf0 = Ret st' /\
  is_derive (fun t => tfVariation Axi 4 1 ring2 volStress (movedF (mkF (squeeze 0 0) (fun _ => 0) (fun _ => 0)) (mkF (squeeze 1 1) (fun _ => 1) (fun _ => 2)) t) (mkF (squeeze 1 0) (fun _ => 1) (fun _ => 0))) 0
    (tfForm 8 1 tf0 st' (mkF (squeeze 1 0) (fun _ => 1) (fun _ => 0)) (mkF (squeeze 1 1) (fun _ => 1) (fun _ => 2))
     + hoopCompression Axi 4 ring2 (tfStress Axi 4 1 volStress (mkF (squeeze 0 0) (fun _ => 0) (fun _ => 0))) (fun p => volumeAt 1 p (mkF (squeeze 0 0) (fun _ => 0) (fun _ => 0))) (squeeze 0 0) (squeeze 1 0) (squeeze 1 1)).
Proof.
  apply (C134_second_variation_partial Axi 4 1 ring2 volStress volTangent (exactZero Axi) (mkF (squeeze 0 0) (fun _ => 0) (fun _ => 0))).
  - apply vol_tf.
  - apply exact_sound.
  - apply ring_state; lra.
  - intros p Ip. right. split; [|split].
    + apply (iso_ext 3 kron); [lia| |apply iso3_kron]. intros i j Hi Hj. cbn [fU]. unfold deformation, dispGrad, gradient, interp, squeeze.
      destruct Ip as [<-|[<-|[]]]; idx i; idx j; unfold kron; cbn; field.
    + destruct Ip as [<-|[<-|[]]]; unfold volumeAt, at2; cbn; ring.
    + destruct Ip as [<-|[<-|[]]]; unfold pressureAt, at2; cbn; ring.
  - apply tf0_dims. discriminate.
  - intros p X _ _. apply vol_tangentOf.
Qed.

(** The ring widened without change of its section: the in-plane strains vanish, the forces are left out. *)
Theorem C134_forces_refuted : exists n m ps stress tangent isz W x y st st',
  tfMaterial ps stress tangent /\ soundTest Axi isz /\ tfState Axi n m ps x /\ tfDims Axi n m st /\
  (forall p X, In p ps -> 0 < det3 X -> stressOf (W p) X (stress p X)) /\
  tfElement Axi n m stress tangent isz ps (fU x) (fT x) (fP x) st = Ret st' /\
  ~ is_derive (fun t => tfPotential Axi n m ps W (movedF x y t)) 0 (tfWork (kdim Axi * n) m st st' y).
Proof.
  set (x := mkF (squeeze 1 0) (fun _ => 0) (fun _ => 0)). set (y := mkF (fun _ => 0) (fun _ => 0) (fun _ => 1)).
  assert (HS : tfState Axi 4 1 ring2 x) by (apply ring_state; lra).
  assert (T : forall st, rows (aUU st) = 8%nat -> cols (aUU st) = 8%nat -> tfDims Axi 4 1 st -> forall p, In p ring2 -> exists st', tfPt Axi 4 1 volStress volTangent (exactZero Axi) p (fU x) (fT x) (fP x) st = Ret st' /\ tfDims Axi 4 1 st' /\ bP st' 1%nat = bP st 1%nat).
  { intros st _ _ (D1 & D2 & D3 & D4 & D5 & D6) p Ip. destruct HS as [[Vn Va Vd] _].
    destruct (kinUL_ok Axi 4 p (fU x) Vn (fun A => proj1 (Va p Ip A))) as [F0 [E0 [EK [_ eE]]]].
    destruct (push_ok Axi 4 (fun _ => false) p (fU x) Vn (fun A => proj1 (Va p Ip A)) (Vd p Ip) ltac:(discriminate)) as [c [Ec _]].
    unfold tfPt. rewrite EK. cbn [bind snd]. rewrite Ec. cbn [bind].
    assert (Z : exactZero Axi (fun r => el E0 r 1) = true).
    { apply exactZero_iff. intros r Hr. rewrite eE by exact Hr. revert r Hr. apply strain_zero. intros i j Hi Hj. cbn [kdim] in *.
      unfold cauchyGreen, deformation, dispGrad, gradient, x, squeeze, kron. cbn [fU]. destruct Ip as [<-|[<-|[]]]; idx i; try lia; idx j; try lia; cbn; field. }
    rewrite Z. cbn [negb bind].
    match goal with |- context [accKMx2 ?h ?n ?a ?b ?s ?d ?K] => destruct (accKMx2_ok h n a b s d K D1 D2) as [K2 [E2 [r2 [c2 _]]]] end. rewrite E2. cbn [bind].
    match goal with |- context [run_add (aUT st) (kutWrites ?d ?h ?n1 ?n2 ?Nr ?G ?N2 ?D7)] => destruct (kut_ok d h n1 n2 Nr G N2 D7 (aUT st) ltac:(cbn; auto) D3 D4) as [K3 [E3 [r3 [c3 _]]]] end. rewrite E3. cbn [bind].
    match goal with |- context [run_add (aUP st) (kupWrites ?d ?h ?n1 ?n2 ?Nr ?G ?N2 ?dV)] => destruct (kup_ok d h n1 n2 Nr G N2 dV (aUP st) ltac:(cbn; lia) D5 D6) as [K4 [E4 [r4 [c4 _]]]] end. rewrite E4. cbn [bind].
    eexists. split; [reflexivity|]. split; [unfold tfDims; cbn [aUU aUT aUP]; repeat split; congruence|]. cbn [bP]. unfold rpAdd. ring. }
  pose proof (tf0_dims Axi ltac:(discriminate)) as D0.
  destruct (T tf0 eq_refl eq_refl D0 (ringPt 1 false) (or_introl eq_refl)) as [s1 [E1 [D1 B1]]].
  destruct (T s1 (proj1 D1) (proj1 (proj2 D1)) D1 (ringPt 2 true) (or_intror (or_introl eq_refl))) as [s2 [E2 [D2 B2]]].
  exists 4%nat, 1%nat, ring2, volStress, volTangent, (exactZero Axi), volEnergy, x, y, tf0, s2.
  split; [apply vol_tf|]. split; [apply exact_sound|]. split; [exact HS|]. split; [exact D0|]. split; [intros; apply vol_stressOf|].
  split; [cbn [tfElement ring2]; rewrite E1; cbn [bind]; rewrite E2; reflexivity|].
  intros C. assert (D : is_derive (fun t => tfPotential Axi 4 1 ring2 volEnergy (movedF x y t)) 0 (tfVariation Axi 4 1 ring2 volStress x y)) by (apply potential_derive; [exact HS|intros; apply vol_stressOf]).
  pose proof (is_derive_unique _ _ _ D) as U1. pose proof (is_derive_unique _ _ _ C) as U2. rewrite U1 in U2.
  assert (W0 : tfWork (kdim Axi * 4) 1 tf0 s2 y = 0).
  { unfold tfWork, work. cbn [fU fT fP y]. rewrite (sumf_0 (kdim Axi * 4)) by (intros; ring). cbn [sumf]. rewrite B2, B1. cbn. ring. }
  rewrite W0 in U2.
  assert (V : tfVariation Axi 4 1 ring2 volStress x y = 3 / 2).
  { unfold tfVariation. rewrite (sumL_ext _ (fun p => det3 (deformation Axi 4 p (fU x)) - 1)).
    - unfold sumL, ring2. cbn [fold_right fU x]. rewrite !ring_sq by lra. field.
    - intros p Ip. cbv zeta. rewrite ring_volume by exact Ip.
      assert (LZ : forall i j, mul3 (dispGrad Axi 4 p (fU y)) (inv3 (deformation Axi 4 p (fU x))) i j = 0).
      { intros i j. unfold mul3. assert (G : forall a, dispGrad Axi 4 p (fU y) i a = 0).
        { intros a. unfold dispGrad, gradient, interp. cbn [fU y kdim]. rewrite !sumf_0 by (intros; ring). destruct (_ && _)%bool; [reflexivity|]. destruct (_ && _)%bool; [unfold Rdiv; ring|reflexivity]. }
        rewrite !G. ring. }
      unfold ddot3, tr3 at 2 3 4. rewrite !LZ.
      assert (A0 : pressureAt 1 p x = 0) by (unfold pressureAt, at2; cbn; ring). assert (A1 : volumeAt 1 p x = 1) by (unfold volumeAt, at2; cbn; ring).
      assert (A2 : at2 1 p (fT y) = 0) by (unfold at2; cbn; ring). assert (A3 : at2 1 p (fP y) = 1) by (unfold at2; destruct Ip as [<-|[<-|[]]]; cbn; ring).
      rewrite A0, A1, A2, A3. ring. }
  lra.
Qed.

(** The ring compressed and stretched: the matrix misses the hoop compression. *)
Theorem C134_tangent_refuted : exists n m ps stress tangent isz x q y st st',
  tfMaterial ps stress tangent /\ soundTest Axi isz /\ tfState Axi n m ps x /\ (forall p, In p ps -> strained Axi (deformation Axi n p (fU x))) /\ tfDims Axi n m st /\
  (forall p X, In p ps -> 0 < det3 X -> tangentOf (stress p) X (tangent p X)) /\
  tfElement Axi n m stress tangent isz ps (fU x) (fT x) (fP x) st = Ret st' /\
  ~ exists f, locally 0 (fun t => exists s1, tfElement Axi n m stress tangent isz ps (fU (movedF x y t)) (fT (movedF x y t)) (fP (movedF x y t)) st = Ret s1 /\ tfWork (kdim Axi * n) m st s1 q = f t) /\
    is_derive f 0 (tfForm (kdim Axi * n) m st st' q y).
Proof.
  set (x := mkF (squeeze (- / 2) 1) (fun _ => - 3 / 8) (fun _ => - 3 / 8)). set (y := mkF (squeeze 1 0) (fun _ => 0) (fun _ => 0)).
  assert (HS : tfState Axi 4 1 ring2 x) by (apply ring_state; lra).
  assert (HN : forall p, In p ring2 -> strained Axi (deformation Axi 4 p (fU x))) by (intros p [<-|[<-|[]]]; apply ring_strained; lra).
  assert (TG : forall p X, In p ring2 -> 0 < det3 X -> tangentOf (volStress p) X (volTangent p X)) by (intros; apply vol_tangentOf).
  pose proof (tf0_dims Axi ltac:(discriminate)) as D0.
  destruct (C134_tangent_partial Axi 4 1 ring2 volStress volTangent (exactZero Axi) x y y tf0 (vol_tf _) (exact_sound _) HS HN D0 TG) as [st' [f [E [L D]]]].
  exists 4%nat, 1%nat, ring2, volStress, volTangent, (exactZero Axi), x, y, y, tf0, st'.
  split; [apply vol_tf|]. split; [apply exact_sound|]. split; [exact HS|]. split; [exact HN|]. split; [exact D0|]. split; [exact TG|]. split; [exact E|].
  intros [g [Lg Dg]].
  assert (EQ : locally 0 (fun t => g t = f t)).
  { generalize (filter_and _ _ L Lg). apply filter_imp. intros t [[b1 [e1 w1]] [b2 [e2 w2]]]. rewrite e1 in e2. injection e2 as <-. congruence. }
  assert (Df := dext_loc g f _ EQ Dg).
  pose proof (is_derive_unique _ _ _ D) as U1. pose proof (is_derive_unique _ _ _ Df) as U2. rewrite U1 in U2.
  set (HC := hoopCompression Axi 4 ring2 (tfStress Axi 4 1 volStress x) (fun p => volumeAt 1 p x) (fU x) (fU y) (fU y)) in *.
  assert (Z : HC = 0) by lra. unfold HC, hoopCompression in Z. cbn [isAxi] in Z.
  assert (N : forall p, In p ring2 -> volume Axi p * volumeAt 1 p x * Rmin 0 (tfStress Axi 4 1 volStress x p 3%nat 3%nat) * hoopRate 4 p (fU x) (fU y) * hoopRate 4 p (fU x) (fU y) < 0).
  { intros p Ip. rewrite ring_volume by exact Ip.
    assert (A1 : volumeAt 1 p x = 5 / 8) by (unfold volumeAt, at2; destruct Ip as [<-|[<-|[]]]; cbn; field).
    assert (A0 : pressureAt 1 p x = - 3 / 8) by (unfold pressureAt, at2; destruct Ip as [<-|[<-|[]]]; cbn; field).
    pose proof (vsVolume _ _ _ _ (tsDisp _ _ _ _ _ HS) p Ip) as JP.
    assert (M : tfStress Axi 4 1 volStress x p 3%nat 3%nat < 0).
    { unfold tfStress, mixedStress. rewrite A0, A1. set (J := det3 (deformation Axi 4 p (fU x))) in *. unfold volStress, tr3, kron. cbn [Nat.eqb]. rewrite det_withVolume by (lra || exact JP). lra. }
    rewrite Rmin_right by lra. rewrite A1.
    assert (HR : 0 < hoopRate 4 p (fU x) (fU y)).
    { unfold hoopRate, interp, x, y, squeeze. destruct Ip as [<-|[<-|[]]]; cbn; apply Rdiv_lt_0_compat; lra. }
    revert M HR. generalize (hoopRate 4 p (fU x) (fU y)) (tfStress Axi 4 1 volStress x p 3%nat 3%nat). intros h s M HR. assert (0 < h * h) by nra. nra. }
  pose proof (N _ (or_introl eq_refl)) as N1. pose proof (N _ (or_intror (or_introl eq_refl))) as N2. unfold sumL, ring2 in Z. cbn [fold_right] in Z. lra.
Qed.

Print Assumptions C134_forces_partial.
Print Assumptions C134_second_variation_partial.
Print Assumptions C134_tangent_partial.
Print Assumptions C134_tangent_solid_partial.
Print Assumptions C134_forces_refuted.
Print Assumptions C134_tangent_refuted.
