(** C113, C114: the mixed element with internal pressure modes. *)
From Coquelicot Require Import Coquelicot.
From Verif Require Import Lib.Base Lib.Sums Lib.Writes Lib.Tensor3 Model.Continuum Model.Mixed Model.MxElement Spec.Continuum Spec.Mixed Spec.MxElement
  Proofs.ContinuumK Proofs.ContinuumAxi Proofs.MxPure Proofs.MxList Proofs.MxElement.
Open Scope R_scope.

(** Forces returned by the element. *)
Definition forces (r : res (mat * (nat -> R))) : option (nat -> R) := match r with Ret s => Some (snd s) | _ => None end.

(** C113. *)
Theorem C113_mixed_forces k n m ps Hi stress tangent isz W u v th st :
  validInput k n m ps Hi -> validMaterial ps stress isz ->
  rows (fst st) = (kdim k * n)%nat -> cols (fst st) = (kdim k * n)%nat ->
  (forall p X, In p ps -> 0 < det3 X -> stressOf (W p) X (stress p X)) ->
  (forall t, projection k m ps (fun p => det3 (deformation k n p (moved u v t))) (th t)) ->
  (forall p, In p ps -> 0 < det3 (deformation k n p u) /\ 0 < th 0 p) ->
  exists st', mxElement k n m Hi stress tangent isz ps u st = Ret st' /\
    is_derive (fun t => mxEnergy k n ps W (th t) (moved u v t)) 0 (work (kdim k * n) (snd st) (snd st') v).
Proof. intros VI VM HR HC HW Hth Hp. exact (mx_energy k n m Hi stress tangent isz ps VI VM W u v th st HR HC Hth Hp HW). Qed.

Lemma stiffWork_bil N A q v : stiffWork N A q v = bil N A q v.
Proof. unfold stiffWork, bil, mv. apply sumf_ext. intros i _. rewrite <- sumf_scal. apply sumf_ext. intros j _. ring. Qed.

(** C114, all kinds: the derivative of the forces is the stiffness plus the hoop compression. *)
Theorem C114_mixed_tangent_partial k n m ps Hi stress tangent isz u q v th pr st :
  validInput k n m ps Hi -> validMaterial ps stress isz ->
  rows (fst st) = (kdim k * n)%nat -> cols (fst st) = (kdim k * n)%nat ->
  (forall p X, In p ps -> 0 < det3 X -> tangentOf (stress p) X (tangent p X)) ->
  projection k m ps (fun p => det3 (deformation k n p u)) th ->
  projection k m ps (fun p => tr3 (stress p (withVolume (th p) (deformation k n p u))) / 3) pr ->
  (forall p, In p ps -> 0 < det3 (deformation k n p u) /\ 0 < th p) ->
  exists st' f, mxElement k n m Hi stress tangent isz ps u st = Ret st' /\
    locally 0 (fun t => exists b1, forces (mxElement k n m Hi stress tangent isz ps (moved u v t) st) = Some b1 /\ work (kdim k * n) (snd st) b1 q = f t) /\
    is_derive f 0 (stiffWork (kdim k * n) (fun i j => el (fst st') i j - el (fst st) i j) q v
      + hoopCompression k n ps (fun p => mixedStress (stress p (withVolume (th p) (deformation k n p u))) (det3 (deformation k n p u)) (th p) (pr p)) th u q v).
Proof.
  intros VI VM HR HC HT Hth Hpr Hp.
  destruct (mx_tangent k n m Hi stress tangent isz ps VI VM u q v th pr st HR HC Hth Hpr Hp HT) as [st' [f [E [L D]]]].
  exists st', f. split; [exact E|]. split.
  - revert L. apply filter_imp. intros t [s1 [E1 W1]]. exists (snd s1). rewrite E1. split; [reflexivity|exact W1].
  - rewrite stiffWork_bil. exact D.
Qed.

(** Existence of the projection. *)
Lemma projection_exists k m ps Hi J : modesInverse k m ps Hi -> projection k m ps J (proj ps m iPhi Hi (fun h => volume k h * J h)).
Proof.
  intros HM. split.
  - exists (fun i => sumf m (fun j => Hi i j * sumL (fun h => volume k h * J h * iPhi h j) ps)). intros p _. reflexivity.
  - intros i Ii. set (r := fun j => sumL (fun h => volume k h * J h * iPhi h j) ps).
    transitivity (sumf m (fun l => sumL (fun p => volume k p * iPhi p i * iPhi p l) ps * sumf m (fun j => Hi l j * r j))).
    + unfold proj. fold r. rewrite (sumL_ext _ (fun p => sumf m (fun l => volume k p * iPhi p i * iPhi p l * sumf m (fun j => Hi l j * r j)))).
      * rewrite sumL_sumf_swap. apply sumf_ext. intros l _. symmetry. apply sumL_scal_r.
      * intros p _. rewrite <- sumf_scal. apply sumf_ext. intros l _. unfold r. ring.
    + transitivity (sumf m (fun j => kron j i * r j)).
      * transitivity (sumf m (fun l => sumf m (fun j => sumL (fun p => volume k p * iPhi p i * iPhi p l) ps * Hi l j * r j))).
        { apply sumf_ext. intros l _. rewrite <- sumf_scal. apply sumf_ext. intros. ring. }
        rewrite sumf_swap. apply sumf_ext. intros j Ij. rewrite sumf_scal_r, HM by assumption. unfold kron. rewrite Nat.eqb_sym. reflexivity.
      * rewrite (sumf_kron m i r) by exact Ii. unfold r. apply sumL_ext. intros. ring.
Qed.

(** C114, solids and plane strain: the stiffness is the derivative of the forces. *)
Theorem C114_mixed_tangent_solid_partial k n m ps Hi stress tangent isz u st :
  k <> Axi -> validInput k n m ps Hi -> validMaterial ps stress isz ->
  rows (fst st) = (kdim k * n)%nat -> cols (fst st) = (kdim k * n)%nat ->
  (forall p X, In p ps -> 0 < det3 X -> tangentOf (stress p) X (tangent p X)) ->
  (forall th, projection k m ps (fun p => det3 (deformation k n p u)) th -> forall p, In p ps -> 0 < det3 (deformation k n p u) /\ 0 < th p) ->
  exists st', mxElement k n m Hi stress tangent isz ps u st = Ret st' /\
    derivativeOf (kdim k * n) (fun x => forces (mxElement k n m Hi stress tangent isz ps x st)) (snd st) (fun i j => el (fst st') i j - el (fst st) i j) u.
Proof.
  intros Hk VI VM HR HC HT Hp. pose proof (viInverse _ _ _ _ _ VI) as HM.
  pose proof (projection_exists k m ps Hi (fun p => det3 (deformation k n p u)) HM) as Pth. set (th := proj _ _ _ _ _) in Pth.
  pose proof (projection_exists k m ps Hi (fun p => tr3 (stress p (withVolume (th p) (deformation k n p u))) / 3) HM) as Ppr. set (pr := proj _ _ _ _ _) in Ppr.
  assert (H : forall q v, _) by exact (fun q v => C114_mixed_tangent_partial k n m ps Hi stress tangent isz u q v th pr st VI VM HR HC HT Pth Ppr (Hp th Pth)).
  destruct (H u u) as [st' [f0 [E _]]]. exists st'. split; [exact E|]. intros q v. destruct (H q v) as [s2 [f [E2 [L D]]]].
  rewrite E in E2. injection E2 as <-. exists f. split; [exact L|]. unfold hoopCompression in D. replace (isAxi k) with false in D by (destruct k; [reflexivity|reflexivity|contradiction]).
  rewrite Rplus_0_r in D. exact D.
Qed.

(** ** A four-node ring between the radii 1 and 2 with two integration points, material with energy (J-1)^2/2 *)
Definition ringPt (x : R) (i : bool) : mxIn := mkIn
  (fun a => match a, i with 1%nat, false | 4%nat, false | 2%nat, true | 3%nat, true => / 2 | _, _ => 0 end)
  (fun a j => match a, j, i with
    | 1%nat, 1%nat, _ | 4%nat, 1%nat, _ => - / 2 | 2%nat, 1%nat, _ | 3%nat, 1%nat, _ => / 2
    | 1%nat, 2%nat, false | 2%nat, 2%nat, true => -1 | 4%nat, 2%nat, false | 3%nat, 2%nat, true => 1 | _, _, _ => 0 end)
  x (/ (2 * PI * x)) (fun _ => 1).
Definition ring2 : list mxIn := [ringPt 1 false; ringPt 2 true].
Definition volStress (_ : mxIn) (X : t3) : t3 := fun i j => kron i j * (det3 X - 1).
Definition volTangent (_ : mxIn) (X : t3) (r q : nat) : R := (2 * det3 X - 1) * (mvec r * mvec q) - (det3 X - 1) * twoI0 r q.
Definition volEnergy (_ : mxIn) (X : t3) : R := (det3 X - 1) ^ 2 / 2.
Definition neverZero (_ : t3) : bool := false.
Definition radial (c : R) (i : nat) : R := if Nat.odd i then c else 0.
Definition noLoad : mat * (nat -> R) := (zeros 8 8, fun _ => 0).

Lemma ring_volume p : In p ring2 -> volume Axi p = 1.
Proof. pose proof PI_RGT_0. intros [<-|[<-|[]]]; unfold volume, ringPt; cbn; field; lra. Qed.
Lemma ring_input : validInput Axi 4 1 ring2 (fun _ _ => / 2).
Proof.
  pose proof epsR_lt1. constructor.
  - lia.
  - intros p [<-|[<-|[]]] _; cbn; lra.
  - intros _ p [<-|[<-|[]]]; reflexivity.
  - intros i j Ii Ij. assert (i = 1%nat) by lia. assert (j = 1%nat) by lia. subst. cbn [sumf].
    rewrite (sumL_ext _ (fun _ => 1)) by (intros p Hp; rewrite ring_volume by exact Hp; destruct Hp as [<-|[<-|[]]]; cbn; ring).
    unfold sumL, ring2, kron. cbn. field.
Qed.
Lemma vol_material ps : validMaterial ps volStress neverZero.
Proof.
  constructor.
  - intros p X Y _ E i j _ _. unfold volStress. rewrite (det3_ext _ _ E). reflexivity.
  - intros p X i j _ _ _. unfold volStress, kron. now rewrite Nat.eqb_sym.
  - discriminate.
Qed.
Lemma vol_stressOf p X : stressOf (volEnergy p) X (volStress p X).
Proof.
  intros L c P. pose proof (det3_path X L c P) as D. pose proof (det3_ext _ _ (proj1 P)) as E0. unfold volEnergy.
  apply (dext (fun t => / 2 * ((det3 (c t) + -1) * (det3 (c t) + -1)))); [intros t; field|].
  assert (D1 : is_derive (fun t => det3 (c t) + -1) 0 (det3 X * tr3 L)).
  { eapply dv; cycle 1; [apply (dplus (fun t => det3 (c t)) (fun _ => -1)); [exact D|apply dconst]|]. ring. }
  eapply dv; cycle 1; [apply dscal; apply (dmult (fun t => det3 (c t) + -1) (fun t => det3 (c t) + -1)); exact D1|].
  cbv beta. rewrite E0. unfold volStress, ddot3, tr3, kron. cbn. field.
Qed.
Lemma vol_tangentOf p X : tangentOf (volStress p) X (volTangent p X).
Proof.
  intros L c P i j Ii Ij. pose proof (det3_path X L c P) as D. pose proof (det3_ext _ _ (proj1 P)) as E0. unfold volStress at 1.
  apply (dext (fun t => kron i j * (det3 (c t) * (det3 (c t) + -1)))); [intros t; ring|].
  assert (D1 : is_derive (fun t => det3 (c t) + -1) 0 (det3 X * tr3 L)).
  { eapply dv; cycle 1; [apply (dplus (fun t => det3 (c t)) (fun _ => -1)); [exact D|apply dconst]|]. ring. }
  eapply dv; cycle 1; [apply dscal; apply (dmult (fun t => det3 (c t)) (fun t => det3 (c t) + -1)); [exact D|exact D1]|].
  cbv beta. rewrite E0. unfold volTangent, volStress. generalize (det3 X). intros J.
  assert (A6 : apply6 (fun r q => (2 * J - 1) * (mvec r * mvec q) - (J - 1) * twoI0 r q) (sympart L) i j + mul3 L (fun a b => kron a b * (J - 1)) i j + mul3 (fun a b => kron a b * (J - 1)) (trn L) i j = kron i j * ((2 * J - 1) * tr3 L)).
  { unfold apply6, unvoigt, mv, mul3, trn, tr3, sympart, twoI0, mvec, kron. idx i; idx j; cbn; field. }
  change (kron i j * (J * tr3 L * (J + -1) + J * (J * tr3 L)) = J * (apply6 (fun r q => (2 * J - 1) * (mvec r * mvec q) - (J - 1) * twoI0 r q) (sympart L) i j + mul3 L (fun a b => kron a b * (J - 1)) i j + mul3 (fun a b => kron a b * (J - 1)) (trn L) i j)).
  rewrite A6. ring.
Qed.
Lemma ring_det x i c : x <> 0 -> det3 (deformation Axi 4 (ringPt x i) (radial c)) = 1 + c / x.
Proof. intros N. unfold deformation, dispGrad, gradient, interp, det3, kron, radial, ringPt. destruct i; cbn; field; exact N. Qed.
Lemma ring_projection J th : (forall p, In p ring2 -> th p = (J (ringPt 1 false) + J (ringPt 2 true)) / 2) -> projection Axi 1 ring2 J th.
Proof.
  intros H. split.
  - exists (fun _ => (J (ringPt 1 false) + J (ringPt 2 true)) / 2). intros p Ip. rewrite H by exact Ip. cbn [sumf]. destruct Ip as [<-|[<-|[]]]; cbn; ring.
  - intros i Ii. rewrite (sumL_ext _ (fun p => th p)), (sumL_ext (fun p => volume Axi p * iPhi p i * J p) (fun p => J p)).
    + rewrite (sumL_ext th (fun _ => (J (ringPt 1 false) + J (ringPt 2 true)) / 2)) by exact H. unfold sumL, ring2. cbn. field.
    + intros p Ip. rewrite ring_volume by exact Ip. destruct Ip as [<-|[<-|[]]]; cbn; ring.
    + intros p Ip. rewrite ring_volume by exact Ip. destruct Ip as [<-|[<-|[]]]; cbn; ring.
Qed.

(** The ring expanded by 1 at both radii: the point volumes 2 and 3/2 are replaced by 7/4. *)
Example C113_mixed_forces_used : exists st', mxElement Axi 4 1 (fun _ _ => / 2) volStress volTangent neverZero ring2 (radial 1) noLoad = Ret st' /\
  is_derive (fun t => mxEnergy Axi 4 ring2 volEnergy (fun _ => (det3 (deformation Axi 4 (ringPt 1 false) (moved (radial 1) (radial 1) t)) + det3 (deformation Axi 4 (ringPt 2 true) (moved (radial 1) (radial 1) t))) / 2)
    (moved (radial 1) (radial 1) t)) 0 (work 8 (fun _ => 0) (snd st') (radial 1)).
Proof.
  apply (C113_mixed_forces Axi 4 1 ring2 (fun _ _ => / 2) volStress volTangent neverZero volEnergy (radial 1) (radial 1)
    (fun t _ => (det3 (deformation Axi 4 (ringPt 1 false) (moved (radial 1) (radial 1) t)) + det3 (deformation Axi 4 (ringPt 2 true) (moved (radial 1) (radial 1) t))) / 2) noLoad).
  - exact ring_input.
  - apply vol_material.
  - reflexivity.
  - reflexivity.
  - intros p X _ _. apply vol_stressOf.
  - intros t. apply ring_projection. intros p _. reflexivity.
  - rewrite moved_0, !ring_det by lra. intros p [<-|[<-|[]]]; rewrite ring_det by lra; lra.
Qed.

(** The ring compressed by 1/2: the stiffness misses the hoop compression. *)
Theorem C114_mixed_tangent_refuted : exists n m ps Hi stress tangent isz u th st,
  validInput Axi n m ps Hi /\ validMaterial ps stress isz /\
  rows (fst st) = (kdim Axi * n)%nat /\ cols (fst st) = (kdim Axi * n)%nat /\
  (forall p X, In p ps -> 0 < det3 X -> tangentOf (stress p) X (tangent p X)) /\
  projection Axi m ps (fun p => det3 (deformation Axi n p u)) th /\
  (forall p, In p ps -> 0 < det3 (deformation Axi n p u) /\ 0 < th p) /\
  exists st', mxElement Axi n m Hi stress tangent isz ps u st = Ret st' /\
    ~ derivativeOf (kdim Axi * n) (fun x => forces (mxElement Axi n m Hi stress tangent isz ps x st)) (snd st) (fun i j => el (fst st') i j - el (fst st) i j) u.
Proof.
  exists 4%nat, 1%nat, ring2, (fun _ _ => / 2), volStress, volTangent, neverZero, (radial (- / 2)), (fun _ => 5 / 8), noLoad.
  assert (TG : forall p X, In p ring2 -> 0 < det3 X -> tangentOf (volStress p) X (volTangent p X)) by (intros; apply vol_tangentOf).
  assert (PT : projection Axi 1 ring2 (fun p => det3 (deformation Axi 4 p (radial (- / 2)))) (fun _ => 5 / 8)).
  { apply ring_projection. intros p _. rewrite !ring_det by lra. field. }
  assert (PO : forall p, In p ring2 -> 0 < det3 (deformation Axi 4 p (radial (- / 2))) /\ 0 < 5 / 8).
  { intros p [<-|[<-|[]]]; rewrite ring_det by lra; lra. }
  assert (SV : forall p, In p ring2 -> forall i j, volStress p (withVolume (5 / 8) (deformation Axi 4 p (radial (- / 2)))) i j = kron i j * (- 3 / 8)).
  { intros p Ip i j. unfold volStress. rewrite det_withVolume; [f_equal; lra|lra|apply PO; exact Ip]. }
  assert (PP : projection Axi 1 ring2 (fun p => tr3 (volStress p (withVolume (5 / 8) (deformation Axi 4 p (radial (- / 2))))) / 3) (fun _ => - 3 / 8)).
  { apply ring_projection. intros p _. unfold tr3. rewrite !SV by (cbn; tauto). unfold kron. cbn. field. }
  split; [exact ring_input|]. split; [apply vol_material|]. split; [reflexivity|]. split; [reflexivity|]. split; [exact TG|]. split; [exact PT|]. split; [exact PO|].
  destruct (C114_mixed_tangent_partial Axi 4 1 ring2 (fun _ _ => / 2) volStress volTangent neverZero (radial (- / 2)) (radial 1) (radial 1) (fun _ => 5 / 8) (fun _ => - 3 / 8) noLoad
    ring_input (vol_material _) eq_refl eq_refl TG PT PP PO) as [st' [f [E [L D]]]].
  exists st'. split; [exact E|]. intros DO. destruct (DO (radial 1) (radial 1)) as [g [Lg Dg]].
  assert (EQ : locally 0 (fun t => g t = f t)).
  { generalize (filter_and _ _ L Lg). apply filter_imp. intros t [[b1 [e1 w1]] [b2 [e2 w2]]]. rewrite e1 in e2. injection e2 as <-. cbn [kdim] in *. congruence. }
  assert (Df := dext_loc g f _ EQ Dg).
  pose proof (is_derive_unique _ _ _ D) as U1. pose proof (is_derive_unique _ _ _ Df) as U2. rewrite U1 in U2.
  assert (Z : hoopCompression Axi 4 ring2 (fun p => mixedStress (volStress p (withVolume (5 / 8) (deformation Axi 4 p (radial (- / 2))))) (det3 (deformation Axi 4 p (radial (- / 2)))) (5 / 8) (- 3 / 8)) (fun _ => 5 / 8) (radial (- / 2)) (radial 1) (radial 1) = 0) by lra.
  unfold hoopCompression in Z. cbn [isAxi] in Z.
  assert (N : forall p, In p ring2 -> volume Axi p * (5 / 8) * Rmin 0 (mixedStress (volStress p (withVolume (5 / 8) (deformation Axi 4 p (radial (- / 2))))) (det3 (deformation Axi 4 p (radial (- / 2)))) (5 / 8) (- 3 / 8) 3%nat 3%nat)
    * hoopRate 4 p (radial (- / 2)) (radial 1) * hoopRate 4 p (radial (- / 2)) (radial 1) < 0).
  { intros p Ip. rewrite ring_volume by exact Ip.
    assert (M : mixedStress (volStress p (withVolume (5 / 8) (deformation Axi 4 p (radial (- / 2))))) (det3 (deformation Axi 4 p (radial (- / 2)))) (5 / 8) (- 3 / 8) 3%nat 3%nat < 0).
    { unfold mixedStress, tr3. rewrite !SV by exact Ip. unfold kron. cbn [Nat.eqb]. destruct (PO p Ip) as [P0 _]. nra. }
    rewrite Rmin_right by lra.
    assert (HR : 0 < hoopRate 4 p (radial (- / 2)) (radial 1)).
    { unfold hoopRate, interp, radial. destruct Ip as [<-|[<-|[]]]; cbn; apply Rdiv_lt_0_compat; lra. }
    revert M HR. generalize (hoopRate 4 p (radial (- / 2)) (radial 1)). match goal with |- context [mixedStress ?a ?b ?c ?d 3%nat 3%nat] => generalize (mixedStress a b c d 3%nat 3%nat) end.
    intros s h M HR. assert (0 < h * h) by nra. nra. }
  pose proof (N _ (or_introl eq_refl)) as N1. pose proof (N _ (or_intror (or_introl eq_refl))) as N2. unfold sumL, ring2 in Z. cbn [fold_right] in Z. lra.
Qed.

(** The same ring as a plane strain element of two points. *)
Lemma plane_projection J th : projection Plane 1 ring2 J th -> forall p, In p ring2 -> th p = (/ (2 * PI) * J (ringPt 1 false) + / (4 * PI) * J (ringPt 2 true)) / (/ (2 * PI) + / (4 * PI)).
Proof.
  intros [[c Hc] Ho] p Ip. pose proof PI_RGT_0 as PP. specialize (Ho 1%nat ltac:(lia)). unfold sumL, ring2 in Ho. cbn in Ho. unfold volume in Ho. cbn in Ho.
  assert (T : forall q, In q ring2 -> th q = c 1%nat) by (intros q Iq; rewrite Hc by exact Iq; destruct Iq as [<-|[<-|[]]]; cbn; ring).
  rewrite !T in Ho by (cbn; tauto). rewrite (T p Ip).
  replace (/ (2 * PI * 1)) with (/ (2 * PI)) in Ho by (f_equal; ring). replace (/ (2 * PI * 2)) with (/ (4 * PI)) in Ho by (f_equal; ring).
  assert (A1 : 0 < / (2 * PI)) by (apply Rinv_0_lt_compat; lra). assert (A2 : 0 < / (4 * PI)) by (apply Rinv_0_lt_compat; lra).
  apply (Rmult_eq_reg_r (/ (2 * PI) + / (4 * PI))); [|lra]. unfold Rdiv. rewrite Rmult_assoc, Rinv_l by lra. lra.
Qed.
Definition stretch2 (c : R) (i : nat) : R := match i with 3%nat | 5%nat => c | _ => 0 end.
Lemma plane_det x i c : det3 (deformation Plane 4 (ringPt x i) (stretch2 c)) = 1 + c.
Proof. unfold deformation, dispGrad, gradient, det3, kron, stretch2, ringPt. destruct i; cbn; field. Qed.
Example C114_mixed_tangent_used : exists st', mxElement Plane 4 1 (fun _ _ => / (/ (2 * PI) + / (4 * PI))) volStress volTangent neverZero ring2 (stretch2 (/ 4)) noLoad = Ret st' /\
  derivativeOf 8 (fun x => forces (mxElement Plane 4 1 (fun _ _ => / (/ (2 * PI) + / (4 * PI))) volStress volTangent neverZero ring2 x noLoad)) (fun _ => 0) (fun i j => el (fst st') i j - 0) (stretch2 (/ 4)).
Proof.
  pose proof PI_RGT_0 as PP. assert (A1 : 0 < / (2 * PI)) by (apply Rinv_0_lt_compat; lra). assert (A2 : 0 < / (4 * PI)) by (apply Rinv_0_lt_compat; lra).
  apply (C114_mixed_tangent_solid_partial Plane 4 1 ring2 (fun _ _ => / (/ (2 * PI) + / (4 * PI))) volStress volTangent neverZero (stretch2 (/ 4)) noLoad).
  - discriminate.
  - constructor; [lia|discriminate|intros _ p [<-|[<-|[]]]; reflexivity|].
    intros i j Ii Ij. assert (i = 1%nat) by lia. assert (j = 1%nat) by lia. subst. cbn [sumf]. unfold sumL, ring2, volume, kron. cbn.
    replace (/ (2 * PI * 1)) with (/ (2 * PI)) by (f_equal; ring). replace (/ (2 * PI * 2)) with (/ (4 * PI)) by (f_equal; ring). field. lra.
  - apply vol_material.
  - reflexivity.
  - reflexivity.
  - intros; apply vol_tangentOf.
  - intros th Pt p Ip. assert (Jp : det3 (deformation Plane 4 p (stretch2 (/ 4))) = 5 / 4) by (destruct Ip as [<-|[<-|[]]]; rewrite plane_det; lra).
    rewrite Jp. split; [lra|]. rewrite (plane_projection _ th Pt p Ip), !plane_det. apply Rdiv_lt_0_compat; nra.
Qed.

Print Assumptions C113_mixed_forces.
Print Assumptions C114_mixed_tangent_partial.
Print Assumptions C114_mixed_tangent_solid_partial.
Print Assumptions C114_mixed_tangent_refuted.
