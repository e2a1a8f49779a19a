(** Properties of vibration and buckling analyses: C154. *)
From Verif Require Import Lib.Base Lib.Sums Lib.Writes Lib.Tensor3 Spec.Hooke Spec.Continuum Spec.LinModes Proofs.LinElement Proofs.LinSystem Props.LinElement Props.LinSystem Proofs.LinModes.
From Verif Require Model.Modes Proofs.ContinuumAxi.
Import ListNotations.

(** ** C154: frequencies, modes and buckling factors of solids *)
Theorem C154_vibration : forall c k tmp u nnod els, (forall e, In e els -> wfElt k nnod e) -> given u (seenMesh k els) ->
  exists S, eigenSystem c Modes.VIBRATION (sdim k) (isAx k) (psOf k) tmp u nnod els = Ret S /\
    (forall v w, bilin (sdim k * nnod) (el (eA S)) v w = aMesh k els v w) /\ (forall v w, bilin (sdim k * nnod) (el (eB S)) v w = mMesh k els v w).
Proof.
  intros c k tmp u nnod els HW HU. destruct (assembledE c k Modes.VIBRATION tmp u nnod els (or_introl eq_refl) HW HU (mkEsys (zeros (sdim k * nnod) (sdim k * nnod)) (zeros (sdim k * nnod) (sdim k * nnod)))) as [S [E [A B]]]; try reflexivity.
  exists S. split; [exact E|]. split; intros v w; [rewrite A|rewrite B]; cbn [eA eB second]; unfold bilin at 1, mv; (rewrite sumf_0; [ring|intros; rewrite sumf_0; [ring|intros; cbn; ring]]).
Qed.
(** The geometric stiffness is that of the stresses of the given displacements. *)
Theorem C154_buckling : forall c k tmp u nnod els, k <> AxiSolid -> (forall e, In e els -> wfElt k nnod e) -> seenMesh k els u ->
  exists S, eigenSystem c Modes.BUCKLING (sdim k) (isAx k) (psOf k) tmp (Some u) nnod els = Ret S /\
    (forall v w, bilin (sdim k * nnod) (el (eA S)) v w = aMesh k els v w) /\ (forall v w, bilin (sdim k * nnod) (el (eB S)) v w = gMesh k els u v w).
Proof.
  intros c k tmp u nnod els Ka HW HU. destruct (assembledE c k Modes.BUCKLING tmp (Some u) nnod els (or_intror (conj eq_refl Ka)) HW HU (mkEsys (zeros (sdim k * nnod) (sdim k * nnod)) (zeros (sdim k * nnod) (sdim k * nnod)))) as [S [E [A B]]]; try reflexivity.
  exists S. split; [exact E|]. split; intros v w; [rewrite A|rewrite B]; cbn [eA eB second field]; unfold bilin at 1, mv; (rewrite sumf_0; [ring|intros; rewrite sumf_0; [ring|intros; cbn; ring]]).
Qed.

(** Virtual work of a mode in any field with the same prescribed values. *)
Lemma mode_work N A B fixed lam u v : isMode N A B fixed lam u -> (forall i, (1 <= i <= N)%nat -> fixed i = true -> v i = 0) -> bilin N A v u = lam * bilin N B v u.
Proof.
  intros [_ HF] HV. unfold bilin. rewrite <- sumf_scal. apply sumf_ext. intros i Hi. destruct (fixed i) eqn:F; [rewrite (HV i Hi F); ring|rewrite (HF i Hi F); ring].
Qed.
Section Vibration.
Variables (c : Modes.config) (k : solid) (tmp : bool) (u0 : option (nat -> R)) (nnod : nat) (els : list elt) (S : esys) (fixed : nat -> bool).
Hypothesis HW : forall e, In e els -> wfElt k nnod e.
Hypothesis HU : given u0 (seenMesh k els).
Hypothesis HS : eigenSystem c Modes.VIBRATION (sdim k) (isAx k) (psOf k) tmp u0 nnod els = Ret S.
Notation N := (sdim k * nnod)%nat.
Lemma vib_forms : (forall v w, bilin N (el (eA S)) v w = aMesh k els v w) /\ (forall v w, bilin N (el (eB S)) v w = mMesh k els v w).
Proof using HW HU HS. destruct (C154_vibration c k tmp u0 nnod els HW HU) as [S' [E X]]. rewrite HS in E. injection E as <-. exact X. Qed.
Lemma vib_work lam u v : isMode N (el (eA S)) (el (eB S)) fixed lam u -> (forall i, (1 <= i <= N)%nat -> fixed i = true -> v i = 0) -> aMesh k els v u = lam * mMesh k els v u.
Proof using HW HU HS. intros M V. destruct vib_forms as [A B]. rewrite <- A, <- B. exact (mode_work N _ _ fixed lam u v M V). Qed.
End Vibration.
Lemma mMesh_sym k els u v : mMesh k els u v = mMesh k els v u.
Proof. unfold mMesh. apply sumL_ext. intros. apply mForm_sym. Qed.
(** The eigenvalue of a mode is the ratio of its energies; it is not negative, and zero for motions without strain only. *)
Theorem C154_rayleigh : forall c k tmp u0 nnod els S fixed lam u, (forall e, In e els -> wfElt k nnod e) -> given u0 (seenMesh k els) ->
  eigenSystem c Modes.VIBRATION (sdim k) (isAx k) (psOf k) tmp u0 nnod els = Ret S -> isMode (sdim k * nnod) (el (eA S)) (el (eB S)) fixed lam u ->
  aMesh k els u u = lam * mMesh k els u u /\ (stable k els -> 0 < mMesh k els u u -> 0 <= lam /\ (lam = 0 -> strainFree k els u)).
Proof.
  intros c k tmp u0 nnod els S fixed lam u HW HU HS M. pose proof (vib_work c k tmp u0 nnod els S fixed HW HU HS lam u u M (mdFixed _ _ _ _ _ _ M)) as Q. split; [exact Q|].
  intros St Pm. destruct (aMesh_positive k nnod els u HW St) as [P Z]. split.
  - apply (Rmult_le_reg_r (mMesh k els u u)); [exact Pm|]. rewrite Rmult_0_l, <- Q. exact P.
  - intros ->. apply Z. rewrite Q. ring.
Qed.
(** Kinetic energies are not negative. *)
Theorem C154_kinetic : forall k els u, (forall e p, In e els -> In p (epts e) -> 0 <= vol k p * pRho p) -> 0 <= mMesh k els u u.
Proof.
  intros k els u H. unfold mMesh, mForm. apply sumL_nonneg. intros e He. apply sumL_nonneg. intros p Hp. apply Rmult_le_pos; [exact (H e p He Hp)|].
  apply sumf_nonneg. intros i _. apply Rle_0_sqr.
Qed.
(** Modes of different frequencies are orthogonal in both energies. *)
Theorem C154_orthogonal : forall c k tmp u0 nnod els S fixed lam u lam' u', (forall e, In e els -> wfElt k nnod e) -> given u0 (seenMesh k els) ->
  eigenSystem c Modes.VIBRATION (sdim k) (isAx k) (psOf k) tmp u0 nnod els = Ret S ->
  isMode (sdim k * nnod) (el (eA S)) (el (eB S)) fixed lam u -> isMode (sdim k * nnod) (el (eA S)) (el (eB S)) fixed lam' u' -> lam <> lam' ->
  mMesh k els u u' = 0 /\ aMesh k els u u' = 0.
Proof.
  intros c k tmp u0 nnod els S fixed lam u lam' u' HW HU HS M M' D.
  pose proof (vib_work c k tmp u0 nnod els S fixed HW HU HS lam u u' M (mdFixed _ _ _ _ _ _ M')) as Q. pose proof (vib_work c k tmp u0 nnod els S fixed HW HU HS lam' u' u M' (mdFixed _ _ _ _ _ _ M)) as Q'.
  rewrite aMesh_sym, mMesh_sym in Q. assert (Z : (lam - lam') * mMesh k els u u' = 0) by lra. destruct (Rmult_integral _ _ Z) as [Z1|Z1]; [lra|]. split; [exact Z1|]. rewrite Q', Z1. ring.
Qed.
(** The energies of a combination of modes are the sums of theirs, so modes of different frequencies are independent. *)
Lemma bilin_superpose N A l v : bilin N A (superpose l) v = sumL (fun q => fst q * bilin N A (snd (snd q)) v) l.
Proof.
  induction l as [|q l IH]; [unfold bilin, superpose; apply sumf_0; intros; cbn; ring|]. rewrite sumL_cons, <- IH. unfold bilin. rewrite <- sumf_scal, <- sumf_plus.
  apply sumf_ext. intros i _. unfold superpose. rewrite sumL_cons. ring.
Qed.
Lemma bilin_superpose_r N A l v : bilin N A v (superpose l) = sumL (fun q => fst q * bilin N A v (snd (snd q))) l.
Proof.
  induction l as [|q l IH].
  - unfold bilin, mv, superpose. apply sumf_0. intros. rewrite sumf_0; [ring|]. intros; cbn; ring.
  - rewrite sumL_cons, <- IH. unfold bilin. rewrite <- sumf_scal, <- sumf_plus. apply sumf_ext. intros i _.
    assert (X : mv N A (superpose (q :: l)) i = fst q * mv N A (snd (snd q)) i + mv N A (superpose l) i); [|rewrite X; ring].
    unfold mv. rewrite <- sumf_scal, <- sumf_plus. apply sumf_ext. intros j _. unfold superpose. rewrite sumL_cons. ring.
Qed.
Lemma superpose_diag N A l : (forall q q', In q l -> In q' l -> bilin N A (snd (snd q)) (snd (snd q')) = bilin N A (snd (snd q')) (snd (snd q))) ->
  ForallOrdPairs (fun q q' => bilin N A (snd (snd q)) (snd (snd q')) = 0) l ->
  bilin N A (superpose l) (superpose l) = sumL (fun q => fst q * fst q * bilin N A (snd (snd q)) (snd (snd q))) l.
Proof.
  intros Sy H. induction H as [|q l Hq H IH]; [unfold bilin; apply sumf_0; intros; cbn; unfold superpose, sumL; cbn; ring|].
  rewrite sumL_cons, <- IH by (intros; apply Sy; right; assumption). rewrite Forall_forall in Hq.
  rewrite (bilin_superpose N A (q :: l)), sumL_cons.
  assert (Z1 : bilin N A (snd (snd q)) (superpose (q :: l)) = fst q * bilin N A (snd (snd q)) (snd (snd q))).
  { rewrite bilin_superpose_r, sumL_cons, (sumL_ext _ (fun _ => 0)); [rewrite sumL_zero; ring|]. intros r Hr. rewrite (Hq r Hr). ring. }
  rewrite Z1, (bilin_superpose N A l (superpose l)).
  rewrite (sumL_ext (fun r => fst r * bilin N A (snd (snd r)) (superpose (q :: l))) (fun r => fst r * bilin N A (snd (snd r)) (superpose l))); [ring|].
  intros r Hr. f_equal. rewrite !bilin_superpose_r, sumL_cons. rewrite (Sy r q (or_intror Hr) (or_introl eq_refl)), (Hq r Hr). ring.
Qed.
Theorem C154_superposition : forall c k tmp u0 nnod els S fixed l, (forall e, In e els -> wfElt k nnod e) -> given u0 (seenMesh k els) ->
  eigenSystem c Modes.VIBRATION (sdim k) (isAx k) (psOf k) tmp u0 nnod els = Ret S ->
  Forall (fun q => isMode (sdim k * nnod) (el (eA S)) (el (eB S)) fixed (fst (snd q)) (snd (snd q))) l -> ForallOrdPairs (fun q q' => fst (snd q) <> fst (snd q')) l ->
  mMesh k els (superpose l) (superpose l) = sumL (fun q => fst q * fst q * mMesh k els (snd (snd q)) (snd (snd q))) l /\
  aMesh k els (superpose l) (superpose l) = sumL (fun q => fst (snd q) * (fst q * fst q * mMesh k els (snd (snd q)) (snd (snd q)))) l /\
  ((forall q, In q l -> 0 < mMesh k els (snd (snd q)) (snd (snd q))) -> (forall i, (1 <= i <= sdim k * nnod)%nat -> superpose l i = 0) -> forall q, In q l -> fst q = 0).
Proof.
  intros c k tmp u0 nnod els S fixed l HW HU HS M D. destruct (vib_forms c k tmp u0 nnod els S HW HU HS) as [A B]. rewrite Forall_forall in M.
  assert (O : ForallOrdPairs (fun q q' => mMesh k els (snd (snd q)) (snd (snd q')) = 0 /\ aMesh k els (snd (snd q)) (snd (snd q')) = 0) l).
  { induction D as [|q l Hq D IH]; [constructor|]. constructor; [|apply IH; intros; apply M; right; assumption]. rewrite Forall_forall in *. intros q' Hq'.
    exact (C154_orthogonal c k tmp u0 nnod els S fixed _ _ _ _ HW HU HS (M q (or_introl eq_refl)) (M q' (or_intror Hq')) (Hq q' Hq')). }
  assert (PM : mMesh k els (superpose l) (superpose l) = sumL (fun q => fst q * fst q * mMesh k els (snd (snd q)) (snd (snd q))) l).
  { rewrite <- B, superpose_diag; [apply sumL_ext; intros; rewrite B; reflexivity|intros; rewrite !B; apply mMesh_sym|].
    clear - O B. induction O as [|q l Hq O IH]; constructor; [|exact IH]. rewrite Forall_forall in *. intros q' H'. rewrite B. exact (proj1 (Hq q' H')). }
  split; [exact PM|]. split.
  - rewrite <- A, superpose_diag; [|intros; rewrite !A; apply aMesh_sym|].
    + apply sumL_ext. intros q Hq. rewrite A, (proj1 (C154_rayleigh c k tmp u0 nnod els S fixed _ _ HW HU HS (M q Hq))). ring.
    + clear - O A. induction O as [|q l Hq O IH]; constructor; [|exact IH]. rewrite Forall_forall in *. intros q' H'. rewrite A. exact (proj2 (Hq q' H')).
  - intros P Z q Hq. assert (Z0 : sumL (fun q => fst q * fst q * mMesh k els (snd (snd q)) (snd (snd q))) l = 0).
    { rewrite <- PM, <- B. unfold bilin. apply sumf_0. intros i Hi. rewrite (Z i Hi). ring. }
    assert (G : forall r : list (R * (R * (nat -> R))), (forall q, In q r -> 0 < mMesh k els (snd (snd q)) (snd (snd q))) -> 0 <= sumL (fun q => fst q * fst q * mMesh k els (snd (snd q)) (snd (snd q))) r /\
      (sumL (fun q => fst q * fst q * mMesh k els (snd (snd q)) (snd (snd q))) r = 0 -> forall q, In q r -> fst q = 0)).
    { induction r as [|x r IH]; intros Pr; [split; [cbn; lra|intros _ y []]|]. rewrite sumL_cons. destruct IH as [I1 I2]; [intros; apply Pr; right; assumption|].
      pose proof (Pr x (or_introl eq_refl)) as Px. pose proof (Rle_0_sqr (fst x)) as Sx. unfold Rsqr in Sx. assert (0 <= fst x * fst x * mMesh k els (snd (snd x)) (snd (snd x))) by (apply Rmult_le_pos; lra).
      split; [lra|]. intros Z1 y [<-|Hy]; [|apply I2; [lra|exact Hy]]. assert (E0 : fst x * fst x * mMesh k els (snd (snd x)) (snd (snd x)) = 0) by lra.
      destruct (Rmult_integral _ _ E0) as [E1|E1]; [apply Rsqr_0_uniq; exact E1|lra]. }
    exact (proj2 (G l P) Z0 q Hq).
Qed.
(** An unsupported body moves rigidly with frequency zero, and a translation has the total mass. *)
Lemma bl_unit N A w i : (1 <= i <= N)%nat -> bilin N A (unit i) w = mv N A w i.
Proof.
  intros Hi. unfold bilin. apply (sumf_pick N i); [exact Hi| |]; [intros q _ Hq; unfold unit, kron; destruct (Nat.eqb_spec i q); [congruence|ring]|unfold unit, kron; rewrite Nat.eqb_refl; ring].
Qed.
Theorem C154_rigid : forall c k tmp u0 nnod els S X r, k <> AxiSolid -> (forall e, In e els -> wfElt k nnod e) -> given u0 (seenMesh k els) ->
  eigenSystem c Modes.VIBRATION (sdim k) (isAx k) (psOf k) tmp u0 nnod els = Ret S -> completeMesh (sdim k) X els -> rigidMotion (sdim k) X r ->
  isMode (sdim k * nnod) (el (eA S)) (el (eB S)) (fun _ => false) 0 r.
Proof.
  intros c k tmp u0 nnod els S X r Ka HW HU HS HC HR. destruct (vib_forms c k tmp u0 nnod els S HW HU HS) as [A _]. split; [discriminate|]. intros i Hi _. rewrite Rmult_0_l.
  transitivity (bilin (sdim k * nnod) (el (eA S)) (unit i) r).
  - symmetry. apply bl_unit. exact Hi.
  - rewrite A, aMesh_sym. unfold aMesh. rewrite (sumL_ext _ (fun _ => 0)); [apply sumL_zero|]. intros e He. apply aForm_zero. intros p Hp.
    exact (rigid_mesh k nnod X els r Ka HW HR HC e p He Hp).
Qed.
Theorem C154_mass : forall k nnod els i, (forall e, In e els -> wfElt k nnod e) -> unityMesh els -> (1 <= i <= sdim k)%nat ->
  let t := fun q => kron ((q - 1) mod sdim k + 1) i in mMesh k els t t = totalMass k els.
Proof.
  intros k nnod els i HW HN Hi t. unfold mMesh, totalMass. apply sumL_ext. intros e He. unfold mForm. apply sumL_ext. intros p Hp.
  assert (X : forall j, (1 <= j <= sdim k)%nat -> interp (sdim k) (enen e) (pN p) (restrict (sdim k) e t) j = kron j i).
  { intros j Hj. unfold interp. rewrite (sumf_ext _ _ (fun a => kron j i * pN p a)); [rewrite sumf_scal, (HN e p He Hp); ring|]. intros a Ha.
    change (sdim k * (a - 1) + j)%nat with (dof (sdim k) a j). rewrite restrict_dof by lia. pose proof (wfC _ _ _ (HW e He) a Ha) as Hc. unfold t, dof.
    replace (sdim k * (conn e a - 1) + j - 1)%nat with (j - 1 + (conn e a - 1) * sdim k)%nat by nia. rewrite Nat.mod_add, Nat.mod_small by lia. replace (j - 1 + 1)%nat with j by lia. ring. }
  rewrite (sumf_pick (sdim k) i _ 1); [ring|exact Hi| |].
  - intros j Hj Hne. rewrite !X by exact Hj. unfold kron. destruct (Nat.eqb_spec j i); [congruence|ring].
  - rewrite X by exact Hi. unfold kron. rewrite Nat.eqb_refl. ring.
Qed.

(** Buckling: [lam] times the stresses of [u] make the body unstable in the mode [v]; the eigenvalue of the two matrices is - lam. *)
Lemma strain_scal k n p c u i j : strainOf k n p (fun q => c * u q) i j = c * strainOf k n p u i j.
Proof.
  assert (G : forall a b, gradient (sdim k) n (pG p) (fun q => c * u q) a b = c * gradient (sdim k) n (pG p) u a b) by (intros; unfold gradient; rewrite <- sumf_scal; apply sumf_ext; intros; ring).
  assert (H : interp 2 n (pN p) (fun q => c * u q) 1 = c * interp 2 n (pN p) u 1) by (unfold interp; rewrite <- sumf_scal; apply sumf_ext; intros; ring).
  unfold strainOf. destruct (_ && _)%bool; [rewrite !G; unfold Rdiv; ring|]. destruct (_ && _ && _)%bool; [rewrite H; unfold Rdiv; ring|ring].
Qed.
Lemma gMesh_scal k els c u v w : gMesh k els (fun q => c * u q) v w = c * gMesh k els u v w.
Proof.
  unfold gMesh, gForm. rewrite <- sumL_scal. apply sumL_ext. intros e _. rewrite <- sumL_scal. apply sumL_ext. intros p _.
  rewrite <- Rmult_assoc, (Rmult_comm c), Rmult_assoc. f_equal. rewrite <- sumf_scal. apply sumf_ext. intros a _. rewrite <- sumf_scal. apply sumf_ext. intros i _. rewrite <- sumf_scal. apply sumf_ext. intros j _.
  assert (H : hookeOf k p (strainOf k (enen e) p (restrict (sdim k) e (fun q => c * u q))) i j = c * hookeOf k p (strainOf k (enen e) p (restrict (sdim k) e u)) i j); [|rewrite H; ring].
  unfold hookeOf, hooke, trace. change (restrict (sdim k) e (fun q => c * u q)) with (fun q => c * restrict (sdim k) e u q). rewrite !strain_scal. ring.
Qed.
Section Buckle.
Variables (c : Modes.config) (k : solid) (tmp : bool) (nnod : nat) (els : list elt) (fixed : nat -> bool).
Hypothesis Ka : k <> AxiSolid.
Hypothesis HW : forall e, In e els -> wfElt k nnod e.
Notation N := (sdim k * nnod)%nat.
Lemma buck_forms u S : seenMesh k els u -> eigenSystem c Modes.BUCKLING (sdim k) (isAx k) (psOf k) tmp (Some u) nnod els = Ret S ->
  (forall v w, bilin N (el (eA S)) v w = aMesh k els v w) /\ (forall v w, bilin N (el (eB S)) v w = gMesh k els u v w).
Proof using Ka HW. intros HU E. destruct (C154_buckling c k tmp u nnod els Ka HW HU) as [S' [E' X]]. rewrite E in E'. injection E' as <-. exact X. Qed.
End Buckle.
(** Loads multiplied by a number have their buckling factors divided by it. *)
Theorem C154_scaling : forall c k tmp nnod els fixed u S b S' lam v, k <> AxiSolid -> (forall e, In e els -> wfElt k nnod e) -> seenMesh k els u -> seenMesh k els (fun i => b * u i) -> b <> 0 ->
  eigenSystem c Modes.BUCKLING (sdim k) (isAx k) (psOf k) tmp (Some u) nnod els = Ret S ->
  eigenSystem c Modes.BUCKLING (sdim k) (isAx k) (psOf k) tmp (Some (fun i => b * u i)) nnod els = Ret S' ->
  isMode (sdim k * nnod) (el (eA S)) (el (eB S)) fixed lam v -> isMode (sdim k * nnod) (el (eA S')) (el (eB S')) fixed (lam / b) v.
Proof.
  intros c k tmp nnod els fixed u S b S' lam v Ka HW H1 H2 Hb E1 E2 [MF MV]. destruct (buck_forms c k tmp nnod els Ka HW _ S H1 E1) as [A1 B1]. destruct (buck_forms c k tmp nnod els Ka HW _ S' H2 E2) as [A2 B2].
  assert (P : forall A i, (1 <= i <= sdim k * nnod)%nat -> mv (sdim k * nnod) A v i = bilin (sdim k * nnod) A (unit i) v).
  { intros. symmetry. apply bl_unit. assumption. }
  split; [exact MF|]. intros i Hi F. specialize (MV i Hi F). rewrite !P in * by exact Hi. rewrite A1, B1 in MV. rewrite A2, B2, gMesh_scal, MV. field. exact Hb.
Qed.
(** A factor is the ratio of the strain energy to the work of the stresses in the rotations: under more of the load a body gives way where they do negative work. *)
Theorem C154_factor : forall c k tmp nnod els fixed u S lam v, k <> AxiSolid -> (forall e, In e els -> wfElt k nnod e) -> stable k els -> seenMesh k els u ->
  eigenSystem c Modes.BUCKLING (sdim k) (isAx k) (psOf k) tmp (Some u) nnod els = Ret S -> isMode (sdim k * nnod) (el (eA S)) (el (eB S)) fixed (- lam) v ->
  aMesh k els v v = - lam * gMesh k els u v v /\ (0 < lam -> gMesh k els u v v < 0 \/ strainFree k els v).
Proof.
  intros c k tmp nnod els fixed u S lam v Ka HW St HU E M. destruct (buck_forms c k tmp nnod els Ka HW _ S HU E) as [A B].
  pose proof (mode_work _ _ _ fixed _ v v M (mdFixed _ _ _ _ _ _ M)) as Q. rewrite A, B in Q. destruct (aMesh_positive k nnod els v HW St) as [P Z]. split; [exact Q|].
  intros HL. destruct (Rlt_le_dec (gMesh k els u v v) 0) as [G|G]; [left; exact G|right]. apply Z. assert (0 <= lam * gMesh k els u v v) by (apply Rmult_le_pos; lra). lra.
Qed.
(** A body in tension does not buckle under more of its load: a positive factor belongs to a motion without strain. *)
Theorem C154_tension : forall c k tmp nnod els fixed u S lam v, k <> AxiSolid -> (forall e, In e els -> wfElt k nnod e) -> stable k els -> seenMesh k els u -> inTension k els u ->
  eigenSystem c Modes.BUCKLING (sdim k) (isAx k) (psOf k) tmp (Some u) nnod els = Ret S ->
  isMode (sdim k * nnod) (el (eA S)) (el (eB S)) fixed (- lam) v -> 0 < lam -> strainFree k els v.
Proof.
  intros c k tmp nnod els fixed u S lam v Ka HW St HU HT E M HL. destruct (C154_factor c k tmp nnod els fixed u S lam v Ka HW St HU E M) as [_ F].
  assert (G : 0 <= gMesh k els u v v).
  { unfold gMesh, gForm. apply sumL_nonneg. intros e He. apply sumL_nonneg. intros p Hp. apply Rmult_le_pos.
    - unfold vol. destruct k; cbn [isAx]; try (left; exact (proj2 (St e p He Hp))). congruence.
    - apply sumf_nonneg. intros a _. apply (HT e p (fun i => gradient (sdim k) (enen e) (pG p) (restrict (sdim k) e v) a i) He Hp). }
  destruct (F HL); [lra|assumption].
Qed.

(** A triangle of density one, held but for the horizontal displacement of one corner. *)
Definition triM : lpt := mkLpt (fun _ => 1 / 3) triG 1 (1 / 2) 1 0 1 (fun _ => 0) true 0.
Definition triE : list elt := [mkElt 3 (fun a => a) [triM] None].
Lemma triE_wf e : In e triE -> wfElt PlaneStress 3 e.
Proof. intros [<-|[]]. split; [cbn; lia|cbn [enen conn]; intros; lia| |exact I]. intros p [<-|[]]. split; [cbn; lra|discriminate|intros; reflexivity]. Qed.
Lemma triM_strain i : (i = 3 \/ i = 4)%nat -> eq3 (strainOf PlaneStress 3 triM (restrict 2 (mkElt 3 (fun a => a) [triM] None) (unit i)))
  (fun a b => if (i =? 3)%nat then (if ((a =? 1) && (b =? 1))%nat%bool then 1 else 0) else if ((a =? 1) && (b =? 2) || (a =? 2) && (b =? 1))%nat%bool then 1 / 2 else 0).
Proof. intros H a b Ha Hb. unfold strainOf, gradient, triM, restrict, dof, unit, kron, sumf. cbn [sdim isAx pG pN pX conn]. destruct H as [->| ->]; idx a; idx b; cbn; lra. Qed.
Lemma triM_stress i j : (1 <= i <= 3)%nat -> (1 <= j <= 3)%nat -> hookeOf PlaneStress triM (strainOf PlaneStress 3 triM (restrict 2 (mkElt 3 (fun a => a) [triM] None) (unit 3))) i j = if ((i =? 1) && (j =? 1))%nat%bool then 1 else 0.
Proof.
  intros Hi Hj. unfold hookeOf, hooke, tr3. rewrite !triM_strain by lia. unfold lamOf, lame1, lame2, triM. cbn [pE pNu]. idx i; idx j; cbn; field.
Qed.
Example C154_case : forall c, exists S, eigenSystem c Modes.VIBRATION 2 false true false None 3 triE = Ret S /\
  (forall e, In e triE -> wfElt PlaneStress 3 e) /\ stable PlaneStress triE /\ unityMesh triE /\ totalMass PlaneStress triE = 1 / 2 /\
  isMode 6 (el (eA S)) (el (eB S)) (fun i => negb (i =? 3)%nat) 9 (unit 3) /\ 0 < mMesh PlaneStress triE (unit 3) (unit 3).
Proof.
  intros c. destruct (C154_vibration c PlaneStress false None 3 triE triE_wf I) as [S [E [A B]]].
  assert (MA : aMesh PlaneStress triE (unit 3) (unit 3) = 1 / 2).
  { unfold aMesh, triE, sumL. cbn [fold_right enen epts sdim]. unfold aForm, sumL. cbn [fold_right]. rewrite (density_ext PlaneStress triM _ _ _ _ (triM_strain 3 ltac:(lia)) (triM_strain 3 ltac:(lia))).
    unfold density, vol, lamOf, lame1, lame2, tr3, ddot3, triM. cbn. field. }
  assert (MM : mMesh PlaneStress triE (unit 3) (unit 3) = 1 / 18).
  { unfold mMesh, triE, sumL. cbn [fold_right enen epts]. unfold mForm, sumL, interp, vol, restrict, unit, kron. cbn. unfold sumf, dof; cbn. field. }
  exists S. split; [exact E|]. split; [exact triE_wf|]. split; [intros e p [<-|[]] [<-|[]]; cbn; lra|]. split; [intros e p [<-|[]] [<-|[]]; unfold sumf; cbn; lra|].
  split; [unfold totalMass, sumL, vol; cbn; lra|]. split; [|lra]. split.
  - intros i Hi F. unfold unit, kron. destruct (Nat.eqb_spec 3 i) as [<-|]; [discriminate|reflexivity].
  - intros i Hi F. destruct (Nat.eqb_spec i 3) as [->|]; [|discriminate].
    rewrite <- !bl_unit by lia. change 6%nat with (sdim PlaneStress * 3)%nat. rewrite A, B, MA, MM. field.
Qed.
(** The triangle pressed together: it gives way sideways at half of the load. *)
Example C154_buckles : forall c, exists S, let u := fun i => -1 * unit 3 i in eigenSystem c Modes.BUCKLING 2 false true false (Some u) 3 triE = Ret S /\
  seenMesh PlaneStress triE u /\ isMode 6 (el (eA S)) (el (eB S)) (fun i => negb (i =? 4)%nat) (- (1 / 2)) (unit 4) /\ inTension PlaneStress triE (unit 3).
Proof.
  intros c. set (u := fun i => -1 * unit 3 i). assert (HU : seenMesh PlaneStress triE u).
  { intros e [<-|[]] p [<-|[]]. right. exists 1%nat, 1%nat. split; [lia|]. split; [lia|]. unfold engineering. cbn [Nat.eqb]. change (restrict (sdim PlaneStress) (mkElt 3 (fun a => a) [triM] None) u) with (fun q => -1 * restrict 2 (mkElt 3 (fun a => a) [triM] None) (unit 3) q).
    cbn [enen]. rewrite strain_scal, triM_strain by lia. cbn [Nat.eqb andb]. replace (-1 * 1) with (Ropp 1) by ring. rewrite Rabs_Ropp, Rabs_R1. generalize Proofs.ContinuumAxi.epsR_lt1. lra. }
  destruct (C154_buckling c PlaneStress false u 3 triE ltac:(discriminate) triE_wf HU) as [S [E [A B]]].
  assert (MA : aMesh PlaneStress triE (unit 4) (unit 4) = 1 / 4).
  { unfold aMesh, triE, sumL. cbn [fold_right enen epts sdim]. unfold aForm, sumL. cbn [fold_right]. rewrite (density_ext PlaneStress triM _ _ _ _ (triM_strain 4 ltac:(lia)) (triM_strain 4 ltac:(lia))).
    unfold density, vol, lamOf, lame1, lame2, tr3, ddot3, triM. cbn. field. }
  assert (MM : gMesh PlaneStress triE u (unit 4) (unit 4) = - (1 / 2)).
  { unfold u. rewrite gMesh_scal. unfold gMesh, triE, sumL. cbn [fold_right enen epts sdim]. unfold gForm, sumL. cbn [fold_right sdim sumf]. rewrite !triM_stress by lia.
    unfold gradient, vol, restrict, dof, unit, kron, sumf. cbn. field. }
  exists S. split; [exact E|]. split; [exact HU|]. split; [split|].
  - intros i Hi F. unfold unit, kron. destruct (Nat.eqb_spec 4 i) as [<-|]; [discriminate|reflexivity].
  - intros i Hi F. destruct (Nat.eqb_spec i 4) as [->|]; [|discriminate].
    rewrite <- !bl_unit by lia. change 6%nat with (sdim PlaneStress * 3)%nat. rewrite A, B, MA, MM. field.
  - intros e p q [<-|[]] [<-|[]]. pose proof (Rle_0_sqr (q 1%nat)) as P. unfold Rsqr in P.
    assert (X : sumf 2 (fun i => sumf 2 (fun j => q i * hookeOf PlaneStress triM (strainOf PlaneStress 3 triM (restrict 2 (mkElt 3 (fun a => a) [triM] None) (unit 3))) i j * q j)) = q 1%nat * q 1%nat); [|cbn [sdim enen]; rewrite X; exact P].
    unfold sumf. rewrite !triM_stress by lia. cbn. ring.
Qed.

Print Assumptions C154_vibration.
Print Assumptions C154_buckling.
Print Assumptions C154_rayleigh.
Print Assumptions C154_kinetic.
Print Assumptions C154_orthogonal.
Print Assumptions C154_superposition.
Print Assumptions C154_rigid.
Print Assumptions C154_mass.
Print Assumptions C154_scaling.
Print Assumptions C154_factor.
Print Assumptions C154_tension.
