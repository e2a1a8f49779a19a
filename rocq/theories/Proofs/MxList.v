(** Sums over the integration points of the mixed element: projection, energy and work rates. *)
From Coquelicot Require Import Coquelicot.
From Verif Require Import Lib.Base Lib.Sums Lib.Tensor3 Spec.Continuum Spec.HyperElastic Spec.Mixed Spec.MxElement Proofs.MxPure.
From Coq Require Import Lia Lra.
Open Scope R_scope.

Lemma locally_all {A} (P : A -> R -> Prop) ps : (forall p, In p ps -> locally 0 (P p)) -> locally 0 (fun t => forall p, In p ps -> P p t).
Proof.
  induction ps as [|a ps IH]; intros H.
  - apply filter_forall. intros t p [].
  - generalize (filter_and _ _ (H a (or_introl eq_refl)) (IH (fun p Hp => H p (or_intror Hp)))). apply filter_imp. intros t [A0 B0] p [<-|Hp]; [exact A0|now apply B0].
Qed.
Lemma locally_pos (f : R -> R) (d : R) : is_derive f 0 d -> 0 < f 0 -> locally 0 (fun t => 0 < f t).
Proof.
  intros D P. assert (C : continuous f 0) by (apply (@ex_derive_continuous R_AbsRing); exists d; exact D).
  apply (C (fun y => 0 < y)). apply (open_gt 0). exact P.
Qed.

Lemma dext (f g : R -> R) (d : R) : (forall t, f t = g t) -> is_derive f 0 d -> is_derive g 0 d.
Proof. intros E. apply is_derive_ext. exact E. Qed.
Lemma dext_loc (f g : R -> R) (d : R) : locally 0 (fun t => f t = g t) -> is_derive f 0 d -> is_derive g 0 d.
Proof. intros E. apply is_derive_ext_loc. exact E. Qed.

Section Points.
Context {A : Type} (ps : list A) (m : nat) (w : A -> R) (phi : A -> nat -> R) (Hi : nat -> nat -> R).
Definition proj (b : A -> R) (p : A) : R := sumf m (fun i => sumf m (fun j => Hi i j * sumL (fun h => b h * phi h j) ps) * phi p i).
Definition symH : Prop := forall i j, (1 <= i <= m)%nat -> (1 <= j <= m)%nat -> Hi i j = Hi j i.

Lemma proj_ext b b' p : (forall h, In h ps -> b h = b' h) -> proj b p = proj b' p.
Proof. intros E. unfold proj. apply sumf_ext. intros i _. f_equal. apply sumf_ext. intros j _. f_equal. apply sumL_ext. intros h Hh. rewrite E by assumption. reflexivity. Qed.
Lemma sumL_scal_r (f : A -> R) c l : sumL f l * c = sumL (fun a => f a * c) l.
Proof. rewrite Rmult_comm, <- sumL_scal. apply sumL_ext. intros. ring. Qed.
Lemma pair_proj a b : sumL (fun p => a p * proj b p) ps = sumf m (fun i => sumf m (fun j => Hi i j * sumL (fun h => b h * phi h j) ps * sumL (fun p => a p * phi p i) ps)).
Proof.
  unfold proj. transitivity (sumL (fun p => sumf m (fun i => sumf m (fun j => Hi i j * sumL (fun h => b h * phi h j) ps) * (a p * phi p i))) ps).
  { apply sumL_ext. intros p _. rewrite <- sumf_scal. apply sumf_ext. intros i _. ring. }
  rewrite sumL_sumf_swap. apply sumf_ext. intros i _. rewrite sumL_scal. rewrite <- sumf_scal_r. reflexivity.
Qed.
Lemma adjoint a b : symH -> sumL (fun p => a p * proj b p) ps = sumL (fun p => b p * proj a p) ps.
Proof.
  intros Hs. rewrite !pair_proj. rewrite sumf_swap. apply sumf_ext. intros i Hi1. apply sumf_ext. intros j Hj. rewrite (Hs j i) by assumption. ring.
Qed.
Lemma dsumLin (f : R -> A -> R) d l : (forall p, In p l -> is_derive (fun t => f t p) 0 (d p)) -> is_derive (fun t => sumL (f t) l) 0 (sumL d l).
Proof.
  induction l as [|a l IH]; intros H; [exact (dconst 0 0)|].
  apply (dplus (fun t => f t a) (fun t => sumL (f t) l)); [apply H; now left|apply IH; intros; apply H; now right].
Qed.
Lemma proj_derive (b : R -> A -> R) b' p : (forall h, In h ps -> is_derive (fun t => b t h) 0 (b' h)) -> is_derive (fun t => proj (b t) p) 0 (proj b' p).
Proof.
  intros H. unfold proj. apply dsumf. intros i _. apply dscal_r. apply dsumf. intros j _. apply dscal. apply dsumLin. intros h Hh. apply dscal_r. now apply H.
Qed.

Variables (F L : A -> t3) (c : A -> R -> t3).
Hypothesis (Hs : symH) (Hp : forall p, In p ps -> path (F p) (L p) (c p)) (HJ : forall p, In p ps -> 0 < det3 (F p)).
Definition vol t p := proj (fun h => w h * det3 (c h t)) p.
Definition dvol p := proj (fun h => w h * (det3 (F h) * tr3 (L h))) p.
Hypothesis (Hv : forall p, In p ps -> 0 < vol 0 p).
Definition cv p t := withVolume (vol t p) (c p t).

Lemma c0_det p : In p ps -> det3 (c p 0) = det3 (F p).
Proof. intros I0. apply det3_ext. exact (proj1 (Hp p I0)). Qed.
Lemma vol_derive p : is_derive (fun t => vol t p) 0 (dvol p).
Proof. apply proj_derive. intros h Hh. apply dscal. exact (det3_path _ _ _ (Hp h Hh)). Qed.
Lemma cv_path p : In p ps -> path (withVolume (vol 0 p) (F p)) (volRate (L p) (dvol p / vol 0 p)) (cv p).
Proof. intros I0. apply (scaled_path (F p) (L p) (c p) (fun t => vol t p)); [now apply Hp|now apply HJ|now apply Hv|apply vol_derive]. Qed.

Definition meanProj (S : A -> t3) p := proj (fun h => w h * (tr3 (S h) / 3)) p.
Definition total (S : A -> t3) (J th : A -> R) p : t3 := fun i j => S p i j + kron i j * (meanProj S p * J p / th p - tr3 (S p) / 3).

Lemma total_work S J th p Lq : th p <> 0 ->
  w p * th p * ddot3 (total S J th p) Lq = w p * (ddot3 (dev (fun i j => th p * S p i j)) Lq + meanProj S p * (J p * tr3 Lq)).
Proof. intros N. unfold total, ddot3, dev, tr3, kron. cbn. field. exact N. Qed.

Theorem energy_work W S : (forall p, In p ps -> stressOf (W p) (withVolume (vol 0 p) (F p)) (S p)) ->
  is_derive (fun t => sumL (fun p => w p * W p (cv p t)) ps) 0
    (sumL (fun p => w p * vol 0 p * ddot3 (total S (fun h => det3 (F h)) (vol 0) p) (L p)) ps).
Proof.
  intros HS. eapply dv; cycle 1.
  - apply (dsumLin (fun t p => w p * W p (cv p t))). intros p I0. apply dscal. exact (HS p I0 _ _ (cv_path p I0)).
  - cbv beta. symmetry.
    transitivity (sumL (fun p => w p * (vol 0 p * ddot3 (dev (S p)) (L p)) + (w p * (det3 (F p) * tr3 (L p))) * meanProj S p) ps).
    { apply sumL_ext. intros p I0. rewrite total_work by (pose proof (Hv p I0); lra). unfold ddot3, dev, tr3, kron. cbn. field. }
    rewrite sumL_plus. unfold meanProj. rewrite adjoint by exact Hs. rewrite <- sumL_plus. apply sumL_ext. intros p I0.
    rewrite det_withVolume by auto. fold (dvol p). pose proof (Hv p I0). unfold ddot3, dev, volRate, tr3, kron. cbn. field. lra.
Qed.

Variables (G : A -> t3) (sg : A -> t3 -> t3) (C : A -> nat -> nat -> R).
Definition St t p := sg p (cv p t).
Definition Lt t p := mul3 (G p) (inv3 (c p t)).
Definition volq p := proj (fun h => w h * (det3 (F h) * tr3 (Lt 0 h))) p.
Definition pr p := meanProj (St 0) p * det3 (F p) / vol 0 p.
Definition pointRate p := rate (C p) (St 0 p) (volRate (L p) (dvol p / vol 0 p)).
Definition dmean h := tr3 (pointRate h) / 3 - tr3 (St 0 h) / 3 * (dvol h / vol 0 h).

Hypothesis (Hc : forall p, In p ps -> c p 0 = F p) (HC : forall p, In p ps -> tangentOf (sg p) (withVolume (vol 0 p) (F p)) (C p))
  (Hsym : forall p, In p ps -> sym3 (St 0 p)).

Lemma cv0 p : In p ps -> cv p 0 = withVolume (vol 0 p) (F p).
Proof. intros I0. unfold cv. now rewrite Hc. Qed.
Definition Tt t p : t3 := fun i j => det3 (cv p t) * St t p i j.
Lemma Tt_derive p i j : In p ps -> (1 <= i <= 3)%nat -> (1 <= j <= 3)%nat -> is_derive (fun t => Tt t p i j) 0 (vol 0 p * pointRate p i j).
Proof.
  intros I0 Ii Ij. eapply dv; [|exact (HC p I0 _ _ (cv_path p I0) i j Ii Ij)]. rewrite det_withVolume by auto.
  unfold pointRate, rate, St. rewrite cv0 by exact I0. reflexivity.
Qed.
Lemma Lt_derive p i j : In p ps -> (1 <= i <= 3)%nat -> (1 <= j <= 3)%nat -> is_derive (fun t => Lt t p i j) 0 (- mul3 (Lt 0 p) (L p) i j).
Proof.
  intros I0 Ii Ij. pose proof (HJ p I0).
  pose proof (inv3_path (F p) (L p) (c p) (Rgt_not_eq _ _ (HJ p I0)) (Hp p I0)) as D. unfold Lt. unfold mul3 at 1.
  eapply dv; cycle 1.
  - apply dplus; [apply dplus|]; apply dscal; apply D; lia.
  - cbv beta. rewrite Hc by exact I0. unfold mul3. ring.
Qed.
Lemma ddot3_derive (X Y : R -> t3) X' Y' :
  (forall i j, (1 <= i <= 3)%nat -> (1 <= j <= 3)%nat -> is_derive (fun t => X t i j) 0 (X' i j)) ->
  (forall i j, (1 <= i <= 3)%nat -> (1 <= j <= 3)%nat -> is_derive (fun t => Y t i j) 0 (Y' i j)) ->
  is_derive (fun t => ddot3 (X t) (Y t)) 0 (ddot3 X' (Y 0) + ddot3 (X 0) Y').
Proof.
  intros HX HY. unfold ddot3. eapply dv; cycle 1.
  - repeat (match goal with |- is_derive (fun _ => _ + _) _ _ => apply dplus end); (apply dmult; [apply HX|apply HY]); lia.
  - cbv beta. ring.
Qed.
Lemma tr3_derive (X : R -> t3) X' : (forall i j, (1 <= i <= 3)%nat -> (1 <= j <= 3)%nat -> is_derive (fun t => X t i j) 0 (X' i j)) ->
  is_derive (fun t => tr3 (X t)) 0 (tr3 X').
Proof. intros HX. unfold tr3. apply dplus; [apply dplus|]; apply HX; lia. Qed.
Lemma dev_derive (X : R -> t3) X' i j : (forall i j, (1 <= i <= 3)%nat -> (1 <= j <= 3)%nat -> is_derive (fun t => X t i j) 0 (X' i j)) ->
  (1 <= i <= 3)%nat -> (1 <= j <= 3)%nat -> is_derive (fun t => dev (X t) i j) 0 (dev X' i j).
Proof.
  intros HX Ii Ij. apply (dext (fun t => X t i j + - kron i j / 3 * tr3 (X t))); [intros t; unfold dev; field|].
  replace (dev X' i j) with (X' i j + - kron i j / 3 * tr3 X') by (unfold dev; field).
  apply (dplus (fun t => X t i j) (fun t => - kron i j / 3 * tr3 (X t))); [apply HX; assumption|apply dscal; apply tr3_derive; exact HX].
Qed.

Definition mean t p := proj (fun h => w h * (tr3 (Tt t h) / 3 * / vol t h)) p.
Lemma mean_derive p : is_derive (fun t => mean t p) 0 (proj (fun h => w h * dmean h) p).
Proof.
  apply proj_derive. intros h Ih. apply dscal. pose proof (Hv h Ih). eapply dv; cycle 1.
  - apply (dmult (fun t => tr3 (Tt t h) / 3) (fun t => / vol t h)).
    + apply (dscal_r (fun t => tr3 (Tt t h)) (/ 3)). apply (tr3_derive (fun t => Tt t h)). intros i j Ii Ij. now apply Tt_derive.
    + apply (is_derive_inv (fun t => vol t h)); [apply vol_derive|lra].
  - cbv beta. assert (E : tr3 (Tt 0 h) = vol 0 h * tr3 (St 0 h)). { unfold Tt. rewrite cv0, det_withVolume by auto. unfold tr3. ring. }
    rewrite E. assert (E2 : tr3 (fun i j => vol 0 h * pointRate h i j) = vol 0 h * tr3 (pointRate h)) by (unfold tr3; ring).
    unfold dmean. rewrite E2. cbn. field. lra.
Qed.

Theorem tangent_work :
  is_derive (fun t => sumL (fun p => w p * vol t p * ddot3 (total (St t) (fun h => det3 (c h t)) (vol t) p) (Lt t p)) ps) 0
    (sumL (fun p => w p * vol 0 p * (kgForm (total (St 0) (fun h => det3 (F h)) (vol 0) p) (Lt 0 p) (L p)
       + d7Form (projected (C p) (tovoigt (St 0 p)) (tr3 (St 0 p) / 3) (pr p)) (e7 (Lt 0 p) (volq p / vol 0 p)) (e7 (L p) (dvol p / vol 0 p)))) ps).
Proof.
  apply (dext_loc (fun t => sumL (fun p => w p * (ddot3 (dev (Tt t p)) (Lt t p) + mean t p * (det3 (c p t) * tr3 (Lt t p)))) ps)).
  { assert (A1 : locally 0 (fun t => forall p, In p ps -> 0 < vol t p /\ 0 < det3 (c p t))).
    { apply locally_all. intros p I0. apply (filter_and (fun t => 0 < vol t p)).
      - apply (locally_pos (fun t => vol t p) (dvol p)); [apply vol_derive|now apply Hv].
      - apply (locally_pos (fun t => det3 (c p t)) (det3 (F p) * tr3 (L p))); [apply det3_path; now apply Hp|]. rewrite Hc by exact I0. now apply HJ. }
    revert A1. apply filter_imp. intros t Ht. apply sumL_ext. intros p I0. destruct (Ht p I0) as [V1 V2].
    rewrite total_work by lra. f_equal. f_equal.
    - unfold Tt, cv. rewrite det_withVolume by assumption. reflexivity.
    - f_equal. unfold mean, meanProj. apply proj_ext. intros h Ih. destruct (Ht h Ih) as [W1 W2]. f_equal. unfold Tt, cv. rewrite det_withVolume by assumption.
      unfold tr3. field. lra. }
  eapply dv; cycle 1.
  - apply (dsumLin (fun t p => w p * (ddot3 (dev (Tt t p)) (Lt t p) + mean t p * (det3 (c p t) * tr3 (Lt t p))))). intros p I0. apply dscal.
    apply (dplus (fun t => ddot3 (dev (Tt t p)) (Lt t p)) (fun t => mean t p * (det3 (c p t) * tr3 (Lt t p)))).
    + apply (ddot3_derive (fun t => dev (Tt t p)) (fun t => Lt t p) (dev (fun i j => vol 0 p * pointRate p i j)) (fun i j => - mul3 (Lt 0 p) (L p) i j)).
      * intros i j Ii Ij. apply (dev_derive (fun t => Tt t p)); [intros; now apply Tt_derive|assumption|assumption].
      * intros; now apply Lt_derive.
    + apply (dmult (fun t => mean t p) (fun t => det3 (c p t) * tr3 (Lt t p))); [apply mean_derive|].
      apply (dmult (fun t => det3 (c p t)) (fun t => tr3 (Lt t p))); [apply det3_path; now apply Hp|].
      apply (tr3_derive (fun t => Lt t p) (fun i j => - mul3 (Lt 0 p) (L p) i j)). intros; now apply Lt_derive.
  - cbv beta.
    transitivity (sumL (fun p => w p * (ddot3 (dev (fun i j => vol 0 p * pointRate p i j)) (Lt 0 p) - vol 0 p * ddot3 (dev (St 0 p)) (mul3 (Lt 0 p) (L p))
      + meanProj (St 0) p * det3 (F p) * (tr3 (L p) * tr3 (Lt 0 p) - tr3 (mul3 (Lt 0 p) (L p))))
      + w p * (det3 (F p) * tr3 (Lt 0 p)) * proj (fun h => w h * dmean h) p) ps).
    { apply sumL_ext. intros p I0. rewrite Hc by exact I0. unfold Tt. rewrite cv0, det_withVolume by auto.
      assert (EM : mean 0 p = meanProj (St 0) p).
      { unfold mean, meanProj. apply proj_ext. intros h Ih. pose proof (Hv h Ih). f_equal. unfold Tt. rewrite cv0, det_withVolume by auto. unfold tr3. field. lra. }
      rewrite EM. generalize (meanProj (St 0) p) (proj (fun h => w h * dmean h) p) (vol 0 p) (St 0 p) (pointRate p) (Lt 0 p) (mul3 (Lt 0 p) (L p)) (det3 (F p)).
      intros a1 a2 v0 S0 P0 Q0 M0 J0. unfold ddot3, dev, tr3, kron. cbn. field. }
    rewrite sumL_plus. rewrite (adjoint (fun p => w p * (det3 (F p) * tr3 (Lt 0 p)))) by exact Hs. rewrite <- sumL_plus.
    apply sumL_ext. intros p I0. fold (volq p). pose proof (Hv p I0) as V0.
    unfold total. fold (pr p). rewrite <- (point_identity (C p) (St 0 p) (Lt 0 p) (L p) (volq p / vol 0 p) (dvol p / vol 0 p) (pr p)) by now apply Hsym.
    fold (pointRate p). unfold dmean.
    assert (E1 : ddot3 (dev (fun i j => vol 0 p * pointRate p i j)) (Lt 0 p) = vol 0 p * ddot3 (dev (pointRate p)) (Lt 0 p)).
    { unfold ddot3, dev, tr3, kron. cbn. field. }
    rewrite E1. unfold pr. field. lra.
Qed.
End Points.
