From Verif.Lib Require Import Base Sums Tensor3 Congruence.
From Verif.Spec Require Import Hooke Plasticity.
From Verif.Model Require Import Plastic ReturnMap.
From Verif.Proofs Require Import Plastic.
From Coquelicot Require Import Coquelicot.

(** * The Newton matrix of the return mapping *)
Definition fphi2 (k3 J2 J3 : R) : R := 1 / sqrt (2 * J2) - k3 * J3 / (J2 * J2).
Definition fphi22 (k3 J2 J3 : R) : R := - (1 / sqrt (2 * J2) * (1 / sqrt (2 * J2)) * (1 / sqrt (2 * J2))) + 2 * k3 * J3 / (J2 * J2 * J2).
Definition fphi3 (k3 J2 : R) : R := k3 / J2.
Definition fphi23 (k3 J2 : R) : R := - k3 / (J2 * J2).

Lemma thr_eps J2 : epsZ < J2 -> thr < J2.
Proof.
  intros H. unfold thr. pose proof epsZ_pos. assert (epsZ <= 1).
  { unfold epsZ. replace 1 with (/ 1) by field. apply Rinv_le_contravar; [lra|]. apply pow_R1_Rle; lra. }
  assert (epsZ * epsZ <= epsZ * 1) by (apply Rmult_le_compat_l; lra). lra.
Qed.

Section Newton.
Variables (h hk y0 yi beta ist a13 a14 E nu a2 rho K G : R).
Variable hfn : option ((R -> R) * (R -> R)).
Notation pl t := (params h hk (IZR t) y0 yi beta ist a13 a14 E nu a2 rho K G).

Definition cI (t : Z) : R := if Z.eqb t 2 then 1/3 * (sqt23 * yi) else 0.
Definition cK (t : Z) : R := if Z.eqb t 3 then sqrt (27/2) * (sqt23 * yi) else 0.

(** Admissible data: with a hardening curve the linear term must vanish (see C11), and the power law is
    taken away from zero plastic strain. *)
Definition regular (t : Z) (e : R) : Prop :=
  (1 <= t <= 6)%Z /\ (t = 4%Z -> epsZ < e) /\
  (t = 5%Z -> h = 0 /\ exists f d, hfn = Some (f, d) /\ is_derive f e (d e)).

Lemma closed t e I1 J2 J3 : (1 <= t <= 6)%Z -> (t = 4%Z -> epsZ <= e) -> (t = 5%Z -> hfn <> None) -> epsZ < J2 ->
  exists Ypr YY, yfunc (pl t) hfn true e I1 J2 J3 =
    Ret (mkY (cI t) (fphi2 (cK t) J2 J3) (fphi3 (cK t) J2) 0 (fphi22 (cK t) J2 J3) 0 0 0 (fphi23 (cK t) J2) Ypr YY
             (sqrt (2 * J2) + cI t * I1 + cK t * J3 / J2 - sqt23 * sigy (law_of t h y0 yi beta a13 a14 hfn) e)).
Proof.
  intros Ht H4 H5 HJ. pose proof epsZ_pos as He. pose proof (thr_eps J2 HJ) as Hthr.
  pose proof (radius h hk y0 yi beta ist a13 a14 E nu a2 rho K G t hfn true e I1 J2 J3 Ht H4 H5) as HR.
  rewrite <- HR. clear HR.
  pose proof (f2_val J2 Hthr) as V2. pose proof (f22_val J2 Hthr) as V22.
  assert (HJ0 : 0 < J2) by lra.
  assert (Vs : (if Rlt_dec 0 J2 then sqrt (2 * J2) else 0) = sqrt (2 * J2)) by (destruct (Rlt_dec 0 J2); [reflexivity|contradiction]).
  rewrite Vs in V2, V22.
  assert (Z2 : fphi2 0 J2 J3 = 1 / sqrt (2 * J2)) by (unfold fphi2; field; split; (lra || (apply Rgt_not_eq, sqrt_lt_R0; lra))).
  assert (Z22 : fphi22 0 J2 J3 = - (1 / sqrt (2 * J2) * (1 / sqrt (2 * J2)) * (1 / sqrt (2 * J2)))).
  { unfold fphi22. replace (2 * 0 * J3 / (J2 * J2 * J2)) with 0 by (field; lra). ring. }
  assert (Z3 : fphi3 0 J2 = 0) by (unfold fphi3; field; lra).
  assert (Z23 : fphi23 0 J2 = 0) by (unfold fphi23; field; lra).
  unfold yfunc; cbn [params rd nth_error bind]; rewrite toint_IZR, Vs.
  assert (C : t = 1%Z \/ t = 2%Z \/ t = 3%Z \/ t = 4%Z \/ t = 5%Z \/ t = 6%Z) by lia.
  assert (Fin : forall c Ypr YY y v, fphi2 0 J2 J3 = f2_of true (sqrt (2 * J2)) -> y = sqrt (2 * J2) + c * I1 + 0 * J3 / J2 - v -> YY = v ->
    exists Ypr' YY', (Ret (mkY c (f2_of true (sqrt (2 * J2))) 0 0 (f22_of true (sqrt (2 * J2))) 0 0 0 0 Ypr YY y) : res yout) =
      Ret (mkY c (fphi2 0 J2 J3) (fphi3 0 J2) 0 (fphi22 0 J2 J3) 0 0 0 (fphi23 0 J2) Ypr' YY' (sqrt (2 * J2) + c * I1 + 0 * J3 / J2 - v))).
  { intros c Ypr YY y v e1 -> ->. exists Ypr, v. rewrite e1, Z22, Z3, Z23, V22. reflexivity. }
  assert (Z2' : fphi2 0 J2 J3 = f2_of true (sqrt (2 * J2))) by (rewrite V2; exact Z2).
  decompose [or] C; subst t; cbn [cI cK Z.eqb Pos.eqb YYof yYY].
  - apply Fin; [exact Z2'|field; lra|reflexivity].
  - apply (Fin (1/3 * (sqt23 * yi))); [exact Z2'|field; lra|reflexivity].
  - destruct (Rlt_dec J2 epsZ); [exfalso; lra|]. cbn [YYof yYY]. do 2 eexists. f_equal.
    assert (Hs : sqrt (2 * J2) <> 0) by (apply Rgt_not_eq, sqrt_lt_R0; lra).
    assert (Hi : 0 < 1 / J2) by (apply Rdiv_lt_0_compat; lra).
    assert (Hh := half_sqrt J2 HJ0).
    assert (Hc : sqrt (1/2) * sqrt (1/2) = 1/2) by (apply sqrt_sqrt; lra).
    unfold fphi2, fphi22, fphi3, fphi23. rewrite Hh. f_equal; first [reflexivity | ring | (field; lra) | idtac].
    replace (sqrt (1/2) * sqrt (1/J2) * (sqrt (1/2) * sqrt (1/J2)) * (sqrt (1/2) * sqrt (1/J2)))
        with (sqrt (1/2) * sqrt (1/2) * sqrt (1/2) * (sqrt (1/J2) * sqrt (1/J2) * sqrt (1/J2))) by ring.
    rewrite Hc. field. lra.
  - specialize (H4 eq_refl). destruct (Rlt_dec e epsZ); [exfalso; lra|]. cbn [YYof yYY].
    apply Fin; [exact Z2'|field; lra|reflexivity].
  - destruct hfn as [[f d]|]; [|exfalso; apply (H5 eq_refl); reflexivity]. cbn [YYof yYY].
    apply Fin; [exact Z2'|field; lra|reflexivity].
  - apply Fin; [exact Z2'|field; lra|reflexivity].
Qed.

(** Motion along a direction d of the unknowns. *)
Definition move (kin : bool) (s : lstate) (d : nat -> R) (t : R) : lstate :=
  mkLS (fun i => sTau s i + t * d i)
       (fun i => if kin then sAlp s i + t * d (i + 3)%nat else sAlp s i)
       (sGam s + t * d (if kin then 7 else 4)%nat).

Definition dlt (kin : bool) (d : nat -> R) (i : nat) : R := if kin then d i - d (i + 3)%nat else d i.
Definition Ddir (kin : bool) (d : nat -> R) (i : nat) : R := dlt kin d i - mean (dlt kin d).
Definition J2dir (ta D : nat -> R) : R := ta 1%nat * D 1%nat + ta 2%nat * D 2%nat + ta 3%nat * D 3%nat.
Definition J3dir (ta D : nat -> R) : R :=
  ta 1%nat * ta 1%nat * D 1%nat + ta 2%nat * ta 2%nat * D 2%nat + ta 3%nat * ta 3%nat * D 3%nat.

Lemma rel_move kin s d t i :
  relstress (sTau (move kin s d t)) (sAlp (move kin s d t)) i = relstress (sTau s) (sAlp s) i + t * Ddir kin d i.
Proof. unfold relstress, move, Ddir, dlt, mean, sum3; cbn [sTau sAlp]. destruct kin; cbv iota; field. Qed.
Lemma inv1_move kin s d t :
  inv1 (sTau (move kin s d t)) (sAlp (move kin s d t)) = inv1 (sTau s) (sAlp s) + t * sum3 (dlt kin d).
Proof. unfold inv1, move, dlt, mean, sum3; cbn [sTau sAlp]. destruct kin; cbv iota; field. Qed.
Lemma inv2_move kin s d t : let ta := relstress (sTau s) (sAlp s) in
  inv2 (relstress (sTau (move kin s d t)) (sAlp (move kin s d t))) =
  inv2 ta + t * J2dir ta (Ddir kin d) + t * t * inv2 (Ddir kin d).
Proof. intros ta. unfold inv2. rewrite !rel_move. fold ta. unfold J2dir. field. Qed.
Lemma inv3_move kin s d t : let ta := relstress (sTau s) (sAlp s) in
  inv3s (relstress (sTau (move kin s d t)) (sAlp (move kin s d t))) =
  (let u i := ta i + t * Ddir kin d i in inv3s u).
Proof. intros ta. unfold inv3s. rewrite !rel_move. reflexivity. Qed.

Lemma j2_rate ta D : is_derive (fun t => inv2 ta + t * J2dir ta D + t * t * inv2 D) 0 (J2dir ta D).
Proof. auto_derive; [trivial|ring]. Qed.
Lemma j3_rate ta D : is_derive (fun t => inv3s (fun i => ta i + t * D i)) 0 (J3dir ta D).
Proof. unfold inv3s, J3dir. auto_derive; [trivial|field]. Qed.

Lemma sqrt2_pos x : 0 < x -> 0 < sqrt (2 * x). Proof. intros; apply sqrt_lt_R0; lra. Qed.

Lemma phi2_rate k3 (J2 J3 : R -> R) (d2 d3 : R) : 0 < J2 0 -> is_derive J2 0 d2 -> is_derive J3 0 d3 ->
  is_derive (fun t => fphi2 k3 (J2 t) (J3 t)) 0 (fphi22 k3 (J2 0) (J3 0) * d2 + fphi23 k3 (J2 0) * d3).
Proof.
  intros HJ D2 D3. pose proof (sqrt2_pos _ HJ) as Hs. unfold fphi2, fphi22, fphi23. auto_derive.
  - repeat split; try (eexists; eassumption); try lra.
    apply Rgt_not_eq, Rmult_lt_0_compat; assumption.
  - rewrite (is_derive_unique (fun x : R => J2 x) _ _ D2), (is_derive_unique (fun x : R => J3 x) _ _ D3).
    field. split; lra.
Qed.
Lemma phi3_rate k3 (J2 : R -> R) (d2 : R) : 0 < J2 0 -> is_derive J2 0 d2 ->
  is_derive (fun t => fphi3 k3 (J2 t)) 0 (fphi23 k3 (J2 0) * d2).
Proof.
  intros HJ D2. unfold fphi3, fphi23. auto_derive.
  - repeat split; try (eexists; eassumption); lra.
  - rewrite (is_derive_unique (fun x : R => J2 x) _ _ D2). field. lra.
Qed.
Lemma yield_rate k3 c (I1 J2 J3 S : R -> R) (d1 d2 d3 dS : R) : 0 < J2 0 ->
  is_derive I1 0 d1 -> is_derive J2 0 d2 -> is_derive J3 0 d3 -> is_derive S 0 dS ->
  is_derive (fun t => sqrt (2 * J2 t) + c * I1 t + k3 * J3 t / J2 t - sqt23 * S t) 0
    (c * d1 + fphi2 k3 (J2 0) (J3 0) * d2 + fphi3 k3 (J2 0) * d3 - sqt23 * dS).
Proof.
  intros HJ D1 D2 D3 DS. pose proof (sqrt2_pos _ HJ) as Hs. unfold fphi2, fphi3. auto_derive.
  - repeat split; try (eexists; eassumption); lra.
  - rewrite (is_derive_unique (fun x : R => I1 x) _ _ D1), (is_derive_unique (fun x : R => J2 x) _ _ D2),
      (is_derive_unique (fun x : R => J3 x) _ _ D3), (is_derive_unique (fun x : R => S x) _ _ DS).
    field. split; lra.
Qed.

(** Rate of the normal. *)
Definition nrate (P2 P3 dP2 dP3 : R) (ta D : nat -> R) (a : nat) : R :=
  - dP3 * (2/3) * inv2 ta - P3 * (2/3) * J2dir ta D + (dP2 + dP3 * ta a + P3 * D a) * ta a + (P2 + P3 * ta a) * D a.
Lemma r1_rate c (P2 P3 : R -> R) (dP2 dP3 : R) ta D a (b0 b1 g0 g1 : R) :
  is_derive P2 0 dP2 -> is_derive P3 0 dP3 ->
  is_derive (fun t => b0 + t * b1 + (g0 + t * g1) *
       (c - P3 t * (2/3) * (inv2 ta + t * J2dir ta D + t * t * inv2 D) + (P2 t + P3 t * (ta a + t * D a)) * (ta a + t * D a))) 0
    (b1 + g1 * (c - P3 0 * (2/3) * inv2 ta + (P2 0 + P3 0 * ta a) * ta a) + g0 * nrate (P2 0) (P3 0) dP2 dP3 ta D a).
Proof.
  intros D2 D3. unfold nrate. auto_derive.
  - repeat split; eexists; eassumption.
  - rewrite (is_derive_unique (fun x : R => P2 x) _ _ D2), (is_derive_unique (fun x : R => P3 x) _ _ D3). ring.
Qed.

Lemma fss_sum c P2 P3 P22 P23 Ypr YY yv ta gam kin d a :
  (1 <= a <= 3)%nat -> sum3 ta = 0 ->
  let y := mkY c P2 P3 0 P22 0 0 0 P23 Ypr YY yv in
  fss y ta gam a 1 * dlt kin d 1%nat + fss y ta gam a 2 * dlt kin d 2%nat + fss y ta gam a 3 * dlt kin d 3%nat =
  gam * nrate P2 P3 (P22 * J2dir ta (Ddir kin d) + P23 * J3dir ta (Ddir kin d)) (P23 * J2dir ta (Ddir kin d)) ta (Ddir kin d) a.
Proof.
  intros Ha Hs y. subst y. unfold sum3 in Hs.
  assert (H3 : ta 3%nat = - ta 1%nat - ta 2%nat) by lra.
  unfold fss, nrate, Ddir, mean, sum3, inv2, J2dir, J3dir. cbn [yf1 yf2 yf3 yf11 yf22 yf33 yf12 yf13 yf23].
  set (u1 := dlt kin d 1%nat). set (u2 := dlt kin d 2%nat). set (u3 := dlt kin d 3%nat).
  idx a; fold u1 u2 u3; cbn [Nat.eqb]; rewrite ?H3; field.
Qed.

Lemma n_sum c P2 P3 P22 P23 Ypr YY yv ta kin d :
  sum3 ta = 0 -> let y := mkY c P2 P3 0 P22 0 0 0 P23 Ypr YY yv in
  normal y ta 1%nat * dlt kin d 1%nat + normal y ta 2%nat * dlt kin d 2%nat + normal y ta 3%nat * dlt kin d 3%nat =
  c * sum3 (dlt kin d) + P2 * J2dir ta (Ddir kin d) + P3 * J3dir ta (Ddir kin d).
Proof.
  intros Hs y. subst y. unfold sum3 in Hs.
  assert (H3 : ta 3%nat = - ta 1%nat - ta 2%nat) by lra.
  unfold normal, Ddir, mean, sum3, inv2, J2dir, J3dir. cbn [yf1 yf2 yf3].
  rewrite ?H3. field.
Qed.

Lemma sum_rel tau alp : sum3 (relstress tau alp) = 0.
Proof. unfold sum3, relstress, mean, sum3. field. Qed.

(** The residual as function of the state. *)
Definition resAt (t : Z) (Eppn Bm Sm Hkr : R) (etr alpn : nat -> R) (kin : bool) (s : lstate) (k : nat) : R :=
  match yat (pl t) hfn Eppn s with Ret y => residual Bm Sm Hkr etr alpn kin y s k | _ => 0 end.

Lemma cont_pos (f : R -> R) df lo : is_derive f 0 df -> lo < f 0 -> locally 0 (fun t => lo < f t).
Proof.
  intros D H. assert (Hc : continuous f 0) by (apply (ex_derive_continuous f 0); eexists; exact D).
  apply (Hc (fun u => lo < u)). apply (open_gt lo). exact H.
Qed.

Lemma el_move kin s d t Bm Sm k : elstrain Bm Sm (sTau (move kin s d t)) k =
  elstrain Bm Sm (sTau s) k + t * (1/2 / Sm * (d k - mean d) + 1/3 / Bm * mean d).
Proof. unfold elstrain, move, mean, sum3; cbn [sTau]. unfold Rdiv. ring. Qed.

Section Rows.
Variables (t : Z) (Eppn Bm Sm Hk : R) (etr alpn : nat -> R) (kin : bool) (s : lstate) (d : nat -> R).
Let ta := relstress (sTau s) (sAlp s).
Let D := Ddir kin d.
Let dg := d (if kin then 7 else 4)%nat.
Let ee (x : R) := Eppn + sqt23 * (sGam s + x * dg).
Let J2 (x : R) := inv2 ta + x * J2dir ta D + x * x * inv2 D.
Let J3 (x : R) := inv3s (fun i => ta i + x * D i).
Let I1 (x : R) := inv1 (sTau s) (sAlp s) + x * sum3 (dlt kin d).
Let sg := sigy (law_of t h y0 yi beta a13 a14 hfn).
Hypothesis Hreg : regular t (Eppn + sqt23 * sGam s).
Hypothesis HJ2 : epsZ < inv2 ta.

Let ymodel (Ypr YY x : R) : yout :=
  mkY (cI t) (fphi2 (cK t) (J2 x) (J3 x)) (fphi3 (cK t) (J2 x)) 0 (fphi22 (cK t) (J2 x) (J3 x)) 0 0 0 (fphi23 (cK t) (J2 x)) Ypr YY
             (sqrt (2 * J2 x) + cI t * I1 x + cK t * J3 x / J2 x - sqt23 * sg (ee x)).

Lemma e0 : ee 0 = Eppn + sqt23 * sGam s. Proof. unfold ee. ring. Qed.
Lemma j0 : J2 0 = inv2 ta. Proof. unfold J2. ring. Qed.
Lemma j30 : J3 0 = inv3s ta. Proof. unfold J3, inv3s. ring. Qed.
Lemma i0 : I1 0 = inv1 (sTau s) (sAlp s). Proof. unfold I1. ring. Qed.

Lemma near : locally 0 (fun x => exists Ypr YY, yat (pl t) hfn Eppn (move kin s d x) = Ret (ymodel Ypr YY x)).
Proof.
  destruct Hreg as (Ht & H4 & H5).
  assert (L1 : locally 0 (fun x => epsZ < J2 x)).
  { apply (cont_pos J2 (J2dir ta D)); [apply j2_rate|]. rewrite j0. exact HJ2. }
  assert (L2 : locally 0 (fun x => t = 4%Z -> epsZ <= ee x)).
  { destruct (Z.eq_dec t 4) as [E4|E4]; [|apply filter_forall; intros x Hx; contradiction].
    assert (L : locally 0 (fun x => epsZ < ee x)).
    { apply (cont_pos ee (sqt23 * dg)); [unfold ee; auto_derive; [trivial|ring]|]. rewrite e0. apply H4; exact E4. }
    revert L. apply filter_imp. intros x Hx _. lra. }
  generalize (filter_and _ _ L1 L2). apply filter_imp. intros x [h1 h2].
  unfold yat. rewrite inv1_move. rewrite (inv2_move kin s d x), (inv3_move kin s d x). cbv zeta.
  fold ta. fold D. change (sGam (move kin s d x)) with (sGam s + x * dg).
  apply (closed t (ee x) (I1 x) (J2 x) (J3 x)); [exact Ht|exact h2| |exact h1].
  intros E5 En. destruct (H5 E5) as (_ & f & dd & Ef & _). congruence.
Qed.

Lemma at0 : exists Ypr YY, yat (pl t) hfn Eppn s = Ret (ymodel Ypr YY 0) /\
  is_derive (fun x => sg (ee x)) 0 (3/2 * Ypr * (sqt23 * dg)).
Proof.
  destruct Hreg as (Ht & H4 & H5). pose proof epsZ_pos.
  destruct (closed t (ee 0) (I1 0) (J2 0) (J3 0)) as (Ypr & YY & E1); [exact Ht| | | |].
  - intros E4. rewrite e0. apply Rlt_le, H4; exact E4.
  - intros E5 En. destruct (H5 E5) as (_ & f & dd & Ef & _). congruence.
  - rewrite j0. exact HJ2.
  - exists Ypr, YY. split.
    + transitivity (yfunc (pl t) hfn true (ee 0) (I1 0) (J2 0) (J3 0)); [|exact E1].
      unfold yat. rewrite e0, j0, j30, i0. reflexivity.
    + pose proof (slope h hk y0 yi beta ist a13 a14 E nu a2 rho K G t hfn true (ee 0) (I1 0) (J2 0) (J3 0) Ht) as SL.
      rewrite E1 in SL. cbn [Yprof yYpr] in SL.
      assert (SD : is_derive sg (ee 0) (3/2 * Ypr)).
      { apply SL; [intros E4; rewrite e0; apply Rlt_le, H4; exact E4|]. rewrite e0. exact H5. }
      assert (DE : is_derive ee 0 (sqt23 * dg)) by (unfold ee; auto_derive; [trivial|ring]).
      pose proof (is_derive_comp sg ee 0 _ _ SD DE) as DC. 
      replace (3/2 * Ypr * (sqt23 * dg)) with (scal (sqt23 * dg) (3/2 * Ypr)); [exact DC|].
      unfold scal; cbn; unfold mult; cbn. ring.
Qed.

Lemma j0pos : 0 < J2 0. Proof. rewrite j0. pose proof epsZ_pos. lra. Qed.
Lemma dJ2 : is_derive J2 0 (J2dir ta D). Proof. apply j2_rate. Qed.
Lemma dJ3 : is_derive J3 0 (J3dir ta D). Proof. apply j3_rate. Qed.
Lemma dI1 : is_derive I1 0 (sum3 (dlt kin d)). Proof. unfold I1. auto_derive; [trivial|ring]. Qed.

Let P2 (x : R) := fphi2 (cK t) (J2 x) (J3 x).
Let P3 (x : R) := fphi3 (cK t) (J2 x).

(** gamma times normal along the motion, as expected by r1_rate. *)
Lemma normal_move Ypr YY x a :
  normal (ymodel Ypr YY x) (relstress (sTau (move kin s d x)) (sAlp (move kin s d x))) a =
  cI t - P3 x * (2/3) * (inv2 ta + x * J2dir ta D + x * x * inv2 D) + (P2 x + P3 x * (ta a + x * D a)) * (ta a + x * D a).
Proof.
  unfold normal. rewrite inv2_move, rel_move. fold ta. fold D. cbn [ymodel yf1 yf2 yf3]. fold (P2 x). fold (P3 x). ring.
Qed.

Lemma lin_row (b0 b1 : R) a : (1 <= a <= 3)%nat -> forall Ypr YY,
  is_derive (fun x => b0 + x * b1 + (sGam s + x * dg) *
     (cI t - P3 x * (2/3) * (inv2 ta + x * J2dir ta D + x * x * inv2 D) + (P2 x + P3 x * (ta a + x * D a)) * (ta a + x * D a))) 0
   (b1 + dg * normal (ymodel Ypr YY 0) ta a +
    (fss (ymodel Ypr YY 0) ta (sGam s) a 1 * dlt kin d 1%nat + fss (ymodel Ypr YY 0) ta (sGam s) a 2 * dlt kin d 2%nat +
     fss (ymodel Ypr YY 0) ta (sGam s) a 3 * dlt kin d 3%nat)).
Proof.
  intros Ha Ypr YY. unfold ymodel. rewrite (fss_sum _ _ _ _ _ _ _ _ ta (sGam s) kin d a Ha (sum_rel _ _)).
  assert (DP2 : is_derive P2 0 (fphi22 (cK t) (J2 0) (J3 0) * J2dir ta D + fphi23 (cK t) (J2 0) * J3dir ta D))
    by (apply phi2_rate; [apply j0pos|apply dJ2|apply dJ3]).
  assert (DP3 : is_derive P3 0 (fphi23 (cK t) (J2 0) * J2dir ta D)) by (apply phi3_rate; [apply j0pos|apply dJ2]).
  exact (r1_rate (cI t) P2 P3 _ _ ta D a b0 b1 (sGam s) dg DP2 DP3).
Qed.

(** A row of the residual whose model form is known has the derivative of that form. *)
Lemma row_ext (f : R -> R) k Hkr v :
  (forall Ypr YY x, residual Bm Sm Hkr etr alpn kin (ymodel Ypr YY x) (move kin s d x) k = f x) ->
  is_derive f 0 v -> is_derive (fun x => resAt t Eppn Bm Sm Hkr etr alpn kin (move kin s d x) k) 0 v.
Proof.
  intros Hf Hd. apply (is_derive_ext_loc f); [|exact Hd].
  generalize near. apply filter_imp. intros x (Ypr & YY & E1). unfold resAt. rewrite E1. symmetry. apply Hf.
Qed.

Definition nvar (b : bool) : nat := if b then 7 else 4.

Lemma tres_top y k : (1 <= k <= 3)%nat ->
  sumf (nvar kin) (fun l => tres Bm Sm Hk kin y s k l * d l) =
  1/2 / Sm * (d k - mean d) + 1/3 / Bm * mean d + dg * normal y ta k +
    (fss y ta (sGam s) k 1 * dlt kin d 1%nat + fss y ta (sGam s) k 2 * dlt kin d 2%nat + fss y ta (sGam s) k 3 * dlt kin d 3%nat).
Proof.
  intros Hk3. unfold tres. fold ta. subst dg. generalize (fss y ta (sGam s)) as F. generalize (normal y ta) as n. intros n F.
  unfold mean, sum3, dlt, nvar. destruct kin.
  - idx k; cbn [sumf Nat.leb Nat.eqb Nat.sub Nat.add]; unfold Rdiv; ring.
  - idx k; cbn [sumf Nat.leb Nat.eqb Nat.sub Nat.add]; unfold Rdiv; ring.
Qed.

Lemma row1 k Hkr : (1 <= k <= 3)%nat ->
  exists y, yat (pl t) hfn Eppn s = Ret y /\
  is_derive (fun x => resAt t Eppn Bm Sm Hkr etr alpn kin (move kin s d x) k) 0
            (sumf (nvar kin) (fun l => tres Bm Sm Hk kin y s k l * d l)).
Proof.
  intros Hk3. destruct at0 as (Ypr & YY & E1 & DS).
  eexists. split; [exact E1|]. rewrite (tres_top _ k Hk3).
  eapply row_ext; [|exact (lin_row (elstrain Bm Sm (sTau s) k - etr k) _ k Hk3 Ypr YY)].
  intros Y1 Y2 x. unfold residual. cbv zeta. rewrite (normal_move Y1 Y2 x k), el_move.
  assert (L3 : (k <=? 3)%nat = true) by (apply Nat.leb_le; lia). rewrite L3.
  change (sGam (move kin s d x)) with (sGam s + x * dg). destruct kin; ring.
Qed.

Lemma rowY Hkr :
  exists y, yat (pl t) hfn Eppn s = Ret y /\
  is_derive (fun x => resAt t Eppn Bm Sm Hkr etr alpn kin (move kin s d x) (nvar kin)) 0
            (sumf (nvar kin) (fun l => tres Bm Sm Hk kin y s (nvar kin) l * d l)).
Proof.
  destruct at0 as (Ypr & YY & E1 & DS).
  eexists. split; [exact E1|].
  assert (Es : sumf (nvar kin) (fun l => tres Bm Sm Hk kin (ymodel Ypr YY 0) s (nvar kin) l * d l) =
    normal (ymodel Ypr YY 0) ta 1%nat * dlt kin d 1%nat + normal (ymodel Ypr YY 0) ta 2%nat * dlt kin d 2%nat +
    normal (ymodel Ypr YY 0) ta 3%nat * dlt kin d 3%nat - Ypr * dg).
  { unfold tres. fold ta. change (yYpr (ymodel Ypr YY 0)) with Ypr. generalize (normal (ymodel Ypr YY 0) ta) as n. intros n.
    subst dg. unfold dlt, nvar. destruct kin; cbn [sumf Nat.leb Nat.eqb Nat.sub Nat.add]; ring. }
  rewrite Es. unfold ymodel at 1 2 3. rewrite (n_sum _ _ _ _ _ _ _ _ ta kin d (sum_rel _ _)).
  apply (row_ext (fun x => yYield (ymodel 0 0 x))).
  - intros Y1 Y2 x. transitivity (yYield (ymodel Y1 Y2 x)); [|reflexivity].
    unfold residual, nvar. destruct kin; reflexivity.
  - pose proof (yield_rate (cK t) (cI t) I1 J2 J3 (fun x => sg (ee x)) _ _ _ _ j0pos dI1 dJ2 dJ3 DS) as Q.
    replace (sqt23 * (3/2 * Ypr * (sqt23 * dg))) with (Ypr * dg) in Q; [exact Q|].
    transitivity (3/2 * (sqt23 * sqt23) * (Ypr * dg)); [rewrite sqt_sq; field|ring].
Qed.

Lemma row2 k : kin = true -> (4 <= k <= 6)%nat ->
  exists y, yat (pl t) hfn Eppn s = Ret y /\
  is_derive (fun x => resAt t Eppn Bm Sm (1 / Hk) etr alpn kin (move kin s d x) k) 0
            (- sumf (nvar kin) (fun l => tres Bm Sm Hk kin y s k l * d l)).
Proof.
  intros Hkin Hk3. destruct at0 as (Ypr & YY & E1 & DS).
  eexists. split; [exact E1|].
  assert (Ha : (1 <= k - 3 <= 3)%nat) by lia.
  assert (Es : - sumf (nvar kin) (fun l => tres Bm Sm Hk kin (ymodel Ypr YY 0) s k l * d l) =
    - d k * (1 / Hk) + dg * normal (ymodel Ypr YY 0) ta (k - 3)%nat +
    (fss (ymodel Ypr YY 0) ta (sGam s) (k-3) 1 * dlt kin d 1%nat + fss (ymodel Ypr YY 0) ta (sGam s) (k-3) 2 * dlt kin d 2%nat +
     fss (ymodel Ypr YY 0) ta (sGam s) (k-3) 3 * dlt kin d 3%nat)).
  { unfold tres. fold ta. generalize (fss (ymodel Ypr YY 0) ta (sGam s)) as F. generalize (normal (ymodel Ypr YY 0) ta) as n. intros n F.
    subst dg. rewrite Hkin. unfold dlt, nvar. clear - Hk3.
    assert (C : k = 4%nat \/ k = 5%nat \/ k = 6%nat) by lia.
    decompose [or] C; subst k; cbn [sumf Nat.leb Nat.eqb Nat.sub Nat.add]; ring. }
  rewrite Es.
  eapply row_ext; [|exact (lin_row ((alpn (k-3)%nat - sAlp s (k-3)%nat) * (1 / Hk)) _ (k-3) Ha Ypr YY)].
  intros Y1 Y2 x. unfold residual. cbv zeta. rewrite (normal_move Y1 Y2 x (k-3)).
  assert (L3 : (k <=? 3)%nat = false) by (apply Nat.leb_gt; lia). assert (L6 : (k <=? 6)%nat = true) by (apply Nat.leb_le; lia).
  rewrite L3, L6. change (sGam (move kin s d x)) with (sGam s + x * dg).
  assert (EA : sAlp (move kin s d x) (k - 3)%nat = sAlp s (k - 3)%nat + x * d k).
  { unfold move; cbn [sAlp]. rewrite Hkin. replace (k - 3 + 3)%nat with k by lia. reflexivity. }
  rewrite EA. destruct kin; [ring|discriminate].
Qed.
End Rows.
End Newton.

(** * The tangent transformation *)
(** Engineering (Voigt) strain of a symmetric tensor, and the tensor in the principal directions. *)
Definition engineering (e : t3) (k : nat) : R := if (k <=? 3)%nat then tovoigt e k else 2 * tovoigt e k.

Lemma Tmat_rotates F e i : (forall a b, e a b = e b a) -> (1 <= i <= 6)%nat ->
  mv 6 (Tmat F) (engineering e) i = engineering (mul3 (trn F) (mul3 e F)) i.
Proof.
  intros He Hi. pose proof (He 2 1)%nat as e21. pose proof (He 3 1)%nat as e31. pose proof (He 3 2)%nat as e32.
  unfold mv. cbn [sumf].
  idx i; unfold engineering, tovoigt, Tmat, p1, p2, mul3, trn; cbn [Nat.leb]; rewrite ?e21, ?e31, ?e32; field.
Qed.

Lemma tangent6_quad F C Jc e : (forall a b, e a b = e b a) ->
  quad 6 (tangent6 F C Jc) (engineering e) = quad 6 C (engineering (mul3 (trn F) (mul3 e F))) / Jc.
Proof.
  intros He. 
  assert (H : forall i, (1 <= i <= 6)%nat -> engineering (mul3 (trn F) (mul3 e F)) i = mv 6 (Tmat F) (engineering e) i)
    by (intros; symmetry; apply Tmat_rotates; assumption).
  transitivity (quad 6 (cong 6 (Tmat F) C) (engineering e) / Jc).
  - unfold quad. unfold Rdiv. rewrite <- sumf_scal_r. apply sumf_ext. intros i _.
    unfold mv. rewrite Rmult_assoc, <- sumf_scal_r. f_equal. apply sumf_ext. intros j _. unfold tangent6, cong. unfold Rdiv. ring.
  - rewrite cong_quad. f_equal. apply quad_ext; [reflexivity|]. intros j Hj. symmetry. apply H; exact Hj.
Qed.

Lemma tangent6_symm F C Jc : symm 6 C -> symm 6 (tangent6 F C Jc).
Proof.
  intros HC i j Hi Hj. unfold tangent6. f_equal. apply (cong_symm 6 6 (Tmat F) C HC i j Hi Hj).
Qed.

Lemma Cstm_symm dtde tau ll : (forall a b, dtde a b = dtde b a) -> symm 6 (Cstm dtde tau ll).
Proof.
  intros Hs i j Hi Hj. unfold Cstm. rewrite (andb_comm (j <=? 3)%nat), (Nat.eqb_sym j i).
  destruct ((i <=? 3) && (j <=? 3))%nat%bool.
  - rewrite Hs. destruct (Nat.eqb_spec i j) as [->|]; reflexivity.
  - destruct (Nat.eqb_spec i j) as [->|]; reflexivity.
Qed.

(** * Newton corrections (C71) *)
(** d is the correction computed by the code at state s: the matrix times d is minus the residual. *)
Definition correction (h hk y0 yi beta ist a13 a14 E nu a2 rho K G : R) (hfn : option ((R -> R) * (R -> R)))
  (t : Z) (Eppn Bm Sm Hk : R) (etr alpn : nat -> R) (kin : bool) (s : lstate) (d : nat -> R) : Prop :=
  exists y, yat (params h hk (IZR t) y0 yi beta ist a13 a14 E nu a2 rho K G) hfn Eppn s = Ret y /\
  forall k, (1 <= k <= nvar kin)%nat ->
    sumf (nvar kin) (fun l => tres Bm Sm Hk kin y s k l * d l) = - residual Bm Sm (1 / Hk) etr alpn kin y s k.

Lemma newton_rows h hk y0 yi beta ist a13 a14 E nu a2 rho K G hfn t Eppn Bm Sm Hk etr alpn kin s d k :
  regular h hfn t (Eppn + sqt23 * sGam s) -> epsZ < inv2 (relstress (sTau s) (sAlp s)) ->
  correction h hk y0 yi beta ist a13 a14 E nu a2 rho K G hfn t Eppn Bm Sm Hk etr alpn kin s d ->
  ((1 <= k <= 3)%nat \/ k = nvar kin) ->
  is_derive (fun x => resAt h hk y0 yi beta ist a13 a14 E nu a2 rho K G hfn t Eppn Bm Sm (1 / Hk) etr alpn kin (move kin s d x) k) 0
            (- resAt h hk y0 yi beta ist a13 a14 E nu a2 rho K G hfn t Eppn Bm Sm (1 / Hk) etr alpn kin s k).
Proof.
  intros Hr HJ (y & Ey & Hy) Hk3.
  assert (Hn : (1 <= k <= nvar kin)%nat) by (unfold nvar in *; destruct kin; lia).
  unfold resAt at 2. rewrite Ey. rewrite <- (Hy k Hn).
  destruct Hk3 as [Hk3| ->].
  - destruct (row1 h hk y0 yi beta ist a13 a14 E nu a2 rho K G hfn t Eppn Bm Sm Hk etr alpn kin s d Hr HJ k (1 / Hk) Hk3) as (y' & Ey' & D).
    rewrite Ey' in Ey. injection Ey as ->. exact D.
  - destruct (rowY h hk y0 yi beta ist a13 a14 E nu a2 rho K G hfn t Eppn Bm Sm Hk etr alpn kin s d Hr HJ (1 / Hk)) as (y' & Ey' & D).
    rewrite Ey' in Ey. injection Ey as ->. exact D.
Qed.

Lemma newton_kin_wrong h hk y0 yi beta ist a13 a14 E nu a2 rho K G hfn t Eppn Bm Sm Hk etr alpn s d k :
  regular h hfn t (Eppn + sqt23 * sGam s) -> epsZ < inv2 (relstress (sTau s) (sAlp s)) ->
  correction h hk y0 yi beta ist a13 a14 E nu a2 rho K G hfn t Eppn Bm Sm Hk etr alpn true s d ->
  (4 <= k <= 6)%nat ->
  is_derive (fun x => resAt h hk y0 yi beta ist a13 a14 E nu a2 rho K G hfn t Eppn Bm Sm (1 / Hk) etr alpn true (move true s d x) k) 0
            (resAt h hk y0 yi beta ist a13 a14 E nu a2 rho K G hfn t Eppn Bm Sm (1 / Hk) etr alpn true s k).
Proof.
  intros Hr HJ (y & Ey & Hy) Hk3.
  unfold resAt at 2. rewrite Ey. rewrite <- (Ropp_involutive (residual _ _ _ _ _ _ _ _ _)).
  rewrite <- (Hy k) by (unfold nvar; lia).
  destruct (row2 h hk y0 yi beta ist a13 a14 E nu a2 rho K G hfn t Eppn Bm Sm Hk etr alpn true s d Hr HJ k eq_refl Hk3) as (y' & Ey' & D).
  rewrite Ey' in Ey. injection Ey as ->. exact D.
Qed.

(** A state meeting the hypotheses: relative stress (2,-1,-1) after gam = 0. *)
Definition st0 : lstate := mkLS (fun i => if Nat.eqb i 1 then 3 else 0) (fun _ => 0) 0.
Lemma eps_le1 : epsZ <= 1.
Proof. unfold epsZ. replace 1 with (/ 1) by field. apply Rinv_le_contravar; [lra|]. apply pow_R1_Rle; lra. Qed.
Lemma st0_J2 : inv2 (relstress (sTau st0) (sAlp st0)) = 3.
Proof. unfold inv2, relstress, mean, sum3, st0; cbn. field. Qed.
Example st0_ok : regular 0 None 2%Z (0 + sqt23 * sGam st0) /\ epsZ < inv2 (relstress (sTau st0) (sAlp st0)).
Proof. split; [split; [lia|split; lia]|]. rewrite st0_J2. pose proof eps_le1. lra. Qed.

(** Direction of the back stress: the code's matrix row is minus the derivative. *)
Lemma kin_matrix_wrong : exists s d y, 
  yat (params 0 0 2 1 0 0 0 0 0 1 0 0 0 1 1) None 0 s = Ret y /\
  ~ is_derive (fun x => resAt 0 0 1 0 0 0 0 0 1 0 0 0 1 1 None 2 0 1 1 1 (fun _ => 0) (fun _ => 0) true (move true s d x) 4) 0
     (sumf 7 (fun l => tres 1 1 1 true y s 4 l * d l)).
Proof.
  set (d := fun i => if Nat.eqb i 4 then 1 else 0).
  assert (H1 : regular 0 None 2%Z (0 + sqt23 * sGam st0)) by apply st0_ok.
  assert (H2 : epsZ < inv2 (relstress (sTau st0) (sAlp st0))) by apply st0_ok.
  destruct (row2 0 0 1 0 0 0 0 0 1 0 0 0 1 1 None 2 0 1 1 1 (fun _ => 0) (fun _ => 0) true st0 d H1 H2 4 eq_refl) as (y & Ey & D); [lia|].
  exists st0, d, y. split; [exact Ey|]. intros D'.
  replace (1 / 1) with 1 in D by field.
  pose proof (is_derive_unique _ _ _ D) as U. pose proof (is_derive_unique _ _ _ D') as U'. rewrite U in U'.
  assert (E4 : sumf 7 (fun l => tres 1 1 1 true y st0 4 l * d l) = 1).
  { unfold tres, fss, d, st0. cbn [sGam sumf Nat.leb Nat.eqb Nat.sub Nat.add]. cbn [sumf Nat.eqb]. field. }
  cbn [nvar] in U'. rewrite E4 in U'. lra.
Qed.
