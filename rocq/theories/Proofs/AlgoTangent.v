(** The derivative of the return mapping with respect to the trial strains. *)
From Verif.Lib Require Import Base Sums Tensor3.
From Verif.Spec Require Import Hooke Plasticity SpatialTangent.
From Verif.Model Require Import Plastic ReturnMap.
From Verif.Proofs Require Import Plastic ReturnMap.
From Coquelicot Require Import Coquelicot.
Local Open Scope R_scope.

Lemma der_sum (f g : R -> R) (a b : R) : is_derive f 0 a -> is_derive g 0 b -> is_derive (fun x => f x + g x) 0 (a + b).
Proof. intros H1 H2. exact (is_derive_plus (V := R_NormedModule) f g 0 a b H1 H2). Qed.
Lemma der_prod (f g : R -> R) (a b : R) : is_derive f 0 a -> is_derive g 0 b -> is_derive (fun x => f x * g x) 0 (a * g 0 + f 0 * b).
Proof. intros H1 H2. exact (is_derive_mult f g 0 a b H1 H2 Rmult_comm). Qed.

Ltac dd := auto_derive; [repeat split; eexists; eassumption|];
  repeat match goal with H : is_derive ?f 0 ?v |- _ => rewrite (is_derive_unique (fun x : R => f x) _ _ H); clear H end; field.
Lemma d_rel (f u g v : R -> R) (a b c e : R) : is_derive f 0 a -> is_derive u 0 b -> is_derive g 0 c -> is_derive v 0 e ->
  is_derive (fun x => f x - u x - g x + v x) 0 (a - b - c + e).
Proof. intros H1 H2 H3 H4. dd. Qed.
Lemma d_inv1 (u v : R -> R) (b e : R) : is_derive u 0 b -> is_derive v 0 e -> is_derive (fun x => 3 * (u x - v x)) 0 (3 * (b - e)).
Proof. intros H2 H4. dd. Qed.
Lemma d_inv2 (f g k : R -> R) (a b c : R) : is_derive f 0 a -> is_derive g 0 b -> is_derive k 0 c ->
  is_derive (fun x => (f x * f x + g x * g x + k x * k x) * (1/2)) 0 (f 0 * a + g 0 * b + k 0 * c).
Proof. intros H1 H2 H3. dd. Qed.
Lemma d_inv3 (f g k : R -> R) (a b c : R) : is_derive f 0 a -> is_derive g 0 b -> is_derive k 0 c ->
  is_derive (fun x => (f x * f x * f x + g x * g x * g x + k x * k x * k x) * (1/3)) 0 (f 0 * f 0 * a + g 0 * g 0 * b + k 0 * k 0 * c).
Proof. intros H1 H2 H3. dd. Qed.
Lemma d_flow (g P2 P3 J t : R -> R) (c dg a b dJ dt : R) : is_derive g 0 dg -> is_derive P2 0 a -> is_derive P3 0 b -> is_derive J 0 dJ -> is_derive t 0 dt ->
  is_derive (fun x => g x * (c - P3 x * (2/3) * J x + (P2 x + P3 x * t x) * t x)) 0
   (dg * (c - P3 0 * (2/3) * J 0 + (P2 0 + P3 0 * t 0) * t 0) + g 0 * (- b * (2/3) * J 0 - P3 0 * (2/3) * dJ + (a + b * t 0 + P3 0 * dt) * t 0 + (P2 0 + P3 0 * t 0) * dt)).
Proof. intros H1 H2 H3 H4 H5. dd. Qed.
Lemma d_el (f u e : R -> R) (p q a b c : R) : is_derive f 0 a -> is_derive u 0 b -> is_derive e 0 c ->
  is_derive (fun x => p * (f x - u x) + q * u x - e x) 0 (p * (a - b) + q * b - c).
Proof. intros H1 H2 H3. dd. Qed.
Lemma d_bk (f : R -> R) (p q a : R) : is_derive f 0 a -> is_derive (fun x => (p - f x) * q) 0 (- a * q).
Proof. intros H1. dd. Qed.

Section Path.
Variables (h hk y0 yi beta ist a13 a14 E nu a2 rho K G : R).
Variable hfn : option ((R -> R) * (R -> R)).
Variables (t : Z) (Eppn Bm Sm Hk : R) (alpn : nat -> R) (kin : bool).
Notation pl := (params h hk (IZR t) y0 yi beta ist a13 a14 E nu a2 rho K G).
(** A differentiable path of states. *)
Variables (tau alp : R -> nat -> R) (gam : R -> R) (d : nat -> R).
Hypothesis Dtau : forall i, (1 <= i <= 3)%nat -> is_derive (fun x => tau x i) 0 (d i).
Hypothesis Dalp : forall i, (1 <= i <= 3)%nat -> is_derive (fun x => alp x i) 0 (if kin then d (i + 3)%nat else 0).
Hypothesis Dgam : is_derive gam 0 (d (if kin then 7 else 4)%nat).
Let dg := d (if kin then 7 else 4)%nat.
Let st (x : R) := mkLS (tau x) (alp x) (gam x).
Let ta (x : R) := relstress (tau x) (alp x).
Let D := Ddir kin d.
Let J2 (x : R) := inv2 (ta x).
Let J3 (x : R) := inv3s (ta x).
Let I1 (x : R) := inv1 (tau x) (alp x).
Let ee (x : R) := Eppn + sqt23 * gam x.
Let sg := sigy (law_of t h y0 yi beta a13 a14 hfn).
Hypothesis Hreg : regular h hfn t (ee 0).
Hypothesis HJ2 : epsZ < J2 0.

Lemma Dmean_tau : is_derive (fun x => mean (tau x)) 0 (mean d).
Proof.
  unfold mean, sum3. apply is_derive_ext with (fun x => 1/3 * (tau x 1%nat + tau x 2%nat + tau x 3%nat)); [intros x; apply Rmult_comm|].
  replace ((d 1%nat + d 2%nat + d 3%nat) * (1/3)) with (1/3 * (d 1%nat + d 2%nat + d 3%nat)) by ring.
  apply is_derive_scal. repeat apply der_sum; apply Dtau; lia.
Qed.
Lemma Dmean_alp : is_derive (fun x => mean (alp x)) 0 (mean (fun i => if kin then d (i + 3)%nat else 0)).
Proof.
  unfold mean, sum3. apply is_derive_ext with (fun x => 1/3 * (alp x 1%nat + alp x 2%nat + alp x 3%nat)); [intros x; apply Rmult_comm|].
  rewrite Rmult_comm. apply is_derive_scal. repeat apply der_sum; apply Dalp; lia.
Qed.
Lemma Dta i : (1 <= i <= 3)%nat -> is_derive (fun x => ta x i) 0 (D i).
Proof.
  intros Hi. replace (D i) with (d i - mean d - (if kin then d (i + 3)%nat else 0) + mean (fun i => if kin then d (i + 3)%nat else 0))
    by (unfold D, Ddir, dlt, mean, sum3; destruct kin; cbv iota; field).
  exact (d_rel _ _ _ _ _ _ _ _ (Dtau i Hi) Dmean_tau (Dalp i Hi) Dmean_alp).
Qed.
Lemma DI1 : is_derive I1 0 (sum3 (dlt kin d)).
Proof.
  replace (sum3 (dlt kin d)) with (3 * (mean d - mean (fun i => if kin then d (i + 3)%nat else 0))) by (unfold dlt, mean, sum3; destruct kin; cbv iota; field).
  exact (d_inv1 _ _ _ _ Dmean_tau Dmean_alp).
Qed.
Lemma DJ2 : is_derive J2 0 (J2dir (ta 0) D).
Proof. exact (d_inv2 _ _ _ _ _ _ (Dta 1%nat ltac:(lia)) (Dta 2%nat ltac:(lia)) (Dta 3%nat ltac:(lia))). Qed.
Lemma DJ3 : is_derive J3 0 (J3dir (ta 0) D).
Proof. exact (d_inv3 _ _ _ _ _ _ (Dta 1%nat ltac:(lia)) (Dta 2%nat ltac:(lia)) (Dta 3%nat ltac:(lia))). Qed.
Lemma Dee : is_derive ee 0 (sqt23 * dg).
Proof. unfold ee. pose proof Dgam as A. auto_derive; [eexists; eassumption|]. rewrite (is_derive_unique (fun x : R => gam x) _ _ A). unfold dg. ring. Qed.

Let ymodel (Ypr YY x : R) : yout :=
  mkY (cI yi t) (fphi2 (cK yi t) (J2 x) (J3 x)) (fphi3 (cK yi t) (J2 x)) 0 (fphi22 (cK yi t) (J2 x) (J3 x)) 0 0 0 (fphi23 (cK yi t) (J2 x)) Ypr YY
             (sqrt (2 * J2 x) + cI yi t * I1 x + cK yi t * J3 x / J2 x - sqt23 * sg (ee x)).

Lemma pnear : locally 0 (fun x => exists Ypr YY, yat pl hfn Eppn (st x) = Ret (ymodel Ypr YY x)).
Proof.
  destruct Hreg as (Ht & H4 & H5).
  assert (L1 : locally 0 (fun x => epsZ < J2 x)) by (apply (cont_pos J2 (J2dir (ta 0) D)); [exact DJ2|exact HJ2]).
  assert (L2 : locally 0 (fun x => t = 4%Z -> epsZ <= ee x)).
  { destruct (Z.eq_dec t 4) as [E4|E4]; [|apply filter_forall; intros x Hx; contradiction].
    assert (L : locally 0 (fun x => epsZ < ee x)) by (apply (cont_pos ee (sqt23 * dg)); [exact Dee|exact (H4 E4)]).
    revert L. apply filter_imp. intros x Hx _. lra. }
  generalize (filter_and _ _ L1 L2). apply filter_imp. intros x [h1 h2]. unfold yat, st. cbn [sTau sAlp sGam].
  apply (ReturnMap.closed h hk y0 yi beta ist a13 a14 E nu a2 rho K G hfn t (ee x) (I1 x) (J2 x) (J3 x)); [exact Ht|exact h2| |exact h1].
  intros E5 En. destruct (H5 E5) as (_ & f & dd & Ef & _). congruence.
Qed.
Lemma pat0 : exists Ypr YY, yat pl hfn Eppn (st 0) = Ret (ymodel Ypr YY 0) /\
  is_derive (fun x => sg (ee x)) 0 (3/2 * Ypr * (sqt23 * dg)).
Proof.
  destruct Hreg as (Ht & H4 & H5). pose proof epsZ_pos.
  assert (N5 : t = 5%Z -> hfn <> None) by (intros E5 En; destruct (H5 E5) as (_ & f & dd & Ef & _); congruence).
  assert (L4 : t = 4%Z -> epsZ <= ee 0) by (intros E4; apply Rlt_le, H4; exact E4).
  destruct (ReturnMap.closed h hk y0 yi beta ist a13 a14 E nu a2 rho K G hfn t (ee 0) (I1 0) (J2 0) (J3 0) Ht L4 N5 HJ2) as (Ypr & YY & E1).
  exists Ypr, YY. split; [exact E1|].
  pose proof (slope h hk y0 yi beta ist a13 a14 E nu a2 rho K G t hfn true (ee 0) (I1 0) (J2 0) (J3 0) Ht) as SL. rewrite E1 in SL. cbn [Yprof yYpr] in SL.
  assert (SD : is_derive sg (ee 0) (3/2 * Ypr)) by (apply SL; [exact L4|exact H5]).
  pose proof (is_derive_comp sg ee 0 _ _ SD Dee) as DC.
  replace (3/2 * Ypr * (sqt23 * dg)) with (scal (sqt23 * dg) (3/2 * Ypr)); [exact DC|]. unfold scal; cbn; unfold mult; cbn. ring.
Qed.

Lemma pj0 : 0 < J2 0. Proof. pose proof epsZ_pos. lra. Qed.
Let P2 (x : R) := fphi2 (cK yi t) (J2 x) (J3 x).
Let P3 (x : R) := fphi3 (cK yi t) (J2 x).
Lemma normal_at Ypr YY x a : normal (ymodel Ypr YY x) (ta x) a = cI yi t - P3 x * (2/3) * J2 x + (P2 x + P3 x * ta x a) * ta x a.
Proof. unfold normal. cbn [ymodel yf1 yf2 yf3]. reflexivity. Qed.
(** gamma times the normal. *)
Lemma flow_rate a Ypr YY : (1 <= a <= 3)%nat ->
  is_derive (fun x => gam x * (cI yi t - P3 x * (2/3) * J2 x + (P2 x + P3 x * ta x a) * ta x a)) 0
   (dg * normal (ymodel Ypr YY 0) (ta 0) a +
    (fss (ymodel Ypr YY 0) (ta 0) (gam 0) a 1 * dlt kin d 1%nat + fss (ymodel Ypr YY 0) (ta 0) (gam 0) a 2 * dlt kin d 2%nat +
     fss (ymodel Ypr YY 0) (ta 0) (gam 0) a 3 * dlt kin d 3%nat)).
Proof.
  intros Ha. unfold ymodel. rewrite (fss_sum _ _ _ _ _ _ _ _ (ta 0) (gam 0) kin d a Ha (sum_rel _ _)). fold D.
  assert (DP2 : is_derive P2 0 (fphi22 (cK yi t) (J2 0) (J3 0) * J2dir (ta 0) D + fphi23 (cK yi t) (J2 0) * J3dir (ta 0) D))
    by (apply phi2_rate; [apply pj0|apply DJ2|apply DJ3]).
  assert (DP3 : is_derive P3 0 (fphi23 (cK yi t) (J2 0) * J2dir (ta 0) D)) by (apply phi3_rate; [apply pj0|apply DJ2]).
  assert (Q := d_flow gam P2 P3 J2 (fun x => ta x a) (cI yi t) _ _ _ _ _ Dgam DP2 DP3 DJ2 (Dta a Ha)).
  match type of Q with is_derive _ _ ?v => match goal with |- is_derive _ _ ?w => replace w with v; [exact Q|] end end.
  fold dg. unfold normal, nrate. cbn [yf1 yf2 yf3]. fold (P2 0). fold (P3 0). fold (J2 0). ring.
Qed.

(** Solutions of the local problem for trial strains e: the derivative of the solution satisfies the linear system with the
    matrix of the Newton iterations. *)
Variables (e : R -> nat -> R) (de : nat -> R).
Hypothesis De : forall i, (1 <= i <= 3)%nat -> is_derive (fun x => e x i) 0 (de i).
Hypothesis Sol : forall x k, (1 <= k <= nvar kin)%nat -> resAt h hk y0 yi beta ist a13 a14 E nu a2 rho K G hfn t Eppn Bm Sm (1 / Hk) (e x) alpn kin (st x) k = 0.

Lemma zero_rate (f : R -> R) k v : (1 <= k <= nvar kin)%nat ->
  (forall Ypr YY x, residual Bm Sm (1 / Hk) (e x) alpn kin (ymodel Ypr YY x) (st x) k = f x) -> is_derive f 0 v -> v = 0.
Proof.
  intros Hk' Hf Hd. apply (is_derive_ext_loc f (fun _ => 0)) in Hd.
  - apply is_derive_unique in Hd. rewrite Derive_const in Hd. now symmetry.
  - generalize pnear. apply filter_imp. intros x (Ypr & YY & E1). rewrite <- (Hf Ypr YY x). specialize (Sol x k Hk'). unfold resAt in Sol. rewrite E1 in Sol. exact Sol.
Qed.

Theorem solution_rate : exists y, yat pl hfn Eppn (st 0) = Ret y /\
  forall k, (1 <= k <= nvar kin)%nat ->
  sumf (nvar kin) (fun l => tres Bm Sm Hk kin y (st 0) k l * d l) = if (k <=? 3)%nat then de k else 0.
Proof.
  destruct pat0 as (Ypr & YY & E1 & DS). eexists. split; [exact E1|]. intros k Hk'.
  assert (C : ((1 <= k <= 3) \/ (kin = true /\ 4 <= k <= 6) \/ k = nvar kin)%nat) by (unfold nvar in *; destruct kin; lia).
  destruct C as [H|[[Hkin H]|H]].
  - replace (k <=? 3)%nat with true by (symmetry; apply Nat.leb_le; lia).
    rewrite (tres_top 0 0 0 0 0 0 None 0%Z 0 Bm Sm Hk kin (st 0) d (ymodel Ypr YY 0) k H). cbn [st sTau sAlp sGam]. fold (ta 0). fold dg.
    assert (De' : is_derive (fun x => elstrain Bm Sm (tau x) k - e x k) 0 (1/2 / Sm * (d k - mean d) + 1/3 / Bm * mean d - de k)).
    { exact (d_el _ _ _ _ _ _ _ _ (Dtau k H) Dmean_tau (De k H)). }
    assert (Q := der_sum _ _ _ _ De' (flow_rate k Ypr YY H)). apply (zero_rate _ k _ Hk') in Q; [|intros Y1 Y2 x; unfold residual; cbv zeta; cbn [st sTau sAlp sGam]; fold (ta x); rewrite (normal_at Y1 Y2 x k);
       assert (L3 : (k <=? 3)%nat = true) by (apply Nat.leb_le; lia); rewrite L3; destruct kin; reflexivity].
    lra.
  - assert (L3 : (k <=? 3)%nat = false) by (apply Nat.leb_gt; lia). rewrite L3. assert (L6 : (k <=? 6)%nat = true) by (apply Nat.leb_le; lia).
    assert (Ha : (1 <= k - 3 <= 3)%nat) by lia.
    assert (Es : - sumf (nvar kin) (fun l => tres Bm Sm Hk kin (ymodel Ypr YY 0) (st 0) k l * d l) =
      - d k * (1 / Hk) + (dg * normal (ymodel Ypr YY 0) (ta 0) (k - 3)%nat +
      (fss (ymodel Ypr YY 0) (ta 0) (gam 0) (k-3) 1 * dlt kin d 1%nat + fss (ymodel Ypr YY 0) (ta 0) (gam 0) (k-3) 2 * dlt kin d 2%nat +
       fss (ymodel Ypr YY 0) (ta 0) (gam 0) (k-3) 3 * dlt kin d 3%nat))).
    { unfold tres. cbn [st sTau sAlp sGam]. fold (ta 0). generalize (fss (ymodel Ypr YY 0) (ta 0) (gam 0)) as F. generalize (normal (ymodel Ypr YY 0) (ta 0)) as n. intros n F.
      subst dg. rewrite Hkin. unfold dlt, nvar. clear - H.
      assert (C : k = 4%nat \/ k = 5%nat \/ k = 6%nat) by lia. decompose [or] C; subst k; cbn [sumf Nat.leb Nat.eqb Nat.sub Nat.add]; ring. }
    assert (Da : is_derive (fun x => (alpn (k-3)%nat - alp x (k-3)%nat) * (1 / Hk)) 0 (- d k * (1 / Hk))).
    { pose proof (Dalp (k - 3)%nat Ha) as A. rewrite Hkin in A. replace (k - 3 + 3)%nat with k in A by lia. exact (d_bk _ _ _ _ A). }
    assert (Q := der_sum _ _ _ _ Da (flow_rate (k-3) Ypr YY Ha)). apply (zero_rate _ k _ Hk') in Q; [|intros Y1 Y2 x; unfold residual; cbv zeta; cbn [st sTau sAlp sGam]; fold (ta x); rewrite (normal_at Y1 Y2 x (k-3));
       rewrite Hkin, L3, L6; reflexivity].
    rewrite <- Es in Q. lra.
  - subst k. replace (nvar kin <=? 3)%nat with false by (unfold nvar; destruct kin; reflexivity).
    assert (Es : sumf (nvar kin) (fun l => tres Bm Sm Hk kin (ymodel Ypr YY 0) (st 0) (nvar kin) l * d l) =
      normal (ymodel Ypr YY 0) (ta 0) 1%nat * dlt kin d 1%nat + normal (ymodel Ypr YY 0) (ta 0) 2%nat * dlt kin d 2%nat +
      normal (ymodel Ypr YY 0) (ta 0) 3%nat * dlt kin d 3%nat - Ypr * dg).
    { unfold tres. cbn [st sTau sAlp sGam]. fold (ta 0). change (yYpr (ymodel Ypr YY 0)) with Ypr. generalize (normal (ymodel Ypr YY 0) (ta 0)) as n. intros n.
      subst dg. unfold dlt, nvar. destruct kin; cbn [sumf Nat.leb Nat.eqb Nat.sub Nat.add]; ring. }
    rewrite Es. unfold ymodel at 1 2 3. rewrite (n_sum _ _ _ _ _ _ _ _ (ta 0) kin d (sum_rel _ _)). fold D.
    pose proof (yield_rate (cK yi t) (cI yi t) I1 J2 J3 (fun x => sg (ee x)) _ _ _ _ pj0 DI1 DJ2 DJ3 DS) as Q.
    replace (sqt23 * (3/2 * Ypr * (sqt23 * dg))) with (Ypr * dg) in Q by (transitivity (3/2 * (sqt23 * sqt23) * (Ypr * dg)); [rewrite sqt_sq; field|ring]).
    apply (zero_rate _ (nvar kin) _ Hk') in Q; [exact Q|]. intros Y1 Y2 x. transitivity (yYield (ymodel Y1 Y2 x)); [|reflexivity]. unfold residual, nvar. destruct kin; reflexivity.
Qed.
End Path.

(** Consequence for the stored derivative. *)
Lemma fss_sym y ta gam a b : fss y ta gam a b = fss y ta gam b a.
Proof. unfold fss. rewrite (Nat.eqb_sym b a). destruct (Nat.eqb_spec a b); [subst; ring|ring]. Qed.
Lemma tres_sym Bm Sm Hk kin y s k l : (1 <= k <= nvar kin)%nat -> (1 <= l <= nvar kin)%nat -> tres Bm Sm Hk kin y s k l = tres Bm Sm Hk kin y s l k.
Proof.
  intros H1 H2. unfold tres. set (F := fss _ _ _). assert (SF : forall a b, F a b = F b a) by (intros; apply fss_sym). clearbody F. set (n := normal _ _). clearbody n.
  unfold nvar in *. destruct kin.
  - do 8 (destruct k as [|k]; [try lia; do 8 (destruct l as [|l]; [try lia; cbn [Nat.leb Nat.eqb Nat.sub]; try reflexivity; rewrite SF; reflexivity|]); lia|]); lia.
  - do 5 (destruct k as [|k]; [try lia; do 5 (destruct l as [|l]; [try lia; cbn [Nat.leb Nat.eqb Nat.sub]; try reflexivity; rewrite SF; reflexivity|]); lia|]); lia.
Qed.
Lemma stored_derivative n (M : nat -> nat -> R) (X : nat -> nat -> R) (d de : nat -> R) : (3 <= n)%nat ->
  (forall k l, (1 <= k <= n)%nat -> (1 <= l <= n)%nat -> M k l = M l k) ->
  (forall a k, (1 <= a <= 3)%nat -> (1 <= k <= n)%nat -> sumf n (fun l => M k l * X a l) = if Nat.eqb k a then 1/2 else 0) ->
  (forall k, (1 <= k <= n)%nat -> sumf n (fun l => M k l * d l) = if (k <=? 3)%nat then de k else 0) ->
  forall a, (1 <= a <= 3)%nat -> d a = 2 * dtde_pl X a 1 * de 1%nat + 2 * dtde_pl X a 2 * de 2%nat + 2 * dtde_pl X a 3 * de 3%nat.
Proof.
  intros Hn HM HX Hd a Ha.
  assert (pick : forall (f : nat -> R) b, (1 <= b <= n)%nat -> sumf n (fun k => (if Nat.eqb k b then 1/2 else 0) * f k) = 1/2 * f b).
  { intros f b. clear. induction n as [|m IH]; [lia|]. intros Hb. cbn [sumf]. destruct (Nat.eqb_spec (S m) b) as [<-|Hne].
    - rewrite (sumf_ext m _ (fun _ => 0)).
      + rewrite (sumf_0 m (fun _ => 0)) by reflexivity. ring.
      + intros k Hk. destruct (Nat.eqb_spec k (S m)); [lia|ring].
    - rewrite IH by lia. ring. }
  assert (low : forall (f : nat -> R), sumf n (fun k => (if (k <=? 3)%nat then de k else 0) * f k) = de 1%nat * f 1%nat + de 2%nat * f 2%nat + de 3%nat * f 3%nat).
  { intros f. clear - Hn. induction Hn as [|m Hm IH]; [cbn; ring|]. cbn [sumf]. rewrite IH. replace (S m <=? 3)%nat with false by (symmetry; apply Nat.leb_gt; lia). ring. }
  (* X_a . M d computed in two ways *)
  assert (two : forall u v, sumf n (fun k => sumf n (fun l => M k l * u l) * v k) = sumf n (fun k => sumf n (fun l => M k l * v l) * u k)).
  { intros u v. transitivity (sumf n (fun k => sumf n (fun l => M k l * u l * v k))).
    - apply sumf_ext. intros k Hk. now rewrite sumf_scal_r.
    - rewrite sumf_swap. apply sumf_ext. intros k Hk. rewrite <- sumf_scal_r. apply sumf_ext. intros l Hl. rewrite (HM l k) by lia. ring. }
  assert (SX : forall b c, (1 <= b <= 3)%nat -> (1 <= c <= 3)%nat -> X b c = X c b).
  { intros b c Hb Hc. assert (T := two (X b) (X c)).
    rewrite (sumf_ext n _ (fun k => (if Nat.eqb k b then 1/2 else 0) * X c k)) in T by (intros k Hk; now rewrite HX by lia).
    rewrite (sumf_ext n (fun k => sumf n (fun l => M k l * X c l) * X b k) (fun k => (if Nat.eqb k c then 1/2 else 0) * X b k)) in T by (intros k Hk; now rewrite HX by lia).
    rewrite !pick in T by lia. lra. }
  assert (T := two (X a) d).
  rewrite (sumf_ext n _ (fun k => (if Nat.eqb k a then 1/2 else 0) * d k)) in T by (intros k Hk; now rewrite HX by lia).
  rewrite (sumf_ext n (fun k => sumf n (fun l => M k l * d l) * X a k) (fun k => (if (k <=? 3)%nat then de k else 0) * X a k)) in T by (intros k Hk; now rewrite Hd by lia).
  rewrite pick, low in T by lia.
  assert (V : forall b, (1 <= b <= 3)%nat -> dtde_pl X a b = X a b). { intros b Hb. unfold dtde_pl. destruct (a <=? b)%nat; [reflexivity|apply SX; lia]. }
  rewrite !V by lia. lra.
Qed.
