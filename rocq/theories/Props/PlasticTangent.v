(** Tangent and result quantities of the plastic material (C105, C106). *)
From Verif.Lib Require Import Base Tensor3 Sums.
From Coquelicot Require Import Coquelicot.
From Verif.Spec Require Import Hooke Plasticity SpatialTangent.
From Verif.Model Require Import Plastic ReturnMap.
From Verif.Proofs Require Import Plastic ReturnMap PlasticTangent AlgoTangent.
Local Open Scope R_scope.

(** ** C105: the tangent is the derivative of the stress *)

(** Plastic step, with or without kinematic hardening: along any differentiable family of solutions of the local problem, the
    stored matrix gives the rate of the principal stresses from the rate of the principal trial strains. *)
Theorem C105_return_mapping : forall h hk y0 yi beta ist a13 a14 E nu a2 rho K G hfn t Eppn Bm Sm Hk alpn (kin : bool) (tau alp : R -> nat -> R) (gam : R -> R) d (e : R -> nat -> R) de X,
  (forall i, (1 <= i <= 3)%nat -> is_derive (fun x => tau x i) 0 (d i)) ->
  (forall i, (1 <= i <= 3)%nat -> is_derive (fun x => alp x i) 0 (if kin then d (i + 3)%nat else 0)) ->
  is_derive gam 0 (d (nvar kin)) ->
  (forall i, (1 <= i <= 3)%nat -> is_derive (fun x => e x i) 0 (de i)) ->
  regular h hfn t (Eppn + sqt23 * gam 0) -> epsZ < inv2 (relstress (tau 0) (alp 0)) ->
  (forall x k, (1 <= k <= nvar kin)%nat ->
     resAt h hk y0 yi beta ist a13 a14 E nu a2 rho K G hfn t Eppn Bm Sm (1 / Hk) (e x) alpn kin (mkLS (tau x) (alp x) (gam x)) k = 0) ->
  (forall y, yat (params h hk (IZR t) y0 yi beta ist a13 a14 E nu a2 rho K G) hfn Eppn (mkLS (tau 0) (alp 0) (gam 0)) = Ret y ->
     forall a k, (1 <= a <= 3)%nat -> (1 <= k <= nvar kin)%nat ->
     sumf (nvar kin) (fun l => tres Bm Sm Hk kin y (mkLS (tau 0) (alp 0) (gam 0)) k l * X a l) = if Nat.eqb k a then 1/2 else 0) ->
  forall a, (1 <= a <= 3)%nat ->
  is_derive (fun x => tau x a) 0 (2 * dtde_pl X a 1 * de 1%nat + 2 * dtde_pl X a 2 * de 2%nat + 2 * dtde_pl X a 3 * de 3%nat).
Proof.
  intros h hk y0 yi beta ist a13 a14 E nu a2 rho K G hfn t Eppn Bm Sm Hk alpn kin tau alp gam d e de X Ht Ha Hg He Hr HJ HS HX a Hi.
  destruct (solution_rate h hk y0 yi beta ist a13 a14 E nu a2 rho K G hfn t Eppn Bm Sm Hk alpn kin tau alp gam d Ht Ha Hg Hr HJ e de He HS) as (y & Ey & Q).
  rewrite <- (stored_derivative (nvar kin) (tres Bm Sm Hk kin y (mkLS (tau 0) (alp 0) (gam 0))) X d de); [now apply Ht| | |exact (HX y Ey)|exact Q|exact Hi].
  - unfold nvar. destruct kin; lia.
  - intros k l Hk1 Hl1. now apply tres_sym.
Qed.
(** Elastic step: Hencky's law, and the matrix is its derivative. *)
Theorem C105_elastic : forall Bm Sm e a, (1 <= a <= 3)%nat -> trial Bm Sm e a = hencky Bm Sm e a.
Proof. intros Bm Sm e a Ha. unfold trial, hencky, sum3. field. Qed.
Theorem C105_elastic_derivative : forall Bm Sm (e : R -> nat -> R) de a, (1 <= a <= 3)%nat ->
  (forall i, (1 <= i <= 3)%nat -> is_derive (fun x => e x i) 0 (de i)) ->
  is_derive (fun x => trial Bm Sm (e x) a) 0 (2 * dtde_el Bm Sm a 1 * de 1%nat + 2 * dtde_el Bm Sm a 2 * de 2%nat + 2 * dtde_el Bm Sm a 3 * de 3%nat).
Proof.
  intros Bm Sm e de a Ha He. unfold trial, sum3.
  assert (L : forall (f1 f2 f3 g : R -> R) (d1 d2 d3 dg : R), is_derive f1 0 d1 -> is_derive f2 0 d2 -> is_derive f3 0 d3 -> is_derive g 0 dg ->
     is_derive (fun x => 2 * Sm * (g x - (f1 x + f2 x + f3 x) * (1/3)) + Bm * (f1 x + f2 x + f3 x)) 0 (2 * Sm * (dg - (d1 + d2 + d3) * (1/3)) + Bm * (d1 + d2 + d3))).
  { intros f1 f2 f3 g d1 d2 d3 dg H1 H2 H3 H4. dd. }
  assert (Q := L _ _ _ _ _ _ _ _ (He 1%nat ltac:(lia)) (He 2%nat ltac:(lia)) (He 3%nat ltac:(lia)) (He a Ha)).
  match type of Q with is_derive _ _ ?v => match goal with |- is_derive _ _ ?w => replace w with v; [exact Q|] end end.
  unfold dtde_el. rng a; cbn [Nat.eqb]; field.
Qed.
(** The Cauchy stress has the principal directions of the trial stretches, and the principal values found. *)
Theorem C105_stress : forall F tau Jc i a, orth3 (trn F) -> (1 <= i <= 3)%nat -> (1 <= a <= 3)%nat ->
  mul3 (unvoigt (ReturnMap.cauchy F tau Jc)) F i a = tau a / Jc * F i a.
Proof. exact cauchy_principal. Qed.
(** Any deformation superposed on the current state, distinct stretches: the tangent gives the convected rate of the Kirchhoff
    stress, per unit current volume.  [S] is any stress coaxial with the stretches, with the rates of its principal values given
    by the matrix above. *)
Theorem C105_spatial : forall F tau ll L (S : R -> t3) (S' : t3) dtde Jc k,
  orth3 F -> orth3 (trn F) ->
  (forall a b, (1 <= a <= 3)%nat -> (1 <= b <= 3)%nat -> a <> b -> tolb < Rabs (ll b - ll a)) ->
  let b := mul3 F (mul3 (diag3 ll) (trn F)) in
  eq3 (S 0) (mul3 F (mul3 (diag3 tau) (trn F))) ->
  (forall i j, (1 <= i <= 3)%nat -> (1 <= j <= 3)%nat -> is_derive (fun t => S t i j) 0 (S' i j)) ->
  (forall t, eq3 (mul3 (S t) (carried L b t)) (mul3 (carried L b t) (S t))) ->
  (forall a, (1 <= a <= 3)%nat -> cj F S' a a = 2 * dtde a 1%nat * cj F L 1%nat 1%nat + 2 * dtde a 2%nat * cj F L 2%nat 2%nat + 2 * dtde a 3%nat * cj F L 3%nat 3%nat) ->
  (1 <= k <= 6)%nat ->
  mv 6 (tangent6 F (Cstm dtde tau ll) Jc) (engineering (symp L)) k = tovoigt (oldroyd L (S 0) S') k * (1 / Jc).
Proof. exact spatial_tangent. Qed.
(** Equal stretches: the limit. *)
Theorem C105_equal_stretches : forall dtde tau ll (ta tb : R -> R) a, (1 <= a <= 3)%nat ->
  let b := S (a mod 3) in ll a = ll b -> 0 < ll a -> ta (ll a) = tau a -> tb (ll a) = tau a ->
  is_derive ta (ll a) (dtde b a / ll a) -> is_derive tb (ll a) (dtde a a / ll a) ->
  is_lim (fun x => (ll a * tb x - x * ta x) / (x - ll a)) (ll a) (Cstm dtde tau ll (3 + a) (3 + a)).
Proof. exact equal_stretch_limit. Qed.

(** Cases meeting the hypotheses: a stress proportional to the left Cauchy-Green tensor, in any motion. *)
Example C105_ex : forall L, let F := kron in let ll := fun i => INR i in
  let b := mul3 F (mul3 (diag3 ll) (trn F)) in let Sg := carried L b in
  orth3 F /\ orth3 (trn F) /\
  (forall a c, (1 <= a <= 3)%nat -> (1 <= c <= 3)%nat -> a <> c -> tolb < Rabs (ll c - ll a)) /\
  eq3 (Sg 0) b /\ (forall t, eq3 (mul3 (Sg t) (carried L b t)) (mul3 (carried L b t) (Sg t))) /\
  (forall i j, (1 <= i <= 3)%nat -> (1 <= j <= 3)%nat -> is_derive (fun t => Sg t i j) 0 (mul3 L b i j + mul3 b (trn L) i j)) /\
  (forall a, (1 <= a <= 3)%nat -> let dtde := fun i j => if Nat.eqb i j then ll i else 0 in
     cj F (fun i j => mul3 L b i j + mul3 b (trn L) i j) a a =
     2 * dtde a 1%nat * cj F L 1%nat 1%nat + 2 * dtde a 2%nat * cj F L 2%nat 2%nat + 2 * dtde a 3%nat * cj F L 3%nat 3%nat).
Proof.
  intros L F ll b Sg. assert (O : orth3 kron) by (intros i j Hi Hj; unfold mul3, trn, kron; rng i; rng j; cbn [Nat.eqb]; ring).
  split; [exact O|]. split; [intros i j Hi Hj; unfold F, mul3, trn, kron; rng i; rng j; cbn [Nat.eqb]; ring|]. split.
  - intros a c Ha Hc Hn. apply Rlt_trans with (1/2).
    + unfold tolb. apply Rlt_le_trans with (/ 10 ^ 1); [apply Rinv_lt_contravar; [apply Rmult_lt_0_compat; apply pow_lt; lra|apply Rlt_pow; [lra|lia]]|lra].
    + unfold ll. rng a; rng c; try lia; cbn [INR]; unfold Rabs; destruct (Rcase_abs _); lra.
  - split; [apply carried_0|]. split; [intros t i j Hi Hj; reflexivity|]. split; [intros i j Hi Hj; now apply carried_der|].
    intros a Ha dtde. unfold dtde, cj, b, F, ll, mul3, trn, diag3, kron. rng a; cbn [Nat.eqb INR]; ring.
Qed.
(** The return mapping: perfect plasticity in shear, with growing plastic strain and pressure. *)
Definition ex_tau (x : R) (i : nat) : R := match i with 1%nat => 1 | 2%nat => -1 | _ => 0 end + x.
Definition ex_n (i : nat) : R := match i with 1%nat => / sqrt 2 | 2%nat => - / sqrt 2 | _ => 0 end.
Definition ex_e (x : R) (i : nat) : R := elstrain (1/3) (1/2) (ex_tau x) i + x * ex_n i.
Definition ex_X (a l : nat) : R := if (l <=? 3)%nat then 1/2 * ((if Nat.eqb a l then 1 else 0) - ex_n a * ex_n l) else 1/2 * ex_n a.
Example C105_return_mapping_ex : let pr := params 0 0 2 (sqrt 3) 0 0 0 0 0 1 0 0 0 (1/3) (1/2) in
  let st x := mkLS (ex_tau x) (fun _ => 0) x in
  (forall i, (1 <= i <= 3)%nat -> is_derive (fun x => ex_tau x i) 0 1) /\ regular 0 None 2 (0 + sqt23 * 0) /\ epsZ < inv2 (relstress (ex_tau 0) (fun _ => 0)) /\ (forall i, (1 <= i <= 3)%nat -> is_derive (fun x => ex_e x i) 0 (1 + ex_n i)) /\ (forall x k, (1 <= k <= 4)%nat -> resAt 0 0 (sqrt 3) 0 0 0 0 0 1 0 0 0 (1/3) (1/2) None 2 0 (1/3) (1/2) (1/1) (ex_e x) (fun _ => 0) false (st x) k = 0) /\ (forall y, yat pr None 0 (st 0) = Ret y -> forall a k, (1 <= a <= 3)%nat -> (1 <= k <= 4)%nat ->
     sumf 4 (fun l => tres (1/3) (1/2) 1 false y (st 0) k l * ex_X a l) = if Nat.eqb k a then 1/2 else 0).
Proof.
  intros pr st. assert (S2 : sqrt 2 * sqrt 2 = 2) by (apply sqrt_sqrt; lra). assert (P2 : 0 < sqrt 2) by (apply sqrt_lt_R0; lra).
  assert (TA : forall x i, (1 <= i <= 3)%nat -> relstress (ex_tau x) (fun _ => 0) i = match i with 1%nat => 1 | 2%nat => -1 | _ => 0 end).
  { intros x i Hi. unfold relstress, mean, sum3, ex_tau. rng i; field. }
  assert (I2 : forall x, inv2 (relstress (ex_tau x) (fun _ => 0)) = 1) by (intros x; unfold inv2; rewrite !TA by lia; field).
  assert (Ez : epsZ < 1). { unfold epsZ. replace 1 with (/ 1) by field. apply Rinv_lt_contravar; [rewrite Rmult_1_l; apply pow_lt; lra|]. apply Rlt_pow_R1; [lra|lia]. }
  assert (Y : forall x, exists Ypr YY, yat pr None 0 (st x) = Ret (mkY 0 (/ sqrt 2) 0 0 (- (1 / sqrt 2 * (1 / sqrt 2) * (1 / sqrt 2))) 0 0 0 0 Ypr YY 0) /\ Ypr = 0).
  { intros x. destruct (ReturnMap.closed 0 0 (sqrt 3) 0 0 0 0 0 1 0 0 0 (1/3) (1/2) None 2 (0 + sqt23 * x) (inv1 (ex_tau x) (fun _ => 0)) 1 (inv3s (relstress (ex_tau x) (fun _ => 0)))) as (Ypr & YY & E); [lia|lia|lia|exact Ez|].
    exists Ypr, YY. unfold yat. cbn [st sTau sAlp sGam]. rewrite I2. fold pr in E. rewrite E. split.
    - f_equal. unfold cI, cK, fphi2, fphi22, fphi3, fphi23. cbn [Z.eqb Pos.eqb]. rewrite Rmult_1_r. f_equal; try field; try lra.
      unfold law_of, sigy. cbn. assert (Q : sqt23 * sqrt 3 = sqrt 2) by (unfold sqt23; rewrite <- sqrt_mult by lra; f_equal; field).
      replace (sqt23 * (sqrt 3 + 0 * (0 + sqt23 * x))) with (sqt23 * sqrt 3) by ring. rewrite Q. field.
    - revert E. unfold yfunc, pr. cbn [params rd nth_error bind]. rewrite toint_IZR. intros Eq. apply (f_equal (fun r => match r with Ret y => yYpr y | _ => 0 end)) in Eq. cbn [yYpr] in Eq. rewrite <- Eq. ring. }
  split; [intros i Hi; unfold ex_tau; auto_derive; [trivial|ring]|].
  split; [split; [lia|]; split; lia|]. split; [rewrite I2; exact Ez|]. split.
  { intros i Hi. unfold ex_e, elstrain, mean, sum3, ex_tau. auto_derive; [trivial|]. field. }
  split.
  - intros x k Hk. destruct (Y x) as (Ypr & YY & E & _). unfold resAt. change (IZR 2) with 2. fold pr. rewrite E. unfold residual. cbv zeta. cbn [st sTau sAlp sGam].
    assert (N : forall i, (1 <= i <= 3)%nat -> normal (mkY 0 (/ sqrt 2) 0 0 (- (1 / sqrt 2 * (1 / sqrt 2) * (1 / sqrt 2))) 0 0 0 0 Ypr YY 0) (relstress (ex_tau x) (fun _ => 0)) i = ex_n i).
    { intros i Hi. unfold normal. cbn [yf1 yf2 yf3]. rewrite TA by exact Hi. unfold ex_n. rng i; field; lra. }
    destruct (Nat.leb_spec k 3); [rewrite N by lia; unfold ex_e; ring|reflexivity].
  - intros y Ey a k Ha Hk. destruct (Y 0) as (Ypr & YY & E & Hp). rewrite E in Ey. injection Ey as <-. subst Ypr. unfold tres. cbn [st sTau sAlp sGam].
    set (y := mkY _ _ _ _ _ _ _ _ _ _ _ _). set (tv := relstress _ _).
    assert (N : forall i, (1 <= i <= 3)%nat -> normal y tv i = ex_n i).
    { intros i Hi. unfold normal, y, tv. cbn [yf1 yf2 yf3]. rewrite TA by exact Hi. unfold ex_n. rng i; field; lra. }
    assert (F0 : forall i j, fss y tv 0 i j = 0). { intros i j. unfold fss. destruct (Nat.eqb i j); ring. }
    cbn [sumf Nat.leb]. rewrite !F0. change (yYpr y) with 0.
    assert (NN : ex_n 1%nat * ex_n 1%nat + ex_n 2%nat * ex_n 2%nat = 1).
    { unfold ex_n. replace (/ sqrt 2 * / sqrt 2 + - / sqrt 2 * - / sqrt 2) with (2 / (sqrt 2 * sqrt 2)) by (field; lra). rewrite S2. field. }
    assert (N3 : ex_n 3%nat = 0) by reflexivity.
    replace (1 / 3 / (1 / 3)) with 1 by field. replace (1 / 2 / (1 / 2)) with 1 by field.
    assert (Kk : (k = 1 \/ k = 2 \/ k = 3 \/ k = 4)%nat) by lia. unfold ex_X. cbn [Nat.leb].
    destruct Kk as [->|[->|[->| ->]]]; cbn [Nat.leb]; rewrite ?N by lia; rng a; cbn [Nat.eqb]; rewrite ?N3; revert NN; generalize (ex_n 1%nat) (ex_n 2%nat); intros u v NN; assert (A1 : u * (u * u + v * v) = u) by (rewrite NN; ring); assert (A2 : v * (u * u + v * v) = v) by (rewrite NN; ring); lra.
Qed.
Example C105_elastic_ex : dtde_el 3 6 1 1 = 11/2 /\ dtde_el 3 6 1 2 = -1/2.
Proof. unfold dtde_el; cbn; split; field. Qed.

(** ** C106: reported stress measures *)

(** Lode parameter of principal stresses in descending sequence. *)
Theorem C106_lode_partial : forall px py pz, pz <= py <= px -> pz < px ->
  -1 <= getLode px py pz <= 1 /\ (getLode px py pz = -1 <-> py = pz) /\ (getLode px py pz = 1 <-> py = px) /\
  (getLode px py pz = 0 <-> py = (px + pz) / 2) /\
  (forall c s, 0 < s -> getLode (s * px + c) (s * py + c) (s * pz + c) = getLode px py pz).
Proof.
  intros px py pz Ho Hd. assert (E : forall a b c, c < a -> getLode a b c = (2 * b - a - c) / (a - c)) by (intros a b c H; unfold getLode; destruct (Rlt_dec 0 (a - c)); [reflexivity|lra]).
  rewrite !E by lra. assert (P : 0 < px - pz) by lra.
  assert (M : forall v, (2 * py - px - pz) / (px - pz) = v <-> 2 * py - px - pz = v * (px - pz)).
  { intros v. split; [intros <-; field; lra|intros ->; field; lra]. }
  split; [split; [apply Rmult_le_reg_r with (px - pz)|apply Rmult_le_reg_r with (px - pz)]; try exact P; unfold Rdiv; rewrite ?Rmult_assoc, ?Rinv_l by lra; lra|].
  rewrite !M. split; [split; lra|]. split; [split; lra|]. split; [split; lra|].
  intros c s Hs. assert (s * pz < s * px) by (apply Rmult_lt_compat_l; lra). rewrite E by lra. field. split; [lra|]. nra.
Qed.
(** No difference of principal stresses, no deviatoric stress: zero. *)
Theorem C106_unloaded_partial : (forall p py, getLode p py p = 0) /\ (forall sh, getTriax sh 0 = 0).
Proof. split; intros; [unfold getLode; destruct (Rlt_dec 0 (p - p)); [lra|reflexivity]|unfold getTriax; destruct (Rlt_dec 0 0); [lra|reflexivity]]. Qed.
(** Mean stress with the out-of-plane stress stored, and the triaxiality of uniaxial tension and of proportional stresses. *)
Theorem C106_mean_partial : forall size dim sxx syy szz, (3 < size)%nat -> meanStress size dim sxx syy szz = (sxx + syy + szz) / 3.
Proof. intros size dim sxx syy szz H. unfold meanStress. replace (3 <? size)%nat with true by (symmetry; now apply Nat.ltb_lt). cbn [INR]. field. Qed.
Theorem C106_triax_partial : (forall size dim s, (3 < size)%nat -> 0 < s -> getTriax (meanStress size dim s 0 0) s = 1/3) /\
  (forall sh se c, 0 < c -> 0 < se -> getTriax (c * sh) (c * se) = getTriax sh se).
Proof.
  split.
  - intros size dim s H Hs. rewrite C106_mean_partial by exact H. unfold getTriax. destruct (Rlt_dec 0 s); [field; lra|lra].
  - intros sh se c Hc He. unfold getTriax. destruct (Rlt_dec 0 se); [|lra]. destruct (Rlt_dec 0 (c * se)); [field; lra|]. exfalso. apply n. now apply Rmult_lt_0_compat.
Qed.
(** In two dimensions with in-plane stresses only, the mean stress is not a third of the sum of the principal stresses, and the
    triaxiality of uniaxial tension is not 1/3. *)
Theorem C106_mean_refuted : exists s, 0 < s /\ meanStress 3 2 s 0 0 <> (s + 0 + 0) / 3 /\ getTriax (meanStress 3 2 s 0 0) s = 1/2.
Proof. exists 1. unfold meanStress, getTriax. cbn [Nat.ltb Nat.leb INR]. split; [lra|]. destruct (Rlt_dec 0 1); [|lra]. split; lra. Qed.
Example C106_ex : getLode 3 1 (-1) = 0 /\ getLode 5 0 0 = -1.
Proof. unfold getLode. split; [destruct (Rlt_dec 0 (3 - -1)); lra|destruct (Rlt_dec 0 (5 - 0)); lra]. Qed.

Print Assumptions C105_return_mapping.
Print Assumptions C105_elastic.
Print Assumptions C105_elastic_derivative.
Print Assumptions C105_stress.
Print Assumptions C105_spatial.
Print Assumptions C105_equal_stretches.
Print Assumptions C106_lode_partial.
Print Assumptions C106_unloaded_partial.
Print Assumptions C106_mean_partial.
Print Assumptions C106_triax_partial.
Print Assumptions C106_mean_refuted.
