From Verif.Lib Require Import Base Sums Tensor3.
From Verif.Spec Require Import Hooke Plasticity.
From Verif.Model Require Import Plastic NeoHooke.
From Coquelicot Require Import Coquelicot.
From Coq Require Import List.
Import ListNotations.

Ltac dec1 := match goal with
  | |- context[Rlt_dec ?a ?b] => destruct (Rlt_dec a b); try (exfalso; lra)
  | |- context[Rle_dec ?a ?b] => destruct (Rle_dec a b); try (exfalso; lra)
  end.

(** * C10: elastic constants *)
Lemma mod_Enu E nu : admissible E nu -> moduli E nu = (E, nu, bulk E nu, lame2 E nu).
Proof.
  intros [HE Hn]. unfold moduli, bulk, lame1, lame2. do 2 dec1.
  f_equal; [f_equal|]; field; lra.
Qed.

Lemma mod_KG E nu : admissible E nu -> 1/2 < lame2 E nu ->
  moduli (bulk E nu) (lame2 E nu) = (E, nu, bulk E nu, lame2 E nu).
Proof.
  intros [HE Hn] HG. unfold moduli. dec1.
  assert (Hs : 3 * bulk E nu + lame2 E nu = 3 * E / (2 * (1 + nu) * (1 - 2 * nu)))
    by (unfold bulk, lame1, lame2; field; lra).
  assert (Hp : 0 < 3 * E / (2 * (1 + nu) * (1 - 2 * nu))).
  { apply Rdiv_lt_0_compat; [lra|]. repeat apply Rmult_lt_0_compat; lra. }
  assert (X : forall a b c d : R, a = E -> b = nu -> (a, b, c, d) = (E, nu, c, d)) by (intros; subst; reflexivity).
  apply X.
  - rewrite Hs. unfold bulk, lame1, lame2. field. repeat split; lra.
  - rewrite Hs. unfold bulk, lame1, lame2. field. repeat split; lra.
Qed.

Lemma mod_KG_wrong : exists E nu, admissible E nu /\
  let '(E', nu', K', G') := moduli (bulk E nu) (lame2 E nu) in
  E' <> E /\ nu' <> nu /\ K' <> bulk E nu /\ G' <> lame2 E nu.
Proof.
  exists 1, (1/4). split; [unfold admissible; lra|].
  assert (Hb : bulk 1 (1/4) = 2/3) by (unfold bulk, lame1, lame2; field).
  assert (Hg : lame2 1 (1/4) = 2/5) by (unfold lame2; field).
  rewrite Hb, Hg. unfold moduli. do 2 dec1. repeat split; lra.
Qed.

Definition neo_of (ver : nat) (p0 p1 : R) : neo := findLame (-1) (mkNeo p0 p1 ver 1 0 0).

Ltac decn := cbn [nNu nEmod mVER iVOL Bmod Smod] in *; repeat (dec1; cbn [nNu nEmod mVER iVOL Bmod Smod] in *).

Lemma neo_Enu E nu : admissible E nu ->
  (let m := neo_of 2 E nu in nEmod m = E /\ nNu m = nu /\ Bmod m = bulk E nu /\ Smod m = lame2 E nu) /\
  (let m := neo_of 1 E nu in nEmod m = E /\ nNu m = nu /\ Bmod m = lame1 E nu /\ Smod m = lame2 E nu).
Proof.
  intros [HE Hn]. unfold neo_of, findLame, bulk, lame1, lame2. cbn [Nat.eqb mVER]. decn.
  repeat split; try field; lra.
Qed.

Lemma neo_KG E nu : admissible E nu -> 1/2 < lame2 E nu ->
  let m := neo_of 2 (bulk E nu) (lame2 E nu) in
  nEmod m = E /\ nNu m = nu /\ Bmod m = bulk E nu /\ Smod m = lame2 E nu.
Proof.
  intros HA HG. pose proof (mod_KG E nu HA HG) as M. unfold moduli in M.
  unfold neo_of, findLame. cbn [Nat.eqb mVER]. decn.
  destruct (Rlt_dec (1/2) (lame2 E nu)); [|exfalso; lra]. injection M as m1 m2. repeat split; assumption.
Qed.

Lemma neo_KG1_wrong : exists E nu, admissible E nu /\ 1/2 < lame2 E nu /\
  Bmod (neo_of 1 E nu) <> Bmod (neo_of 1 (bulk E nu) (lame2 E nu)).
Proof.
  exists 10, (1/4).
  assert (Hb : bulk 10 (1/4) = 20/3) by (unfold bulk, lame1, lame2; field).
  assert (Hg : lame2 10 (1/4) = 4) by (unfold lame2; field).
  split; [unfold admissible; lra|]. split; [lra|].
  rewrite Hb, Hg. unfold neo_of, findLame. cbn [Nat.eqb mVER]. decn. cbn. lra.
Qed.

(** * Yield functions *)
(** A parameter list as left by the constructor. *)
Definition params (h hk t y0 yi beta ist a13 a14 : R) (E nu a2 rho K G : R) : list R :=
  [E; nu; a2; rho; K; G; h; hk; t; y0; yi; beta; ist; a13; a14].

Definition YYof (r : res yout) : R := match r with Ret y => yYY y | _ => 0 end.
Definition Yprof (r : res yout) : R := match r with Ret y => yYpr y | _ => 0 end.
Definition Yieldof (r : res yout) : R := match r with Ret y => yYield y | _ => 0 end.
Definition F1of (r : res yout) : R := match r with Ret y => yf1 y | _ => 0 end.
Definition F2of (r : res yout) : R := match r with Ret y => yf2 y | _ => 0 end.
Definition F3of (r : res yout) : R := match r with Ret y => yf3 y | _ => 0 end.
Definition F22of (r : res yout) : R := match r with Ret y => yf22 y | _ => 0 end.
Definition F23of (r : res yout) : R := match r with Ret y => yf23 y | _ => 0 end.

Lemma toint_IZR z : toint (IZR z) = z.
Proof.
  unfold toint. assert (HI : forall k, Int_part (IZR k) = k).
  { intros k. unfold Int_part.
    rewrite <- (tech_up (IZR k) (k + 1)); [lia| |]; rewrite plus_IZR; lra. }
  destruct (Rle_dec 0 (IZR z)); [apply HI|]. rewrite <- opp_IZR, HI. lia.
Qed.

Lemma sqt_pos : 0 < sqt23. Proof. apply sqrt_lt_R0; lra. Qed.
Lemma sqt_sq : sqt23 * sqt23 = 2/3. Proof. apply sqrt_sqrt; lra. Qed.
Lemma epsZ_pos : 0 < epsZ. Proof. unfold epsZ. apply Rinv_0_lt_compat, pow_lt; lra. Qed.

(** The hardening law and equivalent stress selected by the parameters (types 1-6). *)
Definition law_of (t : Z) (h y0 yi beta a13 a14 : R) (hfn : option ((R -> R) * (R -> R))) : law :=
  match t with
  | 1%Z => Saturation y0 yi beta h
  | 4%Z => PowerLaw y0 yi beta h
  | 5%Z => Curve (match hfn with Some (f, _) => f | None => fun _ => 0 end)
  | 6%Z => Voce y0 yi beta a13 a14 h
  | _ => Linear y0 h
  end.
Definition eq_of (t : Z) (yi I1 J2 J3 : R) : R :=
  match t with
  | 2%Z => dp_eq yi I1 J2
  | 3%Z => lode_eq yi J2 J3
  | _ => mises_eq J2
  end.

Section Yield.
Variables (h hk y0 yi beta ist a13 a14 E nu a2 rho K G : R).
Notation pl t := (params h hk (IZR t) y0 yi beta ist a13 a14 E nu a2 rho K G).

Ltac ycomp := unfold yfunc; cbn [params rd nth_error bind]; rewrite toint_IZR.

(** Reported radius = sqrt(2/3) times the yield stress of the law. *)
Lemma radius t hfn li e I1 J2 J3 :
  (1 <= t <= 6)%Z -> (t = 4%Z -> epsZ <= e) -> (t = 5%Z -> hfn <> None) ->
  YYof (yfunc (pl t) hfn li e I1 J2 J3) = sqt23 * sigy (law_of t h y0 yi beta a13 a14 hfn) e.
Proof.
  intros Ht H4 H5. ycomp.
  assert (C : t = 1%Z \/ t = 2%Z \/ t = 3%Z \/ t = 4%Z \/ t = 5%Z \/ t = 6%Z) by lia.
  decompose [or] C; subst t; cbn [law_of sigy YYof yYY].
  - ring.
  - ring.
  - destruct (Rlt_dec J2 epsZ); [cbn; ring|]. destruct li; cbn; ring.
  - specialize (H4 eq_refl). pose proof epsZ_pos.
    destruct (Rlt_dec e epsZ); [exfalso; lra|]. cbn. ring.
  - destruct hfn as [[f d]|]; [cbn; ring|]. exfalso; apply (H5 eq_refl); reflexivity.
  - ring.
Qed.

Lemma exp_slope c x : is_derive (fun e => exp (- c * e)) x (- c * exp (- c * x)).
Proof. auto_derive; [trivial|ring]. Qed.

(** C11 *)
Lemma slope t hfn li e I1 J2 J3 :
  (1 <= t <= 6)%Z -> (t = 4%Z -> epsZ <= e) ->
  (t = 5%Z -> h = 0 /\ exists f d, hfn = Some (f, d) /\ is_derive f e (d e)) ->
  is_derive (sigy (law_of t h y0 yi beta a13 a14 hfn)) e (3/2 * Yprof (yfunc (pl t) hfn li e I1 J2 J3)).
Proof.
  intros Ht H4 H5. ycomp. pose proof sqt_pos as Hs. pose proof sqt_sq as Hq.
  assert (C : t = 1%Z \/ t = 2%Z \/ t = 3%Z \/ t = 4%Z \/ t = 5%Z \/ t = 6%Z) by lia.
  decompose [or] C; subst t; cbn [law_of].
  - cbn [Yprof yYpr]. unfold sigy. auto_derive; [trivial|].
    transitivity (h + 3/2 * (- (sqt23 * sqt23) * beta * (y0 - yi) * exp (- beta * e))); [rewrite Hq; field|field].
  - cbn [Yprof yYpr]. unfold sigy. auto_derive; [trivial|field].
  - assert (E1 : Yprof (if Rlt_dec J2 epsZ then Ret (mkY 0 0 0 0 0 0 0 0 0 (2/3*h) (sqt23 * y0 + sqt23 * h * e) (- (sqt23 * y0 + sqt23 * h * e))) else
      if li then Ret (mkY 0 0 0 0 0 0 0 0 0 (2/3*h) (sqt23 * y0 + sqt23 * h * e) 0) else Ret (mkY 0 0 0 0 0 0 0 0 0 (2/3*h) (sqt23 * y0 + sqt23 * h * e) 0)) = 2/3*h)
      by (destruct (Rlt_dec J2 epsZ); destruct li; reflexivity).
    match goal with |- is_derive _ _ (3/2 * ?X) => replace X with (2/3*h) end.
    + unfold sigy. auto_derive; [trivial|field].
    + destruct (Rlt_dec J2 epsZ); destruct li; reflexivity.
  - specialize (H4 eq_refl). pose proof epsZ_pos.
    destruct (Rlt_dec e epsZ); [exfalso; lra|]. cbn [Yprof yYpr]. unfold sigy, Rpower.
    auto_derive; [lra|].
    replace ((beta - 1) * ln e) with (beta * ln e + - ln e) by ring.
    rewrite exp_plus, exp_Ropp, exp_ln by lra.
    transitivity (h + 3/2 * ((sqt23 * sqt23) * beta * yi * (exp (beta * ln e) * / e))); [rewrite Hq; field; lra|field; lra].
  - destruct (H5 eq_refl) as (Hh & f & d & -> & Hd). cbn [Yprof yYpr sigy]. rewrite Hh.
    assert (X : 3/2 * (2/3 * 0 + 2/3 * d e) = d e) by field. rewrite X. exact Hd.
  - cbn [Yprof yYpr]. unfold sigy. auto_derive; [trivial|].
    transitivity (h + 3/2 * ((sqt23 * sqt23) * (beta * yi * exp (- beta * e) + a14 * a13 * exp (- a14 * e)))); [rewrite Hq; field|field].
Qed.

(** The yield value is sqrt(2/3) times (equivalent stress - yield stress). *)
Lemma sqrt23_ss J2 : 0 <= J2 -> (if Rlt_dec 0 J2 then sqrt (2 * J2) else 0) = sqt23 * sqrt (3 * J2).
Proof.
  intros HJ. unfold sqt23. rewrite <- sqrt_mult by lra. replace (2/3 * (3 * J2)) with (2 * J2) by field.
  destruct (Rlt_dec 0 J2); [reflexivity|]. replace J2 with 0 by lra. rewrite Rmult_0_r, sqrt_0. reflexivity.
Qed.

Lemma yield_value t hfn li e I1 J2 J3 :
  (1 <= t <= 6)%Z -> (t = 3%Z -> li = true /\ epsZ <= J2) -> (t = 4%Z -> epsZ <= e) -> (t = 5%Z -> hfn <> None) ->
  0 <= J2 ->
  Yieldof (yfunc (pl t) hfn li e I1 J2 J3) =
  sqt23 * (eq_of t yi I1 J2 J3 - sigy (law_of t h y0 yi beta a13 a14 hfn) e).
Proof.
  intros Ht H3 H4 H5 HJ. rewrite Rmult_minus_distr_l, <- (radius t hfn li e I1 J2 J3 Ht H4 H5).
  ycomp. rewrite (sqrt23_ss J2 HJ).
  assert (C : t = 1%Z \/ t = 2%Z \/ t = 3%Z \/ t = 4%Z \/ t = 5%Z \/ t = 6%Z) by lia.
  decompose [or] C; subst t; cbn [eq_of].
  - cbn. unfold mises_eq. ring.
  - cbn. unfold dp_eq. field.
  - destruct (H3 eq_refl) as [-> H3']. pose proof epsZ_pos.
    destruct (Rlt_dec J2 epsZ); [exfalso; lra|]. cbn. unfold lode_eq. field. lra.
  - specialize (H4 eq_refl). destruct (Rlt_dec e epsZ); [exfalso; lra|]. cbn. unfold mises_eq. ring.
  - destruct hfn as [[f d]|]; [cbn; unfold mises_eq; ring|]. exfalso; apply (H5 eq_refl); reflexivity.
  - cbn. unfold mises_eq. ring.
Qed.

(** C16 *)
Lemma yields t hfn li e I1 J2 J3 :
  (1 <= t <= 6)%Z -> (t = 3%Z -> li = true /\ epsZ <= J2) -> (t = 4%Z -> epsZ <= e) -> (t = 5%Z -> hfn <> None) ->
  0 <= J2 ->
  (0 < Yieldof (yfunc (pl t) hfn li e I1 J2 J3) <->
   sigy (law_of t h y0 yi beta a13 a14 hfn) e < eq_of t yi I1 J2 J3).
Proof.
  intros Ht H3 H4 H5 HJ. rewrite (yield_value t hfn li e I1 J2 J3 Ht H3 H4 H5 HJ). pose proof sqt_pos. split; intros HX.
  - apply (Rmult_lt_reg_l sqt23); [assumption|]. lra.
  - apply Rmult_lt_0_compat; lra.
Qed.

Lemma lode_never hfn e I1 J2 J3 : 0 < sqt23 * y0 + sqt23 * h * e ->
  Yieldof (yfunc (pl 3%Z) hfn false e I1 J2 J3) < 0.
Proof.
  intros HY. ycomp. destruct (Rlt_dec J2 epsZ); cbn; lra.
Qed.

(** C70: yield function derivatives. *)
Lemma ss_derive x : 0 < x -> is_derive (fun J2 => if Rlt_dec 0 J2 then sqrt (2 * J2) else 0) x (1 / sqrt (2 * x)).
Proof.
  intros Hx. apply (is_derive_ext_loc (fun J2 => sqrt (2 * J2))).
  - exists (mkposreal _ Hx). intros y Hy.
    unfold ball in Hy; cbn in Hy; unfold AbsRing_ball, abs, minus, plus, opp in Hy; cbn in Hy.
    apply Rabs_def2 in Hy. destruct (Rlt_dec 0 y); [reflexivity|exfalso; lra].
  - assert (Hs : sqrt (2 * x) <> 0) by (apply Rgt_not_eq, sqrt_lt_R0; lra). auto_derive; [lra|field; exact Hs].
Qed.

Lemma is_derive_near (f g : R -> R) (x lo : R) l :
  lo < x -> (forall y, lo < y -> f y = g y) -> is_derive f x l -> is_derive g x l.
Proof.
  intros HJ He Hf. apply (is_derive_ext_loc f); [|exact Hf].
  assert (Hp : 0 < x - lo) by lra. exists (mkposreal _ Hp). intros y Hy. apply He.
  unfold ball in Hy; cbn in Hy; unfold AbsRing_ball, abs, minus, plus, opp in Hy; cbn in Hy.
  apply Rabs_def2 in Hy. lra.
Qed.

(** J2 > eps^2/2 means ss > eps. *)
Definition thr : R := epsZ * epsZ / 2.
Lemma ss_big J2 : thr < J2 -> 0 < J2 /\ epsZ < sqrt (2 * J2).
Proof.
  unfold thr. pose proof epsZ_pos as He. intros H.
  assert (0 < epsZ * epsZ) by (apply Rmult_lt_0_compat; assumption).
  split; [lra|]. rewrite <- (sqrt_square epsZ) by lra. apply sqrt_lt_1; lra.
Qed.

Lemma f2_val J2 : thr < J2 -> f2_of true (if Rlt_dec 0 J2 then sqrt (2 * J2) else 0) = 1 / sqrt (2 * J2).
Proof.
  intros H. destruct (ss_big J2 H). destruct (Rlt_dec 0 J2); [|contradiction].
  unfold f2_of. destruct (Rlt_dec epsZ (sqrt (2 * J2))); [reflexivity|contradiction].
Qed.
Lemma f22_val J2 : thr < J2 -> f22_of true (if Rlt_dec 0 J2 then sqrt (2 * J2) else 0) = - (1 / sqrt (2*J2) * (1/sqrt (2*J2)) * (1/sqrt(2*J2))).
Proof.
  intros H. destruct (ss_big J2 H). destruct (Rlt_dec 0 J2); [|contradiction].
  unfold f22_of. destruct (Rlt_dec epsZ (sqrt (2 * J2))); [reflexivity|contradiction].
Qed.

Lemma f22_derive J2 : thr < J2 ->
  is_derive (fun x => f2_of true (if Rlt_dec 0 x then sqrt (2 * x) else 0)) J2
            (f22_of true (if Rlt_dec 0 J2 then sqrt (2 * J2) else 0)).
Proof.
  intros H. apply (is_derive_near (fun x => 1 / sqrt (2 * x)) _ J2 thr); [assumption| |].
  - intros y Hy. symmetry. apply f2_val; assumption.
  - rewrite (f22_val J2 H). destruct (ss_big J2 H) as [h1 h2].
    assert (Hs : sqrt (2 * J2) <> 0) by (apply Rgt_not_eq; pose proof epsZ_pos; lra).
    auto_derive; [split; [lra|split; [exact Hs|trivial]]|]. field. exact Hs.
Qed.

Lemma f2_derive J2 c : thr < J2 ->
  is_derive (fun x => (if Rlt_dec 0 x then sqrt (2 * x) else 0) - c) J2
            (f2_of true (if Rlt_dec 0 J2 then sqrt (2 * J2) else 0)).
Proof.
  intros H. rewrite (f2_val J2 H). destruct (ss_big J2 H) as [h1 h2].
  set (g := fun J2 => if Rlt_dec 0 J2 then sqrt (2 * J2) else 0).
  assert (D : is_derive g J2 (1 / sqrt (2 * J2))) by exact (ss_derive J2 h1).
  change (is_derive (fun x => g x - c) J2 (1 / sqrt (2 * J2))). clearbody g.
  auto_derive; [eexists; exact D|]. rewrite (is_derive_unique (fun x : R => g x) _ _ D). ring.
Qed.

(** Mises-type criteria (1,4,5,6) and Drucker-Prager (2). *)
Lemma derivatives_J2 t hfn e I1 J2 J3 : (t = 1 \/ t = 2 \/ t = 4 \/ t = 5 \/ t = 6)%Z ->
  (t = 5%Z -> hfn <> None) -> thr < J2 ->
  is_derive (fun x => Yieldof (yfunc (pl t) hfn true e I1 x J3)) J2 (F2of (yfunc (pl t) hfn true e I1 J2 J3)) /\
  is_derive (fun x => F2of (yfunc (pl t) hfn true e I1 x J3)) J2 (F22of (yfunc (pl t) hfn true e I1 J2 J3)).
Proof.
  intros Ht H5 HJ. unfold yfunc; cbn [params rd nth_error bind]; rewrite toint_IZR.
  decompose [or] Ht; subst t.
  - split; cbn [Yieldof F2of F22of yYield yf2 yf22]; [apply f2_derive|apply f22_derive]; assumption.
  - split; cbn [Yieldof F2of F22of yYield yf2 yf22]; [|apply f22_derive; assumption].
    eapply is_derive_ext; [|apply (f2_derive J2 (sqt23 * y0 + sqt23 * h * e - 1/3 * (sqt23 * yi) * I1)); assumption].
    intros x. cbv beta. match goal with |- ?a = ?b => change (@eq R a b) end. ring.
  - destruct (Rlt_dec e epsZ); [destruct (Rlt_dec (- e) epsZ)|];
      (split; cbn [Yieldof F2of F22of yYield yf2 yf22]; [apply f2_derive|apply f22_derive]; assumption).
  - destruct hfn as [[f d]|]; [|exfalso; apply (H5 eq_refl); reflexivity].
    split; cbn [Yieldof F2of F22of yYield yf2 yf22]; [apply f2_derive|apply f22_derive]; assumption.
  - split; cbn [Yieldof F2of F22of yYield yf2 yf22]; [apply f2_derive|apply f22_derive]; assumption.
Qed.

Lemma derivatives_I1 t hfn e I1 J2 J3 : (t = 1 \/ t = 2 \/ t = 4 \/ t = 5 \/ t = 6)%Z ->
  (t = 5%Z -> hfn <> None) ->
  is_derive (fun x => Yieldof (yfunc (pl t) hfn true e x J2 J3)) I1 (F1of (yfunc (pl t) hfn true e I1 J2 J3)) /\
  is_derive (fun x => Yieldof (yfunc (pl t) hfn true e I1 J2 x)) J3 (F3of (yfunc (pl t) hfn true e I1 J2 J3)).
Proof.
  intros Ht H5. unfold yfunc; cbn [params rd nth_error bind]; rewrite toint_IZR.
  decompose [or] Ht; subst t.
  - split; cbn; apply (is_derive_const (V := R_NormedModule)).
  - split; cbn [Yieldof F1of F3of yYield yf1 yf3]; [|apply (is_derive_const (V := R_NormedModule))].
    auto_derive; [trivial|ring].
  - destruct (Rlt_dec e epsZ); [destruct (Rlt_dec (- e) epsZ)|]; split; cbn; apply (is_derive_const (V := R_NormedModule)).
  - destruct hfn as [[f d]|]; [|exfalso; apply (H5 eq_refl); reflexivity].
    split; cbn; apply (is_derive_const (V := R_NormedModule)).
  - split; cbn; apply (is_derive_const (V := R_NormedModule)).
Qed.

(** Prager-Lode. *)
Lemma lode_vals hfn e I1 x J3 : epsZ < x ->
  Yieldof (yfunc (pl 3%Z) hfn true e I1 x J3) = sqrt (2 * x) + sqrt (27/2) * (sqt23 * yi) * J3 / x - (sqt23 * y0 + sqt23 * h * e) /\
  F2of (yfunc (pl 3%Z) hfn true e I1 x J3) = sqrt (1/2) * sqrt (1 / x) - sqrt (27/2) * (sqt23 * yi) * J3 * (1 / x * (1 / x)) /\
  F3of (yfunc (pl 3%Z) hfn true e I1 x J3) = sqrt (27/2) * (sqt23 * yi) * (1 / x) /\
  F22of (yfunc (pl 3%Z) hfn true e I1 x J3) =
    - sqrt (1/2) * (sqrt (1/x) * sqrt (1/x) * sqrt (1/x)) * (1/2) + sqrt (27/2) * (sqt23 * yi) * J3 * (1/x * (1/x) * (1/x)) * 2 /\
  F23of (yfunc (pl 3%Z) hfn true e I1 x J3) = - (sqrt (27/2) * (sqt23 * yi)) * (1/x * (1/x)).
Proof.
  intros Hx. ycomp. pose proof epsZ_pos. destruct (Rlt_dec x epsZ); [exfalso; lra|].
  destruct (Rlt_dec 0 x); [|exfalso; lra]. cbn [Yieldof F2of F3of F22of F23of yYield yf2 yf3 yf22 yf23]. repeat split; ring.
Qed.

Lemma half_sqrt x : 0 < x -> 1 / sqrt (2 * x) = sqrt (1/2) * sqrt (1 / x).
Proof.
  intros Hx. rewrite <- sqrt_mult by (try lra; apply Rlt_le, Rdiv_lt_0_compat; lra).
  replace (1 / sqrt (2 * x)) with (/ sqrt (2 * x)) by (unfold Rdiv; ring).
  replace (1 / 2 * (1 / x)) with (/ (2 * x)) by (field; lra).
  rewrite sqrt_inv. reflexivity.
Qed.

Lemma lode_derivatives hfn e I1 J2 J3 : epsZ < J2 ->
  is_derive (fun x => Yieldof (yfunc (pl 3%Z) hfn true e I1 x J3)) J2 (F2of (yfunc (pl 3%Z) hfn true e I1 J2 J3)) /\
  is_derive (fun x => Yieldof (yfunc (pl 3%Z) hfn true e I1 J2 x)) J3 (F3of (yfunc (pl 3%Z) hfn true e I1 J2 J3)) /\
  is_derive (fun x => F2of (yfunc (pl 3%Z) hfn true e I1 x J3)) J2 (F22of (yfunc (pl 3%Z) hfn true e I1 J2 J3)) /\
  is_derive (fun x => F2of (yfunc (pl 3%Z) hfn true e I1 J2 x)) J3 (F23of (yfunc (pl 3%Z) hfn true e I1 J2 J3)).
Proof.
  intros HJ. pose proof epsZ_pos as He. assert (HJ0 : 0 < J2) by lra.
  destruct (lode_vals hfn e I1 J2 J3 HJ) as (_ & V2 & V3 & V22 & V23).
  assert (Hs : sqrt (2 * J2) <> 0) by (apply Rgt_not_eq, sqrt_lt_R0; lra).
  assert (Hi : 0 < 1 / J2) by (apply Rdiv_lt_0_compat; lra).
  assert (Hs2 : sqrt (1 / J2) <> 0) by (apply Rgt_not_eq, sqrt_lt_R0; lra).
  split; [|split; [|split]].
  - rewrite V2. eapply (is_derive_near (fun x => sqrt (2 * x) + sqrt (27/2) * (sqt23 * yi) * J3 / x - (sqt23 * y0 + sqt23 * h * e)) _ J2 epsZ); [assumption| |].
    + intros y Hy. symmetry. apply lode_vals; assumption.
    + auto_derive; [repeat split; lra|]. rewrite <- half_sqrt by lra. field. split; (exact Hs || lra).
  - rewrite V3. eapply is_derive_ext; [intros x; symmetry; exact (proj1 (lode_vals hfn e I1 J2 x HJ))|].
    auto_derive; [trivial|field; lra].
  - rewrite V22. eapply (is_derive_near (fun x => sqrt (1/2) * sqrt (1 / x) - sqrt (27/2) * (sqt23 * yi) * J3 * (1 / x * (1 / x))) _ J2 epsZ); [assumption| |].
    + intros y Hy. symmetry. apply (proj1 (proj2 (lode_vals hfn e I1 y J3 Hy))).
    + assert (Hq : sqrt (1 / J2) * sqrt (1 / J2) = 1 / J2) by (apply sqrt_sqrt; lra).
      auto_derive; [repeat split; try lra; exact Hi|].
      replace (1 * / J2) with (1 / J2) by (unfold Rdiv; ring).
      replace (sqrt (1 / J2) * sqrt (1 / J2) * sqrt (1 / J2)) with (1 / J2 * / J2 * / sqrt (1 / J2)).
      2:{ rewrite Hq. apply (Rmult_eq_reg_r (sqrt (1 / J2))); [|exact Hs2].
          transitivity (1 / J2 * (1 / J2)); [field; split; (exact Hs2 || lra)|]. rewrite <- Hq at 2. ring. }
      field. split; (exact Hs2 || lra).
  - rewrite V23. eapply is_derive_ext; [intros x; symmetry; apply (proj1 (proj2 (lode_vals hfn e I1 J2 x HJ)))|].
    auto_derive; [trivial|field; lra].
Qed.
End Yield.

(** C11: with a hardening curve and non-zero H_iso the slope is not the derivative of the yield stress. *)
Lemma curve_slope_wrong : exists p f d, forall li e I1 J2 J3,
  (forall x, is_derive f x (d x)) /\
  YYof (yfunc p (Some (f, d)) li e I1 J2 J3) = sqt23 * f e /\
  Yprof (yfunc p (Some (f, d)) li e I1 J2 J3) <> 2/3 * d e.
Proof.
  exists (params 10 0 5 0 0 0 0 0 0 1 0 0 0 1 1), (fun e => 100 + 50 * e), (fun _ => 50).
  intros. unfold yfunc; cbn [params rd nth_error bind]. change 5 with (IZR 5). rewrite toint_IZR.
  split; [|split].
  - intros x. auto_derive; [trivial|ring].
  - reflexivity.
  - cbn. lra.
Qed.

(** * C14: energy integral *)
Lemma ddot_lin a x y z : ddot3 (fun i j => a * x i j + y i j) z = a * ddot3 x z + ddot3 y z.
Proof. unfold ddot3. ring. Qed.
Lemma ddot_comm x y : ddot3 x y = ddot3 y x.
Proof. unfold ddot3. ring. Qed.

Definition path (A : t3 -> t3) (l : list t3) : estate :=
  fold_left (fun st e => energyIntegral st (A e) e) l einit.

Lemma path_energy A l : sym_linear A ->
  forall st, esU st = 1/2 * ddot3 (esS st) (esE st) -> (forall i j, esS st i j = A (esE st) i j) ->
  let st' := fold_left (fun st e => energyIntegral st (A e) e) l st in
  esU st' = 1/2 * ddot3 (esS st') (esE st').
Proof.
  intros HA. induction l as [|e l IH]; intros st HU HS; [exact HU|]. cbn [fold_left]. apply IH.
  - unfold energyIntegral; cbn [esU esS esE]. rewrite HU.
    assert (X1 : ddot3 (esS st) e = ddot3 (A e) (esE st)).
    { rewrite (ddot_comm (A e)), <- (sl_sym A HA). unfold ddot3. rewrite !HS. reflexivity. }
    assert (X : ddot3 (fun i j => A e i j + esS st i j) (fun i j => e i j - esE st i j) =
      ddot3 (A e) e + ddot3 (esS st) e - ddot3 (A e) (esE st) - ddot3 (esS st) (esE st)) by (unfold ddot3; ring).
    rewrite X, X1. field.
  - intros i j. reflexivity.
Qed.

Lemma sym_linear_0 A i j : sym_linear A -> A (fun _ _ => 0) i j = 0.
Proof.
  intros HA. pose proof (sl_add A HA (-1) (fun _ _ => 0) (fun _ _ => 0) i j) as H.
  assert (E0 : A (fun _ _ => -1 * 0 + 0) i j = 0) by (rewrite H; ring).
  assert (Z : -1 * 0 + 0 = 0) by ring. rewrite Z in E0. exact E0.
Qed.

Lemma path_integral A l e : sym_linear A ->
  esU (path A (l ++ (e :: nil))) = 1/2 * ddot3 (A e) e.
Proof.
  intros HA. unfold path.
  pose proof (path_energy A (l ++ (e :: nil)) HA einit) as H. cbv zeta in H. rewrite H.
  - rewrite fold_left_app. reflexivity.
  - unfold einit, ddot3; cbn. ring.
  - intros i j. cbn. symmetry. apply sym_linear_0, HA.
Qed.

(** * C15: parameter lists *)
Lemma ctor_len p : length (ctor p) = S (S (Nat.max 11 (length p))).
Proof.
  unfold ctor. assert (L : length (resize0 11 p) = Nat.max 11 (length p)).
  { unfold resize0. rewrite app_length, repeat_length. lia. }
  destruct (resize0 11 p) as [|a [|b [|c [|d r]]]] eqn:E; cbn [length] in L |- *; try lia.
  destruct (moduli a b) as [[[? ?] ?] ?]. cbn [length]. lia.
Qed.

Lemma rd_ok p i : (i < length p)%nat -> exists v, rd p i = Ret v.
Proof.
  intros H. unfold rd. destruct (nth_error p i) as [v|] eqn:E; [eexists; reflexivity|].
  apply nth_error_None in E. lia.
Qed.

Lemma yfunc_safe p hfn li e I1 J2 J3 :
  (12 <= length p)%nat -> (toint (nth 8 p 0) = 6%Z -> (15 <= length p)%nat) ->
  yfunc p hfn li e I1 J2 J3 <> UB.
Proof.
  intros H H6. unfold yfunc.
  assert (E8 : rd p 8 = Ret (nth 8 p 0)) by (unfold rd; rewrite (nth_error_nth' p 0) by lia; reflexivity).
  rewrite E8. cbn [bind].
  destruct (rd_ok p 6) as [v1 ->]; [lia|]. destruct (rd_ok p 9) as [v2 ->]; [lia|].
  destruct (rd_ok p 10) as [v3 ->]; [lia|]. destruct (rd_ok p 11) as [v4 ->]; [lia|]. cbn [bind].
  revert H6. destruct (toint (nth 8 p 0)) as [|k|k]; intros H6; try discriminate.
  do 3 (try (destruct k as [k|k|]; try discriminate)).
  all: try (destruct hfn as [[? ?]|]; discriminate).
  all: try (specialize (H6 eq_refl); destruct (rd_ok p 13) as [v5 ->]; [lia|]; destruct (rd_ok p 14) as [v6 ->]; [lia|]; discriminate).
  all: repeat match goal with |- context[Rlt_dec ?a ?b] => destruct (Rlt_dec a b) end; try discriminate.
  all: destruct li; discriminate.
Qed.

Lemma text_safe p hfn li e I1 J2 J3 :
  (13 <= length p)%nat \/ toint (nth 6 p 0) <> 6%Z -> yfunc (text_input p) hfn li e I1 J2 J3 <> UB.
Proof.
  intros H. unfold text_input. apply yfunc_safe; rewrite ctor_len; [lia|].
  intros H8. destruct H as [H|H]; [lia|]. exfalso. apply H. rewrite <- H8. f_equal.
  unfold ctor, resize0.
  do 11 (destruct p as [|? p]; [cbn; try (destruct (moduli _ _) as [[[? ?] ?] ?]); reflexivity|]).
  cbn. destruct (moduli _ _) as [[[? ?] ?] ?]. reflexivity.
Qed.

Lemma text_unsafe : exists p, length p = 11%nat /\ forall hfn li e I1 J2 J3, yfunc (text_input p) hfn li e I1 J2 J3 = UB.
Proof.
  exists [210; 0; 0; 0; 0; 0; 6; 1; 1; 1; 0]. split; [reflexivity|]. intros.
  unfold text_input, ctor. cbn [resize0 app length repeat Nat.sub].
  destruct (moduli 210 0) as [[[? ?] ?] ?]. unfold yfunc. cbn [rd nth_error bind].
  change 6 with (IZR 6). rewrite toint_IZR. reflexivity.
Qed.

Lemma assign_len l iv : length (assign l iv) = length l.
Proof.
  destruct iv as [i v]. unfold assign. destruct (Nat.ltb_spec i (length l)); [|reflexivity].
  rewrite app_length, firstn_length. cbn [length]. rewrite skipn_length. lia.
Qed.
Lemma fold_assign_len a : forall l, length (fold_left assign a l) = length l.
Proof. induction a as [|x a IH]; intros l; [reflexivity|]. cbn. rewrite IH. apply assign_len. Qed.
Lemma assign_other l i v k : i <> k -> nth k (assign l (i, v)) 0 = nth k l 0.
Proof.
  intros H. unfold assign. destruct (Nat.ltb_spec i (length l)) as [Hl|]; [|reflexivity].
  destruct (Nat.lt_trichotomy k i) as [Hk|[->|Hk]]; [|contradiction|].
  - rewrite app_nth1 by (rewrite firstn_length; lia). rewrite <- (firstn_skipn i l) at 2.
    rewrite app_nth1 by (rewrite firstn_length; lia). reflexivity.
  - rewrite app_nth2 by (rewrite firstn_length; lia). rewrite firstn_length, Nat.min_l by lia.
    replace (k - i)%nat with (S (k - S i)) by lia. cbn [nth].
    rewrite <- (firstn_skipn (S i) l) at 2. rewrite app_nth2 by (rewrite firstn_length; lia).
    rewrite firstn_length, Nat.min_l by lia. reflexivity.
Qed.
Lemma fold_assign_other a k : (forall i v, In (i, v) a -> i <> k) -> forall l, nth k (fold_left assign a l) 0 = nth k l 0.
Proof.
  induction a as [|[i v] a IH]; intros H l; [reflexivity|]. cbn [fold_left]. rewrite IH.
  - apply assign_other. apply (H i v). left; reflexivity.
  - intros i' v' Hi. apply (H i' v'). right; exact Hi.
Qed.

Lemma ctor_nth8 q : (11 <= length q)%nat -> nth 8 (ctor q) 0 = nth 6 q 0.
Proof.
  intros H. unfold ctor, resize0.
  do 11 (destruct q as [|? q]; [cbn in H; lia|]).
  cbn. destruct (moduli _ _) as [[[? ?] ?] ?]. reflexivity.
Qed.

Lemma xml_safe p attr attr6 hfn li e I1 J2 J3 :
  (forall i v, In (i, v) attr6 -> i <> 6%nat) -> yfunc (xml_input p attr attr6) hfn li e I1 J2 J3 <> UB.
Proof.
  intros H. unfold xml_input. set (q := fold_left assign attr (resize0 11 p)).
  assert (Lq : (11 <= length q)%nat).
  { subst q. rewrite fold_assign_len. unfold resize0. rewrite app_length, repeat_length. lia. }
  clearbody q. destruct (Z.eqb_spec (toint (nth 6 q 0)) 6) as [E6|E6].
  - apply yfunc_safe; rewrite ctor_len, fold_assign_len; unfold resize0; rewrite app_length, repeat_length; lia.
  - apply yfunc_safe; rewrite ctor_len; [lia|]. intros H8. rewrite ctor_nth8 in H8 by exact Lq. contradiction.
Qed.

(** Non-vacuity: structural steel, saturation hardening. *)
Example steel : admissible 210 (3/10) /\ 1/2 < lame2 210 (3/10) /\ thr < 1.
Proof.
  unfold admissible, lame2, thr. repeat split; try lra. pose proof epsZ_pos.
  assert (epsZ <= 1). { unfold epsZ. replace 1 with (/ 1) by field. apply Rinv_le_contravar; [lra|]. apply pow_R1_Rle; lra. }
  assert (epsZ * epsZ <= 1 * 1) by (apply Rmult_le_compat; lra). lra.
Qed.
Example identity_law : sym_linear (fun e i j => 2 * e i j).
Proof. split; intros; [ring|unfold ddot3; ring]. Qed.

(** * C73: the reported energy *)
(** A uniaxially stretched point of the material S = E (second Piola-Kirchhoff stress S, Green strain E): the
    evaluation receives S/J. *)
Definition uni (v : R) : t3 := fun i j => if (Nat.eqb i 1 && Nat.eqb j 1)%bool then v else 0.
Definition uniax (lam : R) : t3 * t3 * R :=
  let e := 1/2 * (lam * lam - 1) in (uni (e / lam), uni e, lam).
Lemma reported_path : reported (uniax 3 :: nil) = 1/2 * ddot3 (uni 4) (uni 4) /\
  reported (uniax 2 :: uniax 3 :: nil) <> 1/2 * ddot3 (uni 4) (uni 4).
Proof.
  unfold reported, uniax; cbn [fold_left rev app]. unfold energyIntegral, einit; cbn [esU esS esE].
  unfold ddot3, uni; cbn [Nat.eqb andb]. split; [field|]. apply Rgt_not_eq. lra.
Qed.
Lemma reported_one S E J : reported ((S, E, J) :: nil) = J * (1/2 * ddot3 S E).
Proof.
  unfold reported; cbn [fold_left rev app]. unfold energyIntegral, einit; cbn [esU esS esE].
  unfold ddot3. field.
Qed.
Lemma reported_depends : exists a b, reported (b :: nil) <> reported (a :: b :: nil) /\ a = uniax 2 /\ b = uniax 3.
Proof. exists (uniax 2), (uniax 3). destruct reported_path as [H1 H2]. split; [|split; reflexivity]. rewrite H1. intros E. apply H2. symmetry. exact E. Qed.
