(** Properties C10-C16 and C70-C73: elasto-plastic material. *)
From Coq Require Import List.
From Verif.Lib Require Import Base Tensor3 Sums Congruence.
From Verif.Spec Require Import Hooke Plasticity History.
From Verif.Model Require Import NeoHooke Plastic History ReturnMap.
From Verif.Proofs Require Import Plastic History ReturnMap.
From Coquelicot Require Import Coquelicot.

Theorem C10_plastic_partial : forall E nu, admissible E nu ->
  moduli E nu = (E, nu, bulk E nu, lame2 E nu) /\
  (1/2 < lame2 E nu -> moduli (bulk E nu) (lame2 E nu) = (E, nu, bulk E nu, lame2 E nu)).
Proof. intros E nu H. split; [exact (mod_Enu E nu H)|exact (mod_KG E nu H)]. Qed.
Print Assumptions C10_plastic_partial.

Theorem C10_hyperelastic_partial : forall E nu, admissible E nu ->
  (let m := neo_of 2 E nu in nEmod m = E /\ nNu m = nu /\ Bmod m = bulk E nu /\ Smod m = lame2 E nu) /\
  (let m := neo_of 1 E nu in nEmod m = E /\ nNu m = nu /\ Bmod m = lame1 E nu /\ Smod m = lame2 E nu) /\
  (1/2 < lame2 E nu -> let m := neo_of 2 (bulk E nu) (lame2 E nu) in
     nEmod m = E /\ nNu m = nu /\ Bmod m = bulk E nu /\ Smod m = lame2 E nu).
Proof.
  intros E nu H. split; [exact (proj1 (neo_Enu E nu H))|].
  split; [exact (proj2 (neo_Enu E nu H))|exact (neo_KG E nu H)].
Qed.
Print Assumptions C10_hyperelastic_partial.

Theorem C10_small_shear_modulus_refuted : exists E nu, admissible E nu /\
  let '(E', nu', K', G') := moduli (bulk E nu) (lame2 E nu) in
  E' <> E /\ nu' <> nu /\ K' <> bulk E nu /\ G' <> lame2 E nu.
Proof. exact mod_KG_wrong. Qed.
Print Assumptions C10_small_shear_modulus_refuted.

Theorem C10_standard_law_refuted : exists E nu, admissible E nu /\ 1/2 < lame2 E nu /\
  Bmod (neo_of 1 E nu) <> Bmod (neo_of 1 (bulk E nu) (lame2 E nu)).
Proof. exact neo_KG1_wrong. Qed.
Print Assumptions C10_standard_law_refuted.

Theorem C11_radius : forall h hk y0 yi beta ist a13 a14 E nu a2 rho K G t hfn li e I1 J2 J3,
  (1 <= t <= 6)%Z -> (t = 4%Z -> epsZ <= e) -> (t = 5%Z -> hfn <> None) ->
  YYof (yfunc (params h hk (IZR t) y0 yi beta ist a13 a14 E nu a2 rho K G) hfn li e I1 J2 J3) =
  sqrt (2/3) * sigy (law_of t h y0 yi beta a13 a14 hfn) e.
Proof. exact radius. Qed.
Print Assumptions C11_radius.

Theorem C11_slope_partial : forall h hk y0 yi beta ist a13 a14 E nu a2 rho K G t hfn li e I1 J2 J3,
  (1 <= t <= 6)%Z -> (t = 4%Z -> epsZ <= e) ->
  (t = 5%Z -> h = 0 /\ exists f d, hfn = Some (f, d) /\ is_derive f e (d e)) ->
  is_derive (sigy (law_of t h y0 yi beta a13 a14 hfn)) e
    (3/2 * Yprof (yfunc (params h hk (IZR t) y0 yi beta ist a13 a14 E nu a2 rho K G) hfn li e I1 J2 J3)).
Proof. exact slope. Qed.
Print Assumptions C11_slope_partial.

Theorem C11_curve_refuted : exists p f d, forall li e I1 J2 J3,
  (forall x, is_derive f x (d x)) /\
  YYof (yfunc p (Some (f, d)) li e I1 J2 J3) = sqrt (2/3) * f e /\
  Yprof (yfunc p (Some (f, d)) li e I1 J2 J3) <> 2/3 * d e.
Proof. exact curve_slope_wrong. Qed.
Print Assumptions C11_curve_refuted.

Theorem C12_reevaluation : forall (H T O : Type) (upd : H -> T -> T -> nat -> bool -> option (H * O))
  fst_ l1 l2 it F (p : point H T),
  List.Forall (fun x => fst_ = true \/ fst x <> 0%nat) l1 -> List.Forall (fun x => fst_ = true \/ fst x <> 0%nat) l2 ->
  (fst_ = true \/ it <> 0%nat) ->
  snd (assemble upd fst_ it F (evals upd fst_ l1 p)) = snd (assemble upd fst_ it F (evals upd fst_ l2 p)) /\
  HVc (fst (assemble upd fst_ it F (evals upd fst_ l1 p))) = HVc (fst (assemble upd fst_ it F (evals upd fst_ l2 p))).
Proof. intros H T O upd. exact (reevaluation upd). Qed.
Print Assumptions C12_reevaluation.

Theorem C13_converged_partial : forall (H T O : Type) (upd : H -> T -> T -> nat -> bool -> option (H * O))
  l h0 f0 s' m Fl h o,
  List.Forall (fun a => converged a = true \/ first a = true) l ->
  driven upd true (h0, f0) l -> spec_run upd (h0, f0) l = Some s' ->
  let b := still_first true l in
  upd (fst s') (snd s') Fl (length (snd s' :: m)) b = Some (h, o) ->
  snd (assemble upd b (length (snd s' :: m)) Fl (iterate upd b 0 (snd s' :: m) (run upd (newPoint h0 f0) l))) = Some o.
Proof.
  intros H T O upd l h0 f0 s' m Fl h o. apply (history_used upd l true (newPoint h0 f0) (h0, f0) s' m Fl h o).
  split; reflexivity.
Qed.
Print Assumptions C13_converged_partial.

Theorem C13_diverged_refuted : exists l o o',
  driven elastic true (diag 1, diag 1) l /\
  snd (assemble elastic false 1 (diag 1) (iterate elastic false 0 (diag 1 :: nil) (run elastic (newPoint (diag 1) (diag 1)) l))) = Some o /\
  (exists s h, spec_run elastic (diag 1, diag 1) l = Some s /\ elastic (fst s) (snd s) (diag 1) 1 false = Some (h, o')) /\
  o 1%nat 1%nat <> o' 1%nat 1%nat.
Proof.
  destruct bad_outcome as (o & o' & h1 & h2 & h3 & h4). exists bad_history, o, o'.
  split; [exact bad_driven|]. split; [exact h1|]. split; [exact h2|]. rewrite h3, h4. lra.
Qed.
Print Assumptions C13_diverged_refuted.

Theorem C14_path_independent : forall A l e, sym_linear A ->
  esU (path A (l ++ (e :: nil))) = 1/2 * ddot3 (A e) e.
Proof. exact path_integral. Qed.
Print Assumptions C14_path_independent.

Theorem C15_text_partial : forall p hfn li e I1 J2 J3,
  (13 <= length p)%nat \/ toint (nth 6 p 0) <> 6%Z -> yfunc (text_input p) hfn li e I1 J2 J3 <> UB.
Proof. exact text_safe. Qed.
Print Assumptions C15_text_partial.

Theorem C15_xml_partial : forall p attr attr6 hfn li e I1 J2 J3,
  (forall i v, In (i, v) attr6 -> i <> 6%nat) -> yfunc (xml_input p attr attr6) hfn li e I1 J2 J3 <> UB.
Proof. exact xml_safe. Qed.
Print Assumptions C15_xml_partial.

Theorem C15_text_refuted : exists p, length p = 11%nat /\
  forall hfn li e I1 J2 J3, yfunc (text_input p) hfn li e I1 J2 J3 = UB.
Proof. exact text_unsafe. Qed.
Print Assumptions C15_text_refuted.

Theorem C16_yields_partial : forall h hk y0 yi beta ist a13 a14 E nu a2 rho K G t hfn li e I1 J2 J3,
  (1 <= t <= 6)%Z -> (t = 3%Z -> li = true /\ epsZ <= J2) -> (t = 4%Z -> epsZ <= e) -> (t = 5%Z -> hfn <> None) ->
  0 <= J2 ->
  (0 < Yieldof (yfunc (params h hk (IZR t) y0 yi beta ist a13 a14 E nu a2 rho K G) hfn li e I1 J2 J3) <->
   sigy (law_of t h y0 yi beta a13 a14 hfn) e < eq_of t yi I1 J2 J3).
Proof. exact yields. Qed.
Print Assumptions C16_yields_partial.

(** The elastic trial check calls the yield function with [false]: criterion 3 is then never violated. *)
Theorem C16_trial_check_refuted : forall h hk y0 yi beta ist a13 a14 E nu a2 rho K G hfn e I1 J2 J3,
  0 < sqrt (2/3) * y0 + sqrt (2/3) * h * e ->
  Yieldof (yfunc (params h hk 3 y0 yi beta ist a13 a14 E nu a2 rho K G) hfn false e I1 J2 J3) < 0.
Proof. exact lode_never. Qed.
Print Assumptions C16_trial_check_refuted.

Theorem C70_derivatives : forall h hk y0 yi beta ist a13 a14 E nu a2 rho K G t hfn e I1 J2 J3,
  (t = 1 \/ t = 2 \/ t = 4 \/ t = 5 \/ t = 6)%Z -> (t = 5%Z -> hfn <> None) -> epsZ * epsZ / 2 < J2 ->
  let y i1 j2 j3 := yfunc (params h hk (IZR t) y0 yi beta ist a13 a14 E nu a2 rho K G) hfn true e i1 j2 j3 in
  is_derive (fun x => Yieldof (y x J2 J3)) I1 (F1of (y I1 J2 J3)) /\
  is_derive (fun x => Yieldof (y I1 x J3)) J2 (F2of (y I1 J2 J3)) /\
  is_derive (fun x => Yieldof (y I1 J2 x)) J3 (F3of (y I1 J2 J3)) /\
  is_derive (fun x => F2of (y I1 x J3)) J2 (F22of (y I1 J2 J3)).
Proof.
  intros h hk y0 yi beta ist a13 a14 E nu a2 rho K G t hfn e I1 J2 J3 Ht H5 HJ y.
  split; [exact (proj1 (derivatives_I1 h hk y0 yi beta ist a13 a14 E nu a2 rho K G t hfn e I1 J2 J3 Ht H5))|].
  split; [exact (proj1 (derivatives_J2 h hk y0 yi beta ist a13 a14 E nu a2 rho K G t hfn e I1 J2 J3 Ht H5 HJ))|].
  split; [exact (proj2 (derivatives_I1 h hk y0 yi beta ist a13 a14 E nu a2 rho K G t hfn e I1 J2 J3 Ht H5))|].
  exact (proj2 (derivatives_J2 h hk y0 yi beta ist a13 a14 E nu a2 rho K G t hfn e I1 J2 J3 Ht H5 HJ)).
Qed.
Print Assumptions C70_derivatives.

Theorem C70_lode_derivatives : forall h hk y0 yi beta ist a13 a14 E nu a2 rho K G hfn e I1 J2 J3, epsZ < J2 ->
  let y j2 j3 := yfunc (params h hk 3 y0 yi beta ist a13 a14 E nu a2 rho K G) hfn true e I1 j2 j3 in
  is_derive (fun x => Yieldof (y x J3)) J2 (F2of (y J2 J3)) /\
  is_derive (fun x => Yieldof (y J2 x)) J3 (F3of (y J2 J3)) /\
  is_derive (fun x => F2of (y x J3)) J2 (F22of (y J2 J3)) /\
  is_derive (fun x => F2of (y J2 x)) J3 (F23of (y J2 J3)).
Proof. exact lode_derivatives. Qed.
Print Assumptions C70_lode_derivatives.

Theorem C71_newton_partial : forall h hk y0 yi beta ist a13 a14 E nu a2 rho K G hfn t Eppn Bm Sm Hk etr alpn kin s d k,
  regular h hfn t (Eppn + sqt23 * sGam s) -> epsZ < inv2 (relstress (sTau s) (sAlp s)) ->
  correction h hk y0 yi beta ist a13 a14 E nu a2 rho K G hfn t Eppn Bm Sm Hk etr alpn kin s d ->
  ((1 <= k <= 3)%nat \/ k = nvar kin) ->
  is_derive (fun x => resAt h hk y0 yi beta ist a13 a14 E nu a2 rho K G hfn t Eppn Bm Sm (1 / Hk) etr alpn kin (move kin s d x) k) 0
            (- resAt h hk y0 yi beta ist a13 a14 E nu a2 rho K G hfn t Eppn Bm Sm (1 / Hk) etr alpn kin s k).
Proof. exact newton_rows. Qed.
Print Assumptions C71_newton_partial.

Theorem C71_back_stress_sign_refuted : forall h hk y0 yi beta ist a13 a14 E nu a2 rho K G hfn t Eppn Bm Sm Hk etr alpn s d k,
  regular h hfn t (Eppn + sqt23 * sGam s) -> epsZ < inv2 (relstress (sTau s) (sAlp s)) ->
  correction h hk y0 yi beta ist a13 a14 E nu a2 rho K G hfn t Eppn Bm Sm Hk etr alpn true s d ->
  (4 <= k <= 6)%nat ->
  is_derive (fun x => resAt h hk y0 yi beta ist a13 a14 E nu a2 rho K G hfn t Eppn Bm Sm (1 / Hk) etr alpn true (move true s d x) k) 0
            (resAt h hk y0 yi beta ist a13 a14 E nu a2 rho K G hfn t Eppn Bm Sm (1 / Hk) etr alpn true s k).
Proof. exact newton_kin_wrong. Qed.
Print Assumptions C71_back_stress_sign_refuted.

Theorem C71_back_stress_matrix_refuted : exists s d y,
  yat (params 0 0 2 1 0 0 0 0 0 1 0 0 0 1 1) None 0 s = Ret y /\
  ~ is_derive (fun x => resAt 0 0 1 0 0 0 0 0 1 0 0 0 1 1 None 2 0 1 1 1 (fun _ => 0) (fun _ => 0) true (move true s d x) 4) 0
     (sumf 7 (fun l => tres 1 1 1 true y s 4 l * d l)).
Proof. exact kin_matrix_wrong. Qed.
Print Assumptions C71_back_stress_matrix_refuted.

Theorem C72_rotation : forall F e i, (forall a b, e a b = e b a) -> (1 <= i <= 6)%nat ->
  mv 6 (Tmat F) (engineering e) i = engineering (mul3 (trn F) (mul3 e F)) i.
Proof. exact Tmat_rotates. Qed.
Print Assumptions C72_rotation.

Theorem C72_tangent_energy : forall F C Jc e, (forall a b, e a b = e b a) ->
  quad 6 (tangent6 F C Jc) (engineering e) = quad 6 C (engineering (mul3 (trn F) (mul3 e F))) / Jc.
Proof. exact tangent6_quad. Qed.
Print Assumptions C72_tangent_energy.

Theorem C72_tangent_symmetric : forall F Jc dtde tau ll, (forall a b, dtde a b = dtde b a) ->
  symm 6 (tangent6 F (Cstm dtde tau ll) Jc).
Proof. intros F Jc dtde tau ll H. exact (tangent6_symm F _ Jc (Cstm_symm dtde tau ll H)). Qed.
Print Assumptions C72_tangent_symmetric.

Theorem C73_single_step_partial : forall S E J,
  reported ((S, E, J) :: nil) = J * (1/2 * ddot3 S E).
Proof. exact reported_one. Qed.
Print Assumptions C73_single_step_partial.

Theorem C73_path_refuted : exists a b,
  reported (b :: nil) <> reported (a :: b :: nil) /\
  a = uniax 2 /\ b = uniax 3.
Proof. exact reported_depends. Qed.
Print Assumptions C73_path_refuted.

(** * Concrete cases meeting the hypotheses *)
Example elastic_constants_case : admissible 210 (3/10) /\ 1/2 < lame2 210 (3/10) /\ thr < 1.
Proof. exact steel. Qed.
Example linear_law_case : sym_linear (fun e i j => 2 * e i j).
Proof. exact identity_law. Qed.
Example newton_case : regular 0 None 2%Z (0 + sqt23 * sGam st0) /\ epsZ < inv2 (relstress (sTau st0) (sAlp st0)).
Proof. exact st0_ok. Qed.
(** A converged first step that doubles the size of the body. *)
Example history_case : let l := mkA true (diag 1 :: diag 2 :: nil) true :: nil in
  List.Forall (fun a => converged a = true \/ first a = true) l /\
  driven elastic true (diag 1, diag 1) l /\
  exists s', spec_run elastic (diag 1, diag 1) l = Some s' /\ fst s' 1%nat 1%nat = 4 /\ snd s' = diag 2.
Proof.
  assert (one : 1 <> 0) by lra. assert (two : 2 <> 0) by lra. cbv zeta.
  split; [constructor; [left; reflexivity|constructor]|].
  cbn [driven spec_run]. unfold result; cbn [first trials rev app length Nat.sub fst snd converged].
  rewrite el_diag by assumption. split.
  - split; [reflexivity|]. split; [exists nil, (diag 2); reflexivity|]. exact I.
  - eexists. split; [reflexivity|]. cbn [fst snd]. rewrite push_diag by assumption. split; [unfold diag; cbn; field|reflexivity].
Qed.
