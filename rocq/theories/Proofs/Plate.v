From Coquelicot Require Import Coquelicot.
From Verif Require Import Lib.Base Lib.Sums Lib.Writes Lib.Congruence Lib.Vec3 Spec.Plate Spec.Hooke Model.LinIsotropic Model.Plate.
From Verif Require Import Proofs.LinIsotropic.

Definition curvOf (nen : nat) (d2 : nat -> nat -> nat -> R) (w : nat -> R) : curv :=
  mkCurv (sumf nen (fun i => d2 i 1%nat 1%nat * w i)) (sumf nen (fun i => d2 i 2%nat 2%nat * w i)) (sumf nen (fun i => d2 i 1%nat 2%nat * w i)).

Ltac req := match goal with |- @eq _ ?x ?y => change (@eq R x y) end.
Section P.
Variables (nen : nat) (E nu T : R) (d2 : nat -> nat -> nat -> R) (detJxW : R).
Definition closed2 (i j : nat) : R :=
  match i, j with
  | 1%nat, 1%nat | 2%nat, 2%nat => E / (1 - nu * nu) | 1%nat, 2%nat | 2%nat, 1%nat => E / (1 - nu * nu) * nu
  | 3%nat, 3%nat => E / (2 + nu + nu) | _, _ => 0 end.
Lemma formC2 : 0 <= nu < 1/2 -> exists C, formC 2 E nu T false = Ret C /\
  forall i j, (1 <= i <= 3)%nat -> (1 <= j <= 3)%nat -> el C i j = T * T * T / 12 * closed2 i j.
Proof.
  intros Hn. unfold formC. open_c. eexists. split; [reflexivity|]. intros i j Hi Hj. idx i; idx j; cbn; reflexivity.
Qed.
Lemma formC1 : exists C, formC 1 E nu T false = Ret C /\ el C 1%nat 1%nat = T * T * T / 12 * E.
Proof. unfold formC. open_c. eexists. split; [reflexivity|]. reflexivity. Qed.

Lemma K1_cong nsd C EK : formC nsd E nu T false = Ret C ->
  exists K, evalK1 nsd E nu T d2 detJxW EK = Ret K /\
    forall i j, K i j = EK i j + detJxW * cong (nstrc nsd) (formB nsd d2) (el C) i j.
Proof.
  intros H. unfold evalK1. rewrite H. cbn [bind]. eexists. split; [reflexivity|]. intros i j. unfold cong. rewrite <- sumf_scal. f_equal.
  apply sumf_ext. intros k _. ring.
Qed.
Lemma quad_lin n A B c (x : nat -> R) : quad n (fun i j => A i j + c * B i j) x = quad n A x + c * quad n B x.
Proof.
  unfold quad, mv. rewrite <- sumf_scal, <- sumf_plus. apply sumf_ext. intros i _.
  rewrite (sumf_ext n _ (fun j => A i j * x j + c * (B i j * x j))) by (intros; ring). rewrite sumf_plus, sumf_scal. ring.
Qed.
Lemma quad_outer n A X Y (x : nat -> R) : quad n (outer A X Y) x = quad n A x + sumf n (fun i => X i * x i) * sumf n (fun i => Y i * x i).
Proof.
  unfold quad, mv, outer. rewrite (sumf_ext n _ (fun i => x i * sumf n (fun j => A i j * x j) + (X i * x i) * sumf n (fun j => Y j * x j))).
  - rewrite sumf_plus, sumf_scal_r. reflexivity.
  - intros i _. rewrite (sumf_ext n _ (fun j => A i j * x j + X i * (Y j * x j))) by (intros; ring). rewrite sumf_plus, sumf_scal. ring.
Qed.
Lemma cubic_int a : is_RInt (fun z => a * (z * z)) (- T / 2) (T / 2) (a * (T * T * T) / 12).
Proof.
  replace (a * (T * T * T) / 12) with (minus (a * ((T / 2) * (T / 2) * (T / 2)) / 3) (a * ((- T / 2) * (- T / 2) * (- T / 2)) / 3)).
  2:{ unfold minus, plus, opp; cbn. field. }
  apply (is_RInt_derive (V := R_CompleteNormedModule) (fun z => a * (z * z * z) / 3)).
  - intros z _. auto_derive; [easy|field].
  - intros z _. apply (ex_derive_continuous (fun z => a * (z * z))). auto_derive. easy.
Qed.

(** ** Stiffness version 1 *)
Lemma K1_energy EK (w : nat -> R) : 0 <= nu < 1/2 -> exists K U, evalK 2 E nu T d2 detJxW 1 EK = Ret K /\
  bending E nu T (curvOf nen d2 w) U /\ quad nen K w = quad nen EK w + detJxW * U.
Proof.
  intros Hn. destruct (formC2 Hn) as [C [HC EC]]. destruct (K1_cong 2 C EK HC) as [K [HK EK']].
  exists K. set (a := layer E nu (wxx (curvOf nen d2 w)) (wyy (curvOf nen d2 w)) (2 * wxy (curvOf nen d2 w))). exists (a * (T * T * T) / 12).
  split; [exact HK|]. split.
  - unfold bending. apply (is_RInt_ext (fun z => a * (z * z))); [|apply cubic_int]. intros z _. unfold a, layer. req. ring.
  - rewrite (quad_ext nen K (fun i j => EK i j + detJxW * cong 3 (formB 2 d2) (el C) i j) w w) by (intros; try apply EK'; reflexivity).
    rewrite quad_lin, cong_quad. do 2 f_equal.
    assert (B1 : mv nen (formB 2 d2) w 1%nat = wxx (curvOf nen d2 w)) by reflexivity.
    assert (B2 : mv nen (formB 2 d2) w 2%nat = wyy (curvOf nen d2 w)) by reflexivity.
    assert (B3 : mv nen (formB 2 d2) w 3%nat = 2 * wxy (curvOf nen d2 w)).
    { unfold mv, curvOf; cbn [wxy]. rewrite <- sumf_scal. apply sumf_ext. intros i _. unfold formB; cbn. ring. }
    rewrite (quad_ext 3 (el C) (fun i j => T * T * T / 12 * closed2 i j) _ (mv nen (formB 2 d2) w)) by (intros; try apply EC; try reflexivity; assumption).
    unfold a. rewrite <- B1, <- B2, <- B3. generalize (mv nen (formB 2 d2) w). intros b. unfold quad, mv, closed2, layer. cbn [sumf]. field. nra.
Qed.

Lemma K1_beam EK (w : nat -> R) : exists K U, evalK 1 E nu T d2 detJxW 1 EK = Ret K /\ bendingBeam E T (wxx (curvOf nen d2 w)) U /\ quad nen K w = quad nen EK w + detJxW * U.
Proof.
  destruct formC1 as [C [HC EC]]. destruct (K1_cong 1 C EK HC) as [K [HK EK']].
  exists K. set (k := wxx (curvOf nen d2 w)). exists (E * (k * k) * (T * T * T) / 12).
  split; [exact HK|]. split.
  - unfold bendingBeam. apply (is_RInt_ext (fun z => E * (k * k) * (z * z))); [|apply cubic_int]. intros z _. req. ring.
  - rewrite (quad_ext nen K (fun i j => EK i j + detJxW * cong 1 (formB 1 d2) (el C) i j) w w) by (intros; try apply EK'; reflexivity).
    rewrite quad_lin, cong_quad. do 2 f_equal.
    assert (B1 : mv nen (formB 1 d2) w 1%nat = k) by reflexivity.
    unfold quad. cbn [sumf]. unfold mv at 2. cbn [sumf]. rewrite B1, EC. field.
Qed.

(** ** Versions 2 and 3 *)
Lemma D_rigidity : 0 <= nu < 1/2 -> Plate.getStiffness E nu T = rigidity E nu T.
Proof. intros Hn. unfold Plate.getStiffness, rigidity. field. split; nra. Qed.
Lemma sum_scal_r n (f w : nat -> R) c : sumf n (fun i => f i * c * w i) = c * sumf n (fun i => f i * w i).
Proof. rewrite <- sumf_scal. apply sumf_ext. intros; ring. Qed.
Lemma K2_energy EK (w : nat -> R) : 0 <= nu < 1/2 ->
  exists K, evalK 2 E nu T d2 detJxW 2 EK = Ret K /\ quad nen K w = quad nen EK w + detJxW * hessianForm (rigidity E nu T) (curvOf nen d2 w).
Proof.
  intros Hn. eexists. split; [reflexivity|]. unfold evalK2; cbn [Nat.ltb Nat.leb Nat.eqb].
  rewrite !quad_outer. rewrite D_rigidity by assumption. unfold hessianForm, curvOf; cbn [wxx wyy wxy].
  rewrite (sumf_ext nen (fun i => d2 i 1%nat 2%nat * (rigidity E nu T * detJxW) * 2 * w i) (fun i => d2 i 1%nat 2%nat * (rigidity E nu T * detJxW * 2) * w i)) by (intros; ring).
  rewrite !sum_scal_r. ring.
Qed.
Lemma K3_energy EK (w : nat -> R) v : 0 <= nu < 1/2 -> v <> 1%nat -> v <> 2%nat ->
  exists K, evalK 2 E nu T d2 detJxW v EK = Ret K /\ quad nen K w = quad nen EK w + detJxW * laplaceForm (rigidity E nu T) (curvOf nen d2 w).
Proof.
  intros Hn V1 V2. unfold evalK. destruct (Nat.eqb_spec v 1); [easy|]. eexists. split; [reflexivity|]. unfold evalK2; cbn [Nat.ltb Nat.leb].
  destruct (Nat.eqb_spec v 2); [easy|].
  rewrite !quad_outer. rewrite D_rigidity by assumption. unfold laplaceForm, curvOf; cbn [wxx wyy wxy].
  rewrite !sum_scal_r. ring.
Qed.
Lemma K2_beam EK (w : nat -> R) v : 0 <= nu < 1/2 -> v <> 1%nat ->
  exists K, evalK 1 E nu T d2 detJxW v EK = Ret K /\ quad nen K w = quad nen EK w + detJxW * (rigidity E nu T * wxx (curvOf nen d2 w) ^ 2).
Proof.
  intros Hn V1. unfold evalK. destruct (Nat.eqb_spec v 1); [easy|]. eexists. split; [reflexivity|]. unfold evalK2; cbn [Nat.ltb Nat.leb].
  rewrite !quad_outer. rewrite D_rigidity by assumption. unfold curvOf; cbn [wxx]. rewrite !sum_scal_r. ring.
Qed.

(** ** The forms compared *)
Lemma bending_value c U : 0 <= nu < 1/2 -> bending E nu T c U ->
  U = laplaceForm (rigidity E nu T) c - 2 * (1 - nu) * rigidity E nu T * gaussian c /\ U = hessianForm (rigidity E nu T) c + 2 * nu * rigidity E nu T * gaussian c.
Proof.
  intros Hn B.
  assert (B' : is_RInt (fun z => layer E nu (- z * wxx c) (- z * wyy c) (- z * (2 * wxy c))) (- T / 2) (T / 2) (layer E nu (wxx c) (wyy c) (2 * wxy c) * (T * T * T) / 12)).
  { apply (is_RInt_ext (fun z => layer E nu (wxx c) (wyy c) (2 * wxy c) * (z * z))); [|apply cubic_int]. intros z _. unfold layer. req. ring. }
  assert (U = layer E nu (wxx c) (wyy c) (2 * wxy c) * (T * T * T) / 12) as ->.
  { rewrite <- (is_RInt_unique _ _ _ _ B). apply (is_RInt_unique _ _ _ _ B'). }
  unfold laplaceForm, hessianForm, rigidity, gaussian, layer. split; field; split; nra.
Qed.
Lemma bending_nonneg c U : 0 <= nu < 1/2 -> 0 <= E -> 0 <= T -> bending E nu T c U -> 0 <= U.
Proof.
  intros Hn HE HT B. destruct (bending_value c U Hn B) as [_ ->].
  assert (D : 0 <= rigidity E nu T).
  { unfold rigidity. apply Rmult_le_pos; [apply Rmult_le_pos; [lra|]; apply pow_le; lra|]. left. apply Rinv_0_lt_compat. nra. }
  unfold hessianForm, gaussian. set (D0 := rigidity E nu T) in *. clearbody D0. destruct c as [a b g]; cbn [wxx wyy wxy].
  replace (D0 * (a ^ 2 + b ^ 2 + 2 * g ^ 2) + 2 * nu * D0 * (a * b - g * g)) with (D0 * (nu * (a + b) ^ 2 + (1 - nu) * (a ^ 2 + b ^ 2 + 2 * g ^ 2))) by ring.
  apply Rmult_le_pos; [exact D|]. assert (H1 := pow2_ge_0 (a + b)). assert (H2 := pow2_ge_0 a). assert (H3 := pow2_ge_0 b). assert (H4 := pow2_ge_0 g). nra.
Qed.
Lemma bending_definite c U : 0 <= nu < 1/2 -> 0 < E -> 0 < T -> bending E nu T c U -> U = 0 -> wxx c = 0 /\ wyy c = 0 /\ wxy c = 0.
Proof.
  intros Hn HE HT B Z. destruct (bending_value c U Hn B) as [_ F]. rewrite Z in F. symmetry in F.
  assert (D : 0 < rigidity E nu T).
  { unfold rigidity. apply Rmult_lt_0_compat; [apply Rmult_lt_0_compat; [lra|]; apply pow_lt; lra|]. apply Rinv_0_lt_compat. nra. }
  unfold hessianForm, gaussian in F. set (D0 := rigidity E nu T) in *. clearbody D0. destruct c as [a b g]; cbn [wxx wyy wxy] in *.
  replace (D0 * (a ^ 2 + b ^ 2 + 2 * g ^ 2) + 2 * nu * D0 * (a * b - g * g)) with (D0 * (nu * (a + b) ^ 2 + (1 - nu) * (a ^ 2 + b ^ 2 + 2 * g ^ 2))) in F by ring.
  apply Rmult_integral in F. destruct F as [F|F]; [lra|].
  assert (H1 := pow2_ge_0 (a + b)). assert (H2 := pow2_ge_0 a). assert (H3 := pow2_ge_0 b). assert (H4 := pow2_ge_0 g).
  assert (Q : a ^ 2 + b ^ 2 + 2 * g ^ 2 = 0) by nra.
  assert (A : a ^ 2 = 0) by lra. assert (B0 : b ^ 2 = 0) by lra. assert (G : g ^ 2 = 0) by lra.
  rewrite <- Rsqr_pow2 in A, B0, G. repeat split; apply Rsqr_0_uniq; assumption.
Qed.

(** ** Symmetry *)
Lemma outer_symm2 n A X Y : symm n A -> symm n (outer (outer A X Y) Y X).
Proof. intros H i j Hi Hj. unfold outer. rewrite (H i j Hi Hj). ring. Qed.
Lemma K_symm nsd v EK : nsd = 1%nat \/ nsd = 2%nat -> 0 <= nu < 1/2 -> symm nen EK ->
  exists K, evalK nsd E nu T d2 detJxW v EK = Ret K /\ symm nen K.
Proof.
  intros Hd Hn HS. unfold evalK. destruct (Nat.eqb_spec v 1) as [->|V1].
  - destruct Hd as [-> | ->].
    + destruct formC1 as [C [HC EC]]. destruct (K1_cong 1 C EK HC) as [K [HK EK']]. exists K. split; [exact HK|].
      intros i j Hi Hj. rewrite !EK', (HS i j Hi Hj). f_equal. f_equal. apply (cong_symm nen 1); [|assumption|assumption].
      intros p q Hp Hq. assert (p = 1%nat) as -> by (cbn in Hp; lia). assert (q = 1%nat) as -> by (cbn in Hq; lia). reflexivity.
    + destruct (formC2 Hn) as [C [HC EC]]. destruct (K1_cong 2 C EK HC) as [K [HK EK']]. exists K. split; [exact HK|].
      intros i j Hi Hj. rewrite !EK', (HS i j Hi Hj). f_equal. f_equal. apply (cong_symm nen 3); [|assumption|assumption].
      intros p q Hp Hq. rewrite !EC by assumption. f_equal. idx p; idx q; reflexivity.
  - eexists. split; [reflexivity|]. intros i j Hi Hj. unfold evalK2, outer.
    destruct (nsd <? 2)%nat; [rewrite (HS i j Hi Hj); ring|]. destruct (v =? 2)%nat; rewrite (HS i j Hi Hj); ring.
Qed.

(** ** Recovered moments and shear forces *)
Lemma moments_int (w : nat -> R) : 0 <= nu < 1/2 -> exists m, moments 2 nen E nu T d2 w = Ret m /\ isMoments E nu T (curvOf nen d2 w) (m 1%nat) (m 2%nat) (m 3%nat).
Proof.
  intros Hn. destruct (formC2 Hn) as [C [HC EC]]. unfold moments. rewrite HC. cbn [bind]. eexists. split; [reflexivity|].
  assert (B3 : sumf nen (fun i => formB 2 d2 3 i * w i) = 2 * wxy (curvOf nen d2 w)).
  { unfold curvOf; cbn [wxy]. rewrite <- sumf_scal. apply sumf_ext. intros i _. unfold formB; cbn. ring. }
  cbn [nstrc Nat.add Nat.mul Nat.div Nat.divmod fst sumf]. rewrite B3, !EC by lia. unfold closed2.
  change (sumf nen (fun i => formB 2 d2 1 i * w i)) with (wxx (curvOf nen d2 w)).
  change (sumf nen (fun i => formB 2 d2 2 i * w i)) with (wyy (curvOf nen d2 w)).
  set (c := curvOf nen d2 w). clearbody c. unfold isMoments, sxx, sxy. split; [|split].
  - eapply (is_RInt_ext (fun z => (- (E / (1 - nu * nu) * (wxx c + nu * wyy c))) * (z * z))); [intros; req; ring|].
    match goal with |- is_RInt _ _ _ ?v => replace v with (- (E / (1 - nu * nu) * (wxx c + nu * wyy c)) * (T * T * T) / 12) by (field; nra) end. apply cubic_int.
  - eapply (is_RInt_ext (fun z => (- (E / (1 - nu * nu) * (wyy c + nu * wxx c))) * (z * z))); [intros; req; ring|].
    match goal with |- is_RInt _ _ _ ?v => replace v with (- (E / (1 - nu * nu) * (wyy c + nu * wxx c)) * (T * T * T) / 12) by (field; nra) end. apply cubic_int.
  - eapply (is_RInt_ext (fun z => (- (E / (2 * (1 + nu)) * (2 * wxy c))) * (z * z))); [intros; req; ring|].
    match goal with |- is_RInt _ _ _ ?v => replace v with (- (E / (2 * (1 + nu)) * (2 * wxy c)) * (T * T * T) / 12) by (field; nra) end. apply cubic_int.
Qed.
End P.

(** Shear forces equilibrate the moments: along any smooth path of second derivatives in the
    x-direction (rate [d3 . . . 1]) and the y-direction. *)
Definition shifted (d2 : nat -> nat -> nat -> R) (d3 : nat -> nat -> nat -> nat -> R) (dir : nat) (h : R) : nat -> nat -> nat -> R :=
  fun a i j => d2 a i j + h * d3 a i j dir.
Lemma sum_shift nen d2 d3 dir h (w : nat -> R) p q :
  sumf nen (fun i => shifted d2 d3 dir h i p q * w i) = sumf nen (fun i => d2 i p q * w i) + h * sumf nen (fun i => d3 i p q dir * w i).
Proof. unfold shifted. rewrite <- sumf_scal, <- sumf_plus. apply sumf_ext. intros; ring. Qed.
Lemma moments_closed nen E nu T d2 w : 0 <= nu < 1/2 -> exists m, moments 2 nen E nu T d2 w = Ret m /\ m 1%nat = - rigidity E nu T * (wxx (curvOf nen d2 w) + nu * wyy (curvOf nen d2 w)) /\ m 2%nat = - rigidity E nu T * (wyy (curvOf nen d2 w) + nu * wxx (curvOf nen d2 w)) /\ m 3%nat = - rigidity E nu T * ((1 - nu) * wxy (curvOf nen d2 w)).
Proof.
  intros Hn. destruct (formC2 E nu T Hn) as [C [HC EC]]. unfold moments. rewrite HC. cbn [bind]. eexists. split; [reflexivity|].
  assert (B3 : sumf nen (fun i => formB 2 d2 3 i * w i) = 2 * wxy (curvOf nen d2 w)).
  { unfold curvOf; cbn [wxy]. rewrite <- sumf_scal. apply sumf_ext. intros i _. unfold formB; cbn. ring. }
  cbn [nstrc Nat.add Nat.mul Nat.div Nat.divmod fst sumf]. rewrite B3, !EC by lia. unfold closed2.
  change (sumf nen (fun i => formB 2 d2 1 i * w i)) with (wxx (curvOf nen d2 w)).
  change (sumf nen (fun i => formB 2 d2 2 i * w i)) with (wyy (curvOf nen d2 w)).
  set (c := curvOf nen d2 w). clearbody c. unfold rigidity. repeat split; field; repeat split; nra.
Qed.
Lemma shear_equil nen E nu T d2 d3 (w : nat -> R) : 0 <= nu < 1/2 ->
  (forall a, d3 a 1%nat 2%nat 1%nat = d3 a 1%nat 1%nat 2%nat) -> (forall a, d3 a 1%nat 2%nat 2%nat = d3 a 2%nat 2%nat 1%nat) ->
  exists m, (forall dir h, moments 2 nen E nu T (shifted d2 d3 dir h) w = Ret (m dir h)) /\ forall m11_1 m12_1 m12_2 m22_2,
    is_derive (fun h => m 1%nat h 1%nat) 0 m11_1 -> is_derive (fun h => m 1%nat h 3%nat) 0 m12_1 ->
    is_derive (fun h => m 2%nat h 3%nat) 0 m12_2 -> is_derive (fun h => m 2%nat h 2%nat) 0 m22_2 ->
    shear 2 nen E nu T d3 w 1 = m11_1 + m12_2 /\ shear 2 nen E nu T d3 w 2 = m12_1 + m22_2.
Proof.
  intros Hn S1 S2.
  assert (F := fun dir h => moments_closed nen E nu T (shifted d2 d3 dir h) w Hn).
  exists (fun dir h => match moments 2 nen E nu T (shifted d2 d3 dir h) w with Ret m => m | _ => fun _ => 0 end). split.
  { intros dir h. destruct (F dir h) as [m [-> _]]. reflexivity. }
  set (g := fun dir h => match moments 2 nen E nu T (shifted d2 d3 dir h) w with Ret m => m | _ => fun _ => 0 end).
  set (s := fun i j k => sumf nen (fun a => d3 a i j k * w a)).
  assert (V : forall dir h, g dir h 1%nat = - rigidity E nu T * (wxx (curvOf nen d2 w) + nu * wyy (curvOf nen d2 w)) + h * (- rigidity E nu T * (s 1%nat 1%nat dir + nu * s 2%nat 2%nat dir)) /\
      g dir h 2%nat = - rigidity E nu T * (wyy (curvOf nen d2 w) + nu * wxx (curvOf nen d2 w)) + h * (- rigidity E nu T * (s 2%nat 2%nat dir + nu * s 1%nat 1%nat dir)) /\
      g dir h 3%nat = - rigidity E nu T * ((1 - nu) * wxy (curvOf nen d2 w)) + h * (- rigidity E nu T * ((1 - nu) * s 1%nat 2%nat dir))).
  { intros dir h. unfold g. destruct (F dir h) as [m [-> [M1 [M2 M3]]]]. rewrite M1, M2, M3. unfold curvOf; cbn [wxx wyy wxy]. rewrite !sum_shift. unfold s. repeat split; ring. }
  assert (L : forall (f : R -> R) a b d, (forall h, f h = a + h * b) -> is_derive f 0 d -> d = b).
  { intros f a b d Hf Hd. assert (is_derive f 0 b) as Hb by (apply (is_derive_ext (fun h => a + h * b)); [intros; symmetry; apply Hf|]; auto_derive; [easy|ring]).
    rewrite <- (is_derive_unique _ _ _ Hd). apply (is_derive_unique _ _ _ Hb). }
  intros p q r t Hp Hq Hr Ht.
  rewrite (L _ _ _ p (fun h => proj1 (V 1%nat h)) Hp), (L _ _ _ q (fun h => proj2 (proj2 (V 1%nat h))) Hq), (L _ _ _ r (fun h => proj2 (proj2 (V 2%nat h))) Hr), (L _ _ _ t (fun h => proj1 (proj2 (V 2%nat h))) Ht).
  unfold shear. cbn [sumf]. rewrite D_rigidity by assumption.
  assert (C : forall i j k, sumf nen (fun a => w a * d3 a i j k) = s i j k) by (intros; apply sumf_ext; intros; ring). rewrite !C.
  assert (E1 : s 1%nat 2%nat 1%nat = s 1%nat 1%nat 2%nat) by (apply sumf_ext; intros; now rewrite S1).
  assert (E2 : s 1%nat 2%nat 2%nat = s 2%nat 2%nat 1%nat) by (apply sumf_ext; intros; now rewrite S2).
  rewrite E1, E2. split; ring.
Qed.
Lemma rigidity_nonneg E nu T : 0 <= nu < 1/2 -> 0 <= E -> 0 <= T -> 0 <= rigidity E nu T.
Proof.
  intros Hn He Ht. unfold rigidity. apply Rmult_le_pos; [|left; apply Rinv_0_lt_compat; nra]. apply Rmult_le_pos; [assumption|]. now apply pow_le.
Qed.
Lemma K_nonneg nen E nu T d2 detJxW v w : 0 <= nu < 1/2 -> 0 <= E -> 0 <= T -> 0 <= detJxW ->
  exists K, evalK 2 E nu T d2 detJxW v (fun _ _ => 0) = Ret K /\ 0 <= quad nen K w.
Proof.
  intros Hn He Ht Hd. assert (Z : quad nen (fun _ _ => 0) w = 0).
  { unfold quad, mv. apply sumf_0. intros i _. rewrite sumf_0; [ring|intros; ring]. }
  assert (D := rigidity_nonneg E nu T Hn He Ht). destruct (Nat.eq_dec v 1) as [->|N1]; [|destruct (Nat.eq_dec v 2) as [->|N2]].
  - destruct (K1_energy nen E nu T d2 detJxW (fun _ _ => 0) w Hn) as [K [U [A [B C]]]]. exists K. split; [exact A|]. rewrite C, Z.
    assert (P := bending_nonneg _ _ _ _ _ Hn He Ht B). assert (0 <= detJxW * U) by now apply Rmult_le_pos. lra.
  - destruct (K2_energy nen E nu T d2 detJxW (fun _ _ => 0) w Hn) as [K [A C]]. exists K. split; [exact A|]. rewrite C, Z, Rplus_0_l. apply Rmult_le_pos; [assumption|].
    unfold hessianForm. apply Rmult_le_pos; [assumption|]. set (c := curvOf nen d2 w). assert (A1 := pow2_ge_0 (wxx c)). assert (A2 := pow2_ge_0 (wyy c)). assert (A3 := pow2_ge_0 (wxy c)). lra.
  - destruct (K3_energy nen E nu T d2 detJxW (fun _ _ => 0) w v Hn N1 N2) as [K [A C]]. exists K. split; [exact A|]. rewrite C, Z, Rplus_0_l. apply Rmult_le_pos; [assumption|].
    unfold laplaceForm. apply Rmult_le_pos; [assumption|]. apply pow2_ge_0.
Qed.
Lemma beam_versions : exists E nu T d2 K1 K2, 0 <= nu < 1/2 /\ evalK 1 E nu T d2 1 1 (fun _ _ => 0) = Ret K1 /\ evalK 1 E nu T d2 1 2 (fun _ _ => 0) = Ret K2 /\
  K1 1%nat 1%nat <> K2 1%nat 1%nat.
Proof.
  exists 12, (1/4), 1, (fun _ _ _ => 1).
  destruct (K1_beam 1 12 (1/4) 1 (fun _ _ _ => 1) 1 (fun _ _ => 0) (fun _ => 1)) as [K1 [U [A1 [B1 C1]]]].
  destruct (K2_beam 1 12 (1/4) 1 (fun _ _ _ => 1) 1 (fun _ _ => 0) (fun _ => 1) 2 ltac:(lra) ltac:(lia)) as [K2 [A2 C2]].
  exists K1, K2. split; [lra|]. split; [exact A1|]. split; [exact A2|]. intros X.
  assert (UV : U = 1).
  { unfold bendingBeam, curvOf in B1; cbn [wxx sumf] in B1. set (f := fun z => 4 * z ^ 3).
    assert (Q : is_RInt (fun z => 12 * ((- z * (0 + 1 * 1)) * (- z * (0 + 1 * 1)))) (- (1) / 2) (1 / 2) (minus (f (1 / 2)) (f (- (1) / 2)))).
    { apply (is_RInt_derive (V := R_CompleteNormedModule) f).
      - intros z _. unfold f. auto_derive; [easy|ring].
      - intros z _. apply (ex_derive_continuous (fun z => 12 * ((- z * (0 + 1 * 1)) * (- z * (0 + 1 * 1))))). auto_derive. easy. }
    apply (is_RInt_unique (V := R_CompleteNormedModule)) in B1. apply (is_RInt_unique (V := R_CompleteNormedModule)) in Q. rewrite <- B1. etransitivity; [exact Q|]. unfold f, minus, plus, opp; cbn. field. }
  unfold quad, mv, curvOf, rigidity in C1, C2. cbn in C1, C2. rewrite UV in C1. rewrite <- X in C2. lra.
Qed.
