From Coquelicot Require Import Coquelicot.
From Verif Require Import Lib.Base Lib.Sums Lib.Writes Lib.Congruence Lib.Tensor3 Model.MxElement Model.NlElement Model.LinMaterial Spec.Continuum Spec.Mixed Spec.MxElement Spec.NlElement Spec.LinMaterial
  Proofs.LinIsotropic Proofs.Continuum Proofs.ContinuumKin Proofs.MxPure Proofs.MxList Proofs.MxElement Proofs.NlPure Proofs.NlPoint Proofs.NlElement Proofs.NlMaterial.
Open Scope R_scope.

Lemma nst_nstr k : nst (kdim k) (isAxi k) = nstr k. Proof. destruct k; reflexivity. Qed.

(** The matrix T, as values. *)
Definition Tval (n : nat) (F : nat -> nat -> R) (i j : nat) : R :=
  let nx k := (k mod 3 + 1)%nat in
  if (i <=? n)%nat then
    if (j <=? n)%nat then F j i * F j i
    else let k := (j - n)%nat in / 2 * (F k i * F (nx k) i + F (nx k) i * F k i)
  else let k := (i - n)%nat in
    if (j <=? n)%nat then F j k * F j (nx k) + F j (nx k) * F j k
    else let l := (j - n)%nat in / 2 * (F l k * F (nx l) (nx k) + F (nx l) k * F l (nx k) + F l (nx k) * F (nx l) k + F (nx l) (nx k) * F l k).
Lemma matT_ok k F : exists T, matT (kdim k) (nstr k) (mkMat (ndf k) (ndf k) F) = Ret T /\
  forall i j, (1 <= i <= nstr k)%nat -> (1 <= j <= nstr k)%nat -> el T i j = Tval (kdim k) F i j.
Proof.
  destruct k; unfold matT; (match goal with |- context [forallb ?f ?l] => replace (forallb f l) with true by reflexivity end);
    eexists; (split; [reflexivity|]); intros i j Hi Hj; cbn [nstr] in Hi, Hj; idx i; idx j; reflexivity.
Qed.

(** Push-forward of strains and stresses with T. *)
Lemma T_strain k F D q : k <> Axi -> defOf k F -> rateOf k D -> (1 <= q <= nstr k)%nat ->
  sumf (nstr k) (fun s => Tval (kdim k) F q s * eng k D s) = eng k (mul3 (trn F) (mul3 (sympart D) F)) q.
Proof.
  intros A HF HD Hq.
  destruct k; [| |contradiction]; cbn [nstr kdim] in *.
  - idx q; unfold eng, scomp; cbn [sumf Nat.eqb]; unfold Tval; cbn [Nat.leb Nat.sub]; change (1 mod 3)%nat with 1%nat; change (2 mod 3)%nat with 2%nat; change (3 mod 3)%nat with 0%nat; cbn [Nat.add];
      unfold mul3, trn, sympart; field.
  - assert (Z : forall i j, (1 <= i <= 3)%nat -> (1 <= j <= 3)%nat -> inKind Plane i j = false -> F i j = kron i j) by (intros i j Hi Hj B; specialize (HF i j Hi Hj B); cbv beta in HF; lra).
    pose proof (Z 1 3 ltac:(lia) ltac:(lia) eq_refl)%nat as Z1. pose proof (Z 2 3 ltac:(lia) ltac:(lia) eq_refl)%nat as Z2.
    pose proof (Z 3 1 ltac:(lia) ltac:(lia) eq_refl)%nat as Z3. pose proof (Z 3 2 ltac:(lia) ltac:(lia) eq_refl)%nat as Z4.
    unfold kron in Z1, Z2, Z3, Z4. cbn [Nat.eqb] in Z1, Z2, Z3, Z4.
    idx q; unfold eng, scomp; cbn [sumf Nat.eqb]; unfold Tval; cbn [Nat.leb Nat.sub]; change (1 mod 3)%nat with 1%nat; cbn [Nat.add];
      unfold mul3, trn, sympart; rewrite ?Z1, ?Z2, ?Z3, ?Z4; field.
Qed.
Lemma T_stress k F (v : nat -> R) i j : k <> Axi -> defOf k F -> (1 <= i <= 3)%nat -> (1 <= j <= 3)%nat -> inKind k i j = true ->
  sumf (nstr k) (fun r => Tval (kdim k) F r (srow k i j) * v r) = mul3 F (mul3 (tensorOf k v) (trn F)) i j.
Proof.
  intros A HF Hi Hj IK.
  destruct k; [| |contradiction]; cbn [nstr kdim] in *.
  - idx i; idx j; unfold srow, voigt; cbn [sumf]; unfold Tval; cbn [Nat.leb Nat.sub]; change (1 mod 3)%nat with 1%nat; change (2 mod 3)%nat with 2%nat; change (3 mod 3)%nat with 0%nat; cbn [Nat.add];
      unfold mul3, trn, tensorOf; cbn; field.
  - assert (Z : forall i j, (1 <= i <= 3)%nat -> (1 <= j <= 3)%nat -> inKind Plane i j = false -> F i j = kron i j) by (intros a b Ha Hb B; specialize (HF a b Ha Hb B); cbv beta in HF; lra).
    pose proof (Z 1 3 ltac:(lia) ltac:(lia) eq_refl)%nat as Z1. pose proof (Z 2 3 ltac:(lia) ltac:(lia) eq_refl)%nat as Z2.
    pose proof (Z 3 1 ltac:(lia) ltac:(lia) eq_refl)%nat as Z3. pose proof (Z 3 2 ltac:(lia) ltac:(lia) eq_refl)%nat as Z4.
    unfold kron in Z1, Z2, Z3, Z4. cbn [Nat.eqb] in Z1, Z2, Z3, Z4.
    idx i; idx j; try discriminate IK; unfold srow; cbn [Nat.eqb sumf]; unfold Tval; cbn [Nat.leb Nat.sub]; change (1 mod 3)%nat with 1%nat; cbn [Nat.add];
      unfold mul3, trn, tensorOf; cbn; rewrite ?Z1, ?Z2, ?Z3, ?Z4; field.
Qed.

(** The wrapped material is Hooke's law. *)
Lemma law_ok k ps E nu C (e : t3) i j : k <> Axi -> 0 <= nu < 1 / 2 -> cmatrix (kdim k) ps (isAxi k) false E nu = Ret C ->
  sym3 e -> rateOf k e -> (1 <= i <= 3)%nat -> (1 <= j <= 3)%nat -> inKind k i j = true ->
  tensorOf k (mv (nstr k) (el C) (eng k e)) i j = svkLaw k ps E nu e i j.
Proof.
  intros A Hn HC HS HK Hi Hj IK.
  assert (N1 : 1 + nu <> 0) by lra. assert (N2 : 1 - 2 * nu <> 0) by lra. assert (N3 : 1 - nu * nu <> 0) by nra. assert (N4 : 2 + nu + nu <> 0) by lra. assert (N5 : 1 - nu - nu <> 0) by lra.
  destruct HS as [S1 [S2 S3]].
  destruct k; [| |contradiction]; cbn [kdim isAxi] in HC; revert HC.
  - destruct ps; open_c; intros H; injection H as <-; idx i; idx j; unfold tensorOf, mv, upd2; cbn [nstr sumf kdim isAxi]; cbn -[eng]; unfold eng; cbn;
      unfold svkLaw, hooke, lam, lame1, lame2, trace, kron; cbn [Nat.eqb]; rewrite ?S1, ?S2, ?S3; field; lra.
  - assert (Z : e 3%nat 3%nat = 0) by (apply HK; (lia || reflexivity)).
    destruct ps; open_c; intros H; injection H as <-; idx i; idx j; try discriminate IK; unfold tensorOf, mv, upd2; cbn [nstr sumf kdim isAxi]; cbn -[eng]; unfold eng; cbn;
      unfold svkLaw, hooke, lam, lame1, lame2, trace, kron; cbn [Nat.eqb]; rewrite ?S1, ?Z; field; repeat split; try assumption; try lra; nra.
Qed.

Lemma law_axi ps E nu C (e : t3) i j : 0 <= nu < 1 / 2 -> cmatrix (kdim Axi) ps (isAxi Axi) false E nu = Ret C ->
  sym3 e -> rateOf Axi e -> (1 <= i <= 3)%nat -> (1 <= j <= 3)%nat -> inKind Axi i j = true ->
  tensorOf Axi (mv (nstr Axi) (el C) (eng Axi e)) i j = svkLaw Axi ps E nu e i j.
Proof.
  intros Hn HC HS HK Hi Hj IK.
  assert (N1 : 1 + nu <> 0) by lra. assert (N2 : 1 - 2 * nu <> 0) by lra. assert (N4 : 2 + nu + nu <> 0) by lra. assert (N5 : 1 - nu - nu <> 0) by lra.
  destruct HS as [S1 [S2 S3]]. cbn [kdim isAxi] in HC; revert HC.
  destruct ps; open_c; intros H; injection H as <-; idx i; idx j; try discriminate IK; unfold tensorOf, mv, upd2; cbn [nstr sumf kdim isAxi]; cbn -[eng]; unfold eng; cbn;
    unfold svkLaw, hooke, lam, lame1, lame2, trace, kron; cbn [Nat.eqb]; rewrite ?S1; field; repeat split; lra.
Qed.
Lemma jacF_ok k F : defOf k F -> jacF k F = det3 F.
Proof.
  intros HF. destruct k; try reflexivity.
  assert (Z : forall i j, (1 <= i <= 3)%nat -> (1 <= j <= 3)%nat -> inKind Plane i j = false -> F i j = kron i j) by (intros i j Hi Hj B; specialize (HF i j Hi Hj B); cbv beta in HF; lra).
  unfold jacF, det3. rewrite (Z 1 3)%nat, (Z 2 3)%nat, (Z 3 1)%nat, (Z 3 2)%nat, (Z 3 3)%nat by (lia || reflexivity). unfold kron. cbn [Nat.eqb]. ring.
Qed.
Lemma green_sym F : sym3 (green F).
Proof. unfold sym3, green, mul3, trn, kron. cbn [Nat.eqb]. repeat split; field. Qed.
Lemma green_rate k F : k <> Axi -> defOf k F -> rateOf k (green F).
Proof.
  intros A HF i j Hi Hj B. destruct k; [| |contradiction].
  - idx i; idx j; discriminate B.
  - assert (Z : forall i j, (1 <= i <= 3)%nat -> (1 <= j <= 3)%nat -> inKind Plane i j = false -> F i j = kron i j) by (intros a b Ha Hb Q; specialize (HF a b Ha Hb Q); cbv beta in HF; lra).
    unfold green, mul3, trn.
    idx i; idx j; try discriminate B; rewrite ?(Z 1 3)%nat, ?(Z 2 3)%nat, ?(Z 3 1)%nat, ?(Z 3 2)%nat, ?(Z 3 3)%nat by (lia || reflexivity); unfold kron; cbn [Nat.eqb]; field.
Qed.
Lemma strainUL_ok k F r : k <> Axi -> defOf k F -> (1 <= r <= nstr k)%nat -> strainUL k F r = eng k (green F) r.
Proof.
  intros A HF Hr. destruct k; [| |contradiction]; cbn [nstr] in Hr.
  - idx r; unfold strainUL, eng, scomp, green, mul3, trn, kron; cbn [kdim sumf Nat.eqb]; field.
  - assert (Z : forall i j, (1 <= i <= 3)%nat -> (1 <= j <= 3)%nat -> inKind Plane i j = false -> F i j = kron i j) by (intros i j Hi Hj B; specialize (HF i j Hi Hj B); cbv beta in HF; lra).
    idx r; unfold strainUL, eng, scomp, green, mul3, trn; cbn [kdim sumf Nat.eqb]; rewrite ?(Z 1 3)%nat, ?(Z 2 3)%nat, ?(Z 3 1)%nat, ?(Z 3 2)%nat by (lia || reflexivity); unfold kron; cbn [Nat.eqb]; field.
Qed.
(** The strains are those stored by the kinematics of the element. *)
Lemma strainUL_strainOf k F r : (1 <= r <= nstr k)%nat -> strainUL k F r = strainOf k F r.
Proof.
  intros Hr. destruct k; cbn [nstr] in Hr; idx r; unfold strainUL, strainOf, greenVoigt, vpair, cauchyGreen, kron; cbn; try reflexivity; field.
Qed.

Lemma eval_ok k ps E nu F eps : 0 <= nu < 1 / 2 -> jacF k F <> 0 -> exists C T,
  cmatrix (kdim k) ps (isAxi k) false E nu = Ret C /\
  (forall i j, (1 <= i <= nstr k)%nat -> (1 <= j <= nstr k)%nat -> el T i j = Tval (kdim k) F i j) /\
  linearEvaluate k ps E nu F eps 1 =
    Ret (mkMat (nstr k) (nstr k) (fun i j => 1 / jacF k F * sumf (nstr k) (fun r => el T r i * sumf (nstr k) (fun q => el C r q * el T q j))),
         fun i j => 1 / jacF k F * mul3 F (mul3 (tensorOf k (mv (nstr k) (el C) eps)) (trn F)) i j).
Proof.
  intros Hn HJ. destruct (cmatrix_total (kdim k) ps (isAxi k) false E nu) as [C [HC _]]; [destruct k; unfold dim_ok; cbn; lia|exact Hn|].
  destruct (matT_ok k F) as [T [HT eT]]. exists C, T. split; [exact HC|]. split; [exact eT|].
  unfold linearEvaluate. rewrite HC. cbn [bind]. rewrite nst_nstr. cbn [Nat.eqb Nat.ltb Nat.leb].
  destruct (Req_EM_T (jacF k F) 0) as [Z|_]; [contradiction|]. rewrite HT. reflexivity.
Qed.
Lemma push_kind k F S S' : k <> Axi -> defOf k F -> eqKind k S S' -> eqKind k (mul3 F (mul3 S (trn F))) (mul3 F (mul3 S' (trn F))).
Proof.
  intros A HF HS i j Hi Hj IK. destruct k; [| |contradiction].
  - unfold mul3, trn. rewrite !HS by (lia || reflexivity). reflexivity.
  - assert (Z : forall i j, (1 <= i <= 3)%nat -> (1 <= j <= 3)%nat -> inKind Plane i j = false -> F i j = kron i j) by (intros a b Ha Hb Q; specialize (HF a b Ha Hb Q); cbv beta in HF; lra).
    pose proof (Z 1 3 ltac:(lia) ltac:(lia) eq_refl)%nat as Z1. pose proof (Z 2 3 ltac:(lia) ltac:(lia) eq_refl)%nat as Z2. unfold kron in Z1, Z2. cbn [Nat.eqb] in Z1, Z2.
    unfold mul3, trn. idx i; idx j; try discriminate IK; rewrite ?Z1, ?Z2, !(HS 1 1)%nat, !(HS 1 2)%nat, !(HS 2 1)%nat, !(HS 2 2)%nat by (lia || reflexivity); ring.
Qed.
Lemma mv_ext n A x y i : (forall j, (1 <= j <= n)%nat -> x j = y j) -> mv n A x i = mv n A y i.
Proof. intros H. unfold mv. apply sumf_ext. intros j Hj. now rewrite H. Qed.
Lemma tensorOf_ext k v w : (forall r, v r = w r) -> forall i j, tensorOf k v i j = tensorOf k w i j.
Proof. intros H i j. unfold tensorOf. now rewrite H. Qed.

(** The stress is that of the Saint Venant-Kirchhoff solid. *)
Lemma stress_ok k ps E nu F : k <> Axi -> 0 <= nu < 1 / 2 -> defOf k F -> det3 F <> 0 -> eqKind k (linStress k ps E nu F) (svkStress k ps E nu F).
Proof.
  intros A Hn HF HJ i j Hi Hj IK. rewrite <- (jacF_ok k F HF) in HJ.
  destruct (eval_ok k ps E nu F (strainUL k F) Hn HJ) as [C [T [HC [_ EV]]]]. unfold linStress. rewrite EV.
  unfold svkStress, pushed. rewrite (jacF_ok k F HF). unfold Rdiv. rewrite Rmult_1_l, Rmult_comm. f_equal.
  refine (push_kind k F _ _ A HF _ i j Hi Hj IK). intros a b Ha Hb IA.
  rewrite (tensorOf_ext k _ (mv (nstr k) (el C) (eng k (green F)))); [|intros r; apply mv_ext; intros q Hq; now apply strainUL_ok].
  apply law_ok; try assumption; [apply green_sym|now apply green_rate].
Qed.
(** The tangent is the push-forward of Hooke's law. *)
Lemma sympart_rate k L : rateOf k L -> rateOf k (sympart L).
Proof. intros H i j Hi Hj B. unfold sympart. rewrite H, (H j i) by (assumption || (rewrite inKind_sym; assumption)). lra. Qed.
Lemma sympart_twice L : eq3 (sympart (sympart L)) (sympart L).
Proof. intros i j _ _. unfold sympart. field. Qed.
Lemma pulled_rate k F D : k <> Axi -> defOf k F -> rateOf k D -> rateOf k (mul3 (trn F) (mul3 D F)).
Proof.
  intros A HF HD i j Hi Hj B. destruct k; [| |contradiction]; [idx i; idx j; discriminate B|].
  assert (Z : forall i j, (1 <= i <= 3)%nat -> (1 <= j <= 3)%nat -> inKind Plane i j = false -> F i j = kron i j) by (intros a b Ha Hb Q; specialize (HF a b Ha Hb Q); cbv beta in HF; lra).
  unfold mul3, trn. rewrite !(HD 1 3)%nat, !(HD 2 3)%nat, !(HD 3 1)%nat, !(HD 3 2)%nat, !(HD 3 3)%nat by (lia || reflexivity).
  idx i; idx j; try discriminate B; rewrite ?(Z 1 3)%nat, ?(Z 2 3)%nat, ?(Z 3 1)%nat, ?(Z 3 2)%nat, ?(Z 3 3)%nat by (lia || reflexivity); unfold kron; cbn [Nat.eqb]; ring.
Qed.
Lemma srow_range k i j : (1 <= i <= 3)%nat -> (1 <= j <= 3)%nat -> inKind k i j = true -> (1 <= srow k i j <= nstr k)%nat.
Proof. intros Hi Hj IK. destruct k; idx i; idx j; try discriminate IK; cbn; lia. Qed.
Lemma tangent_ok k ps E nu F L i j : k <> Axi -> 0 <= nu < 1 / 2 -> defOf k F -> det3 F <> 0 -> rateOf k L -> (1 <= i <= 3)%nat -> (1 <= j <= 3)%nat -> inKind k i j = true ->
  det3 F * applyK k (linTangent k ps E nu F) (sympart L) i j = mul3 F (mul3 (svkLaw k ps E nu (mul3 (trn F) (mul3 (sympart L) F))) (trn F)) i j.
Proof.
  intros A Hn HF HJ HL Hi Hj IK. rewrite <- (jacF_ok k F HF) in *. pose proof (srow_range k i j Hi Hj IK) as RR.
  destruct (eval_ok k ps E nu F (strainUL k F) Hn HJ) as [C [T [HC [eT EV]]]]. unfold applyK, linTangent. rewrite EV. cbn [el].
  set (D := sympart L). assert (HD : rateOf k D) by now apply sympart_rate.
  set (P := mul3 (trn F) (mul3 D F)).
  assert (SP : sym3 P) by (unfold P, D, sym3, mul3, trn, sympart; repeat split; field).
  transitivity (sumf (nstr k) (fun r => Tval (kdim k) F r (srow k i j) * mv (nstr k) (el C) (eng k P) r)).
  - transitivity (sumf (nstr k) (fun s => sumf (nstr k) (fun r => el T r (srow k i j) * sumf (nstr k) (fun q => el C r q * el T q s)) * eng k D s)).
    { rewrite <- sumf_scal. apply sumf_ext. intros s Hs. field. exact HJ. }
    rewrite (sumf_ext _ _ (fun s => sumf (nstr k) (fun r => el T r (srow k i j) * sumf (nstr k) (fun q => el C r q * el T q s) * eng k D s))) by (intros; symmetry; apply sumf_scal_r).
    rewrite sumf_swap. apply sumf_ext. intros r Hr. rewrite eT by assumption.
    rewrite (sumf_ext _ _ (fun s => Tval (kdim k) F r (srow k i j) * (sumf (nstr k) (fun q => el C r q * el T q s * eng k D s)))) by (intros; rewrite sumf_scal_r; ring).
    rewrite sumf_scal. f_equal. rewrite sumf_swap. unfold mv. apply sumf_ext. intros q Hq.
    rewrite (sumf_ext _ _ (fun s => el C r q * (Tval (kdim k) F q s * eng k D s))) by (intros s Hs; rewrite eT by assumption; ring).
    rewrite sumf_scal. f_equal. rewrite (T_strain k F D q A HF HD Hq). unfold P. apply eng_ext; [exact Hq|].
    apply mul3_ext; [apply eq3_refl|]. apply mul3_ext; [apply sympart_twice|apply eq3_refl].
  - rewrite (T_stress k F _ i j A HF Hi Hj IK). refine (push_kind k F _ _ A HF _ i j Hi Hj IK). intros a b Ha Hb IA.
    apply law_ok; try assumption. apply pulled_rate; assumption.
Qed.

(** Contracts of the large-deformation elements. *)
Lemma ddot_kind k A B L : eqKind k A B -> rateOf k L -> ddot3 A L = ddot3 B L.
Proof.
  intros E H. rewrite <- (mask_ddot k A L H), <- (mask_ddot k B L H). unfold ddot3, mask.
  assert (Q : forall i j, (1 <= i <= 3)%nat -> (1 <= j <= 3)%nat -> (if inKind k i j then A i j else 0) = (if inKind k i j then B i j else 0)) by (intros i j Hi Hj; destruct (inKind k i j) eqn:I; [now apply E|reflexivity]).
  rewrite !Q by lia. reflexivity.
Qed.
Lemma at_zero k X (c : R -> t3) : eq3 (c 0) X -> (forall t, defOf k (c t)) -> defOf k X.
Proof. intros E H i j Hi Hj B. rewrite <- (E i j Hi Hj). now apply (H 0). Qed.
Lemma green_path F L c : path F L c -> forall i j, (1 <= i <= 3)%nat -> (1 <= j <= 3)%nat -> is_derive (fun t => green (c t) i j) 0 (greenRate F (mul3 L F) i j).
Proof.
  intros P i j Hi Hj. apply (dext (fun t => / 2 * (cauchyGreen 3 (c t) i j - kron i j))).
  - intros t. unfold green, cauchyGreen, mul3, trn. cbn [sumf]. field.
  - eapply dv; [|apply dscal; apply (green_derive F (mul3 L F) c P i j Hi Hj)]. field.
Qed.
Lemma hooke_derive l m (e : R -> t3) e' : (forall i j, (1 <= i <= 3)%nat -> (1 <= j <= 3)%nat -> is_derive (fun t => e t i j) 0 (e' i j)) ->
  forall i j, (1 <= i <= 3)%nat -> (1 <= j <= 3)%nat -> is_derive (fun t => hooke l m (e t) i j) 0 (hooke l m e' i j).
Proof.
  intros D i j Hi Hj. unfold hooke, trace. apply dplus; [|apply dscal; now apply D]. apply dscal_r. apply dscal.
  apply dplus; [apply dplus|]; apply D; lia.
Qed.
Lemma svk_sym k ps E nu F i j : svkLaw k ps E nu (green F) i j = svkLaw k ps E nu (green F) j i.
Proof. unfold svkLaw, hooke, green, mul3, trn, kron. rewrite (Nat.eqb_sym j i). f_equal. f_equal. f_equal. f_equal. ring. Qed.
Lemma lin_stress k ps E nu X : k <> Axi -> 0 <= nu < 1 / 2 -> 0 < det3 X -> stressIn k (svkEnergy k ps E nu) X (linStress k ps E nu X).
Proof.
  intros A Hn HJ L c P HL HD. pose proof (at_zero k X c (proj1 P) HD) as HX.
  assert (NZ : det3 X <> 0) by lra.
  rewrite (ddot_kind k _ _ L (stress_ok k ps E nu X A Hn HX NZ) HL). unfold svkEnergy.
  eapply dv; [|apply dscal; apply (ddot3_derive (fun t => svkLaw k ps E nu (green (c t))) (fun t => green (c t)) (svkLaw k ps E nu (greenRate X (mul3 L X))) (greenRate X (mul3 L X)));
    [apply hooke_derive|]; apply (green_path X L c P)].
  assert (G0 : eq3 (green (c 0)) (green X)) by (intros i j Hi Hj; unfold green, mul3, trn; rewrite !(proj1 P) by lia; reflexivity).
  transitivity (ddot3 (svkLaw k ps E nu (green X)) (greenRate X (mul3 L X))).
  - set (G := greenRate X (mul3 L X)). unfold svkLaw, hooke, trace, ddot3. rewrite !G0 by lia. unfold kron. cbn [Nat.eqb]. field.
  - set (T := svkLaw k ps E nu (green X)). assert (ST : forall i j, T i j = T j i) by (intros; apply svk_sym).
    unfold svkStress, pushed. fold T. transitivity (ddot3 (mul3 X (mul3 T (trn X))) L).
    + clearbody T. unfold greenRate, sympart, ddot3, mul3, trn. rewrite (ST 2 1)%nat, (ST 3 1)%nat, (ST 3 2)%nat. field.
    + unfold ddot3. field. exact NZ.
Qed.
Lemma mul_derive (A B : R -> t3) A' B' : (forall i j, (1 <= i <= 3)%nat -> (1 <= j <= 3)%nat -> is_derive (fun t => A t i j) 0 (A' i j)) ->
  (forall i j, (1 <= i <= 3)%nat -> (1 <= j <= 3)%nat -> is_derive (fun t => B t i j) 0 (B' i j)) ->
  forall i j, (1 <= i <= 3)%nat -> (1 <= j <= 3)%nat -> is_derive (fun t => mul3 (A t) (B t) i j) 0 (mul3 A' (B 0) i j + mul3 (A 0) B' i j).
Proof.
  intros DA DB i j Hi Hj.
  assert (Q : forall a, (1 <= a <= 3)%nat -> is_derive (fun t => A t i a * B t a j) 0 (A' i a * B 0 a j + A 0 i a * B' a j)) by (intros a Ha; exact (dmult (fun t => A t i a) (fun t => B t a j) 0 _ _ (DA i a Hi Ha) (DB a j Ha Hj))).
  pose proof (dplus _ _ _ _ _ (dplus _ _ _ _ _ (Q 1%nat ltac:(lia)) (Q 2%nat ltac:(lia))) (Q 3%nat ltac:(lia))) as D.
  eapply dv; [|exact D]. unfold mul3. ring.
Qed.
Lemma push_derive (c U : R -> t3) H U' X U0 : curve X H c -> eq3 (U 0) U0 ->
  (forall i j, (1 <= i <= 3)%nat -> (1 <= j <= 3)%nat -> is_derive (fun t => U t i j) 0 (U' i j)) ->
  forall i j, (1 <= i <= 3)%nat -> (1 <= j <= 3)%nat -> is_derive (fun t => mul3 (c t) (mul3 (U t) (trn (c t))) i j) 0
    (mul3 H (mul3 U0 (trn X)) i j + mul3 X (mul3 U' (trn X)) i j + mul3 X (mul3 U0 (trn H)) i j).
Proof.
  intros [C0 CD] E0 DU i j Hi Hj.
  pose proof (mul_derive U (fun t => trn (c t)) U' (trn H) DU (fun a b Ha Hb => CD b a Hb Ha)) as D1.
  pose proof (mul_derive c (fun t => mul3 (U t) (trn (c t))) H _ CD D1 i j Hi Hj) as D2. eapply dv; [|exact D2].
  unfold mul3, trn. rewrite !E0, !C0 by lia. ring.
Qed.
Lemma lin_tangent k ps E nu X : k <> Axi -> 0 <= nu < 1 / 2 -> 0 < det3 X -> tangentIn k (linStress k ps E nu) X (linTangent k ps E nu X).
Proof.
  intros A Hn HJ L c P HL HD i j Hi Hj IK. pose proof (at_zero k X c (proj1 P) HD) as HX. assert (NZ : det3 X <> 0) by lra.
  assert (LN : locally 0 (fun t => 0 < det3 (c t))) by (apply (locally_pos (fun t => det3 (c t)) _ (det3_path X L c P)); rewrite (det3_ext _ _ (proj1 P)); exact HJ).
  set (T := fun Y => svkLaw k ps E nu (green Y)).
  apply (dext_loc (fun t => mul3 (c t) (mul3 (T (c t)) (trn (c t))) i j)).
  { revert LN. apply filter_imp. intros t Pt. rewrite (stress_ok k ps E nu (c t) A Hn (HD t) ltac:(lra) i j Hi Hj IK). unfold svkStress, pushed, T. field. lra. }
  assert (DT : forall a b, (1 <= a <= 3)%nat -> (1 <= b <= 3)%nat -> is_derive (fun t => T (c t) a b) 0 (svkLaw k ps E nu (greenRate X (mul3 L X)) a b)) by (apply hooke_derive; apply (green_path X L c P)).
  assert (T0 : eq3 (T (c 0)) (T X)).
  { assert (G0 : eq3 (green (c 0)) (green X)) by (intros a b Ha Hb; unfold green, mul3, trn; rewrite !(proj1 P) by lia; reflexivity).
    intros a b Ha Hb. unfold T, svkLaw, hooke, trace. rewrite !G0 by lia. reflexivity. }
  assert (PS : forall a b, (1 <= a <= 3)%nat -> (1 <= b <= 3)%nat -> inKind k a b = true -> det3 X * linStress k ps E nu X a b = mul3 X (mul3 (T X) (trn X)) a b).
  { intros a b Ha Hb IA. rewrite (stress_ok k ps E nu X A Hn HX NZ a b Ha Hb IA). unfold svkStress, pushed, T. field. exact NZ. }
  assert (R1 : det3 X * mul3 L (linStress k ps E nu X) i j = mul3 L (mul3 X (mul3 (T X) (trn X))) i j).
  { unfold mul3 at 1 2. rewrite !Rmult_plus_distr_l.
    assert (Q : forall a, (1 <= a <= 3)%nat -> det3 X * (L i a * linStress k ps E nu X a j) = L i a * mul3 X (mul3 (T X) (trn X)) a j).
    { intros a Ha. destruct (inKind k i a) eqn:IA.
      - rewrite <- PS; [ring|exact Ha|exact Hj|]. destruct k; [idx a; idx j; reflexivity| |contradiction]. idx i; idx a; idx j; try discriminate IA; try discriminate IK; reflexivity.
      - rewrite (HL i a Hi Ha IA). ring. }
    rewrite !Q by lia. reflexivity. }
  assert (R2 : det3 X * mul3 (linStress k ps E nu X) (trn L) i j = mul3 (mul3 X (mul3 (T X) (trn X))) (trn L) i j).
  { unfold mul3 at 1 2. rewrite !Rmult_plus_distr_l.
    assert (Q : forall a, (1 <= a <= 3)%nat -> det3 X * (linStress k ps E nu X i a * trn L a j) = mul3 X (mul3 (T X) (trn X)) i a * trn L a j).
    { intros a Ha. unfold trn at 1 3. destruct (inKind k j a) eqn:IA.
      - rewrite <- PS; [ring|exact Hi|exact Ha|]. destruct k; [idx a; idx i; reflexivity| |contradiction]. idx i; idx a; idx j; try discriminate IA; try discriminate IK; reflexivity.
      - rewrite (HL j a Hj Ha IA). ring. }
    rewrite !Q by lia. reflexivity. }
  assert (GR : eq3 (greenRate X (mul3 L X)) (mul3 (trn X) (mul3 (sympart L) X))) by (intros a b Ha Hb; unfold greenRate, sympart, mul3, trn; field).
  eapply dv; [|apply (push_derive c (fun t => T (c t)) (mul3 L X) (svkLaw k ps E nu (greenRate X (mul3 L X))) X (T X) P T0 DT i j Hi Hj)].
  rewrite !Rmult_plus_distr_l, R1, R2, (tangent_ok k ps E nu X L i j A Hn HX NZ HL Hi Hj IK).
  assert (GS : eq3 (svkLaw k ps E nu (mul3 (trn X) (mul3 (sympart L) X))) (svkLaw k ps E nu (greenRate X (mul3 L X)))) by (intros a b Ha Hb; unfold svkLaw, hooke, trace; rewrite !GR by lia; reflexivity).
  set (G := svkLaw k ps E nu (mul3 (trn X) (mul3 (sympart L) X))) in *. set (G' := svkLaw k ps E nu (greenRate X (mul3 L X))) in *.
  set (U := T X). clearbody G G' U. clear - GS Hi Hj. unfold mul3, trn. rewrite !GS by lia. ring.
Qed.
Lemma lin_material k (ps : mxIn -> bool) (E nu : mxIn -> R) pts : k <> Axi -> (forall p, In p pts -> 0 <= nu p < 1 / 2) ->
  solidMaterial k pts (fun p => linStress k (ps p) (E p) (nu p)).
Proof.
  intros A Hn. split.
  - intros p X Y Ip EX i j Hi Hj. unfold linStress.
    assert (J : jacF k X = jacF k Y) by (destruct k; unfold jacF; [now apply det3_ext|rewrite !EX by lia; reflexivity|now apply det3_ext]).
    destruct (Req_EM_T (jacF k X) 0) as [Z|Z].
    + unfold linearEvaluate. destruct (cmatrix (kdim k) (ps p) (isAxi k) false (E p) (nu p)); cbn [bind]; try reflexivity. cbn [Nat.eqb Nat.ltb Nat.leb].
      destruct (Req_EM_T (jacF k X) 0); [|contradiction]. destruct (Req_EM_T (jacF k Y) 0); [reflexivity|congruence].
    + destruct (eval_ok k (ps p) (E p) (nu p) X (strainUL k X) (Hn p Ip) Z) as [C [T [HC [_ EV]]]]. rewrite J in Z.
      destruct (eval_ok k (ps p) (E p) (nu p) Y (strainUL k Y) (Hn p Ip) Z) as [C' [T' [HC' [_ EV']]]]. rewrite HC in HC'. injection HC' as <-. rewrite EV, EV', J. f_equal.
      assert (SE : forall r, strainUL k X r = strainUL k Y r).
      { intros r. destruct k; [| |contradiction]; unfold strainUL; cbn [kdim sumf]; do 7 (destruct r as [|r]; [cbn [Nat.eqb]; rewrite ?EX by lia; reflexivity|]); reflexivity. }
      assert (TE : forall a b, tensorOf k (mv (nstr k) (el C) (strainUL k X)) a b = tensorOf k (mv (nstr k) (el C) (strainUL k Y)) a b) by (intros; apply tensorOf_ext; intros; apply mv_ext; intros; apply SE).
      unfold mul3, trn. rewrite !TE, !EX by lia. reflexivity.
  - intros p X i j Ip Hi Hj. unfold linStress. destruct (linearEvaluate k (ps p) (E p) (nu p) X (strainUL k X) 1) as [| |[C s]] eqn:EV; try reflexivity.
    unfold linearEvaluate in EV. destruct (cmatrix (kdim k) (ps p) (isAxi k) false (E p) (nu p)) as [| |C0]; cbn [bind] in EV; try discriminate EV. cbn [Nat.eqb Nat.ltb Nat.leb] in EV.
    destruct (Req_EM_T (jacF k X) 0); [discriminate EV|]. destruct (matT _ _ _); cbn [bind] in EV; try discriminate EV. injection EV as _ <-. f_equal.
    assert (TS : forall v a b, (1 <= a <= 3)%nat -> (1 <= b <= 3)%nat -> tensorOf k v a b = tensorOf k v b a) by (clear; intros v a b Ha Hb; destruct k; idx a; idx b; reflexivity).
    match goal with |- context [tensorOf k ?v] => pose proof (TS v) as Q; set (U := tensorOf k v) in * end. clearbody U. unfold mul3, trn. rewrite (Q 2 1)%nat, (Q 3 1)%nat, (Q 3 2)%nat by lia. ring.
  - intros p X i j Ip HX I0 Hi Hj IK. destruct (iso_left X I0) as [N _]. rewrite (stress_ok k (ps p) (E p) (nu p) X A (Hn p Ip) HX N i j Hi Hj IK).
    assert (G0 : forall a b, (1 <= a <= 3)%nat -> (1 <= b <= 3)%nat -> green X a b = 0) by (intros a b Ha Hb; pose proof (I0 a b Ha Hb) as Q; unfold cauchyGreen in Q; cbn [sumf] in Q; unfold green, mul3, trn; lra).
    unfold svkStress, pushed, mul3, svkLaw, hooke, trace. rewrite !G0 by lia. unfold Rdiv. ring.
Qed.

(** Axisymmetric solids: the hoop strain is not passed on. *)
Definition noHoop (e : t3) : t3 := fun i j => if ((i =? 3) && (j =? 3))%nat%bool then 0 else e i j.
Lemma push_axi F S S' : defOf Axi F -> eqKind Axi S S' -> eqKind Axi (mul3 F (mul3 S (trn F))) (mul3 F (mul3 S' (trn F))).
Proof.
  intros HF HS i j Hi Hj IK.
  assert (Z : forall i j, (1 <= i <= 3)%nat -> (1 <= j <= 3)%nat -> inKind Axi i j = false -> F i j = kron i j) by (intros a b Ha Hb Q; specialize (HF a b Ha Hb Q); cbv beta in HF; lra).
  pose proof (Z 1 3 ltac:(lia) ltac:(lia) eq_refl)%nat as Z1. pose proof (Z 2 3 ltac:(lia) ltac:(lia) eq_refl)%nat as Z2.
  pose proof (Z 3 1 ltac:(lia) ltac:(lia) eq_refl)%nat as Z3. pose proof (Z 3 2 ltac:(lia) ltac:(lia) eq_refl)%nat as Z4. unfold kron in Z1, Z2, Z3, Z4. cbn [Nat.eqb] in Z1, Z2, Z3, Z4.
  unfold mul3, trn. idx i; idx j; try discriminate IK; rewrite ?Z1, ?Z2, ?Z3, ?Z4, !(HS 1 1)%nat, !(HS 1 2)%nat, !(HS 2 1)%nat, !(HS 2 2)%nat, ?(HS 3 3)%nat by (lia || reflexivity); ring.
Qed.
Lemma strain_axi F r : defOf Axi F -> (1 <= r <= nstr Axi)%nat -> strainUL Axi F r = eng Axi (noHoop (green F)) r.
Proof.
  intros HF Hr.
  assert (Z : forall i j, (1 <= i <= 3)%nat -> (1 <= j <= 3)%nat -> inKind Axi i j = false -> F i j = kron i j) by (intros a b Ha Hb Q; specialize (HF a b Ha Hb Q); cbv beta in HF; lra).
  pose proof (Z 3 1 ltac:(lia) ltac:(lia) eq_refl)%nat as Z3. pose proof (Z 3 2 ltac:(lia) ltac:(lia) eq_refl)%nat as Z4. unfold kron in Z3, Z4. cbn [Nat.eqb] in Z3, Z4.
  cbn [nstr] in Hr. idx r; unfold strainUL, eng, noHoop, green, mul3, trn, kron; cbn [scomp kdim sumf]; cbn; rewrite ?Z3, ?Z4; field.
Qed.
Lemma stress_axi ps E nu F : 0 <= nu < 1 / 2 -> defOf Axi F -> det3 F <> 0 ->
  eqKind Axi (linStress Axi ps E nu F) (pushed F (svkLaw Axi ps E nu (noHoop (green F)))).
Proof.
  intros Hn HF HJ i j Hi Hj IK. rewrite <- (jacF_ok Axi F HF) in HJ.
  destruct (eval_ok Axi ps E nu F (strainUL Axi F) Hn HJ) as [C [T [HC [_ EV]]]]. unfold linStress. rewrite EV.
  unfold pushed. rewrite (jacF_ok Axi F HF). unfold Rdiv. rewrite Rmult_1_l, Rmult_comm. f_equal.
  refine (push_axi F _ _ HF _ i j Hi Hj IK). intros a b Ha Hb IA.
  rewrite (tensorOf_ext Axi _ (mv (nstr Axi) (el C) (eng Axi (noHoop (green F))))); [|intros r; apply mv_ext; intros q Hq; now apply strain_axi].
  apply law_axi; try assumption.
  - destruct (green_sym F) as [S1 [S2 S3]]. repeat split; unfold noHoop; cbn; assumption.
  - assert (Z : forall i j, (1 <= i <= 3)%nat -> (1 <= j <= 3)%nat -> inKind Axi i j = false -> F i j = kron i j) by (intros x y Hx Hy Q; specialize (HF x y Hx Hy Q); cbv beta in HF; lra).
    intros x y Hx Hy B. unfold noHoop, green, mul3, trn. idx x; idx y; try discriminate B; cbn [Nat.eqb andb];
      rewrite ?(Z 1 3)%nat, ?(Z 2 3)%nat, ?(Z 3 1)%nat, ?(Z 3 2)%nat by (lia || reflexivity); unfold kron; cbn [Nat.eqb]; field.
Qed.
(** Entry of the tangent for the hoop strain under a stretch along the axes. *)
Lemma hoop_tangent ps E nu a b c : 0 <= nu < 1 / 2 -> a * b * c <> 0 ->
  linTangent Axi ps E nu (fun i j => if (i =? j)%nat then match i with 1%nat => a | 2%nat => b | _ => c end else 0) 3 3 = (a * b) * (a * b) * (lame1 E nu + 2 * lame2 E nu) / (a * b * c).
Proof.
  intros Hn N. set (F := fun i j : nat => if (i =? j)%nat then match i with 1%nat => a | 2%nat => b | _ => c end else 0).
  assert (J : jacF Axi F = a * b * c) by (unfold jacF, det3, F; cbn; ring).
  destruct (eval_ok Axi ps E nu F (strainUL Axi F) Hn ltac:(rewrite J; exact N)) as [C [T [HC [eT EV]]]]. unfold linTangent. rewrite EV, J. cbn [el].
  assert (C33 : el C 3 3 = lame1 E nu + 2 * lame2 E nu).
  { clear - HC Hn. revert HC. cbn [kdim isAxi]. destruct ps; open_c; intros H; injection H as <-; unfold upd2; cbn; unfold lame1, lame2; field; lra. }
  cbn [nstr sumf]. rewrite !eT by (cbn; lia). rewrite C33. unfold Tval. cbn [kdim Nat.leb Nat.sub]. change (1 mod 3)%nat with 1%nat. change (2 mod 3)%nat with 2%nat. cbn [Nat.add].
  unfold F. cbn [Nat.eqb]. generalize (lame1 E nu + 2 * lame2 E nu). intros q. field. repeat split; intros ->; apply N; ring.
Qed.
