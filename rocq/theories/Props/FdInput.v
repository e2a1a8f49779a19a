(** C136: materials of a finite-deformation model fit the formulation of its elements. *)
From Coq Require Import List ZArith Lia Lra.
From Verif Require Import Lib.Base Lib.Tensor3 Model.Continuum Model.NlElement Model.LinMaterial Model.Options Spec.NlElement Spec.LinMaterial
  Proofs.NlPure Proofs.LinMaterial Spec.FdInput Model.FdInput Proofs.FdInput.
Import ListNotations.
Open Scope Z_scope.

(** Materials a formulation can deal with: with versions of the hyperelastic laws and plasticity only updated Lagrangian. *)
Definition supported (form : Z) (e : entry) : Prop :=
  match e with Iso _ _ ver => ver < 0 \/ (form = UPDATED_LAGRANGE /\ 10 <= ver < 30) | Pla _ => form = UPDATED_LAGRANGE end.


Lemma law_gives neo plast form e : NONLINEAR <= form <= UPDATED_LAGRANGE -> supported form e -> givesStress neo plast form e (tagLaw form e).
Proof.
  intros Hf Hs k ps F A Hn HF HJ. unfold NONLINEAR, UPDATED_LAGRANGE in Hf. unfold elementStress.
  replace (form =? LINEAR) with false by (unfold LINEAR; lia).
  destruct e as [E nu v|p]; cbn [supported] in Hs; unfold tagLaw, parseMaterial, meant.
  - specialize (Hn E nu v eq_refl). unfold UPDATED_LAGRANGE in *. destruct Hs as [Hv|[-> Hv]].
    + replace (0 <=? v) with false by lia. replace (v <? 0) with true by lia. cbn [andb isLinear].
      destruct (4 <=? form) eqn:Q; cbn [andb wrap].
      * replace (form <? 4) with false by lia. cbn [evaluate]. destruct (wrapped_stress k ps E nu F A Hn HF HJ) as [C [S [EV SO]]].
        rewrite EV. cbn [bind snd]. exists S. split; [reflexivity|exact SO].
      * replace (form <? 4) with true by lia. cbn [evaluate]. destruct (raw_ok k ps E nu F A Hn HF) as [C [S [EV SO]]].
        rewrite EV. cbn [bind snd]. eexists. split; [reflexivity|]. intros i j Hi Hj IK. unfold svkStress, pushed. f_equal. now apply (push_kind k F _ _ A HF SO).
    + replace (0 <=? v) with true by lia. replace (v <? 0) with false by lia. cbn [andb Z.leb Z.compare Pos.compare Pos.compare_cont isLinear Z.ltb evaluate].
      rewrite (jacF_ok k F HF). destruct (Req_EM_T (det3 F) 0) as [Z|_]; [lra|].
      replace ((Z.quot v 10 =? 1) || (Z.quot v 10 =? 2)) with true.
      2:{ rewrite Z.quot_div_nonneg by lia. destruct (Z_lt_dec v 20); [replace (v / 10) with 1 by (apply Z.div_unique with (v - 10); lia)|replace (v / 10) with 2 by (apply Z.div_unique with (v - 20); lia)]; reflexivity. }
      cbn. eexists. split; [reflexivity|]. intros i j _ _ _. reflexivity.
  - subst form. cbn. eexists. split; [reflexivity|]. intros i j _ _ _. reflexivity.
Qed.

(** Every material of an input is kept, in its order, with a law that gives the stress it describes. *)
Theorem C136_materials_partial neo plast form bs i c e :
  NONLINEAR <= form <= UPDATED_LAGRANGE -> noElastic bs -> nth_error (written bs) i = Some (c, e) -> supported form e ->
  exists l, nth_error (mats (input form bs)) i = Some l /\ givesStress neo plast form e l.
Proof.
  intros Hf N H Hs. exists (tagLaw form e). split; [|now apply law_gives].
  rewrite input_mats, written_entries, map_map by (assumption || (unfold hasInt, NONLINEAR, UPDATED_LAGRANGE, LINEAR, FBAR in *; lia)).
  cbn [snd]. now rewrite nth_error_map, H.
Qed.
(** The elements of a set or code get the material written with it: the first one, as IFEM gives a property its type once. *)
Theorem C136_codes_partial neo plast form bs i c e :
  NONLINEAR <= form <= UPDATED_LAGRANGE -> noElastic bs -> nth_error (written bs) i = Some (c, e) -> 0 < c ->
  (forall j q, (j < i)%nat -> nth_error (written bs) j = Some q -> fst q <> c) -> supported form e ->
  exists l, ofCode (input form bs) c = Some l /\ givesStress neo plast form e l.
Proof.
  intros Hf N H Hc First Hs. exists (tagLaw form e). split; [|now apply law_gives].
  apply (code_input form ltac:(unfold hasInt, NONLINEAR, UPDATED_LAGRANGE, LINEAR, FBAR in *; lia) bs i c); [exact Hc| |].
  - now rewrite written_entries, nth_error_map, H.
  - intros j Hj q Hq. rewrite written_entries, nth_error_map in Hq by exact N. destruct (nth_error (written bs) j) as [w|] eqn:W; [|discriminate].
    injection Hq as <-. cbn. now apply (First j).
Qed.
(** One material, without sets: it is the one of all elements. *)
Theorem C136_single_partial neo plast form bs c e :
  NONLINEAR <= form <= UPDATED_LAGRANGE -> noElastic bs -> written bs = [(c, e)] -> supported form e ->
  givesStress neo plast form e (current (input form bs)).
Proof.
  intros Hf N W Hs. assert (Hi : hasInt form = true) by (unfold hasInt, NONLINEAR, UPDATED_LAGRANGE, LINEAR, FBAR in *; lia).
  replace (current (input form bs)) with (tagLaw form e); [now apply law_gives|].
  assert (E0 : forall b s, (match b with Text l | Tag l => l | Elastic l => map (fun c => (fst c, Iso (fst (snd c)) (snd (snd c)) (-1))) l end) = [] -> parse form b s = s).
  { intros [l|l|l] s H; cbn; try (subst l; reflexivity). destruct l; [|discriminate]. cbn. now destruct (hasInt form). }
  assert (E1 : forall bs s, written bs = [] -> fold_left (fun s b => parse form b s) bs s = s).
  { induction bs0 as [|b bs0 IH]; intros s H; [reflexivity|]. unfold written in H. cbn [map concat] in H. apply app_eq_nil in H. destruct H as [H1 H2].
    cbn. rewrite (E0 b s H1). now apply IH. }
  unfold input. generalize start. revert N W. induction bs as [|b bs IH]; intros N W s; [discriminate|].
  unfold written in W. cbn [map concat] in W. apply app_eq_unit in W. cbn [fold_left].
  destruct W as [[W1 W2]|[W1 W2]].
  - rewrite (E0 b s W1). apply IH; [intros l Hl; apply N; now right|exact W2].
  - rewrite E1 by exact W2. unfold current. destruct b as [l|l|l].
    + subst l. cbn. rewrite Hi. cbn. now rewrite textLaw_eq.
    + subst l. cbn. rewrite Hi. reflexivity.
    + rewrite (N l (or_introl eq_refl)) in W1. discriminate.
Qed.
(** The text section and the tag give the same model, if at most the first material has no code. *)
Theorem C136_text_partial form l s :
  (forall q, In q (tl l) -> fst q <> 0) -> parse form (Text l) s = parse form (Tag l) s.
Proof.
  intros H. unfold parse. f_equal.
  assert (K : forall l d s, (forall q, In q l -> fst q <> 0) -> textLines form l (Some d) s = tagLines form l (Some d) s).
  { clear. induction l as [|[c e] l IH]; intros d s H; [reflexivity|]. cbn. rewrite textLaw_eq.
    assert (c <> 0) by (apply (H (c, e)); now left). replace (c =? 0) with false by lia. apply IH. intros q Hq. apply H. now right. }
  destruct l as [|[c e] l]; [reflexivity|]. cbn. rewrite textLaw_eq. apply K. exact H.
Qed.
(** Otherwise the text section uses the last of them, the tag the first, and of two tags the second one's. *)
Theorem C136_text_refuted : exists form l, hasInt form = true /\ length l = 2%nat /\ (forall q, In q l -> fst q = 0) /\
  exists e f, e <> f /\ current (input form [Text l]) = tagLaw form e /\ current (input form [Tag l]) = tagLaw form f /\ tagLaw form e <> tagLaw form f.
Proof.
  exists TOTAL_LAGRANGE, [(0, Iso 1 0 (-1)); (0, Iso 2 0 (-1))]. split; [reflexivity|]. split; [reflexivity|].
  split; [intros q [<-|[<-|[]]]; reflexivity|].
  exists (Iso 2 0 (-1)), (Iso 1 0 (-1)). repeat split; try (intros H; injection H; intros; lra).
Qed.
(** Elements with small strains use Hooke's law, whatever version is given. *)
Theorem C136_small_partial neo plast bs i c E nu ver :
  noElastic bs -> nth_error (written bs) i = Some (c, Iso E nu ver) -> (0 <= nu < 1 / 2)%R ->
  exists l, nth_error (mats (input LINEAR bs)) i = Some l /\
  forall k ps F, k <> Axi -> defOf k F ->
    exists s, elementStress neo plast LINEAR k ps l F = Ret s /\
      eqKind k s (svkLaw k ps E nu (fun a b => (F a b + F b a) / 2 - kron a b)%R).
Proof.
  intros N H Hn. exists (Raw E nu). split.
  - rewrite input_mats, written_entries, map_map by (assumption || reflexivity). cbn [snd]. rewrite nth_error_map, H. cbn.
    unfold tagLaw, parseMaterial. cbn. now rewrite Bool.andb_false_r.
  - intros k ps F A HF. unfold elementStress. cbn [Z.eqb LINEAR Pos.eqb evaluate].
    destruct (small_ok k ps E nu F A Hn HF) as [C [S [EV SO]]]. rewrite EV. cbn [bind snd]. exists S. split; [reflexivity|exact SO].
Qed.
(** A plastic material is refused by total Lagrangian elements; with results projected otherwise than by CGL2 the model is. *)
Theorem C136_plastic_rejected neo plast form bs i c p k ps F :
  NONLINEAR <= form <= TOTAL_LAGRANGE -> noElastic bs -> nth_error (written bs) i = Some (c, Pla p) ->
  exists l, nth_error (mats (input form bs)) i = Some l /\ elementStress neo plast form k ps l F = Rejected.
Proof.
  intros Hf N H. exists (Plast p). unfold NONLINEAR, TOTAL_LAGRANGE in Hf. split.
  - rewrite input_mats, written_entries, map_map by (assumption || (unfold hasInt, LINEAR, FBAR in *; lia)). cbn [snd]. rewrite nth_error_map, H. cbn.
    unfold tagLaw. cbn. now rewrite Bool.andb_false_r.
  - unfold elementStress. replace (form =? LINEAR) with false by (unfold LINEAR; lia). replace (form <? UPDATED_LAGRANGE) with true by (unfold UPDATED_LAGRANGE; lia). reflexivity.
Qed.
Theorem C136_projection form bs proj :
  LINEAR <= form <= FBAR -> noElastic bs ->
  preprocessOk (input form bs) proj = false <-> (proj <> [] /\ exists c p, In (c, Pla p) (written bs)).
Proof.
  intros Hf N. unfold preprocessOk. rewrite input_mats, written_entries, map_map by (assumption || (unfold hasInt, LINEAR, FBAR in *; lia)).
  rewrite Bool.negb_false_iff, Bool.andb_true_iff, existsb_exists. cbn [snd]. split.
  - intros [[m [Hm Hh]] Hp]. split; [now intros ->|]. apply in_map_iff in Hm. destruct Hm as [[c e] [<- He]]. cbn in Hh.
    destruct e as [E nu v|p]; [|now exists c, p]. exfalso. revert Hh. unfold tagLaw, parseMaterial.
    destruct (_ && _); cbn; destruct (_ && _); cbn; discriminate.
  - intros [Hp [c [p Hin]]]. split; [|destruct proj; [contradiction|reflexivity]].
    exists (Plast p). split; [|reflexivity]. apply in_map_iff. exists (c, Pla p). split; [|exact Hin]. unfold tagLaw. cbn. now rewrite Bool.andb_false_r.
Qed.

(** The deformation diag(2,1,1). *)
Definition Fx : t3 := fun i j => if ((i =? 1) && (j =? 1))%nat then 2%R else kron i j.
Lemma Fx_def k : k <> Axi -> defOf k Fx.
Proof. intros A i j Hi Hj B. unfold Fx. destruct k; [| |contradiction]; idx i; idx j; try discriminate B; cbn; lra. Qed.
Lemma Fx_det : det3 Fx = 2%R. Proof. unfold det3, Fx, kron. cbn. lra. Qed.
Lemma raw_differs neo plast E nu : (0 < E)%R -> (0 <= nu < 1 / 2)%R -> ~ givesStress neo plast UPDATED_LAGRANGE (Iso E nu (-1)) (Raw E nu).
Proof.
  intros HE Hn G. destruct (G Solid false Fx ltac:(discriminate) ltac:(intros a b v Q; injection Q; intros; subst; exact Hn) (Fx_def Solid ltac:(discriminate)) ltac:(rewrite Fx_det; lra)) as [s [EV SO]].
  unfold elementStress in EV. cbn [Z.eqb LINEAR UPDATED_LAGRANGE Z.ltb Z.compare Pos.compare Pos.compare_cont Pos.eqb evaluate] in EV.
  destruct (raw_ok Solid false E nu Fx ltac:(discriminate) Hn (Fx_def Solid ltac:(discriminate))) as [C [S [EV2 SO2]]].
  rewrite EV2 in EV. cbn [bind snd] in EV. injection EV as <-.
  pose proof (SO 1 1 ltac:(lia) ltac:(lia) eq_refl)%nat as Q. pose proof (SO2 1 1 ltac:(lia) ltac:(lia) eq_refl)%nat as Q2. rewrite Q2 in Q.
  unfold meant in Q. cbn [Z.ltb Z.compare] in Q. unfold svkStress, pushed in Q. rewrite Fx_det in Q.
  assert (P : (mul3 Fx (mul3 (svkLaw Solid false E nu (green Fx)) (trn Fx)) 1%nat 1%nat = 4 * svkLaw Solid false E nu (green Fx) 1%nat 1%nat)%R).
  { generalize (svkLaw Solid false E nu (green Fx)). intros X. unfold mul3, trn, Fx, kron. cbn. ring. }
  rewrite P in Q. clear P.
  assert (D : (svkLaw Solid false E nu (green Fx) 1%nat 1%nat = 3 / 2 * (lame1 E nu + 2 * lame2 E nu))%R).
  { unfold svkLaw, hooke, lam, trace, green, mul3, trn, Fx, kron. cbn. field. }
  rewrite D in Q.
  assert (0 <= lame1 E nu)%R by (unfold lame1; apply Rmult_le_pos; [nra|apply Rlt_le, Rinv_0_lt_compat; nra]).
  assert (0 < lame2 E nu)%R by (unfold lame2; apply Rmult_lt_0_compat; [lra|apply Rinv_0_lt_compat; lra]).
  lra.
Qed.
(** A material given within <elasticity> is not fitted to updated Lagrangian elements: its stress is taken for the Cauchy
    stress.  The same holds for the built-in material if none is given. *)
Theorem C136_elasticity_refuted neo plast : exists bs E nu, (0 < E)%R /\ (0 <= nu < 1 / 2)%R /\ written bs = [(0, Iso E nu (-1))] /\
  ~ givesStress neo plast UPDATED_LAGRANGE (Iso E nu (-1)) (current (input UPDATED_LAGRANGE bs)).
Proof.
  exists [Elastic [(0, (1, 0)%R)]], 1%R, 0%R. split; [lra|]. split; [lra|]. split; [reflexivity|]. cbn. apply raw_differs; lra.
Qed.
Theorem C136_none_refuted neo plast : exists E nu, (0 < E)%R /\ (0 <= nu < 1 / 2)%R /\
  current (input UPDATED_LAGRANGE []) = current (input TOTAL_LAGRANGE []) /\
  givesStress neo plast TOTAL_LAGRANGE (Iso E nu (-1)) (current (input TOTAL_LAGRANGE [])) /\
  ~ givesStress neo plast UPDATED_LAGRANGE (Iso E nu (-1)) (current (input UPDATED_LAGRANGE [])).
Proof.
  exists 205000000000%R, (29 / 100)%R. split; [lra|]. split; [lra|]. split; [reflexivity|]. split.
  - apply (law_gives neo plast TOTAL_LAGRANGE (Iso 205000000000 (29 / 100) (-1))); [unfold NONLINEAR, TOTAL_LAGRANGE, UPDATED_LAGRANGE; lia|cbn; lia].
  - apply raw_differs; lra.
Qed.
(** The version of a hyperelastic law is ignored without a message in total Lagrangian models: the stress is that of the
    linear law. *)
Theorem C136_version_refuted neo plast : exists E nu ver, (0 < E)%R /\ (0 <= nu < 1 / 2)%R /\
  input TOTAL_LAGRANGE [Tag [(0, Iso E nu ver)]] = input TOTAL_LAGRANGE [Tag [(0, Iso E nu (-1))]] /\ 10 <= ver < 30 /\
  ((exists F, defOf Solid F /\ (0 < det3 F)%R /\ ~ eqKind Solid (svkStress Solid false E nu F) (neo ver E nu F)) ->
   ~ givesStress neo plast TOTAL_LAGRANGE (Iso E nu ver) (current (input TOTAL_LAGRANGE [Tag [(0, Iso E nu ver)]]))).
Proof.
  exists 1%R, 0%R, 10. split; [lra|]. split; [lra|]. split; [reflexivity|]. split; [lia|].
  intros [F [HF [HJ Hd]]] G. apply Hd. clear Hd.
  assert (A : Solid <> Axi) by discriminate.
  destruct (G Solid false F A ltac:(intros a b v Q; injection Q; intros; subst; lra) HF HJ) as [s [EV SO]].
  pose proof (law_gives neo plast TOTAL_LAGRANGE (Iso 1 0 (-1)) ltac:(unfold NONLINEAR, TOTAL_LAGRANGE, UPDATED_LAGRANGE; lia) ltac:(cbn; lia)) as L.
  destruct (L Solid false F A ltac:(intros a b v Q; injection Q; intros; subst; lra) HF HJ) as [s' [EV' SO']].
  change (elementStress neo plast TOTAL_LAGRANGE Solid false (Raw 1 0) F = Ret s) in EV.
  change (elementStress neo plast TOTAL_LAGRANGE Solid false (Raw 1 0) F = Ret s') in EV'.
  rewrite EV in EV'. injection EV' as <-. intros i j Hi Hj IK. transitivity (s i j); [symmetry; exact (SO' i j Hi Hj IK)|exact (SO i j Hi Hj IK)].
Qed.

(** A model with three materials. *)
Example C136_case : let bs := [Text [(0, Iso 1 (1 / 4) (-1)); (2, Iso 3 0 11)]; Tag [(5, Pla [1%R])]] in
  noElastic bs /\ written bs = [(0, Iso 1 (1 / 4) (-1)); (2, Iso 3 0 11); (5, Pla [1%R])] /\
  mats (input UPDATED_LAGRANGE bs) = [Wrapped 1 (1 / 4); Neo 11 3 0; Plast [1%R]] /\
  ofCode (input UPDATED_LAGRANGE bs) 2 = Some (Neo 11 3 0) /\ ofCode (input UPDATED_LAGRANGE bs) 5 = Some (Plast [1%R]) /\
  supported UPDATED_LAGRANGE (Iso 3 0 11) /\ preprocessOk (input UPDATED_LAGRANGE bs) [1%nat] = false /\ defOf Solid Fx /\ (0 < det3 Fx)%R.
Proof.
  cbv zeta. split; [intros l [H|[H|[]]]; discriminate|]. do 4 (split; [reflexivity|]). split; [right; split; [reflexivity|lia]|].
  split; [reflexivity|]. split; [apply Fx_def; discriminate|rewrite Fx_det; lra].
Qed.
Example C136_single_case : let bs := [Tag []; Tag [(0, Iso 1 0 (-1))]] in
  noElastic bs /\ written bs = [(0, Iso 1 0 (-1))] /\ current (input UPDATED_LAGRANGE bs) = Wrapped 1 0.
Proof. repeat split. intros l [H|[H|[]]]; discriminate. Qed.

Print Assumptions C136_materials_partial.
Print Assumptions C136_codes_partial.
Print Assumptions C136_single_partial.
Print Assumptions C136_text_partial.
Print Assumptions C136_text_refuted.
Print Assumptions C136_small_partial.
Print Assumptions C136_plastic_rejected.
Print Assumptions C136_projection.
Print Assumptions C136_elasticity_refuted.
Print Assumptions C136_none_refuted.
Print Assumptions C136_version_refuted.
