(** Lemmas for C136: the table of materials, the codes and the stress of an element. *)
From Coq Require Import List ZArith Lia Lra.
From Verif Require Import Lib.Base Lib.Sums Lib.Writes Lib.Tensor3 Model.Continuum Model.NlElement Model.LinMaterial Model.Options Spec.NlElement Spec.LinMaterial
  Proofs.LinIsotropic Proofs.Continuum Proofs.ContinuumKin Proofs.MxPure Proofs.NlPure Proofs.NlElement Proofs.NlMaterial Proofs.LinMaterial Spec.FdInput Model.FdInput.
Import ListNotations.
Open Scope Z_scope.

Definition noElastic (bs : list block) : Prop := forall l, In (Elastic l) bs -> l = [].
Lemma textLaw_eq form e : textLaw form e = tagLaw form e.
Proof.
  unfold textLaw, tagLaw, parseMaterial. destruct e as [E nu v|p]; [|now destruct (_ && _)].
  destruct (0 <=? v) eqn:A, (UPDATED_LAGRANGE <=? form) eqn:B; cbn; destruct (v <? 0) eqn:C; cbn; auto; exfalso; lia.
Qed.

Section Runs.
Variable form : Z.
Definition entries (b : block) : list (Z * law) :=
  match b with Text l | Tag l => map (fun c => (fst c, tagLaw form (snd c))) l
             | Elastic l => map (fun c => (fst c, Raw (fst (snd c)) (snd (snd c)))) l end.
Definition pushAll (l : list (Z * law)) (s : state) : state := fold_left (fun s c => push (fst c) (snd c) s) l s.
Definition same (a b : state) : Prop := mats a = mats b /\ props a = props b.
Lemma same_push c m a b : same a b -> same (push c m a) (push c m b).
Proof. intros [A B]. unfold same, push; cbn. now rewrite A, B. Qed.
Lemma same_pushAll l : forall a b, same a b -> same (pushAll l a) (pushAll l b).
Proof. induction l as [|c l IH]; intros a b H; [exact H|]. apply IH. now apply same_push. Qed.
Lemma text_push l : forall d s, snd (textLines form l d s) = pushAll (entries (Text l)) s.
Proof. induction l as [|[c e] l IH]; intros d s; [reflexivity|]. cbn. rewrite IH, textLaw_eq. reflexivity. Qed.
Lemma tag_push l : forall d s, snd (tagLines form l d s) = pushAll (entries (Tag l)) s.
Proof. induction l as [|[c e] l IH]; intros d s; [reflexivity|]. cbn. rewrite IH. reflexivity. Qed.
Lemma elastic_push l : forall s, same (elasticTags form l s) (pushAll (entries (Elastic l)) s).
Proof.
  induction l as [|[c [E nu]] l IH]; intros s; [split; reflexivity|]. cbn -[push].
  destruct (IH (mkSt (mats (push c (Raw E nu) s)) (props (push c (Raw E nu) s)) (Some (Raw E nu)))) as [A B].
  destruct (same_pushAll (entries (Elastic l)) (mkSt (mats (push c (Raw E nu) s)) (props (push c (Raw E nu) s)) (Some (Raw E nu))) (push c (Raw E nu) s)) as [C D]; [split; reflexivity|].
  split; [now rewrite A|now rewrite B].
Qed.
Lemma set_same ds : same (setMaterial form ds) (snd ds).
Proof. destruct ds as [[m|] s]; cbn; [destruct (hasInt form)|]; split; reflexivity. Qed.
Hypothesis Hint : hasInt form = true.
Lemma parse_push b s : same (parse form b s) (pushAll (entries b) s).
Proof.
  destruct b as [l|l|l]; cbn [parse].
  - rewrite <- (text_push l None s). apply set_same.
  - rewrite <- (tag_push l None s). apply set_same.
  - rewrite Hint. apply elastic_push.
Qed.
Lemma same_trans a b c : same a b -> same b c -> same a c.
Proof. intros [A B] [C D]. split; congruence. Qed.
Lemma input_push bs : forall s, same (fold_left (fun s b => parse form b s) bs s) (pushAll (concat (map entries bs)) s).
Proof.
  induction bs as [|b bs IH]; intros s; [split; reflexivity|]. cbn [fold_left map concat].
  unfold pushAll at 1. rewrite fold_left_app. eapply same_trans; [apply IH|]. apply same_pushAll. apply parse_push.
Qed.
Lemma mats_push l : forall s, mats (pushAll l s) = mats s ++ map snd l.
Proof. induction l as [|[c m] l IH]; intros s; cbn; [now rewrite app_nil_r|]. unfold pushAll in IH. rewrite IH. cbn. now rewrite <- app_assoc. Qed.
Lemma input_mats bs : mats (input form bs) = map snd (concat (map entries bs)).
Proof. destruct (input_push bs start) as [A _]. unfold input. now rewrite A, mats_push. Qed.
Lemma find_push c m i l : forall s, 0 < c -> (forall j, (j < i)%nat -> forall q, nth_error l j = Some q -> fst q <> c) -> nth_error l i = Some (c, m) ->
  find (fun p => fst p =? c) (props s) = None ->
  find (fun p => fst p =? c) (props (pushAll l s)) = Some (c, length (mats s) + i)%nat.
Proof.
  revert i. assert (K : forall l s p, find (fun p => fst p =? c) (props s) = Some p -> find (fun p => fst p =? c) (props (pushAll l s)) = Some p).
  { induction l0 as [|[c0 m0] l0 IH]; intros s p H; [exact H|]. apply IH. unfold push; cbn. destruct (0 <? c0); [|exact H].
    generalize (length (mats s)). intros k. revert H. induction (props s) as [|q r IHr]; cbn; [discriminate|]. destruct (fst q =? c); auto. }
  assert (App : forall r (k : nat), find (fun p => fst p =? c) r = None -> find (fun p : Z * nat => fst p =? c) (r ++ [(c, k)]) = Some (c, k)).
  { induction r as [|q r IHr]; intros k H; cbn in *; [now rewrite Z.eqb_refl|]. destruct (fst q =? c); [discriminate|auto]. }
  assert (Skip : forall r c0 (k : nat), c0 <> c -> find (fun p => fst p =? c) r = None -> find (fun p : Z * nat => fst p =? c) (r ++ [(c0, k)]) = None).
  { induction r as [|q r IHr]; intros c0 k N H; cbn in *; [destruct (c0 =? c) eqn:Q; [lia|reflexivity]|]. destruct (fst q =? c); [discriminate|auto]. }
  induction l as [|[c0 m0] l IH]; intros i s Hc First Here Free; [destruct i; discriminate|].
  destruct i as [|i].
  - cbn in Here. assert (c0 = c) by congruence. subst c0. unfold pushAll. cbn [fold_left]. apply K. unfold push; cbn.
    destruct (0 <? c) eqn:Q; [|lia]. rewrite Nat.add_0_r. now apply App.
  - unfold pushAll. cbn [fold_left]. fold (pushAll l (push (fst (c0, m0)) (snd (c0, m0)) s)). rewrite (IH i).
    + unfold push; cbn. rewrite app_length. cbn. f_equal. f_equal. lia.
    + exact Hc.
    + intros j Hj q Hq. apply (First (S j)); [lia|exact Hq].
    + exact Here.
    + unfold push; cbn. destruct (0 <? c0); [|exact Free]. apply Skip; [|exact Free]. apply (First 0%nat (Nat.lt_0_succ i) (c0, m0) eq_refl).
Qed.
Lemma code_input bs i c m : 0 < c -> nth_error (concat (map entries bs)) i = Some (c, m) ->
  (forall j, (j < i)%nat -> forall q, nth_error (concat (map entries bs)) j = Some q -> fst q <> c) -> ofCode (input form bs) c = Some m.
Proof.
  intros Hc Here First. unfold ofCode. destruct (input_push bs start) as [A B]. fold (input form bs) in A, B. rewrite A, B.
  rewrite (find_push c m i _ start Hc First Here eq_refl). cbn [mats start length Nat.add].
  rewrite mats_push. cbn. now rewrite nth_error_map, Here.
Qed.
End Runs.

Lemma written_entries form bs : noElastic bs -> concat (map (entries form) bs) = map (fun c => (fst c, tagLaw form (snd c))) (written bs).
Proof.
  unfold written. induction bs as [|b bs IH]; intros N; [reflexivity|]. cbn [map concat]. rewrite map_app, IH by (intros l H; apply N; now right).
  f_equal. destruct b as [l|l|l]; try reflexivity. rewrite (N l (or_introl eq_refl)). reflexivity.
Qed.


Lemma raw_ok k ps E nu F : k <> Axi -> (0 <= nu < 1 / 2)%R -> defOf k F ->
  exists C S, linearEvaluate k ps E nu F (strainUL k F) 2 = Ret (C, S) /\ eqKind k S (svkLaw k ps E nu (green F)).
Proof.
  intros A Hn HF. destruct (cmatrix_total (kdim k) ps (isAxi k) false E nu) as [C [HC _]]; [destruct k; unfold dim_ok; cbn; lia|exact Hn|].
  unfold linearEvaluate. rewrite HC. cbn [bind]. rewrite nst_nstr. cbn [Nat.eqb Nat.ltb Nat.leb]. exists C. eexists. split; [reflexivity|].
  intros a b Ha Hb IA. rewrite (tensorOf_ext k _ (mv (nstr k) (el C) (eng k (green F)))); [|intros r; apply mv_ext; intros q Hq; now apply strainUL_ok].
  apply law_ok; try assumption; [apply green_sym|now apply green_rate].
Qed.
Lemma small_ok k ps E nu F : k <> Axi -> (0 <= nu < 1 / 2)%R -> defOf k F ->
  exists C S, linearEvaluate k ps E nu (smallTensor F) (smallStrain k F) 2 = Ret (C, S) /\ eqKind k S (svkLaw k ps E nu (smallTensor F)).
Proof.
  intros A Hn HF. destruct (cmatrix_total (kdim k) ps (isAxi k) false E nu) as [C [HC _]]; [destruct k; unfold dim_ok; cbn; lia|exact Hn|].
  unfold linearEvaluate. rewrite HC. cbn [bind]. rewrite nst_nstr. cbn [Nat.eqb Nat.ltb Nat.leb]. exists C. eexists. split; [reflexivity|].
  intros a b Ha Hb IA. rewrite (tensorOf_ext k _ (mv (nstr k) (el C) (eng k (smallTensor F)))).
  - apply law_ok; try assumption.
    + unfold sym3, smallTensor, kron. cbn [Nat.eqb]. repeat split; field.
    + intros i j Hi Hj B. pose proof (HF i j Hi Hj B) as P. pose proof (HF j i Hj Hi ltac:(rewrite inKind_sym; exact B)) as Q. cbv beta in P, Q.
      unfold smallTensor. replace (kron j i) with (kron i j) in Q by (unfold kron; rewrite Nat.eqb_sym; reflexivity). lra.
  - intros r. apply mv_ext. intros q Hq. destruct k; [| |contradiction]; cbn [nstr] in Hq; idx q; unfold smallStrain, eng, scomp, smallTensor, kron; cbn [Nat.eqb]; field.
Qed.
Lemma wrapped_stress k ps E nu F : k <> Axi -> (0 <= nu < 1 / 2)%R -> defOf k F -> (0 < det3 F)%R ->
  exists C S, linearEvaluate k ps E nu F (strainUL k F) 1 = Ret (C, S) /\ eqKind k S (svkStress k ps E nu F).
Proof.
  intros A Hn HF HJ. pose proof (stress_ok k ps E nu F A Hn HF ltac:(lra)) as SO.
  assert (J : jacF k F <> 0%R) by (rewrite (jacF_ok k F HF); lra).
  destruct (eval_ok k ps E nu F (strainUL k F) Hn J) as [C [T [_ [_ EV]]]]. unfold linStress in SO. rewrite EV in SO |- *.
  do 2 eexists. split; [reflexivity|exact SO].
Qed.
