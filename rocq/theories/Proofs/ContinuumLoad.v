From Verif Require Import Lib.Base Lib.Sums Lib.Writes Lib.Congruence Lib.Tensor3 Model.Continuum Spec.Continuum
  Proofs.Continuum Proofs.ContinuumKin Proofs.ContinuumK.

(** ** Linearity of the geometric stiffness *)
Lemma kg_stress_lin d (G : nat -> nat -> R) (s1 s2 : nat -> nat -> R) x y a b :
  sumf d (fun i => sumf d (fun j => G a i * (x * s1 i j + y * s2 i j) * G b j))
  = x * sumf d (fun i => sumf d (fun j => G a i * s1 i j * G b j)) + y * sumf d (fun i => sumf d (fun j => G a i * s2 i j * G b j)).
Proof.
  rewrite <- !sumf_scal, <- sumf_plus. apply sumf_ext. intros i _. rewrite <- !sumf_scal, <- sumf_plus. apply sumf_ext. intros j _. ring.
Qed.

Lemma kgrr_lin e r s1 s2 x y : kgrr e r (fun i j => x * s1 i j + y * s2 i j) = x * kgrr e r s1 + y * kgrr e r s2.
Proof. unfold kgrr. destruct (axi e); [|ring]. destruct (Rlt_dec 0 r); [|ring]. field. lra. Qed.

(** [hoopOK]: the hoop term is never dropped for the combination. *)
Definition hoopOK (e : elm) (r : R) (s : nat -> nat -> R) : Prop := axi e = true -> 0 < r -> 0 <= s 3%nat 3%nat.

Lemma kgrr_nonneg e r s : hoopOK e r s -> 0 <= kgrr e r s.
Proof.
  intros H. unfold kgrr. destruct (axi e) eqn:A; [|lra]. destruct (Rlt_dec 0 r) as [L|L]; [|lra].
  pose proof (H A L). apply Rmult_le_pos; [assumption|]. apply Rlt_le, Rinv_0_lt_compat. nra.
Qed.

Lemma kg_term e r s (c : R) : hoopOK e r s ->
  (if Rlt_dec 0 (kgrr e r s) then c * kgrr e r s else 0) = c * kgrr e r s.
Proof. intros H. destruct (Rlt_dec 0 (kgrr e r s)); [reflexivity|]. pose proof (kgrr_nonneg e r s H). assert (kgrr e r s = 0) as -> by lra. ring. Qed.

Theorem kg_linear e r s1 s2 x y w : (1 <= nsd e)%nat ->
  hoopOK e r s1 -> hoopOK e r s2 -> hoopOK e r (fun i j => x * s1 i j + y * s2 i j) ->
  exists K1 K2 K, formKG e r s1 w (zeros (nsd e * nen e) (nsd e * nen e)) = Ret K1 /\
    formKG e r s2 w (zeros (nsd e * nen e) (nsd e * nen e)) = Ret K2 /\
    formKG e r (fun i j => x * s1 i j + y * s2 i j) w (zeros (nsd e * nen e) (nsd e * nen e)) = Ret K /\
    forall i j, (1 <= i <= nsd e * nen e)%nat -> (1 <= j <= nsd e * nen e)%nat -> el K i j = x * el K1 i j + y * el K2 i j.
Proof.
  intros Hd H1 H2 H3.
  destruct (formKG_ok e r s1 w (zeros (nsd e * nen e) (nsd e * nen e)) Hd eq_refl eq_refl) as [K1 [E1 e1]].
  destruct (formKG_ok e r s2 w (zeros (nsd e * nen e) (nsd e * nen e)) Hd eq_refl eq_refl) as [K2 [E2 e2]].
  destruct (formKG_ok e r (fun i j => x * s1 i j + y * s2 i j) w (zeros (nsd e * nen e) (nsd e * nen e)) Hd eq_refl eq_refl) as [K [E ee]].
  exists K1, K2, K. split; [exact E1|]. split; [exact E2|]. split; [exact E|].
  intros i j Hi Hj. apply dof_surj in Hi. destruct Hi as [a [m [Ha [Hm ->]]]]. apply dof_surj in Hj. destruct Hj as [b [k [Hb [Hk ->]]]].
  rewrite ee, e1, e2 by assumption. cbn [el zeros].
  set (c := kron m 1 * kron k 1 * (shp e a * shp e b * w)).
  assert (T : forall s, hoopOK e r s -> (if Rlt_dec 0 (kgrr e r s) then kron m 1 * kron k 1 * (shp e a * kgrr e r s * shp e b * w) else 0) = c * kgrr e r s).
  { intros s Hs. rewrite <- (kg_term e r s c Hs). destruct (Rlt_dec 0 (kgrr e r s)); [unfold c; ring|reflexivity]. }
  rewrite !T by assumption. rewrite kgrr_lin, kg_stress_lin. ring.
Qed.

Theorem kg_symm e r s w K : (1 <= nsd e)%nat -> symT (nsd e) s -> 
  formKG e r s w (zeros (nsd e * nen e) (nsd e * nen e)) = Ret K -> symm (nsd e * nen e) (el K).
Proof.
  intros Hd HS HK. destruct (formKG_ok e r s w (zeros (nsd e * nen e) (nsd e * nen e)) Hd eq_refl eq_refl) as [K' [E' ee]].
  rewrite HK in E'. injection E' as <-. intros i j Hi Hj.
  apply dof_surj in Hi. destruct Hi as [a [m [Ha [Hm ->]]]]. apply dof_surj in Hj. destruct Hj as [b [k [Hb [Hk ->]]]].
  rewrite !ee by assumption. cbn [el zeros]. unfold kron. rewrite (Nat.eqb_sym k m).
  rewrite (sumf_swap (nsd e) (nsd e) (fun i j => dN e b i * s i j * dN e a j)).
  rewrite (sumf_ext (nsd e) (fun i => sumf (nsd e) (fun j => dN e b j * s j i * dN e a i)) (fun i => sumf (nsd e) (fun j => dN e a i * s i j * dN e b j))).
  2:{ intros i Hi'. apply sumf_ext. intros j Hj'. rewrite (HS j i) by assumption. ring. }
  destruct (Rlt_dec 0 (kgrr e r s)); destruct (m =? 1)%nat, (k =? 1)%nat; ring.
Qed.

(** A compressive hoop stress contributes nothing. *)
Definition axiPt : elm := mkElm 2 true 1 2 (fun _ => 1) (fun _ _ => 0) 1.
Definition hoop (x : R) (i j : nat) : R := if ((i =? 3) && (j =? 3))%nat%bool then x else 0.

Theorem kg_compressive_hoop_dropped : exists K1 K2,
  formKG axiPt 1 (hoop 1) 1 (zeros 2 2) = Ret K1 /\ formKG axiPt 1 (hoop (-1)) 1 (zeros 2 2) = Ret K2 /\
  el K1 1 1 = 1 /\ el K2 1 1 = 0.
Proof.
  destruct (formKG_ok axiPt 1 (hoop 1) 1 (zeros 2 2) ltac:(cbn; lia) eq_refl eq_refl) as [K1 [E1 e1]].
  destruct (formKG_ok axiPt 1 (hoop (-1)) 1 (zeros 2 2) ltac:(cbn; lia) eq_refl eq_refl) as [K2 [E2 e2]].
  exists K1, K2. split; [exact E1|]. split; [exact E2|].
  specialize (e1 1%nat 1%nat 1%nat 1%nat ltac:(cbn; lia) ltac:(cbn; lia) ltac:(cbn; lia) ltac:(cbn; lia)).
  specialize (e2 1%nat 1%nat 1%nat 1%nat ltac:(cbn; lia) ltac:(cbn; lia) ltac:(cbn; lia) ltac:(cbn; lia)).
  change (dof (nsd axiPt) 1 1) with 1%nat in *.
  assert (k1 : kgrr axiPt 1 (hoop 1) = 1) by (unfold kgrr, axiPt, hoop; cbn; destruct (Rlt_dec 0 1); lra).
  assert (k2 : kgrr axiPt 1 (hoop (-1)) = -1) by (unfold kgrr, axiPt, hoop; cbn; destruct (Rlt_dec 0 1); lra).
  rewrite k1 in e1. rewrite k2 in e2.
  destruct (Rlt_dec 0 1) as [_|N]; [|lra]. destruct (Rlt_dec 0 (-1)) as [N|_]; [lra|].
  rewrite e1, e2. unfold kron. cbn. split; ring.
Qed.

(** ** Loads *)
Lemma nodal_ok e f ES : rows ES = (nsd e * nen e)%nat -> cols ES = 1%nat ->
  exists ES', nodal e f ES = Ret ES' /\ rows ES' = rows ES /\ cols ES' = cols ES /\
   forall a i, (1 <= a <= nen e)%nat -> (1 <= i <= nsd e)%nat -> el ES' (dof (nsd e) a i) 1 = el ES (dof (nsd e) a i) 1 + f i * shp e a.
Proof.
  intros HR HC. unfold nodal.
  match goal with |- exists E, run_add ?m ?ws = _ /\ _ => destruct (run_add_ok ws m) as [EK' [EE [RR [CC ee]]]] end.
  { intros i j v Hv. inl Hv. inw Hv. apply inb_true; rewrite ?HR, ?HC; [apply dof_range; lia|lia]. }
  exists EK'. split; [exact EE|]. split; [exact RR|]. split; [exact CC|]. intros a i Ha Hi. rewrite ee. f_equal.
  apply (hitsum_vec (nen e) (nsd e) (fun a i => f i * shp e a)); assumption.
Qed.

(** Total nodal load in direction [i] of slot [s]. *)
Definition slotSum (e : elm) (st : loads) (s i : nat) : R := sumf (nen e) (fun a => el (bvec st s) (dof (nsd e) a i) 1).
Definition okSlot (e : elm) (st : loads) (s : nat) : Prop := rows (bvec st s) = (nsd e * nen e)%nat /\ cols (bvec st s) = 1%nat.
Definition partUnity (e : elm) : Prop := sumf (nen e) (shp e) = 1.
(** Slot [s] of [st'] is slot [s] of [st] plus the consistent nodal load of [f]. *)
Definition gains (e : elm) (st st' : loads) (s : nat) (f : nat -> R) : Prop :=
  forall a i, (1 <= a <= nen e)%nat -> (1 <= i <= nsd e)%nat ->
    el (bvec st' s) (dof (nsd e) a i) 1 = el (bvec st s) (dof (nsd e) a i) 1 + f i * shp e a.

Lemma gains_sum e st st' s f i : partUnity e -> gains e st st' s f -> (1 <= i <= nsd e)%nat ->
  slotSum e st' s i = slotSum e st s i + f i.
Proof.
  intros HU HG Hi. unfold slotSum. rewrite (sumf_ext _ _ _ (fun a Ha => HG a i Ha Hi)), sumf_plus, sumf_scal.
  unfold partUnity in HU. rewrite HU. ring.
Qed.

Lemma body_ok e s f isz w grd st : okSlot e st s -> 
  exists st', formBodyForce e s f isz w grd st = Ret st' /\ nsum st' = nsum st /\
    gains e st st' s (fun i => if isz then 0 else f i * w) /\
    (forall k, k <> s -> bvec st' k = bvec st k) /\ okSlot e st' s /\
    (forall i, tot st' i = tot st i + (if grd then 0 else if isz then 0 else if ((1 <=? i) && (i <=? nsd e) && (i <=? nsum st))%nat%bool then f i * w else 0)).
Proof.
  intros [HR HC]. unfold formBodyForce. destruct isz.
  - exists st. split; [reflexivity|]. split; [reflexivity|]. split; [intros a i _ _; ring|]. split; [reflexivity|]. split; [split; assumption|].
    intros i. destruct grd; ring.
  - destruct (nodal_ok e (fun i => f i * w) (bvec st s) HR HC) as [ES [EE [RR [CC ee]]]]. rewrite EE. cbn [bind].
    assert (Gn : forall k, bvec (bset st s ES) k = if (k =? s)%nat then ES else bvec st k) by reflexivity.
    destruct grd; eexists; (split; [reflexivity|]); (split; [reflexivity|]); (split; [|split; [|split]]).
    + intros a i Ha Hi. rewrite Gn, Nat.eqb_refl. apply ee; assumption.
    + intros k Hk. rewrite Gn. apply Nat.eqb_neq in Hk. rewrite Hk. reflexivity.
    + split; rewrite Gn, Nat.eqb_refl; congruence.
    + intros i. cbn. ring.
    + intros a i Ha Hi. cbn [addTot bvec]. rewrite Gn, Nat.eqb_refl. apply ee; assumption.
    + intros k Hk. cbn [addTot bvec]. rewrite Gn. apply Nat.eqb_neq in Hk. rewrite Hk. reflexivity.
    + split; cbn [addTot bvec]; rewrite Gn, Nat.eqb_refl; congruence.
    + intros i. unfold addTot, bset. cbn [tot nsum bvec]. destruct (_ && _)%bool; ring.
Qed.

Theorem body_total e s f isz w st : partUnity e -> okSlot e st s -> (nsd e <= nsum st)%nat ->
  exists st', formBodyForce e s f isz w false st = Ret st' /\
    forall i, (1 <= i <= nsd e)%nat -> slotSum e st' s i - slotSum e st s i = tot st' i - tot st i.
Proof.
  intros HU HO Hs. destruct (body_ok e s f isz w false st HO) as [st' [EE [_ [HG [_ [_ HT]]]]]]. exists st'. split; [exact EE|].
  intros i Hi. rewrite (gains_sum e st st' s _ i HU HG Hi), HT.
  destruct isz; [ring|]. assert ((1 <=? i) && (i <=? nsd e) && (i <=? nsum st) = true)%nat%bool as ->.
  { rewrite !andb_true_iff, !Nat.leb_le. lia. }
  ring.
Qed.

Lemma bou_tail e gS Tg w st : okSlot e st gS ->
  exists st', (let* GS := nodal e (fun i => Tg i * w) (bvec st gS) in Ret (bset st gS GS)) = Ret st' /\
    gains e st st' gS (fun i => Tg i * w) /\ (forall k, k <> gS -> bvec st' k = bvec st k) /\ (forall i, tot st' i = tot st i).
Proof.
  intros [HR HC]. destruct (nodal_ok e (fun i => Tg i * w) (bvec st gS) HR HC) as [ES [EE [RR [CC ee]]]]. rewrite EE. cbn [bind].
  eexists. split; [reflexivity|]. split; [|split].
  - intros a i Ha Hi. cbn [bset bvec]. rewrite Nat.eqb_refl. apply ee; assumption.
  - intros k Hk. cbn [bset bvec]. apply Nat.eqb_neq in Hk. rewrite Hk. reflexivity.
  - reflexivity.
Qed.

(** Shared description of the boundary load statements; [wt] is the weight used for the total. *)
Lemma bou_ok e eS gS T Tg w wt st : eS <> 0%nat -> eS <> gS -> okSlot e st eS -> (gS <> 0%nat -> okSlot e st gS) ->
  exists st', (let* ES := nodal e (fun i => T i * w) (bvec st eS) in
     let st1 := addTot (bset st eS ES) (nsd e) (fun i => T i * wt) in
     if (gS =? 0)%nat then Ret st1 else let* GS := nodal e (fun i => Tg i * w) (bvec st1 gS) in Ret (bset st1 gS GS)) = Ret st' /\
    gains e st st' eS (fun i => T i * w) /\ (gS <> 0%nat -> gains e st st' gS (fun i => Tg i * w)) /\
    (forall k, k <> eS -> k <> gS -> bvec st' k = bvec st k) /\
    (forall i, tot st' i = tot st i + (if ((1 <=? i) && (i <=? nsd e) && (i <=? nsum st))%nat%bool then T i * wt else 0)).
Proof.
  intros H0 Hne [HR HC] HOg. destruct (nodal_ok e (fun i => T i * w) (bvec st eS) HR HC) as [ES [EE [RR [CC ee]]]]. rewrite EE. cbn [bind]. cbv zeta.
  set (st1 := addTot (bset st eS ES) (nsd e) (fun i => T i * wt)).
  assert (B1 : forall k, bvec st1 k = if (k =? eS)%nat then ES else bvec st k) by reflexivity.
  assert (T1 : forall i, tot st1 i = tot st i + (if ((1 <=? i) && (i <=? nsd e) && (i <=? nsum st))%nat%bool then T i * wt else 0)).
  { intros i. unfold st1, addTot, bset. cbn [tot nsum]. destruct (_ && _)%bool; ring. }
  assert (G1 : gains e st st1 eS (fun i => T i * w)).
  { intros a i Ha Hi. rewrite B1, Nat.eqb_refl. apply ee; assumption. }
  destruct (Nat.eqb_spec gS 0) as [->|Hg].
  - exists st1. split; [reflexivity|]. split; [exact G1|]. split; [congruence|]. split; [|exact T1].
    intros k Hk _. rewrite B1. apply Nat.eqb_neq in Hk. rewrite Hk. reflexivity.
  - assert (Bg : bvec st1 gS = bvec st gS) by (rewrite B1; destruct (Nat.eqb_spec gS eS); [congruence|reflexivity]).
    destruct (bou_tail e gS Tg w st1) as [st' [E2 [G2 [N2 T2]]]].
    { unfold okSlot. rewrite Bg. apply HOg. exact Hg. }
    exists st'. split; [exact E2|]. split; [|split; [|split]].
    + intros a i Ha Hi. rewrite (N2 eS Hne). apply G1; assumption.
    + intros _ a i Ha Hi. rewrite (G2 a i Ha Hi), Bg. reflexivity.
    + intros k Hk Hk2. rewrite (N2 k Hk2), B1. apply Nat.eqb_neq in Hk. rewrite Hk. reflexivity.
    + intros i. rewrite T2. apply T1.
Qed.

Lemma tot_in e st i : (1 <= i <= nsd e)%nat -> (nsd e <= nsum st)%nat -> ((1 <=? i) && (i <=? nsd e) && (i <=? nsum st) = true)%nat%bool.
Proof. intros. rewrite !andb_true_iff, !Nat.leb_le. lia. Qed.

Theorem bou_total_NL e eS gS T Tg w st : partUnity e -> eS <> 0%nat -> eS <> gS -> okSlot e st eS -> (gS <> 0%nat -> okSlot e st gS) ->
  (nsd e <= nsum st)%nat ->
  exists st', evalBouNL e eS gS T Tg w st = Ret st' /\
    forall i, (1 <= i <= nsd e)%nat -> slotSum e st' eS i - slotSum e st eS i = tot st' i - tot st i.
Proof.
  intros HU H0 Hne HO HOg Hs. unfold evalBouNL. destruct (Nat.eqb_spec eS 0); [congruence|].
  destruct (bou_ok e eS gS T Tg w w st H0 Hne HO HOg) as [st' [EE [G1 [_ [_ HT]]]]]. exists st'. split; [exact EE|].
  intros i Hi. rewrite (gains_sum e st st' eS _ i HU G1 Hi), HT, tot_in by assumption. ring.
Qed.

Theorem bou_total_lin e eS gS T Tg dJ st : partUnity e -> eS <> 0%nat -> eS <> gS -> okSlot e st eS -> (gS <> 0%nat -> okSlot e st gS) ->
  (nsd e <= nsum st)%nat ->
  exists st', evalBouLin e eS gS T Tg dJ (axiWeight e dJ) st = Ret st' /\
    forall i, (1 <= i <= nsd e)%nat ->
      slotSum e st' eS i - slotSum e st eS i = T i * axiWeight e dJ /\ tot st' i - tot st i = T i * dJ.
Proof.
  intros HU H0 Hne HO HOg Hs. unfold evalBouLin. destruct (Nat.eqb_spec eS 0); [congruence|].
  destruct (bou_ok e eS gS T Tg (axiWeight e dJ) dJ st H0 Hne HO HOg) as [st' [EE [G1 [_ [_ HT]]]]]. exists st'. split; [exact EE|].
  intros i Hi. rewrite (gains_sum e st st' eS _ i HU G1 Hi), HT, tot_in by assumption. split; ring.
Qed.

(** ** Load gradients *)
Theorem gradient_slots_TL e eS gS f g zf zg w st : eS <> 0%nat -> gS <> 0%nat -> eS <> gS -> okSlot e st eS -> okSlot e st gS ->
  exists st', loadsTL e eS gS f g zf zg w st = Ret st' /\
    gains e st st' eS (fun i => if zf then 0 else f i * w) /\ gains e st st' gS (fun i => if zg then 0 else g i * w) /\
    (forall k, k <> eS -> k <> gS -> bvec st' k = bvec st k).
Proof.
  intros H1 H2 Hne HO1 HO2. unfold loadsTL. destruct (Nat.eqb_spec eS 0); [congruence|]. destruct (Nat.eqb_spec gS 0); [congruence|].
  destruct (body_ok e eS f zf w false st HO1) as [st1 [E1 [_ [G1 [N1 [_ _]]]]]]. rewrite E1. cbn [bind].
  assert (Bg : bvec st1 gS = bvec st gS) by (apply N1; congruence).
  destruct (body_ok e gS g zg w true st1) as [st' [E2 [_ [G2 [N2 [_ _]]]]]]; [unfold okSlot; rewrite Bg; exact HO2|].
  exists st'. split; [exact E2|]. split; [|split].
  - intros a i Ha Hi. rewrite (N2 eS) by congruence. apply G1; assumption.
  - intros a i Ha Hi. rewrite (G2 a i Ha Hi), Bg. reflexivity.
  - intros k Hk Hk2. rewrite (N2 k) by congruence. apply N1; congruence.
Qed.

Theorem gradient_slots_UL e eS gS f g zf zg w st : eS <> 0%nat -> gS <> 0%nat -> eS <> gS -> okSlot e st eS -> okSlot e st gS ->
  exists st', loadsUL e eS gS f g zf zg w st = Ret st' /\
    gains e st st' eS (fun i => (if zf then 0 else f i * w) + (if zg then 0 else g i * w)) /\
    (forall k, k <> eS -> bvec st' k = bvec st k).
Proof.
  intros H1 H2 Hne HO1 HO2. unfold loadsUL. destruct (Nat.eqb_spec eS 0); [congruence|]. destruct (Nat.eqb_spec gS 0); [congruence|].
  destruct (body_ok e eS f zf w false st HO1) as [st1 [E1 [_ [G1 [N1 [O1 _]]]]]]. rewrite E1. cbn [bind].
  destruct (body_ok e eS g zg w true st1 O1) as [st' [E2 [_ [G2 [N2 [_ _]]]]]].
  exists st'. split; [exact E2|]. split.
  - intros a i Ha Hi. rewrite (G2 a i Ha Hi), (G1 a i Ha Hi). ring.
  - intros k Hk. rewrite (N2 k) by congruence. apply N1; congruence.
Qed.

(** The boundary integrals of all three formulations route the traction gradient correctly. *)
Theorem gradient_slots_bou e eS gS T Tg w dJ st : eS <> 0%nat -> gS <> 0%nat -> eS <> gS -> okSlot e st eS -> okSlot e st gS ->
  (exists st', evalBouNL e eS gS T Tg w st = Ret st' /\ gains e st st' eS (fun i => T i * w) /\ gains e st st' gS (fun i => Tg i * w) /\
     forall k, k <> eS -> k <> gS -> bvec st' k = bvec st k) /\
  (exists st', evalBouLin e eS gS T Tg dJ w st = Ret st' /\ gains e st st' eS (fun i => T i * w) /\ gains e st st' gS (fun i => Tg i * w) /\
     forall k, k <> eS -> k <> gS -> bvec st' k = bvec st k).
Proof.
  intros H1 H2 Hne HO1 HO2. split.
  - unfold evalBouNL. destruct (Nat.eqb_spec eS 0); [congruence|].
    destruct (bou_ok e eS gS T Tg w w st H1 Hne HO1 (fun _ => HO2)) as [st' [EE [G1 [G2 [N1 _]]]]]. exists st'. repeat split; auto.
  - unfold evalBouLin. destruct (Nat.eqb_spec eS 0); [congruence|].
    destruct (bou_ok e eS gS T Tg w dJ st H1 Hne HO1 (fun _ => HO2)) as [st' [EE [G1 [G2 [N1 _]]]]]. exists st'. repeat split; auto.
Qed.

(** ** Nanson's formula *)
Theorem nanson3 F p (a b : nat -> R) i : det3 F <> 0 -> (1 <= i <= 3)%nat ->
  pullBack 3 (inv3 F) (det3 F) (fun k => p * cross a b k) i = p * cross (fun k => mv 3 F a k) (fun k => mv 3 F b k) i.
Proof.
  intros HJ Hi. unfold pullBack. assert ((1 <=? i) && (i <=? 3) = true)%nat%bool as -> by (rewrite andb_true_iff, !Nat.leb_le; lia).
  unfold mv. idx i; unfold cross, inv3, det3 in *; cbn -[Rinv]; field; exact HJ.
Qed.

Definition det2 (F : nat -> nat -> R) : R := F 1%nat 1%nat * F 2%nat 2%nat - F 1%nat 2%nat * F 2%nat 1%nat.
Definition inv2 (F : nat -> nat -> R) (i j : nat) : R :=
  match i, j with
  | 1%nat, 1%nat => F 2%nat 2%nat | 1%nat, 2%nat => - F 1%nat 2%nat
  | 2%nat, 1%nat => - F 2%nat 1%nat | 2%nat, 2%nat => F 1%nat 1%nat | _, _ => 0 end / det2 F.

Theorem nanson2 F p (a : nat -> R) i : det2 F <> 0 -> (1 <= i <= 2)%nat ->
  pullBack 2 (inv2 F) (det2 F) (fun k => p * rotm90 a k) i = p * rotm90 (fun k => mv 2 F a k) i.
Proof.
  intros HJ Hi. unfold pullBack. assert ((1 <=? i) && (i <=? 2) = true)%nat%bool as -> by (rewrite andb_true_iff, !Nat.leb_le; lia).
  unfold mv. idx i; unfold rotm90, inv2, det2 in *; cbn -[Rinv]; field; exact HJ.
Qed.

(** Axisymmetric: F is block diagonal with the hoop stretch, and the area also grows by that stretch. *)
Theorem nanson_axi F p (a : nat -> R) i : det3 F <> 0 ->
  F 1%nat 3%nat = 0 -> F 2%nat 3%nat = 0 -> F 3%nat 1%nat = 0 -> F 3%nat 2%nat = 0 -> (1 <= i <= 2)%nat ->
  pullBack 2 (inv3 F) (det3 F) (fun k => p * rotm90 a k) i = p * (F 3%nat 3%nat * rotm90 (fun k => mv 2 F a k) i).
Proof.
  intros HJ H1 H2 H3 H4 Hi. unfold pullBack. assert ((1 <=? i) && (i <=? 2) = true)%nat%bool as -> by (rewrite andb_true_iff, !Nat.leb_le; lia).
  unfold mv. idx i; unfold rotm90, inv3; cbn -[Rinv det3]; rewrite ?H1, ?H2, ?H3, ?H4; field; exact HJ.
Qed.
