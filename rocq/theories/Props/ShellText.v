(** C149: plates, shells and beams described by keywords are those of the XML description. *)
From Coq Require Import List ZArith QArith Bool Lia.
From Verif.Lib Require Import Base.
From Verif.Model Require Import ShellText.
From Verif.Spec Require Import ShellText.
From Verif.Proofs Require Import ShellText.
Import ListNotations.
Local Open Scope Z_scope.

Definition positive (gs : list group) : Prop := Forall (fun d => 0 < q_code d) (pres gs).
Lemma positive_ok : forall gs, positive gs -> Forall okGroup gs.
Proof.
  intros gs H. apply Forall_forall. intros g Hg. destruct g as [q|l|l|l]; cbn; auto. intros d Hd.
  apply (proj1 (Forall_forall _ _) H). unfold pres. apply in_flat_map. exists (GPres l). auto.
Qed.

(** A point load in the XML input is added to the others, at its patch and parameters; in a shell it acts in its direction (one if not given).
    Loads on elements have a negative number, loads in nodes none. *)
Theorem C149_point : forall m p u v d e val s, match d with Some x => 0 < x | None => True end ->
  exists l, myLoads (parseElem m (XLoad p u v d e val) s) = myLoads s ++ [l] /\ l_val l = Some val /\ (l_dir l < 0 <-> e = true) /\
    (m = Shell3 -> Z.abs (l_dir l) = dflt d 1) /\ (m = Plate -> Z.abs (l_dir l) = 1) /\
    l_patch l = dflt p (match m with BeamC1 => 1 | _ => 0 end) /\ l_xi l = match m with BeamC1 => [dflt u (-1)%Q] | _ => [dflt u 0%Q; dflt v 0%Q] end.
Proof.
  intros m p u v d e val s H. eexists. split; [reflexivity|]. destruct m, e, d; cbn; repeat split; try reflexivity; try discriminate; intros; try lia; try discriminate.
Qed.
Print Assumptions C149_point.
Example C149_point_case : myLoads (parseElem Shell3 (XLoad (Some 2) None (Some 1%Q) (Some 3) true 5%Q) (init [])) = [mkPL 2 [0%Q; 1%Q] (-3) (Some 5%Q)].
Proof. reflexivity. Qed.

(** Any sequence of groups: the two inputs give the same materials, thicknesses, gravity, and pressures on every patch. *)
Theorem C149_same : forall m gs ps, positive gs ->
  exists s, run m (textFile m gs) Top (init ps) = Ret s /\
    same s (parseXml m (xmlFile gs) (init ps)) /\
    (forall patch, pressures s patch = pressures (parseXml m (xmlFile gs) (init ps)) patch) /\
    mVec s = map (matOf m) (isos gs) /\ tVec s = map i_t (isos gs) /\ gravity s = last (gravs gs) 0%Q /\
    material s = hd_error (map (matOf m) (isos gs)).
Proof.
  intros m gs ps H. apply positive_ok in H. exists (fold_left (addText m) gs (init ps)).
  assert (F : fronted (init ps)) by (split; reflexivity).
  assert (E : same (fold_left (addText m) gs (init ps)) (parseXml m (xmlFile gs) (init ps)))
    by (rewrite parse_groups; apply groups_same; [exact H|exact F|apply same_refl]).
  destruct (text_tabs m gs (init ps)) as (T1 & T2 & T3). cbn [init mVec tVec gravity app] in T1, T2, T3.
  split; [apply run_groups; [exact H|constructor]|]. split; [exact E|]. split.
  - intros patch. unfold pressures. destruct E as (_ & _ & -> & -> & _). reflexivity.
  - split; [exact T1|]. split; [exact T2|]. split; [exact T3|].
    destruct E as (E1 & _ & _ & _ & _ & -> & _). rewrite <- T1, E1.
    apply uses_all. reflexivity.
Qed.
Print Assumptions C149_same.

(** Pressures with a function of time or position: of the lines with the code of a set, the last one acts on its patch, with its function, in both inputs. *)
Record presF := mkPresF { f_code : Z; f_p : Q; f_fn : option word }.
Definition fnOf (d : presF) : fn := match f_fn d with Some w => FNamed w (f_p d) | None => FConst (f_p d) end.
Definition presWordsF (d : presF) : list word := [int (f_code d); Num (f_p d)] ++ match f_fn d with Some w => [w] | None => [] end.
Definition addPresF (s : state) (d : presF) : state :=
  setProps (setPropertyType (f_code d) BODYLOAD None (myProps s)) (setScalars ((f_code d, fnOf d) :: myScalars s) s).
Lemma presF_lines m l : forall i s, Forall (fun d => 0 < f_code d) l -> linesFrom m PRESSURE i (map presWordsF l) s = Ret (fold_left addPresF l s).
Proof.
  induction l as [|d l IH]; intros i s H; [reflexivity|]. inversion H; subst. cbn [map linesFrom dataLine fold_left presWordsF presLine app]. rewrite atoi_int.
  replace (0 <? f_code d) with true by (symmetry; apply Z.ltb_lt; assumption). unfold addPresF at 2, fnOf. destruct (f_fn d); cbn [bind TextInput.atof]; apply IH; assumption.
Qed.
Lemma presF_tabs l : forall s, myScalars (fold_left addPresF l s) = rev (map (fun d => (f_code d, fnOf d)) l) ++ myScalars s.
Proof. induction l as [|d l IH]; intros s; cbn [fold_left map rev]; [reflexivity|]. rewrite IH, <- app_assoc. reflexivity. Qed.
Lemma find_rev code l : find code (rev (map (fun d => (f_code d, fnOf d)) l)) = last (map (fun d => Some (fnOf d)) (filter (fun d => f_code d =? code) l)) None.
Proof.
  induction l as [|d l IH] using rev_ind; [reflexivity|]. rewrite map_app, rev_app_distr, filter_app, map_app. unfold find. cbn [map rev app List.find fst filter].
  destruct (f_code d =? code); [cbn; rewrite last_last; reflexivity|]. cbn. rewrite app_nil_r. exact IH.
Qed.
Lemma presF_patch l : forall s code patch, myProps s = [mkProp UNDEFINED code patch] \/ myProps s = [mkProp BODYLOAD code patch] ->
  myProps (fold_left addPresF l s) = (if existsb (fun d => f_code d =? code) l then [mkProp BODYLOAD code patch] else myProps s).
Proof.
  induction l as [|d l IH]; intros s code patch H; cbn [fold_left existsb]; [reflexivity|].
  assert (N : myProps (addPresF s d) = if f_code d =? code then [mkProp BODYLOAD code patch] else myProps s).
  { unfold addPresF. cbn [setProps myProps]. destruct H as [-> | ->]; cbn; rewrite ?(Z.eqb_sym code); destruct (Z.eqb_spec (f_code d) code); subst; reflexivity. }
  rewrite (IH _ code patch), N; destruct (f_code d =? code), (existsb (fun d => f_code d =? code) l); cbn [orb]; try reflexivity; rewrite N; auto.
Qed.
Lemma presF_xml m l : forall s t, Forall (fun d => 0 < f_code d) l -> myScalars s = myScalars t -> myProps s = myProps t ->
  myScalars (fold_left addPresF l s) = myScalars (parseXml m (map (fun d => XPressure (f_code d) (fnOf d)) l) t) /\ myProps (fold_left addPresF l s) = myProps (parseXml m (map (fun d => XPressure (f_code d) (fnOf d)) l) t).
Proof.
  induction l as [|d l IH]; intros s t H E1 E2; [split; assumption|]. inversion H; subst. apply IH; [assumption| |]; cbn [parseElem];
    replace (0 <? f_code d) with true by (symmetry; apply Z.ltb_lt; assumption); destruct m; try destruct (haveLoads _); cbn; congruence.
Qed.
Theorem C149_functions : forall m l code patch, Forall (fun d => 0 < f_code d) l -> 0 < code ->
  exists s, run m (section PRESSURE (map presWordsF l)) Top (init [mkProp UNDEFINED code patch]) = Ret s /\
    pressures s patch = match rev (filter (fun d => f_code d =? code) l) with d :: _ => [fnOf d] | [] => [] end /\
    (forall q, q <> patch -> pressures s q = []) /\
    (forall q, pressures s q = pressures (parseXml m (map (fun d => XPressure (f_code d) (fnOf d)) l) (init [mkProp UNDEFINED code patch])) q).
Proof.
  intros m l code patch H HC. exists (fold_left addPresF l (init [mkProp UNDEFINED code patch])). split.
  - unfold section. cbn [run start l_key l_args bind]. rewrite atoi_int. rewrite <- (app_nil_r (map data _)), run_enter, presF_lines by exact H. reflexivity.
  - destruct (presF_xml m l (init [mkProp UNDEFINED code patch]) (init [mkProp UNDEFINED code patch]) H eq_refl eq_refl) as [X1 X2].
    assert (Z0 : filter (fun d => f_code d =? 0) l = []).
    { clear - H. induction H as [|d l Hd H IH]; [reflexivity|]. cbn. destruct (Z.eqb_spec (f_code d) 0); [lia|exact IH]. }
    split; [|split; [|intros q; unfold pressures; rewrite X1, X2; reflexivity]].
    2: { intros q Hq. unfold pressures. rewrite presF_tabs. change (myScalars (init _)) with (@nil (Z * fn)). rewrite app_nil_r, !find_rev, (presF_patch l (init [mkProp UNDEFINED code patch]) code patch) by (left; reflexivity).
      rewrite Z0. cbn [map last app]. assert (NP : patch =? q = false) by (apply Z.eqb_neq; congruence). destruct (existsb _ l); cbn [flat_map p_code p_patch init myProps]; rewrite ?NP; reflexivity. }
    unfold pressures. rewrite presF_tabs. change (myScalars (init _)) with (@nil (Z * fn)). rewrite app_nil_r, !find_rev, (presF_patch l (init [mkProp UNDEFINED code patch]) code patch) by (left; reflexivity).
    rewrite Z0. cbn [map last app]. assert (EX : existsb (fun d => f_code d =? code) l = match filter (fun d => f_code d =? code) l with [] => false | _ => true end).
    { clear. induction l as [|d l IH]; [reflexivity|]. cbn. destruct (f_code d =? code); [reflexivity|exact IH]. }
    rewrite EX. destruct (filter (fun d => f_code d =? code) l) as [|d r] eqn:F using rev_ind; [reflexivity|]. rewrite rev_app_distr. cbn [rev app].
    destruct (r ++ [d]) eqn:RR; [destruct r; discriminate|]. cbn [flat_map p_code p_patch p_indx]. rewrite Z.eqb_refl, find_rev, F, <- RR, map_app. cbn [map]. rewrite last_last. reflexivity.
Qed.
Print Assumptions C149_functions.
Example C149_functions_case : exists s, run Plate (section PRESSURE (map presWordsF [mkPresF 4 2%Q None; mkPresF 4 3%Q (Some (Word 7))])) Top (init [mkProp UNDEFINED 4 1]) = Ret s /\
  pressures s 1 = [FNamed (Word 7) 3%Q].
Proof. eexists. split; reflexivity. Qed.

(** Each set of the geometry gets the material or pressure first assigned to its code; sets already in use are left alone. *)
Lemma find_app {A} (f : A -> bool) a b : List.find f (a ++ b) = match List.find f a with Some x => Some x | None => List.find f b end.
Proof. induction a as [|x a IH]; cbn; [reflexivity|]. destruct (f x); [reflexivity|exact IH]. Qed.
Lemma fate_app a b p : fate (a ++ b) p = fate b (fate a p).
Proof.
  unfold fate at 1 3. rewrite find_app. destruct (p_code p) eqn:K; try (unfold fate; rewrite K; reflexivity).
  destruct (List.find _ a) as [[c i|c]|]; [reflexivity|reflexivity|]. unfold fate. rewrite K. reflexivity.
Qed.
Lemma fate_nil p : fate [] p = p.
Proof. unfold fate. destruct (p_code p); reflexivity. Qed.
Lemma map_fate_app a b l : map (fate (a ++ b)) l = map (fate b) (map (fate a) l).
Proof. rewrite map_map. apply map_ext. intros. apply fate_app. Qed.
Lemma iso_fate m d s : myProps (addIso m s d) = map (fate [EMat (i_code d) (nMat s)]) (myProps s).
Proof.
  unfold addIso, matCode. cbn [pushMat myProps]. destruct (0 <? i_code d) eqn:P.
  - cbn [setProps myProps]. unfold setPropertyType. apply map_ext. intros p. unfold fate. cbn [List.find ev_code]. rewrite P. cbn [andb].
    rewrite (Z.eqb_sym (i_code d)). destruct (p_code p), (p_indx p =? i_code d); reflexivity.
  - rewrite <- (map_id (myProps s)) at 1. apply map_ext. intros p. unfold fate. cbn [List.find ev_code]. rewrite P. destruct (p_code p); reflexivity.
Qed.
Lemma isos_fate m l : forall s, myProps (fold_left (addIso m) l s) = map (fate (numbered (nMat s) l)) (myProps s).
Proof.
  induction l as [|d l IH]; intros s; cbn [fold_left numbered]; [rewrite (map_ext _ (fun p => p) fate_nil), map_id; reflexivity|].
  rewrite IH, iso_fate. change (EMat (i_code d) (nMat s) :: numbered (nMat s + 1) l) with ([EMat (i_code d) (nMat s)] ++ numbered (nMat s + 1) l). rewrite map_fate_app.
  replace (nMat (addIso m s d)) with (nMat s + 1); [reflexivity|]. unfold addIso, nMat, matCode. destruct (0 <? i_code d); cbn; rewrite app_length; cbn; lia.
Qed.
Lemma pres_fate l : forall s, (forall d, List.In d l -> 0 < q_code d) -> myProps (fold_left addPres l s) = map (fate (map (fun d => EPres (q_code d)) l)) (myProps s).
Proof.
  induction l as [|d l IH]; intros s H; cbn [fold_left map]; [rewrite (map_ext _ (fun p => p) fate_nil), map_id; reflexivity|].
  rewrite IH by (intros; apply H; right; assumption). change (EPres (q_code d) :: map (fun d => EPres (q_code d)) l) with ([EPres (q_code d)] ++ map (fun d => EPres (q_code d)) l).
  rewrite map_fate_app. f_equal. unfold addPres. cbn [setProps myProps]. unfold setPropertyType. apply map_ext. intros p. unfold fate. cbn [List.find ev_code].
  replace (0 <? q_code d) with true by (symmetry; apply Z.ltb_lt, H; left; reflexivity). cbn [andb]. rewrite (Z.eqb_sym (q_code d)). destruct (p_code p), (p_indx p =? q_code d); reflexivity.
Qed.
Lemma pres_mats l : forall s, mVec (fold_left addPres l s) = mVec s.
Proof. induction l as [|d l IH]; intros s; cbn [fold_left]; [reflexivity|]. rewrite IH. reflexivity. Qed.
Lemma groups_fate m gs : forall s, Forall okGroup gs -> myProps (fold_left (addText m) gs s) = map (fate (events (nMat s) gs)) (myProps s).
Proof.
  induction gs as [|g gs IH]; intros s H; cbn [fold_left events]; [rewrite (map_ext _ (fun p => p) fate_nil), map_id; reflexivity|].
  inversion H; subst. rewrite IH by assumption. destruct g as [q|l|l|l]; cbn [addText].
  - reflexivity.
  - rewrite map_fate_app. cbn [useFront myProps]. rewrite isos_fate. do 3 f_equal. unfold nMat. cbn [useFront mVec]. rewrite (proj1 (iso_tabs m l s)), app_length, map_length. lia.
  - reflexivity.
  - rewrite map_fate_app, pres_fate by assumption. unfold nMat. rewrite pres_mats. reflexivity.
Qed.
Definition thickSet (s : state) : Prop := thickness s = match tVec s with t :: _ => if Qeq_bool t 0 then (1 # 10)%Q else t | [] => (1 # 10)%Q end.
Lemma iso_thick m l : forall s, thickness (fold_left (addIso m) l s) = thickness s.
Proof. induction l as [|d l IH]; intros s; cbn [fold_left]; [reflexivity|]. rewrite IH. unfold addIso, matCode. destruct (0 <? i_code d); reflexivity. Qed.
Lemma text_thick m gs : forall s, thickSet s -> thickSet (fold_left (addText m) gs s).
Proof.
  induction gs as [|g gs IH]; intros s H; cbn [fold_left]; [exact H|]. apply IH. destruct g as [q|l|l|l]; cbn [addText]; [exact H| |exact H|].
  - unfold thickSet. cbn [useFront thickness tVec]. rewrite iso_thick, (proj1 (proj2 (iso_tabs m l s))). unfold thickSet in H. destruct (tVec s) as [|t r]; cbn [app].
    + destruct l; cbn [map]; [exact H|]. unfold isZeroQ. destruct (Qeq_bool _ _); [exact H|reflexivity].
    + unfold isZeroQ. destruct (Qeq_bool t 0); [exact H|reflexivity].
  - apply (fold_keep addPres thickSet); [|exact H]. intros t d Ht. exact Ht.
Qed.
Theorem C149_assigned : forall m gs ps, positive gs ->
  exists s, run m (textFile m gs) Top (init ps) = Ret s /\
    myProps s = map (fate (events 0 gs)) ps /\ thickness s = thickOf (isos gs) /\
    myProps (parseXml m (xmlFile gs) (init ps)) = map (fate (events 0 gs)) ps /\ thickness (parseXml m (xmlFile gs) (init ps)) = thickOf (isos gs).
Proof.
  intros m gs ps H. destruct (C149_same m gs ps H) as (s & R & E & _ & _ & T & _). apply positive_ok in H.
  assert (R2 : run m (textFile m gs) Top (init ps) = Ret (fold_left (addText m) gs (init ps))) by (apply run_groups; [exact H|constructor]).
  rewrite R in R2. injection R2 as ->.
  assert (P : myProps (fold_left (addText m) gs (init ps)) = map (fate (events 0 gs)) ps) by exact (groups_fate m gs (init ps) H).
  assert (K : thickness (fold_left (addText m) gs (init ps)) = thickOf (isos gs)).
  { rewrite (text_thick m gs (init ps)) by reflexivity. rewrite T. unfold thickOf. destruct (isos gs); reflexivity. }
  eexists. split; [exact R|]. split; [exact P|]. split; [exact K|]. destruct E as (_ & _ & _ & E4 & _ & _ & E7). rewrite <- E4, <- E7. split; assumption.
Qed.
Print Assumptions C149_assigned.
Example C149_assigned_case : positive [GIso [mkIso 1 1%Q 0%Q 1%Q 0%Q]; GPres [mkPres 2 3%Q]; GIso [mkIso 2 1%Q 0%Q 1%Q 1%Q; mkIso 3 1%Q 0%Q 1%Q 1%Q]] /\
  map (fate (events 0 [GIso [mkIso 1 1%Q 0%Q 1%Q 0%Q]; GPres [mkPres 2 3%Q]; GIso [mkIso 2 1%Q 0%Q 1%Q 1%Q; mkIso 3 1%Q 0%Q 1%Q 1%Q]]))
    [mkProp UNDEFINED 1 1; mkProp UNDEFINED 2 1; mkProp UNDEFINED 3 1; mkProp UNDEFINED 4 1; mkProp MATERIAL 3 1] =
  [mkProp MATERIAL 0 1; mkProp BODYLOAD 2 1; mkProp MATERIAL 2 1; mkProp UNDEFINED 4 1; mkProp MATERIAL 3 1].
Proof. split; [repeat constructor|reflexivity]. Qed.

(** The point loads are those of the last section in text, and all of them in XML. *)
Theorem C149_loads : forall m gs ps, positive gs ->
  exists s, run m (textFile m gs) Top (init ps) = Ret s /\
    myLoads s = last (map (map (loadOf m)) (loadGroups gs)) [] /\
    myLoads (parseXml m (xmlFile gs) (init ps)) = map (loadOf m) (loads gs).
Proof.
  intros m gs ps H. apply positive_ok in H. exists (fold_left (addText m) gs (init ps)).
  split; [apply run_groups; [exact H|constructor]|]. split; [apply text_loads|].
  rewrite parse_groups. apply (xml_loads m gs (init ps) H).
Qed.
Print Assumptions C149_loads.

Theorem C149_all_loads : forall m gs ps s, positive gs -> run m (textFile m gs) Top (init ps) = Ret s ->
  (myLoads s = myLoads (parseXml m (xmlFile gs) (init ps)) <-> Forall (fun l => l = []) (removelast (loadGroups gs))).
Proof.
  intros m gs ps s H R.
  destruct (C149_loads m gs ps H) as (t & R2 & L1 & L2). rewrite R in R2. injection R2 as <-. rewrite L1, L2.
  unfold loads. generalize (loadGroups gs). intros L. destruct L as [|a L] using rev_ind; [cbn; split; auto|].
  clear. rewrite removelast_last, map_app, concat_app. cbn [map concat]. rewrite last_last, app_nil_r, map_app. split.
  - intros E. apply (f_equal (@length _)) in E. rewrite app_length, !map_length in E.
    assert (Z : concat L = []) by (destruct (concat L); [reflexivity|cbn in E; lia]).
    clear -Z. induction L as [|x L IH]; constructor; cbn in Z; apply app_eq_nil in Z; [apply Z|apply IH, Z].
  - intros F. assert (Z : concat L = []) by (induction F as [|x L -> F IH]; [reflexivity|exact IH]). rewrite Z. reflexivity.
Qed.
Print Assumptions C149_all_loads.

(** A concrete model: gravity, two materials, two point loads and a pressure. *)
Definition caseGroups : list group :=
  [GGravity 10%Q; GIso [mkIso 1 200%Q (3 # 10)%Q 8%Q (1 # 5)%Q; mkIso 2 70%Q (3 # 10)%Q 3%Q (1 # 4)%Q];
   GLoad [mkLoad 1 (1 # 2)%Q (1 # 2)%Q 3 5%Q; mkLoad 2 1%Q 0%Q 1 7%Q]; GPres [mkPres 4 100%Q]].
Example C149_case : positive caseGroups /\
  exists s, run Shell3 (textFile Shell3 caseGroups) Top (init [mkProp UNDEFINED 1 1; mkProp UNDEFINED 2 2; mkProp UNDEFINED 4 2]) = Ret s /\
    loadValues (myLoads s) = Ret [5%Q; 7%Q] /\ pressures s 2 = [FConst 100%Q] /\ pressures s 1 = [] /\
    myProps s = [mkProp MATERIAL 0 1; mkProp MATERIAL 1 2; mkProp BODYLOAD 4 2] /\ thickness s = (1 # 5)%Q.
Proof.
  split; [repeat constructor|]. eexists. split; [vm_compute; reflexivity|]. repeat split.
Qed.

(** Full claim: every point load in the text file acts.  Of two sections only the second one is kept. *)
Theorem C149_all_loads_refuted : exists gs s, positive gs /\
  run Shell3 (textFile Shell3 gs) Top (init []) = Ret s /\
  loadValues (myLoads s) = Ret [7%Q] /\ loadValues (myLoads (parseXml Shell3 (xmlFile gs) (init []))) = Ret [5%Q; 7%Q].
Proof.
  exists [GLoad [mkLoad 1 0%Q 0%Q 3 5%Q]; GLoad [mkLoad 1 1%Q 1%Q 3 7%Q]]. eexists.
  split; [constructor|]. split; [vm_compute; reflexivity|]. split; reflexivity.
Qed.
Print Assumptions C149_all_loads_refuted.

(** Full claim: a load without a direction acts in the first direction.  It gets the one of an earlier load instead. *)
Theorem C149_direction_refuted : exists s,
  run Shell3 (section POINTLOAD [[int 1; Num 0%Q; Num 0%Q; Num 5%Q; int 3]] ++ section POINTLOAD [[int 2; Num 1%Q; Num 1%Q; Num 7%Q]])
      Top (init []) = Ret s /\ myLoads s = [mkPL 2 [1%Q; 1%Q] 3 (Some 7%Q)] /\
  myLoads (parseXml Shell3 [XLoad (Some 2) (Some 1%Q) (Some 1%Q) None false 7%Q] (init [])) = [mkPL 2 [1%Q; 1%Q] 1 (Some 7%Q)].
Proof. eexists. split; [vm_compute; reflexivity|]. split; reflexivity. Qed.
Print Assumptions C149_direction_refuted.

(** A section with fewer lines than announced is accepted; a plate or shell then calls a function that is not there, whereas a
    beam gets loads of zero size in a point outside the beam. *)
Theorem C149_missing : forall m ps ds n, (length ds < n)%nat ->
  exists s, run m (mkL (Some POINTLOAD) [int (Z.of_nat n)] :: map data (map (loadWords m) ds)) Top (init ps) = Ret s /\
    length (myLoads s) = n /\
    loadValues (myLoads s) = match m with BeamC1 => Ret (map d_P ds ++ repeat 0%Q (n - length ds)) | _ => UB end.
Proof.
  intros m ps ds n H. eexists. split; [apply run_missing, H|]. cbn [myLoads setLoads].
  rewrite app_length, map_length, repeat_length. split; [lia|]. rewrite values_of.
  destruct (n - length ds)%nat as [|k] eqn:E; [lia|]. destruct m; [reflexivity|reflexivity|].
  replace (loadValues (repeat (defLoad BeamC1) (S k))) with (Ret (repeat 0%Q (S k))); [reflexivity|].
  generalize (S k) as j. induction j as [|j IH]; [reflexivity|]. cbn [repeat loadValues]. rewrite <- IH. reflexivity.
Qed.
Print Assumptions C149_missing.
Theorem C149_missing_refuted : exists ls s, run Shell3 ls Top (init []) = Ret s /\ loadValues (myLoads s) = UB.
Proof.
  destruct (C149_missing Shell3 [] [mkLoad 1 0%Q 0%Q 3 5%Q] 2) as (s & R & _ & V); [cbn; lia|].
  eexists. exists s. split; [exact R|exact V].
Qed.
Print Assumptions C149_missing_refuted.

(** Full claim: a keyword line is never taken as data.  Any gravity line after an incomplete pressure section becomes a
    pressure on all patches, and there is no gravity. *)
Theorem C149_swallow_refuted : forall m ps code p g, 0 < code ->
  exists s, run m [mkL (Some PRESSURE) [int 2]; data [int code; Num p]; mkL (Some GRAVITY) [Num g]] Top (init ps) = Ret s /\
    gravity s = 0%Q /\ forall patch, exists r, pressures s patch = FConst g :: r.
Proof.
  intros m ps code p g H. eexists. split.
  - cbn. rewrite Z.quot_1_r. reflexivity.
  - replace (0 <? code) with true by (symmetry; apply Z.ltb_lt, H). split; [reflexivity|].
    intros patch. unfold pressures. cbn. eexists. reflexivity.
Qed.
Print Assumptions C149_swallow_refuted.

(** A pressure with code zero acts on all patches when given as text, and not at all in XML. *)
Theorem C149_zero_refuted : forall m ps p patch,
  exists s, run m (textFile m [GPres [mkPres 0 p]]) Top (init ps) = Ret s /\
    (exists r, pressures s patch = FConst p :: r) /\ parseXml m (xmlFile [GPres [mkPres 0 p]]) (init ps) = init ps.
Proof.
  intros m ps p patch. eexists. split; [reflexivity|]. split; [|reflexivity]. eexists. reflexivity.
Qed.
Print Assumptions C149_zero_refuted.

(** The values of the pressures are kept for visualisation if there are loads before the first assembly. *)
Theorem C149_shown : forall m xs ps code f, m <> BeamC1 -> 0 < code -> List.In (XPressure code f) xs -> Forall heavy xs ->
  haveLoads (parseXml m xs (init ps)) = true.
Proof.
  intros m xs ps code f Hm Hc Hin F. apply in_split in Hin as (a & b & ->). apply Forall_app in F as (Fa & Fb).
  rewrite parseXml_app. cbn [parseXml fold_left]. inversion Fb; subst. apply (shown_all m b); [assumption| |apply shown_pressure; assumption].
  apply uses_step, uses_all. reflexivity.
Qed.
Print Assumptions C149_shown.
Example C149_shown_case : Forall heavy [XGravity (Some 10%Q); XPressure 4 (FConst 100%Q)] /\
  haveLoads (parseXml Plate [XGravity (Some 10%Q); XPressure 4 (FConst 100%Q)] (init [])) = true.
Proof. split; [repeat constructor; discriminate|reflexivity]. Qed.
(** Pressures given as text, and those of beams, act but are not shown. *)
Theorem C149_shown_refuted : exists gs ps, positive gs /\
  (forall m, exists s, run m (textFile m gs) Top (init ps) = Ret s /\ pressures s 1 = [FConst 100%Q] /\ haveLoads s = false) /\
  pressures (parseXml BeamC1 (xmlFile gs) (init ps)) 1 = [FConst 100%Q] /\ haveLoads (parseXml BeamC1 (xmlFile gs) (init ps)) = false.
Proof.
  exists [GPres [mkPres 4 100%Q]], [mkProp UNDEFINED 4 1]. split; [repeat constructor|]. split; [|split; reflexivity].
  intros m. eexists. split; [reflexivity|]. split; reflexivity.
Qed.
Print Assumptions C149_shown_refuted.
