(** Superelements (C108-C110). *)
From Coq Require Import List Ascii String Arith Bool Lia Sorting.Permutation Sorting.Sorted.
From Verif Require Import Lib.Base Model.FileNames Proofs.FileNames Model.Superelement Proofs.Superelement.
Import ListNotations.
Local Open Scope list_scope.
Local Open Scope nat_scope.

(** ** C108: files of a condensed superelement *)
Theorem C108_names_partial : forall stem e, noDot e ->
  recFile (stem ++ dot :: e) = stem ++ str ".rec" /\ supFile (stem ++ dot :: e) = stem ++ dot :: e /\
  (e <> str "rec" -> recFile (stem ++ dot :: e) <> supFile (stem ++ dot :: e)).
Proof.
  intros stem e H. unfold recFile, supFile. rewrite blast by assumption. split; [reflexivity|]. split; [reflexivity|].
  intros N C. apply app_inv_head in C. cbn in C. apply N. injection C as <-. reflexivity.
Qed.
Print Assumptions C108_names_partial.

Theorem C108_no_dot_partial : forall s, noDot s ->
  recFile s = s ++ str ".rec" /\ supFile s = s ++ str ".sup" /\ recFile s <> supFile s.
Proof.
  intros s H. unfold recFile, supFile. rewrite blast_none by assumption. split; [reflexivity|]. split; [reflexivity|].
  intros C. apply app_inv_head in C. discriminate.
Qed.
Print Assumptions C108_no_dot_partial.

(** Superelements whose names differ before one common extension, or have no dot, do not share files. *)
Theorem C108_distinct_partial : forall a b e, noDot e -> recFile (a ++ dot :: e) = recFile (b ++ dot :: e) -> a = b.
Proof. intros a b e H. unfold recFile. rewrite !blast by assumption. apply app_inv_tail. Qed.
Print Assumptions C108_distinct_partial.
Theorem C108_distinct_no_dot_partial : forall a b, noDot a -> noDot b -> recFile a = recFile b -> a = b.
Proof. intros a b H K. unfold recFile. rewrite !blast_none by assumption. apply app_inv_tail. Qed.
Print Assumptions C108_distinct_no_dot_partial.

(** A superelement file called *.rec is the recovery file itself ... *)
Theorem C108_same_file_refuted : forall stem, recFile (stem ++ str ".rec") = supFile (stem ++ str ".rec").
Proof. intros stem. unfold recFile, supFile. change (str ".rec") with (dot :: str "rec"). rewrite blast; [reflexivity|]. unfold noDot. cbn. intuition discriminate. Qed.
Print Assumptions C108_same_file_refuted.
(** ... and all names without extension below a directory with a dot in its name share one recovery file. *)
Theorem C108_directory_refuted : forall dir rest, noDot rest ->
  recFile (dir ++ dot :: rest) = dir ++ str ".rec" /\ supFile (dir ++ dot :: rest) = dir ++ dot :: rest.
Proof. intros dir rest H. unfold recFile, supFile. rewrite blast by assumption. split; reflexivity. Qed.
Print Assumptions C108_directory_refuted.
Example C108_case : recFile (str "a.sup") = str "a.rec" /\ recFile (str "./a") = recFile (str "./b") /\ recFile (str "./a") = str ".rec" /\
  recFile (str "v1.2/a") = recFile (str "v1.2/b").
Proof. repeat split; reflexivity. Qed.

(** ** C109: results of superelements *)
(** [ownFrom 0]: each patch of the model evaluated with its own material, in the sequence of the patches. *)
Theorem C109_one_model_partial : forall subs id m nrow zero sups start nblk cur,
  problemOf subs = Some id -> link subs id = Some m -> noNull m -> sups <> [] ->
  (forall j, In j sups -> j = id \/ link subs j = None) ->
  writeGlvS2 subs nrow zero sups start nblk cur = Ret
    (flat_map (fun k => map (fun j => mkBlock (nblk + nrow * k + j + 1) (start + k + 1) (j + 1)
                 (match link subs (nth k sups 0) with Some m => ownFrom k 0 m | None => zero k end)) (seq 0 nrow)) (seq 0 (List.length sups)),
     nblk + nrow * List.length sups,
     map (fun j => map (fun k => nblk + nrow * k + j + 1) (seq 0 (List.length sups))) (seq 0 nrow)).
Proof.
  intros subs id m nrow zero sups start nblk cur P L NN NE A. unfold writeGlvS2. rewrite P.
  destruct (glv_blocks subs id nrow zero (fun k => match link subs (nth k sups 0) with Some m => ownFrom k 0 m | None => zero k end)
    sups 0 start nblk cur []) as [sid [E Q]].
  { intros k j cur0 Hk. cbn [Nat.add]. rewrite (nth_error_nth sups k 0 Hk). apply nth_error_In in Hk.
    destruct (A j Hk) as [->|B]; [rewrite L; apply eval_own; assumption|rewrite B; eexists; reflexivity]. }
  rewrite E. cbn [Nat.add]. rewrite (Q ltac:(reflexivity) nblk ltac:(congruence) ltac:(reflexivity) ltac:(now left)). reflexivity.
Qed.
Print Assumptions C109_one_model_partial.

(** The columns are as many as the points of the visualised geometry, and each shows its own patch. *)
Theorem C109_columns : forall s m, List.length (ownFrom s 0 m) = tessPoints m /\
  forall c, In c (ownFrom s 0 m) -> csup c = s /\ exists n a, nth_error m (cpat c) = Some (PFE n a) /\ cmat c = Some a.
Proof.
  intros s m. split; [apply own_length|].
  enough (H : forall pre l c, In c (ownFrom s (List.length pre) l) -> csup c = s /\ exists n a, nth_error (pre ++ l) (cpat c) = Some (PFE n a) /\ cmat c = Some a) by (intros c; apply (H [])).
  intros pre l. revert pre. induction l as [|[|n a] l IH]; intros pre c Hc; cbn in Hc.
  - destruct Hc.
  - specialize (IH (pre ++ [PNull]) c). rewrite app_length, Nat.add_1_r, <- app_assoc in IH. now apply IH.
  - apply in_app_iff in Hc. destruct Hc as [Hc|Hc].
    + apply repeat_spec in Hc. subst c. cbn. split; [reflexivity|]. exists n, a. split; [|reflexivity]. rewrite nth_error_app2, Nat.sub_diag by lia. reflexivity.
    + specialize (IH (pre ++ [PFE n a]) c). rewrite app_length, Nat.add_1_r, <- app_assoc in IH. now apply IH.
Qed.
Print Assumptions C109_columns.

(** Any other superelement is evaluated with the material last set for the first model. *)
Theorem C109_other_model_refuted : forall s id prob m cur, noNull m -> id <> prob ->
  exists cs cur', evalPatches s id prob 0 m cur = Ret (cs, cur') /\ List.length cs = tessPoints m /\
    (forall c, In c cs -> cmat c = cur prob) /\
    (0 < tessPoints m -> (forall n a, In (PFE n a) m -> cur prob <> Some a) -> cs <> ownFrom s 0 m).
Proof.
  intros s id prob m cur NN N. destruct (eval_foreign s id prob 0 m cur NN N) as (cs & cur' & E & _ & L & B).
  exists cs, cur'. split; [exact E|]. split; [exact L|]. split; [intros c Hc; now apply B|].
  intros P D C. destruct cs as [|c r]; [cbn in L; lia|]. destruct (B c (or_introl eq_refl)) as [_ M].
  destruct (proj2 (C109_columns s m) c) as [_ (n & a & F & G)]; [rewrite <- C; now left|].
  apply (D n a); [eapply nth_error_In; exact F|]. congruence.
Qed.
Print Assumptions C109_other_model_refuted.
(** Two models: steel (material 1) and rubber (material 2); the second superelement is shown with the stresses of steel. *)
Theorem C109_materials_refuted : exists subs sups bs k sid, subs = parseSup [(Some 1, [PFE 2 1]); (Some 2, [PFE 2 2])] /\
  writeGlvS2 subs 1 (fun _ => []) sups 0 0 (fun _ => None) = Ret (bs, k, sid) /\ sups = [1; 2] /\
  map (fun b => map cmat (bdata b)) bs = [[Some 1; Some 1]; [Some 1; Some 1]].
Proof.
  exists (parseSup [(Some 1, [PFE 2 1]); (Some 2, [PFE 2 2])]), [1; 2]. eexists _, _, _. split; [reflexivity|]. split; [reflexivity|]. split; reflexivity.
Qed.
Print Assumptions C109_materials_refuted.
(** A patch that is not present on this process is passed over in the geometry but not in the results. *)
Theorem C109_missing_patch_refuted : forall s id prob m cur, In PNull m -> evalPatches s id prob 0 m cur = UB.
Proof. intros. now apply eval_null. Qed.
Print Assumptions C109_missing_patch_refuted.
(** Block identifiers of the components are distinct and clear of those of the beam solver. *)
Theorem C109_identifiers : forall idBlock n, NoDup (compIds idBlock n) /\ List.length (compIds idBlock n) = n /\ forall x, In x (compIds idBlock n) -> 21 <= x /\ idBlock <= x.
Proof.
  intros i n. unfold compIds. split; [apply seq_NoDup|]. split; [apply seq_length|]. intros x Hx. apply in_seq in Hx.
  destruct (Nat.leb_spec i 20); lia.
Qed.
Print Assumptions C109_identifiers.
Example C109_case : let subs := parseSup [(None, []); (Some 7, [PFE 2 1; PFE 1 3])] in
  problemOf subs = Some 7 /\ link subs 7 = Some [PFE 2 1; PFE 1 3] /\ link subs 4 = None /\
  writeGlvS2 subs 2 (fun s => [mkCol s 0 None]) [7; 4] 10 5 (fun _ => None) =
   Ret ([mkBlock 6 11 1 [mkCol 0 0 (Some 1); mkCol 0 0 (Some 1); mkCol 0 1 (Some 3)];
         mkBlock 7 11 2 [mkCol 0 0 (Some 1); mkCol 0 0 (Some 1); mkCol 0 1 (Some 3)];
         mkBlock 8 12 1 [mkCol 1 0 None]; mkBlock 9 12 2 [mkCol 1 0 None]], 9, [[6; 8]; [7; 9]]).
Proof. repeat split. Qed.

(** The model of an identifier is the last one given for it. *)
Lemma find_set id m l j : findSub j (setSub id m l) = if j =? id then Some m else findSub j l.
Proof.
  induction l as [|[k x] r IH]; cbn [setSub findSub].
  - reflexivity.
  - destruct (Nat.eqb_spec id k) as [->|N]; cbn [findSub].
    + destruct (j =? k); reflexivity.
    + destruct (Nat.ltb_spec id k) as [L|L]; cbn [findSub]; [reflexivity|]. rewrite IH. destruct (Nat.eqb_spec j k) as [->|]; [|reflexivity].
      destruct (Nat.eqb_spec k id); [congruence|reflexivity].
Qed.
Theorem C109_model_of_identifier : forall bs id m, link (parseSup (bs ++ [(Some id, m)])) id = Some m /\
  (forall j, j <> id -> link (parseSup (bs ++ [(Some id, m)])) j = link (parseSup bs) j) /\
  (forall j, link (parseSup (bs ++ [(None, m)])) j = link (parseSup bs) j).
Proof.
  intros bs id m. unfold link, parseSup. rewrite !fold_left_app. cbn [fold_left fst snd].
  split; [rewrite find_set, Nat.eqb_refl; reflexivity|]. split; [|reflexivity].
  intros j N. rewrite find_set. destruct (Nat.eqb_spec j id); [contradiction|reflexivity].
Qed.
Print Assumptions C109_model_of_identifier.

(** ** C110: the superelement requested is condensed to the retained nodes *)
Definition wanted (sup : option nat) (b : list tag) : Prop :=
  match sup with None => True | Some s => forall id, In (TSuperelement (Some id)) b -> id = s end.
Theorem C110_selection : forall sup bs, exists rd,
  fst (parseBlocks sup bs) = List.filter rd bs /\
  (forall b, rd b = true <-> wanted sup b) /\
  snd (parseBlocks sup bs) = flat_map (fun b => match lastSC b None with Some k => [k] | None => [] end) (List.filter rd bs).
Proof.
  intros sup bs. exists (fun b => match scanSC sup b None with Some _ => true | None => false end).
  assert (G : forall bs st, let r := fold_left (fun st b => parseBlock sup b st) bs st in
     fst r = fst st ++ List.filter (fun b => match scanSC sup b None with Some _ => true | None => false end) bs /\
     snd r = snd st ++ flat_map (fun b => match lastSC b None with Some k => [k] | None => [] end) (List.filter (fun b => match scanSC sup b None with Some _ => true | None => false end) bs)).
  { induction bs0 as [|b r IH]; intros st; cbn [fold_left List.filter]; [cbn; now rewrite !app_nil_r|].
    destruct (IH (parseBlock sup b st)) as [A B]. cbn in *. rewrite A, B. unfold parseBlock.
    destruct (scanSC sup b None) as [sc|] eqn:E; [|split; reflexivity]. apply scan_last in E. subst sc. cbn [fst snd flat_map].
    rewrite <- !app_assoc. split; reflexivity. }
  destruct (G bs ([], [])) as [A B]. unfold parseBlocks. cbn in *. rewrite A, B. split; [|split].
  - reflexivity.
  - intros b. unfold wanted. destruct sup as [s|].
    + split.
      * intros H id Hid. destruct (Nat.eq_dec id s) as [|N]; [assumption|]. rewrite (scan_none s b None id Hid N) in H. discriminate.
      * intros H. destruct (scan_some s b None H) as [r ->]. reflexivity.
    + destruct (scan_free b None) as [r ->]. tauto.
  - reflexivity.
Qed.
Print Assumptions C110_selection.

Theorem C110_retained_nodes : forall I (get : I -> list nat -> list nat * bool) (nodes : I -> list nat) (valid : I -> bool) items old,
  (forall it ns, snd (get it ns) = valid it /\ forall x, In x (fst (get it ns)) <-> In x ns \/ (valid it = true /\ In x (nodes it))) ->
  forallb valid items = true ->
  let r := retained I get items true old in
  snd r = true /\ (forall x, In x (fst r) <-> In x old \/ exists it, In it items /\ In x (nodes it)) /\ Sorted le (fst r).
Proof.
  intros I get nodes valid items old H V. cbn. unfold retained. cbn [negb].
  destruct (retained_fold I get nodes valid items H old true) as [A B]. cbn in A, B.
  destruct (fold_left _ items (old, true)) as [ns ok]. cbn [fst snd] in *. rewrite A, V in *. cbn [negb orb].
  rewrite forallb_forall in V.
  assert (B' : forall x, In x ns <-> In x old \/ exists it, In it items /\ In x (nodes it)).
  { intros x. rewrite B. split; (intros [C|(it & C)]; [now left|right; exists it]); intuition. }
  destruct ns as [|n t]; cbn [fst snd].
  - split; [reflexivity|]. split; [exact B'|constructor].
  - split; [reflexivity|]. split; [|apply sortN_sorted]. intros x. rewrite <- B'. split; apply Permutation_in; [symmetry|]; apply sortN_perm.
Qed.
Print Assumptions C110_retained_nodes.

Theorem C110_invalid_set : forall I (get : I -> list nat -> list nat * bool) (nodes : I -> list nat) (valid : I -> bool) items old it,
  (forall it ns, snd (get it ns) = valid it /\ forall x, In x (fst (get it ns)) <-> In x ns \/ (valid it = true /\ In x (nodes it))) ->
  In it items -> valid it = false -> snd (retained I get items true old) = false.
Proof.
  intros I get nodes valid items old it H Hin V. unfold retained. cbn [negb].
  destruct (retained_fold I get nodes valid items H old true) as [A _]. cbn in A.
  destruct (fold_left _ items (old, true)) as [ns ok]. cbn [fst snd] in *. subst ok.
  destruct (forallb valid items) eqn:F; [|reflexivity]. rewrite forallb_forall in F. rewrite (F it Hin) in V. discriminate.
Qed.
Print Assumptions C110_invalid_set.

(** Of several condensation tags in one block only the last one is read, so its retained sets alone count. *)
Theorem C110_several_tags_refuted : forall sup j k, parseBlocks sup [[TStatCond j; TStatCond k]] = ([[TStatCond j; TStatCond k]], [k]).
Proof. reflexivity. Qed.
Print Assumptions C110_several_tags_refuted.
(** A name that no superelement has is accepted: the model is empty and nothing is condensed. *)
Theorem C110_unknown_name_refuted : forall s ids, ~ In s ids -> parseBlocks (Some s) (map (fun id => [TSuperelement (Some id); TStatCond id]) ids) = ([], []).
Proof.
  intros s ids. unfold parseBlocks. generalize (@nil (list tag), @nil nat). induction ids as [|i r IH]; intros st H; cbn; [reflexivity|].
  unfold parseBlock at 2. cbn. destruct (Nat.eqb_spec i s) as [->|N]; [exfalso; apply H; now left|]. apply IH. intro; apply H; now right.
Qed.
Print Assumptions C110_unknown_name_refuted.
Example C110_case : parseBlocks (Some 2) [[TOther 0]; [TSuperelement (Some 1); TStatCond 5]; [TStatCond 6; TSuperelement (Some 2)]] =
  ([[TOther 0]; [TStatCond 6; TSuperelement (Some 2)]], [6]) /\
  retained nat (fun it ns => (ns ++ [it; 3], true)) [5; 2] true [] = ([2; 3; 3; 5], true).
Proof. split; reflexivity. Qed.
