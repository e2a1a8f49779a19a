(** C137: the command line of the linear program; C138: the analysis it performs. *)
From Coq Require Import List ZArith Bool String Ascii Lia.
From Verif Require Import Model.LinMain Spec.LinMain Proofs.LinMain.
Import ListNotations.
Open Scope string_scope.
Open Scope list_scope.

Section Line.
Variables (base : string -> option (option Z * option Z)) (old : string -> list string -> option nat) (has : string -> string -> bool) (pid0 : bool)
  (content : string -> option (list elem)).
Notation commandLine := (commandLine base old has pid0 content).
Notation usable os := (forall o, In o os -> wellFormed pid0 o /\ ifemOk base old o).
(** A word that is no option. *)
Definition plain (f : string) : Prop := hyphen f = false /\ notIfem base old f.

Lemma fits_file os f r : mayFollow os f -> fits os (f :: r).
Proof. intros H os' o E. right. exact (H os' o E). Qed.
Lemma fits_end os : fits os [].
Proof. intros os' o E. exact I. Qed.
Lemma at_file f rest pos s g2 : scan base old has pid0 (f :: rest) pos 0 s (Some (pos, f)) g2 = scan base old has pid0 rest (S pos) 0 s (Some (pos, f)) g2.
Proof. cbn [scan]. now rewrite Nat.eqb_refl. Qed.
Lemma plain_arg f : plain f -> parseArg base f = None.
Proof.
  intros [N [B _]]. unfold parseArg. rewrite B. now rewrite ?(fun p H => eq_dash p f H N) by reflexivity.
Qed.
Lemma first_file f rest pos s g2 : plain f -> has f ".g2" = false ->
  scan base old has pid0 (f :: rest) pos 0 s None g2 =
    if has f ".xinp" then Restart s pos f g2 else scan base old has pid0 rest (S pos) 0 s (Some (pos, f)) g2.
Proof. intros P G. cbn [scan]. rewrite (plain_arg f P). destruct P as [N [_ Q]]. rewrite Q, (local_plain pid0 f rest N), G. reflexivity. Qed.
Lemma second_pass os1 f os2 s g2 : (forall a, In a (ownNames pid0) -> notIfem base old a) -> usable os1 -> usable os2 -> mayFollow os1 f ->
  scan base old has pid0 (line os1 ++ f :: line os2) 1 0 s (Some (1 + List.length (line os1), f)%nat) g2 =
  Finished (settingsOf pid0 s (os1 ++ os2)) (Some (1 + List.length (line os1), f)%nat) g2.
Proof.
  intros O U1 U2 M. rewrite scan_line; try assumption; [|cbn; lia|now apply fits_file].
  rewrite at_file. rewrite <- (app_nil_r (line os2)), scan_line; try assumption; [|cbn; lia|apply fits_end].
  cbn [scan]. f_equal. unfold settingsOf, puts. now rewrite map_app, concat_app, fold_left_app.
Qed.

(** Input in xml: the file is read with the options given before and after it, which override its own settings. *)
Theorem C137_options os1 f os2 es :
  (forall a, In a (ownNames pid0) -> notIfem base old a) -> usable os1 -> usable os2 -> plain f -> mayFollow os1 f ->
  has f ".g2" = false -> has f ".xinp" = true -> content f = Some es ->
  exists s, commandLine (line os1 ++ f :: line os2) = Run s (Some f) None /\
    forall k, k <> KtopSets -> k <> Kignored -> s k = settingsOf pid0 (fileSettings es) (os1 ++ os2) k.
Proof.
  intros O U1 U2 P M G X C. unfold LinMain.commandLine.
  rewrite scan_line; try assumption; [|exact I|now apply fits_file].
  rewrite first_file by assumption. rewrite X, C, second_pass by assumption. cbn [ended]. eexists. split; [reflexivity|].
  intros k K1 K2. set (m := List.concat (map (meaning pid0) (os1 ++ os2))).
  assert (AF : addFree k m) by now apply line_add.
  unfold settingsOf. fold m. rewrite !(puts_get k m _ None AF) by discriminate.
  destruct (lastSet k m None) eqn:Q; [reflexivity|]. rewrite <- fileSettings_pre. apply pre_at.
  unfold m in Q. rewrite map_app, concat_app in Q. apply lastSet_none in Q.
  rewrite (puts_get k _ _ None) by (discriminate || now apply line_add). now rewrite Q.
Qed.
(** A file that cannot be read ends the program with status 1, whatever the options. *)
Theorem C137_unreadable os1 f rest :
  (forall a, In a (ownNames pid0) -> notIfem base old a) -> usable os1 -> plain f -> mayFollow os1 f ->
  has f ".g2" = false -> has f ".xinp" = true -> content f = None -> commandLine (line os1 ++ f :: rest) = Exit1.
Proof.
  intros O U1 P M G X C. unfold LinMain.commandLine.
  rewrite scan_line; try assumption; [|exact I|now apply fits_file]. rewrite first_file by assumption. now rewrite X, C.
Qed.
(** Text input: the options are those given. *)
Theorem C137_text_options os1 f os2 :
  (forall a, In a (ownNames pid0) -> notIfem base old a) -> usable os1 -> usable os2 -> plain f -> mayFollow os1 f ->
  has f ".g2" = false -> has f ".xinp" = false ->
  exists s, commandLine (line os1 ++ f :: line os2) = Run s (Some f) None /\ forall k, s k = settingsOf pid0 initial (os1 ++ os2) k.
Proof.
  intros O U1 U2 P M G X. unfold LinMain.commandLine.
  rewrite scan_line; try assumption; [|exact I|now apply fits_file].
  rewrite first_file by assumption. rewrite X. rewrite <- (app_nil_r (line os2)), scan_line; try assumption; [|cbn; lia|apply fits_end].
  cbn [scan ended]. eexists. split; [reflexivity|]. intros k. unfold settingsOf, puts. now rewrite map_app, concat_app, fold_left_app.
Qed.
(** The place of the input file among the options does not matter. *)
Theorem C137_position os1 os2 os1' os2' f es :
  (forall a, In a (ownNames pid0) -> notIfem base old a) -> usable os1 -> usable os2 -> plain f -> mayFollow os1 f -> mayFollow os1' f ->
  has f ".g2" = false -> has f ".xinp" = true -> content f = Some es -> os1 ++ os2 = os1' ++ os2' ->
  exists s s', commandLine (line os1 ++ f :: line os2) = Run s (Some f) None /\ commandLine (line os1' ++ f :: line os2') = Run s' (Some f) None /\
    forall k, k <> KtopSets -> k <> Kignored -> s k = s' k.
Proof.
  intros O U1 U2 P M M' G X C E.
  assert (U : usable (os1' ++ os2')) by (rewrite <- E; intros o H; apply in_app_or in H; destruct H; auto).
  destruct (C137_options os1 f os2 es) as [s [R S1]]; try assumption.
  destruct (C137_options os1' f os2' es) as [s' [R' S2]]; try assumption; [intros o H; apply U, in_or_app; auto..|].
  exists s, s'. repeat split; try assumption. intros k A B. now rewrite S1, S2, E.
Qed.
(** Ignored patches and topology sets: those listed, as sets of words. *)
Theorem C137_lists os1 f os2 es :
  (forall a, In a (ownNames pid0) -> notIfem base old a) -> usable os1 -> usable os2 -> plain f -> mayFollow os1 f ->
  has f ".g2" = false -> has f ".xinp" = true -> content f = Some es ->
  exists s, commandLine (line os1 ++ f :: line os2) = Run s (Some f) None /\
    (forall w, In w (listOf (s Kignored)) <-> exists l, In (Ignore l) (os1 ++ os2) /\ In w l) /\
    (forall w, In w (listOf (s KtopSets)) <-> exists l, In (Sets l) (os1 ++ os2) /\ In w l).
Proof.
  intros O U1 U2 P M G X C. unfold LinMain.commandLine.
  rewrite scan_line; try assumption; [|exact I|now apply fits_file].
  rewrite first_file by assumption. rewrite X, C, second_pass by assumption. cbn [ended]. eexists. split; [reflexivity|].
  assert (NS : forall k os, k = Kignored \/ k = KtopSets -> forall v, ~ In (Set_ k v) (List.concat (map (meaning pid0) os))).
  { intros k os K v H. apply in_concat in H. destruct H as [l [Hl H]]. apply in_map_iff in Hl. destruct Hl as [o [<- _]].
    destruct o as [n|n w|l|l|id|a d p|a vs]; cbn [meaning] in H.
    - destruct (find _ _) as [e|] eqn:F; [|contradiction]. apply find_some in F. destruct F as [F _].
      unfold flags in F. cbn [In] in F. repeat (destruct F as [<-|F]; [cbn in H; destruct K; subst k; intuition discriminate|]). contradiction.
    - destruct (find _ valued) as [e|] eqn:F; [|contradiction]. apply find_some in F. destruct F as [F _].
      cbn in F. repeat (destruct F as [<-|F]; [cbn in H; destruct K; subst k; intuition discriminate|]). contradiction.
    - cbn in H. destruct K; subst k; intuition discriminate.
    - cbn in H. intuition discriminate.
    - destruct id; cbn in H; destruct K; subst k; intuition discriminate.
    - apply in_app_or in H. destruct d, p; cbn in H; destruct K; subst k; intuition discriminate.
    - contradiction. }
  assert (PK : forall k es s, k = Kignored \/ k = KtopSets -> fold_left preElem es s k = s k).
  { intros k es0. induction es0 as [|e es0 IH]; intros s K; [reflexivity|]. cbn [fold_left]. rewrite IH by exact K.
    destruct e; cbn [preElem]; try destruct (isDim s _); cbn; destruct K; subst k; reflexivity. }
  assert (All : forall k, k = Kignored \/ k = KtopSets -> forall w, In w (listOf (settingsOf pid0 (fold_left preElem es (settingsOf pid0 initial os1)) (os1 ++ os2) k)) <->
     exists v, In (Add k v) (List.concat (map (meaning pid0) (os1 ++ os2))) /\ In w v).
  { intros k K w. unfold settingsOf.
    assert (IL : isList (initial k)) by (destruct K; subst k; eexists; reflexivity).
    destruct (puts_list k (List.concat (map (meaning pid0) os1)) initial IL (NS k os1 K)) as [L1 E1].
    destruct (puts_list k (List.concat (map (meaning pid0) (os1 ++ os2))) (fold_left preElem es (puts initial (List.concat (map (meaning pid0) os1))))) as [L2 E2]; [now rewrite PK|now apply NS|].
    rewrite E2, PK, E1 by exact K. split; [|auto].
    intros [[H|[v [H W]]]|H]; [|exists v; split; [rewrite map_app, concat_app; apply in_or_app; auto|exact W]|exact H].
    destruct K; subst k; destruct H. }
  assert (Back : forall k v (mk : list string -> opt), (forall l, In (Add k l) (meaning pid0 (mk l))) -> (forall o, In (Add k v) (meaning pid0 o) -> o = mk v) ->
     (In (Add k v) (List.concat (map (meaning pid0) (os1 ++ os2))) <-> In (mk v) (os1 ++ os2))).
  { intros k v mk A B. rewrite in_concat. split.
    - intros [l [Hl H]]. apply in_map_iff in Hl. destruct Hl as [o [<- Ho]]. now rewrite <- (B o H).
    - intros H. exists (meaning pid0 (mk v)). split; [now apply in_map|apply A]. }
  split; intros w; rewrite All by auto; split; intros [v [H W]]; exists v; (split; [|exact W]).
  - apply (Back Kignored v Ignore); [intros l; cbn; auto| |exact H]. intros o Ho. destruct (meaning_add pid0 o _ _ Ho) as [[Q _]|[_ Q]]; [discriminate|exact Q].
  - apply (Back Kignored v Ignore); [intros l; cbn; auto| |exact H]. intros o Ho. destruct (meaning_add pid0 o _ _ Ho) as [[Q _]|[_ Q]]; [discriminate|exact Q].
  - apply (Back KtopSets v Sets); [intros l; cbn; auto| |exact H]. intros o Ho. destruct (meaning_add pid0 o _ _ Ho) as [[_ Q]|[Q _]]; [exact Q|discriminate].
  - apply (Back KtopSets v Sets); [intros l; cbn; auto| |exact H]. intros o Ho. destruct (meaning_add pid0 o _ _ Ho) as [[_ Q]|[Q _]]; [exact Q|discriminate].
Qed.
End Line.

(** IFEM with some of its options. *)
Definition base0 (a : string) : option (option Z * option Z) :=
  if a =? "-2D" then Some (Some 2%Z, None) else if a =? "-1D" then Some (Some 1%Z, None) else if a =? "-adap" then Some (None, Some 1%Z) else None.
Definition old0 (a : string) (r : list string) : option nat :=
  if a =? "-spr" then Some O else if a =? "-nGauss" then match r with _ :: _ => Some 1%nat | [] => None end else None.
Definition has0 (f e : string) : bool := match index 0 e f with Some _ => true | None => false end.
Lemma own0 pid0 a : In a (ownNames pid0) -> notIfem base0 old0 a.
Proof. intros H. cbn in H. repeat (destruct H as [<-|H]; [split; [reflexivity|intros r; reflexivity]|]). contradiction. Qed.
Definition file0 (f : string) : option (list elem) := if f =? "model.xinp" then Some [SetDim 2; EigMode 4; OtherElem] else None.
Definition settingsIn (r : result) : settings := match r with Run s _ _ => s | Exit1 => initial end.
Example C137_case :
  let os1 := [Flag "-check"; Val "-time" "2.5"; Ifem "-2D" (Some 2%Z) None] in let os2 := [Sets ["top"; "bottom"]; IfemOld "-nGauss" ["3"]; Ignore ["4"]] in
  (forall o, In o (os1 ++ os2) -> wellFormed true o /\ ifemOk base0 old0 o) /\ plain base0 old0 "model.xinp" /\ mayFollow os1 "model.xinp" /\
  line os1 ++ "model.xinp" :: line os2 = ["-check"; "-time"; "2.5"; "-2D"; "model.xinp"; "-dumpMatlab"; "top"; "bottom"; "-nGauss"; "3"; "-ignore"; "4"] /\
  exists s, commandLine base0 old0 has0 true file0 (line os1 ++ "model.xinp" :: line os2) = Run s (Some "model.xinp") None /\
    s Kiop = Nu 100 /\ s Ktime = Wd "2.5" /\ s Keig = Nu 4 /\ s Kdim = Nu 2 /\ s Kignored = Li ["4"].
Proof.
  cbv zeta. split; [|split; [|split; [|split]]].
  - intros o H. cbn in H. repeat (destruct H as [<-|H]; [split; cbn; try tauto|]); try contradiction; try reflexivity.
    + intros w [<-|[<-|[]]]; reflexivity.
    + split; [reflexivity|]. split; [intros r; reflexivity|]. intuition discriminate.
    + intros w [<-|[]]; reflexivity.
  - split; [reflexivity|]. split; [reflexivity|]. intros r; reflexivity.
  - intros os' o E. apply (f_equal (fun l => last l o)) in E. rewrite last_last in E. cbn in E. subst o. reflexivity.
  - reflexivity.
  - exists (settingsIn (commandLine base0 old0 has0 true file0 ["-check"; "-time"; "2.5"; "-2D"; "model.xinp"; "-dumpMatlab"; "top"; "bottom"; "-nGauss"; "3"; "-ignore"; "4"])).
    repeat split; vm_compute; reflexivity.
Qed.

Example C137_file_case : fileSettings [Superelem; BeamElem; EigMode 4] Kdim = Nu 14 /\ fileSettings [SetDim 2; Superelem] Kdim = Nu 2 /\
  fileSettings [BeamElem; Superelem] Kdim = Nu 4 /\ commandLine base0 old0 has0 true file0 ["-noPrincipal"; "other.xinp"] = Exit1.
Proof. repeat split. Qed.

(** An unknown option before the input file is taken for the input file, and the file is not read; this includes -RHSOnly, as
    the usage message writes it (the program knows -RHSonly). *)
Theorem C137_unknown_refuted : exists base old has content, (forall pid0 a, In a (ownNames pid0) -> notIfem base old a) /\ plain base old "model.xinp" /\
  has "model.xinp" ".xinp" = true /\ content "model.xinp" <> None /\
  (exists s, commandLine base old has true content ["-RHSOnly"; "model.xinp"] = Run s (Some "-RHSOnly") None) /\
  (exists s, commandLine base old has true content ["model.xinp"; "-RHSOnly"] = Run s (Some "model.xinp") None /\ s Kiop = Nu 0).
Proof.
  exists base0, old0, has0, file0. split; [exact own0|]. split; [split; [reflexivity|]; split; [reflexivity|intros r; reflexivity]|].
  split; [reflexivity|]. split; [discriminate|]. split.
  - exists (settingsIn (commandLine base0 old0 has0 true file0 ["-RHSOnly"; "model.xinp"])). vm_compute. reflexivity.
  - exists (settingsIn (commandLine base0 old0 has0 true file0 ["model.xinp"; "-RHSOnly"])). split; vm_compute; reflexivity.
Qed.
(** An input file after an option with optional values is taken for a value: there is no input file, and the program ends with
    its usage message and status zero. *)
Theorem C137_value_refuted : exists base old has content, (forall pid0 a, In a (ownNames pid0) -> notIfem base old a) /\ plain base old "model.xinp" /\
  (exists s, commandLine base old has true content ["-dumpMatlab"; "model.xinp"] = Run s None None) /\
  (exists s, commandLine base old has true content ["-staticCond"; "model.xinp"] = Run s None None /\ s Ksupid = Wd "model.xinp").
Proof.
  exists base0, old0, has0, file0. split; [exact own0|]. split; [split; [reflexivity|]; split; [reflexivity|intros r; reflexivity]|].
  split.
  - exists (settingsIn (commandLine base0 old0 has0 true file0 ["-dumpMatlab"; "model.xinp"])). vm_compute. reflexivity.
  - exists (settingsIn (commandLine base0 old0 has0 true file0 ["-staticCond"; "model.xinp"])). split; vm_compute; reflexivity.
Qed.
(** Topology sets given before an xml input file are listed twice, as these words are read twice. *)
Theorem C137_twice_refuted : exists base old has content f, (forall pid0 a, In a (ownNames pid0) -> notIfem base old a) /\ plain base old f /\
  exists s, commandLine base old has true content ["-dumpMatlab"; "top"; "-check"; f] = Run s (Some f) None /\ s KtopSets = Li ["top"; "top"].
Proof.
  exists base0, old0, has0, file0, "model.xinp". split; [exact own0|]. split; [split; [reflexivity|]; split; [reflexivity|intros r; reflexivity]|].
  exists (settingsIn (commandLine base0 old0 has0 true file0 ["-dumpMatlab"; "top"; "-check"; "model.xinp"])). split; vm_compute; reflexivity.
Qed.

Print Assumptions C137_options.
Print Assumptions C137_unreadable.
Print Assumptions C137_text_options.
Print Assumptions C137_position.
Print Assumptions C137_lists.
Print Assumptions C137_unknown_refuted.
Print Assumptions C137_value_refuted.
Print Assumptions C137_twice_refuted.

(** Without other solvers or settings, the analysis done is the one asked for. *)
Theorem C138_analysis_partial c :
  admissible c -> ~ conflicting c -> iop c = 0%Z \/ (eig c = 0%Z /\ adaptive c = false /\ dyn c = false /\ mlc c = false /\ coupled c = false) ->
  performed c = asked c.
Proof.
  destruct c as [i e d k a dy m r]. unfold admissible, conflicting, performed, asked, dynSol, modal, genEig, coupled, dynSol. cbn [iop eig dim klp adaptive dyn mlc restart].
  intros [Hi [He Hd]] NC H. cbv zeta in NC.
  assert (E : (e = 0 \/ e = 1 \/ e = 2 \/ e = 3 \/ e = 4 \/ e = 5 \/ e = 6)%Z) by lia.
  destruct H as [->|[-> [-> [-> [-> C]]]]].
  - clear Hi He. destruct Hd as [<-|[<-|[<-|[<-|[<-|[<-|[]]]]]]], E as [->|[->|[->|[->|[->|[->| ->]]]]]], k, a, dy, m, r; try reflexivity; exfalso; apply NC; cbn; auto 10.
  - clear E He NC. destruct Hi as [<-|[<-|[<-|[<-|[<-|[]]]]]], Hd as [<-|[<-|[<-|[<-|[<-|[<-|[]]]]]]], k, r; try reflexivity; discriminate C.
Qed.
(** A data check solves nothing only if no other analysis is set up: it is done with each of these. *)
Theorem C138_check_partial c : admissible c -> iop c = 100%Z ->
  (performed c = [] <-> (eig c = 0%Z /\ adaptive c = false /\ dyn c = false /\ mlc c = false /\ coupled c = false)).
Proof.
  destruct c as [i e d k a dy m r]. unfold admissible, performed, dynSol, modal, genEig, coupled, dynSol. cbn [iop eig dim klp adaptive dyn mlc restart].
  intros [_ [He Hd]] ->.
  assert (E : (e = 0 \/ e = 1 \/ e = 2 \/ e = 3 \/ e = 4 \/ e = 5 \/ e = 6)%Z) by lia. clear He.
  destruct Hd as [<-|[<-|[<-|[<-|[<-|[<-|[]]]]]]], E as [->|[->|[->|[->|[->|[->| ->]]]]]], k, a, dy, m, r; cbn; intuition discriminate.
Qed.
Theorem C138_check_refuted : exists c, admissible c /\ ~ conflicting c /\ iop c = 100%Z /\ eig c = 3%Z /\ performed c = [Vibration] /\ asked c = [].
Proof.
  exists (mkC 100 3 3 false false false false false). split; [split; [cbn; auto|split; cbn; [lia|auto 10]]|].
  split; [unfold conflicting; cbn; intuition discriminate|repeat split].
Qed.
(** A static condensation is not done, or replaced, if an eigenvalue analysis is set up too. *)
Theorem C138_condensation_refuted :
  (exists c, admissible c /\ ~ conflicting c /\ iop c = 9%Z /\ performed c = []) /\ (exists c, admissible c /\ ~ conflicting c /\ iop c = 9%Z /\ performed c = [Vibration]).
Proof.
  split; [exists (mkC 9 1 3 false false false false false)|exists (mkC 9 4 3 false false false false false)];
    (split; [split; [cbn; auto|split; cbn; [lia|auto 10]]|]; split; [unfold conflicting; cbn; intuition discriminate|split; reflexivity]).
Qed.
Example C138_case : admissible (mkC 0 4 2 false false true false false) /\ ~ conflicting (mkC 0 4 2 false false true false false) /\
  performed (mkC 0 4 2 false false true false false) = [Vibration; Newmark] /\ performed (mkC 0 4 2 false false true false true) = [Newmark] /\
  performed (mkC 0 5 3 false false false false false) = [Static; Buckling].
Proof. split; [split; [cbn; auto|split; cbn; [lia|auto 10]]|]. split; [unfold conflicting; cbn; intuition discriminate|repeat split]. Qed.
Print Assumptions C138_analysis_partial.
Print Assumptions C138_check_partial.
Print Assumptions C138_check_refuted.
Print Assumptions C138_condensation_refuted.
