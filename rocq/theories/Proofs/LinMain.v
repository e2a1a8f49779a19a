(** Lemmas for C137: the loop over the words of the command line. *)
From Coq Require Import List ZArith Bool String Ascii Lia.
From Verif Require Import Model.LinMain Spec.LinMain.
Import ListNotations.
Open Scope string_scope.
Open Scope list_scope.

Lemma hyphen_dash w : dash w = hyphen w.
Proof. destruct w as [|c w]; [reflexivity|]. unfold hyphen. cbn. destruct c as [[] [] [] [] [] [] [] []]; reflexivity. Qed.
Lemma prefix_dash p f : hyphen p = true -> hyphen f = false -> prefix p f = false.
Proof.
  destruct p as [|c p]; [discriminate|]. intros H. destruct f as [|d f]; [reflexivity|]. unfold hyphen in *. cbn in *.
  intros N. destruct (ascii_dec c d) as [->|_]; [congruence|reflexivity].
Qed.
Lemma eq_dash p f : hyphen p = true -> hyphen f = false -> (f =? p) = false.
Proof. intros H N. destruct (String.eqb_spec f p) as [->|]; [congruence|reflexivity]. Qed.
Lemma local_plain pid0 f r : hyphen f = false -> local pid0 f r = None.
Proof. intros N. unfold local. rewrite ?(fun p H => eq_dash p f H N), ?(fun p H => prefix_dash p f H N) by reflexivity. reflexivity. Qed.
Lemma take_all p l r : (forall w, In w l -> p w = true) -> match r with w :: _ => p w = false | [] => True end -> takeWhile p (l ++ r) = l.
Proof.
  intros A B. induction l as [|w l IH]; cbn.
  - destruct r as [|w r]; [reflexivity|]. cbn. now rewrite B.
  - rewrite (A w (or_introl eq_refl)). f_equal. apply IH. intros v H. apply A. now right.
Qed.
Lemma number_hyphen w : number w = true -> hyphen w = false.
Proof.
  destruct w as [|c w]; [reflexivity|]. unfold number, hyphen. cbn [startsWith]. intros H.
  destruct (Ascii.eqb_spec c "-") as [->|]; [discriminate H|reflexivity].
Qed.

Section Scan.
Variables (base : string -> option (option Z * option Z)) (old : string -> list string -> option nat) (has : string -> string -> bool) (pid0 : bool).
Notation scan := (scan base old has pid0).
Hypothesis Own : forall a, In a (ownNames pid0) -> notIfem base old a.

Lemma scan_skip vs : forall rest pos s inf g2, scan (vs ++ rest) pos (List.length vs) s inf g2 = scan rest (pos + List.length vs) 0 s inf g2.
Proof.
  induction vs as [|v vs IH]; intros; cbn [app List.length].
  - now rewrite Nat.add_0_r.
  - cbn [LinMain.scan]. rewrite IH. f_equal. lia.
Qed.
Definition away (inf : option (nat * string)) (pos : nat) : Prop := match inf with Some (p, _) => p <> pos | None => True end.
Lemma away_test inf pos : away inf pos -> (match inf with Some (p, _) => (p =? pos)%nat | None => false end) = false.
Proof. destruct inf as [[p f]|]; [|reflexivity]. cbn. intros H. now apply Nat.eqb_neq. Qed.
Definition ends (o : opt) (rest : list string) : Prop := match rest with w :: _ => hyphen w = true \/ open o w = false | [] => True end.

Lemma step_local a vs rest pos s inf g2 l :
  away inf pos -> In a (ownNames pid0) -> ~ In a ["-sup"; "-1D3D"; "-1Dsup"] -> local pid0 a (vs ++ rest) = Some (l, List.length vs) ->
  scan (a :: vs ++ rest) pos 0 s inf g2 = scan rest (pos + S (List.length vs)) 0 (puts s l) inf g2.
Proof.
  intros A O NS L. destruct (Own a O) as [B Q]. cbn [LinMain.scan]. rewrite (away_test inf pos A). unfold parseArg. rewrite B.
  destruct (String.eqb_spec a "-sup") as [->|_]; [exfalso; apply NS; cbn; auto|].
  destruct (String.eqb_spec a "-1D3D") as [->|_]; [exfalso; apply NS; cbn; auto|].
  destruct (String.eqb_spec a "-1Dsup") as [->|_]; [exfalso; apply NS; cbn; auto|].
  rewrite Q, L, scan_skip. f_equal. lia.
Qed.
Lemma step_flag e : In e (flags pid0) -> forall rest pos s inf g2, away inf pos ->
  scan (fst e :: rest) pos 0 s inf g2 = scan rest (pos + 1) 0 (puts s (snd e)) inf g2.
Proof.
  intros H rest pos s inf g2 A.
  assert (O : In (fst e) (ownNames pid0)) by (unfold ownNames; apply in_or_app; left; now apply in_map).
  destruct (in_dec string_dec (fst e) ["-sup"; "-1D3D"; "-1Dsup"]) as [I3|N3].
  - destruct (Own _ O) as [B _]. cbn [LinMain.scan]. rewrite (away_test inf pos A). unfold parseArg. rewrite B. rewrite Nat.add_1_r.
    unfold flags in H. cbn [In] in H. repeat (destruct H as [<-|H]; [first [exfalso; clear - I3; cbn in I3; intuition discriminate|reflexivity]|]). contradiction.
  - apply (step_local (fst e) [] rest); try assumption. cbn [app List.length].
    unfold flags in H. cbn [In] in H.
    repeat (destruct H as [<-|H]; [first [reflexivity|exfalso; apply N3; cbn; auto]|]). contradiction.
Qed.
Lemma find_flag n : In n (map fst (flags pid0)) -> exists e, In e (flags pid0) /\ fst e = n /\ find (fun e => String.eqb (fst e) n) (flags pid0) = Some e.
Proof.
  induction (flags pid0) as [|e l IH]; [contradiction|]. cbn. destruct (String.eqb_spec (fst e) n) as [E|N].
  - intros _. exists e. auto.
  - intros [E|H]; [contradiction|]. destruct (IH H) as [e' [A [B C]]]. exists e'. auto.
Qed.
Lemma step o rest pos s inf g2 : wellFormed pid0 o -> ifemOk base old o -> away inf pos -> ends o rest ->
  scan (words o ++ rest) pos 0 s inf g2 = scan rest (pos + List.length (words o)) 0 (puts s (meaning pid0 o)) inf g2.
Proof.
  intros W F A E. destruct o as [n|n v|l|l|id|a d p|a vs]; cbn [words meaning wellFormed ifemOk] in *.
  - destruct (find_flag n W) as [e [He [<- Q]]]. rewrite Q. exact (step_flag e He rest pos s inf g2 A).
  - cbn in W. assert (O : In n (ownNames pid0)) by (unfold ownNames; apply in_or_app; right; apply in_or_app; left; exact W).
    destruct W as [<-|[<-|[<-|[<-|[<-|[<-|[<-|[]]]]]]]]; (apply (step_local _ [v] rest pos s inf g2 _ A O); [cbn; intuition discriminate|reflexivity]).
  - apply (step_local "-dumpMatlab" l rest pos s inf g2 _ A); [unfold ownNames; apply in_or_app; right; cbn; auto 20|cbn; intuition discriminate|].
    unfold local. cbn [String.eqb Ascii.eqb Bool.eqb].
    rewrite take_all; [reflexivity| |].
    + intros w Hw. rewrite hyphen_dash, (W w Hw). reflexivity.
    + destruct rest as [|w r]; [exact I|]. rewrite hyphen_dash. destruct E as [E|E]; [now rewrite E|]. cbn in E. exact E.
  - apply (step_local "-ignore" l rest pos s inf g2 _ A); [unfold ownNames; apply in_or_app; right; cbn; auto 20|cbn; intuition discriminate|].
    change (local pid0 "-ignore" (l ++ rest)) with (Some ([Add Kignored (takeWhile isDigit (l ++ rest))], List.length (takeWhile isDigit (l ++ rest)))).
    rewrite take_all; [reflexivity|exact W|].
    destruct rest as [|w r]; [exact I|]. destruct E as [E|E]; [|exact E].
    destruct (number w) eqn:N; [apply number_hyphen in N; congruence|]. exact N.
  - destruct id as [i|].
    + apply (step_local "-staticCond" [i] rest pos s inf g2 _ A); [unfold ownNames; apply in_or_app; right; cbn; auto 20|cbn; intuition discriminate|].
      change (local pid0 "-staticCond" ([i] ++ rest)) with (if dash i then Some ([Set_ Kiop (Nu 9)], O) else Some ([Set_ Kiop (Nu 9); Set_ Ksupid (Wd i)], 1%nat)).
      now rewrite hyphen_dash, W.
    + apply (step_local "-staticCond" [] rest pos s inf g2 _ A); [unfold ownNames; apply in_or_app; right; cbn; auto 20|cbn; intuition discriminate|].
      destruct rest as [|w r]; [reflexivity|].
      change (local pid0 "-staticCond" ([] ++ w :: r)) with (if dash w then Some ([Set_ Kiop (Nu 9)], O) else Some ([Set_ Kiop (Nu 9); Set_ Ksupid (Wd w)], 1%nat)).
      rewrite hyphen_dash. destruct E as [E|E]; [now rewrite E|]. cbn in E. apply negb_false_iff in E. now rewrite E.
  - cbn [app List.length LinMain.scan]. rewrite (away_test inf pos A). unfold parseArg. rewrite F, Nat.add_1_r. reflexivity.
  - destruct F as [B [Q N]]. cbn [app List.length LinMain.scan]. rewrite (away_test inf pos A). unfold parseArg. rewrite B.
    destruct (String.eqb_spec a "-sup") as [->|_]; [exfalso; apply N; cbn; auto|].
    destruct (String.eqb_spec a "-1D3D") as [->|_]; [exfalso; apply N; cbn; auto|].
    destruct (String.eqb_spec a "-1Dsup") as [->|_]; [exfalso; apply N; cbn; auto|].
    rewrite Q, scan_skip. f_equal. lia.
Qed.
Lemma words_hyphen o : wellFormed pid0 o -> exists a r, words o = a :: r /\ hyphen a = true.
Proof.
  intros W. destruct o as [n|n v|l|l|id|a d p|a vs]; cbn in *; do 2 eexists; (split; [reflexivity|]); try reflexivity; try assumption.
  - unfold flags in W. cbn in W. repeat (destruct W as [<-|W]; [reflexivity|]). contradiction.
  - repeat (destruct W as [<-|W]; [reflexivity|]). contradiction.
Qed.
Definition beyond (inf : option (nat * string)) (pos n : nat) : Prop := match inf with Some (p, _) => (p < pos \/ pos + n <= p)%nat | None => True end.
Definition fits (os : list opt) (rest : list string) : Prop :=
  forall os' o, os = os' ++ [o] -> ends o rest.
Lemma scan_line os : forall rest pos s inf g2, (forall o, In o os -> wellFormed pid0 o /\ ifemOk base old o) ->
  beyond inf pos (List.length (line os)) -> fits os rest ->
  scan (line os ++ rest) pos 0 s inf g2 = scan rest (pos + List.length (line os)) 0 (settingsOf pid0 s os) inf g2.
Proof.
  induction os as [|o os IH]; intros rest pos s inf g2 H A L; [cbn; now rewrite Nat.add_0_r|].
  change (line (o :: os)) with (words o ++ line os) in *. rewrite <- app_assoc. rewrite app_length in A.
  destruct (H o (or_introl eq_refl)) as [W F].
  rewrite step; try assumption.
  - rewrite IH.
    + rewrite app_length. f_equal; [lia|]. unfold settingsOf, puts. cbn [map List.concat]. now rewrite fold_left_app.
    + intros q Hq. apply H. now right.
    + destruct inf as [[p f]|]; [|exact I]. cbn in *. lia.
    + intros os' q E. apply (L (o :: os')). now rewrite E.
  - destruct inf as [[p f]|]; [|exact I]. destruct (words_hyphen o W) as [a [r [Q _]]]. rewrite Q in A. cbn in *. lia.
  - destruct os as [|o2 os]; [exact (L [] o eq_refl)|].
    destruct (H o2 (or_intror (or_introl eq_refl))) as [W2 _]. destruct (words_hyphen o2 W2) as [a [r [Q HQ]]].
    change (line (o2 :: os)) with (words o2 ++ line os). rewrite Q. left. exact HQ.
Qed.
End Scan.

(** Assignments. *)
Definition addFree (k : key) (l : list assign) : Prop := forall j v, In (Add j v) l -> j <> k.
Fixpoint lastSet (k : key) (l : list assign) (d : option val) : option val :=
  match l with [] => d | Set_ j v :: r => lastSet k r (if key_beq j k then Some v else d) | Add _ _ :: r => lastSet k r d end.
Lemma beq_spec j k : key_beq j k = true <-> j = k.
Proof. split; [apply internal_key_dec_bl|apply internal_key_dec_lb]. Qed.
Lemma puts_get k l : forall s d, addFree k l -> (forall v, d = Some v -> s k = v) ->
  puts s l k = match lastSet k l d with Some v => v | None => s k end.
Proof.
  induction l as [|a l IH]; intros s d H D; cbn.
  - destruct d; [now apply D|reflexivity].
  - unfold puts in IH. destruct a as [j v|j v]; cbn [lastSet].
    + rewrite (IH _ (if key_beq j k then Some v else d)).
      * cbn. destruct (key_beq j k) eqn:E; [|reflexivity]. destruct (lastSet k l (Some v)) eqn:Q; [reflexivity|].
        exfalso. clear - Q. revert v Q. induction l as [|[j v'|j v'] l IH]; intros v Q; [discriminate| |eauto]. cbn in Q. destruct (key_beq j k); eauto.
      * intros j' v' Hi. apply (H j' v'). now right.
      * intros w Hw. cbn. destruct (key_beq j k); [congruence|auto].
    + assert (key_beq j k = false) as N by (destruct (key_beq j k) eqn:E; [apply beq_spec in E; exfalso; now apply (H j v (or_introl eq_refl))|reflexivity]).
      rewrite (IH _ d); [cbn; now rewrite N| |].
      * intros j' v' Hi. apply (H j' v'). now right.
      * cbn. rewrite N. exact D.
Qed.
Lemma lastSet_app k l m : forall d, lastSet k (l ++ m) d = lastSet k m (lastSet k l d).
Proof. induction l as [|[j v|j v] l IH]; intros d; cbn; auto. Qed.
Lemma lastSet_some k l : forall d v, d = Some v -> lastSet k l d <> None.
Proof. induction l as [|[j w|j w] l IH]; intros d v ->; cbn; [discriminate| |eauto]. destruct (key_beq j k); eauto. Qed.
Lemma lastSet_none k l m : lastSet k (l ++ m) None = None -> lastSet k l None = None.
Proof. rewrite lastSet_app. destruct (lastSet k l None) eqn:Q; [|reflexivity]. intros H. exfalso. now apply (lastSet_some k m (Some v) v). Qed.
Lemma meaning_add pid0 o j v : In (Add j v) (meaning pid0 o) -> (j = KtopSets /\ o = Sets v) \/ (j = Kignored /\ o = Ignore v).
Proof.
  destruct o as [n|n w|l|l|id|a d p|a vs]; cbn [meaning].
  - destruct (find _ _) as [e|] eqn:F; [|contradiction]. apply find_some in F. destruct F as [F _]. intros H. exfalso.
    unfold flags in F. cbn [In] in F. repeat (destruct F as [<-|F]; [cbn in H; intuition discriminate|]). contradiction.
  - destruct (find _ _) as [e|]; cbn; intuition discriminate.
  - intros [H|[H|[]]]; [discriminate|]. injection H as <- <-. auto.
  - intros [H|[]]. injection H as <- <-. auto.
  - intros [H|H]; [discriminate|]. destruct id; cbn in H; intuition discriminate.
  - intros H. apply in_app_or in H. destruct d, p; cbn in H; intuition discriminate.
  - contradiction.
Qed.
Lemma line_add pid0 k os : k <> KtopSets -> k <> Kignored -> addFree k (List.concat (map (meaning pid0) os)).
Proof.
  intros A B j v H. apply in_concat in H. destruct H as [l [Hl H]]. apply in_map_iff in Hl. destruct Hl as [o [<- _]].
  destruct (meaning_add pid0 o j v H) as [[-> _]|[-> _]]; congruence.
Qed.
Lemma preElem_at k e s s' : s k = s' k -> preElem s e k = preElem s' e k.
Proof.
  intros H. destruct (key_eq_dec k Kdim) as [->|N].
  - assert (Q : forall n, isDim s n = isDim s' n) by (intros n; unfold isDim; now rewrite H).
    destruct e; cbn [preElem]; rewrite ?Q; try assumption; try reflexivity; destruct (isDim s' _); first [reflexivity|assumption].
  - assert (D : forall v (b : bool) t, (if b then put t (Set_ Kdim v) else t) k = t k) by (intros v [] t; [cbn; destruct k; first [reflexivity|contradiction]|reflexivity]).
    destruct e; cbn [preElem]; rewrite ?D; try assumption; cbn; first [assumption|destruct k; first [reflexivity|assumption]].
Qed.
Lemma pre_at k es : forall s s', s k = s' k -> fold_left preElem es s k = fold_left preElem es s' k.
Proof. induction es as [|e es IH]; intros s s' H; [exact H|]. cbn. apply IH. now apply preElem_at. Qed.
(** Lists of words. *)
Definition listOf (v : val) : list string := match v with Li l => l | _ => [] end.
Definition isList (v : val) : Prop := exists l, v = Li l.
Lemma puts_list k l : forall s, isList (s k) -> (forall v, ~ In (Set_ k v) l) ->
  isList (puts s l k) /\ forall w, In w (listOf (puts s l k)) <-> In w (listOf (s k)) \/ exists v, In (Add k v) l /\ In w v.
Proof.
  induction l as [|a l IH]; intros s L H.
  - cbn. split; [exact L|]. intros w. split; [auto|]. intros [A|[v [[] _]]]. exact A.
  - assert (H' : forall v, ~ In (Set_ k v) l) by (intros v Hv; apply (H v); now right).
    destruct a as [j v|j v].
    + assert (key_beq j k = false) as N by (destruct (key_beq j k) eqn:E; [apply beq_spec in E; subst; exfalso; apply (H v); now left|reflexivity]).
      destruct (IH (put s (Set_ j v))) as [A B]; [cbn; now rewrite N|exact H'|].
      split; [exact A|]. intros w. cbn [puts fold_left] in *. unfold puts in B. rewrite B. cbn. rewrite N.
      split; [intros [C|[v' [C D]]]; [auto|right; exists v'; auto]|]. intros [C|[v' [[C|C] D]]]; [auto|discriminate|right; exists v'; auto].
    + destruct L as [m L]. destruct (IH (put s (Add j v))) as [A B]; [cbn; destruct (key_beq j k); [eexists; reflexivity|exists m; exact L]|exact H'|].
      split; [exact A|]. intros w. unfold puts in *. cbn [fold_left]. rewrite B. cbn. rewrite L. destruct (key_beq j k) eqn:E; cbn.
      * apply beq_spec in E. subst j. rewrite in_app_iff. split.
        -- intros [[C|C]|[v' [C D]]]; [auto|right; exists v; auto|right; exists v'; auto].
        -- intros [C|[v' [[C|C] D]]]; [auto|injection C as <-; auto|right; exists v'; auto].
      * split; [intros [C|[v' [C D]]]; [auto|right; exists v'; auto]|].
        intros [C|[v' [[C|C] D]]]; [auto| |right; exists v'; auto]. injection C as -> ->. exfalso. assert (key_beq k k = true) by now apply beq_spec. congruence.
Qed.

(** Settings of the input file. *)
Definition hasDim (es : list elem) : bool := existsb (fun e => match e with SetDim _ => true | _ => false end) es.
Lemma lastDim_has es : hasDim es = true -> forall d a d' a', lastDim d a es = lastDim d' a' es.
Proof. induction es as [|e es IH]; intros H d a d' a'; [discriminate|]. cbn in *. destruct e; cbn in H; auto. Qed.
Lemma lastDim_none es : hasDim es = false -> forall d a, lastDim d a es = (d, a).
Proof. induction es as [|e es IH]; intros H d a; [reflexivity|]. cbn in *. destruct e; cbn in H; try discriminate; auto. Qed.
Definition dimStep (d : Z) (e : elem) : Z :=
  match e with Superelem => if (d =? 3)%Z then 4 else d | BeamElem => if (d =? 4)%Z then 14 else d | SetDim n => n | _ => d end%Z.
Lemma withParts_other d es : d <> 3%Z -> d <> 4%Z -> withParts d es = d.
Proof. intros A B. destruct d as [|p|p]; try reflexivity. do 3 (destruct p; try reflexivity; try (exfalso; auto; fail)). Qed.
Lemma withParts_step d e es : (match e with SetDim _ => False | _ => True end) -> withParts d (e :: es) = withParts (dimStep d e) es.
Proof.
  intros N. destruct (Z.eq_dec d 3) as [->|A]; [destruct e; try reflexivity; contradiction|].
  destruct (Z.eq_dec d 4) as [->|B]; [destruct e; try reflexivity; contradiction|].
  rewrite (withParts_other d) by assumption.
  assert (Q : dimStep d e = d).
  { destruct e; cbn; try reflexivity; try contradiction; [rewrite (proj2 (Z.eqb_neq d 3) A)|rewrite (proj2 (Z.eqb_neq d 4) B)]; reflexivity. }
  rewrite Q. now rewrite withParts_other.
Qed.
Lemma fileDim_step d e es : fileDim d (e :: es) = fileDim (dimStep d e) es.
Proof.
  destruct (hasDim es) eqn:H.
  - destruct e as [n| | |n|n|]; unfold fileDim; cbn [lastDim]; try reflexivity;
      match goal with |- context [lastDim d ?l es] => now rewrite (lastDim_has es H d l (dimStep d (hd OtherElem l)) es) end.
  - destruct e as [n| | |n|n|]; unfold fileDim; cbn [lastDim]; rewrite !(lastDim_none es H); try (apply withParts_step; exact I). reflexivity.
Qed.
Lemma pre_dim es : forall s d, s Kdim = Nu d -> fold_left preElem es s Kdim = Nu (fileDim d es).
Proof.
  induction es as [|e es IH]; intros s d H; cbn [fold_left].
  - rewrite H. unfold fileDim. cbn. f_equal. destruct (Z.eq_dec d 3) as [->|A]; [reflexivity|]. destruct (Z.eq_dec d 4) as [->|B]; [reflexivity|].
    now rewrite withParts_other.
  - rewrite fileDim_step. apply IH. destruct e; cbn; try assumption; try reflexivity; unfold isDim; rewrite H.
    + destruct (d =? 3)%Z; [reflexivity|exact H].
    + destruct (d =? 4)%Z; [reflexivity|exact H].
Qed.
Lemma pre_last k p (Hk : (k = Keig /\ p = fun e => match e with EigMode n => Some n | _ => None end) \/ (k = Kadap /\ p = fun e => match e with SetAdap n => Some n | _ => None end)) es :
  forall s a, s k = match a with Some n => Nu n | None => initial k end ->
  fold_left preElem es s k = match fold_left (fun a e => match p e with Some n => Some n | None => a end) es a with Some n => Nu n | None => initial k end.
Proof.
  induction es as [|e es IH]; intros s a H; cbn [fold_left]; [exact H|]. apply IH.
  destruct Hk as [[-> ->]|[-> ->]]; destruct e; cbn [preElem]; try (destruct (isDim s _)); cbn; try assumption; reflexivity.
Qed.
Lemma pre_other k : k <> Kdim -> k <> Keig -> k <> Kadap -> forall es s, fold_left preElem es s k = s k.
Proof.
  intros A B C. induction es as [|e es IH]; intros s; [reflexivity|]. cbn [fold_left]. rewrite IH.
  destruct e; cbn [preElem]; try (destruct (isDim s _)); cbn; try reflexivity; destruct k; first [reflexivity|contradiction].
Qed.
Lemma fileSettings_pre es k : fold_left preElem es initial k = fileSettings es k.
Proof.
  destruct (key_eq_dec k Kdim) as [->|A]; [now apply pre_dim|].
  destruct (key_eq_dec k Keig) as [->|B]; [refine (pre_last Keig _ _ es initial None eq_refl); auto|].
  destruct (key_eq_dec k Kadap) as [->|C]; [refine (pre_last Kadap _ _ es initial None eq_refl); auto|].
  rewrite pre_other by assumption. destruct k; first [reflexivity|contradiction].
Qed.
