(** Input of bars, cables and beams (C111) and section data files (C112). *)
From Coq Require Import List Ascii String Reals Bool Lia Lra.
From Verif Require Import Lib.Base Model.Section Model.FileNames Model.BarInput.
Import ListNotations.
Local Open Scope list_scope.
Local Open Scope R_scope.

(** ** C111 *)
(** What the user means: area and second moment, from the values given or from the pipe. *)
Definition meantRadius (m : barMat) : option R :=
  match mRo m, mD m with Some r, _ => Some r | None, Some d => Some (d / 2) | None, None => None end.
Definition meantArea (m : barMat) : R :=
  match mA m with Some a => a | None => match meantRadius m with
    | Some r => PI * (r ^ 2 - match mt m with Some t => (r - t) ^ 2 | None => 0 end) | None => 1 end end.
Definition meantMoment (m : barMat) : R :=
  match mI m with Some i => i | None => match meantRadius m with
    | Some r => PI / 4 * (r ^ 4 - match mt m with Some t => (r - t) ^ 4 | None => 0 end) | None => 0 end end.
Definition meantE (m : barMat) : R := match mE m with Some e => e | None => 210000000000 end.
Definition meantRho (m : barMat) : R := match mRho m with Some e => e | None => 7850 end.

Lemma pipe_A r t : fst (fst (pipe r t)) = PI * (r ^ 2 - match t with Some t => (r - t) ^ 2 | None => 0 end) /\
  snd (fst (pipe r t)) = PI / 4 * (r ^ 4 - match t with Some t => (r - t) ^ 4 | None => 0 end).
Proof. unfold pipe. destruct t; cbn [fst snd]; split; field. Qed.

Lemma radius_meant m : outerR m = meantRadius m.
Proof. unfold outerR, meantRadius. destruct (mRo m); [reflexivity|]. destruct (mD m); [|reflexivity]. f_equal. field. Qed.
(** Without EA the axial stiffness, the bending stiffness and the mass are those of the section meant. *)
Theorem C111_section_partial : forall cableTag typ m, mEA m = None -> mRhoA m = None -> (cableTag = true -> typ = None \/ typ = Some true) ->
  exists i, parseBarTag None cableTag typ m = Ret (i, meantE m * meantArea m,
    match i with ICable => Some (if cableTag then match mEI m with Some v => v | None => meantE m * meantMoment m end else 0) | IBar => None end,
    meantRho m * meantArea m) /\
    (i = ICable <-> (match typ with Some b => b | None => cableTag end) = true).
Proof.
  intros ct typ m HE HR HT. unfold parseBarTag, parseBarMat, pickIntegrand, getBarIntegrand, meantE, meantRho, meantArea, meantMoment. rewrite <- radius_meant.
  rewrite HE, HR.
  assert (N : orDef (mE m) (21 * 10 ^ 10) = match mE m with Some e => e | None => 210000000000 end) by (destruct (mE m); cbn [orDef]; [reflexivity|lra]).
  rewrite N. unfold orDef.
  destruct (outerR m) as [r|] eqn:Er.
  - destruct (pipe_A r (mt m)) as [PA PI0]. destruct (pipe r (mt m)) as [[a i] k]. cbn [fst snd] in *. subst a i.
    destruct ct, typ as [[|]|]; cbn [bind bendingOf orDef];
      try (destruct (HT eq_refl) as [C|C]; discriminate);
      first [exists ICable; split; [destruct (mA m), (mEI m), (mI m); reflexivity|split; reflexivity]
            |exists IBar; split; [destruct (mA m), (mEI m), (mI m); reflexivity|split; discriminate]].
  - destruct ct, typ as [[|]|]; cbn [bind bendingOf orDef];
      try (destruct (HT eq_refl) as [C|C]; discriminate);
      first [exists ICable; split; [destruct (mA m), (mEI m), (mI m); reflexivity|split; reflexivity]
            |exists IBar; split; [destruct (mA m), (mEI m), (mI m); reflexivity|split; discriminate]].
Qed.
Print Assumptions C111_section_partial.

(** An axial stiffness and a mass per length given explicitly are used as they are. *)
Theorem C111_explicit_partial : forall cableTag typ m ea ra, mEA m = Some ea -> mRhoA m = Some ra ->
  (forall r, meantRadius m = Some r -> 0 < PI * (r ^ 2 - match mt m with Some t => (r - t) ^ 2 | None => 0 end)) ->
  (cableTag = true -> typ = None \/ typ = Some true) ->
  exists i bend, parseBarTag None cableTag typ m = Ret (i, ea, bend, ra).
Proof.
  intros ct typ m ea ra HE HR HA HT. rewrite <- radius_meant in HA. unfold parseBarTag, parseBarMat, pickIntegrand, getBarIntegrand. rewrite HE, HR.
  assert (X : forall A0, 0 < A0 -> (if Rlt_dec 0 A0 then ra else orDef (mRho m) 7850 * A0) = ra) by (intros A0 P; destruct (Rlt_dec 0 A0); [reflexivity|contradiction]).
  destruct (outerR m) as [r|] eqn:Er.
  - destruct (pipe_A r (mt m)) as [PA _]. specialize (HA r eq_refl). rewrite <- PA in HA. destruct (pipe r (mt m)) as [[a i] k]. cbn [fst snd] in *.
    rewrite (X a HA). destruct ct, typ as [[|]|]; cbn [bind]; try (destruct (HT eq_refl) as [C|C]; discriminate); eexists _, _; reflexivity.
  - rewrite (X 1 Rlt_0_1). destruct ct, typ as [[|]|]; cbn [bind]; try (destruct (HT eq_refl) as [C|C]; discriminate); eexists _, _; reflexivity.
Qed.
Print Assumptions C111_explicit_partial.

(** With an explicit axial stiffness the area given is not read: the mass is that of a unit area. *)
Theorem C111_area_refuted : forall E rho EA A, A <> 1 -> rho <> 0 ->
  exists r, parseBarTag None false None (mkBarMat (Some E) (Some rho) None None None (Some EA) (Some A) None None None) = Ret (IBar, EA, None, r) /\
    r = rho /\ r <> rho * A.
Proof.
  intros E rho EA A N P. cbn. exists (rho * 1). split; [reflexivity|]. split; [ring|]. intros C.
  apply N. apply (Rmult_eq_reg_l rho); [|exact P]. lra.
Qed.
Print Assumptions C111_area_refuted.

(** A cable tag with another type, or after a bar, treats a bar object as a cable. *)
Theorem C111_cable_type_refuted : forall m, parseBarTag None true (Some false) m = UB /\ forall typ, parseBarTag (Some IBar) true typ m = UB.
Proof.
  intros m. unfold parseBarTag, pickIntegrand, getBarIntegrand, parseBarMat.
  destruct (outerR m) as [r|]; [destruct (pipe r (mt m)) as [[a i] k]|]; destruct (mEA m); split; intros; reflexivity.
Qed.
Print Assumptions C111_cable_type_refuted.
(** A bar of type cable has no bending stiffness, whatever is given. *)
Theorem C111_bar_cable_refuted : forall m r, parseBarTag None false (Some true) m = Ret r -> snd (fst r) = Some 0.
Proof.
  intros m r. unfold parseBarTag, pickIntegrand, getBarIntegrand, parseBarMat.
  destruct (outerR m) as [q|]; [destruct (pipe q (mt m)) as [[a i] k]|]; destruct (mEA m); cbn; intros H; injection H as <-; reflexivity.
Qed.
Print Assumptions C111_bar_cable_refuted.

(** Beams: the shear modulus is the one given, or that of the isotropic material for Poisson's ratios in [0,0.5). *)
Theorem C111_shear_partial : forall E n, 0 < E -> 0 <= n < / 2 ->
  exists G, parseBeamMat (Some E) None (Some n) = (E, G) /\ 0 < G /\ G * (2 * (1 + n)) = E /\
  forall g, parseBeamMat (Some E) (Some g) (Some n) = (E, g).
Proof.
  intros E n HE Hn. unfold parseBeamMat, orDef. destruct (Rle_dec 0 n); [|lra]. destruct (Rlt_dec n (/ 2)); [|lra].
  exists (E / (n + n + 2)). split; [reflexivity|]. split; [apply Rdiv_lt_0_compat; lra|]. split; [field; lra|]. reflexivity.
Qed.
Print Assumptions C111_shear_partial.
(** Any other Poisson's ratio, admissible or not, and none, give the shear modulus of steel whatever the modulus of elasticity. *)
Theorem C111_shear_refuted : forall E nu, (forall n, nu = Some n -> n < 0 \/ / 2 <= n) -> parseBeamMat (Some E) None nu = (E, 81000000000).
Proof.
  intros E nu H. unfold parseBeamMat, orDef. destruct nu as [n|]; [|f_equal; lra]. specialize (H n eq_refl).
  destruct (Rle_dec 0 n); [destruct (Rlt_dec n (/ 2)); [lra|]|]; f_equal; lra.
Qed.
Print Assumptions C111_shear_refuted.
Example C111_case : exists r, parseBarTag None true None (mkBarMat (Some 2) (Some 3) None (Some 4) (Some 1) None None None None None) = Ret r /\
  fst (fst (fst r)) = ICable /\ snd (fst (fst r)) = 6 * PI.
Proof.
  destruct (C111_section_partial true None (mkBarMat (Some 2) (Some 3) None (Some 4) (Some 1) None None None None None) eq_refl eq_refl ltac:(auto)) as [i [E [_ I2]]].
  rewrite (I2 eq_refl) in E. eexists. split; [exact E|]. split; [reflexivity|]. unfold meantE, meantArea, meantRadius. cbn. field.
Qed.

(** ** C112 *)
(** A line of comma separated fields. *)
Fixpoint joinC (fs : list chars) : chars := match fs with [] => [] | [f] => f | f :: r => f ++ comma :: joinC r end.
Definition noComma (s : chars) : Prop := ~ In comma s.
Definition field (fs : list chars) (k : nat) : chars := nth k fs [].

Lemma split_one s : noComma s -> split s = [s].
Proof.
  induction s as [|c r IH]; intros H; cbn; [reflexivity|]. destruct (Ascii.eqb_spec c comma) as [->|N]; [exfalso; apply H; now left|].
  rewrite IH by (intro; apply H; now right). reflexivity.
Qed.
Lemma split_app s r : noComma s -> split (s ++ comma :: r) = s :: split r.
Proof.
  induction s as [|c t IH]; intros H; cbn [app split]; [rewrite Ascii.eqb_refl; reflexivity|].
  destruct (Ascii.eqb_spec c comma) as [->|N]; [exfalso; apply H; now left|]. rewrite IH by (intro; apply H; now right). reflexivity.
Qed.
Lemma split_join fs : fs <> [] -> Forall noComma fs -> split (joinC fs) = fs.
Proof.
  induction fs as [|f r IH]; intros N H; [congruence|]. inversion H as [|? ? A B]; subst. destruct r as [|g r']; [now apply split_one|].
  change (joinC (f :: g :: r')) with (f ++ comma :: joinC (g :: r')). rewrite split_app by assumption. f_equal. apply IH; [discriminate|assumption].
Qed.
Lemma split_hash s : split ("#"%char :: s) = match split s with f :: t => ("#"%char :: f) :: t | [] => [["#"%char]] end.
Proof. reflexivity. Qed.

Lemma toks_line f fs : Forall noComma (f :: fs) -> toks ("#"%char :: joinC (f :: fs)) = ("#"%char :: f) :: List.filter (fun f => match f with [] => false | _ => true end) fs.
Proof. intros H. unfold toks. rewrite split_hash, (split_join (f :: fs)) by (discriminate || assumption). reflexivity. Qed.

(** Lines in which no field but the description is empty: label, unit and all values in sequence, scaled by the unit. *)
Theorem C112_line_partial : forall atof descr lab unit vals, Forall noComma (descr :: lab :: unit :: vals) -> Forall (fun f => f <> []) (lab :: unit :: vals) ->
  readLine atof (joinC (descr :: lab :: unit :: vals)) = Ret (mkLine lab (map (fun v => atof v * unitScale unit) vals)).
Proof.
  intros atof d lab unit vals H N. unfold readLine. rewrite toks_line by assumption.
  inversion N as [|? ? A N1]; subst. inversion N1 as [|? ? B N2]; subst.
  assert (F : forall l : list chars, Forall (fun f => f <> []) l -> List.filter (fun f => match f with [] => false | _ => true end) l = l).
  { induction l as [|x r IH]; intros K; [reflexivity|]. inversion K; subst. cbn. destruct x; [congruence|]. now rewrite IH. }
  rewrite F by assumption. cbn [nth skipn]. destruct unit; [congruence|]. reflexivity.
Qed.
Print Assumptions C112_line_partial.

(** Metric units [<prefix>m<k>]: the scaling is the k'th power of the prefix. *)
Definition unitName (p : chars) (k : nat) : chars := str "[" ++ p ++ str "m" ++ match k with S (S n) => dec k | _ => [] end ++ str "]".
Theorem C112_units : forall p f k, In (p, f) [(str "", 1); (str "c", / 100); (str "m", / 1000)] -> (1 <= k <= 4)%nat -> unitScale (unitName p k) = f ^ k.
Proof.
  intros p f k H K. assert (C : (k = 1 \/ k = 2 \/ k = 3 \/ k = 4)%nat) by lia.
  destruct H as [H|[H|[H|[]]]]; injection H as <- <-; destruct C as [->|[->|[->| ->]]]; unfold unitScale; cbn; lra.
Qed.
Print Assumptions C112_units.
(** Every other unit is taken for one, also those of length. *)
Theorem C112_units_refuted : unitScale (str "[dm]") = 1 /\ unitScale (str "cm") = 1 /\ unitScale (str "[km]") = 1.
Proof. unfold unitScale. cbn. auto. Qed.
Print Assumptions C112_units_refuted.

Lemma short_unit atof x (l : list chars) : (List.length l < 2)%nat ->
  match nth 2 (x :: l) [] with [] => Rejected | _ => Ret (mkLine (nth 1 (x :: l) []) (map (fun v => atof v * unitScale (nth 2 (x :: l) [])) (skipn 3 (x :: l)))) end = Rejected.
Proof. destruct l as [|a [|b r]]; cbn; intros H; try reflexivity. lia. Qed.
(** A line with less than three fields that are not empty ends the program with an exception. *)
Theorem C112_short_line_refuted : forall atof descr fs, Forall noComma (descr :: fs) ->
  (List.length (List.filter (fun f => match f with [] => false | _ => true end) fs) < 2)%nat -> readLine atof (joinC (descr :: fs)) = Rejected.
Proof.
  intros atof d fs H L. unfold readLine. rewrite toks_line by assumption.
  refine (short_unit atof _ _ _). exact L.
Qed.
Print Assumptions C112_short_line_refuted.
Example C112_blank_line : forall atof, readLine atof [] = Rejected.
Proof. intros atof. apply (C112_short_line_refuted atof [] []); [repeat constructor; intros []|cbn; lia]. Qed.
(** An empty cell shifts all values after it, an empty unit takes the first value for the unit. *)
Theorem C112_empty_cell_refuted : forall atof,
  readLine atof (str "Area,Ax,[m2],1,,3") = Ret (mkLine (str "Ax") [atof (str "1") * 1; atof (str "3") * 1]) /\
  readLine atof (str "Factor,k,,5,6") = Ret (mkLine (str "k") [atof (str "6") * 1]).
Proof. intros atof. split; reflexivity. Qed.
Print Assumptions C112_empty_cell_refuted.

(** The table: each label has the values of its first line, whatever the sequence of the other lines. *)
Lemma chareq_refl a : chareq a a = true.
Proof. unfold chareq. destruct (list_eq_dec ascii_dec a a); [reflexivity|contradiction]. Qed.
Lemma look_app key a b : look key (a ++ b) = match look key a with Some v => Some v | None => look key b end.
Proof. induction a as [|d r IH]; cbn; [reflexivity|]. destruct (chareq (dlabel d) key); [reflexivity|exact IH]. Qed.
Lemma look_add key d l : look key (addLine d l) = match look key l with Some v => Some v | None => look key [d] end.
Proof.
  unfold addLine. destruct (look (dlabel d) l) eqn:E; [|apply look_app]. destruct (look key l) eqn:K; [reflexivity|].
  cbn. unfold chareq. destruct (list_eq_dec ascii_dec (dlabel d) key); [congruence|reflexivity].
Qed.
Theorem C112_table : forall atof lines ds, Forall2 (fun s d => readLine atof s = Ret d) lines ds ->
  exists t, readLines atof lines [] = Ret t /\ forall key, look key t = look key ds.
Proof.
  intros atof lines ds H.
  assert (G : forall l, exists t, readLines atof lines l = Ret t /\ forall key, look key t = match look key l with Some v => Some v | None => look key ds end).
  { induction H as [|s d ls ds E F IH]; intros l; cbn [readLines].
    - exists l. split; [reflexivity|]. intros key. cbn. destruct (look key l); reflexivity.
    - rewrite E. cbn [bind]. destruct (IH (addLine d l)) as [t [A B]]. exists t. split; [exact A|]. intros key. rewrite B, look_add.
      destruct (look key l); [reflexivity|]. cbn. destruct (chareq (dlabel d) key); reflexivity. }
  destruct (G []) as [t [A B]]. exists t. split; assumption.
Qed.
Print Assumptions C112_table.
Theorem C112_bad_line_refuted : forall atof pre s post ds, Forall2 (fun s d => readLine atof s = Ret d) pre ds -> readLine atof s = Rejected -> readLines atof (pre ++ s :: post) [] = Rejected.
Proof.
  intros atof pre s post ds H E. generalize (@nil dataLine). induction H as [|x d ls ds' F G IH]; intros l; cbn [app readLines]; [now rewrite E|]. rewrite F. cbn [bind]. apply IH.
Qed.
Print Assumptions C112_bad_line_refuted.
(** The function of a property pairs its values with the positions of the line labelled x. *)
Theorem C112_function : forall atof lines ds key x xs v vs, Forall2 (fun s d => readLine atof s = Ret d) lines ds ->
  look (str "x") ds = Some (x :: xs) -> look key ds = Some (v :: vs) ->
  exists t, readLines atof lines [] = Ret t /\ propFunc t key = Some (x :: xs, v :: vs).
Proof.
  intros atof lines ds key x xs v vs H X V. destruct (C112_table atof lines ds H) as [t [A B]]. exists t. split; [exact A|].
  unfold propFunc. now rewrite !B, X, V.
Qed.
Print Assumptions C112_function.
Example C112_case : exists t, readLines (fun s => INR (List.length s)) [str "pos,x,[m],1,22"; str "area,Ax,[cm2],333,4"] [] = Ret t /\
  propFunc t (str "Ax") = Some ([1; 2], [3 * / 10 ^ 4; 1 * / 10 ^ 4]) /\ propFunc t (str "Ay") = None.
Proof. eexists. split; [reflexivity|]. cbn. unfold unitScale. cbn. split; [|reflexivity]. f_equal. f_equal; repeat f_equal; lra. Qed.
