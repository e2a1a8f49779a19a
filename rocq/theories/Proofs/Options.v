From Coq Require Import List ZArith Bool String Ascii Lia Permutation.
From Verif Require Import Model.Options Spec.Options.
Import ListNotations.
Open Scope string_scope.
Open Scope Z_scope.

(* registers: a field that each argument either sets or leaves alone *)
Definition lastSet {X} (set : string -> option X) (l : list string) (x : X) : X :=
  fold_left (fun x a => match set a with Some v => v | None => x end) l x.
Lemma lastSet_app {X} (set : string -> option X) l1 l2 x : lastSet set (l1 ++ l2)%list x = lastSet set l2 (lastSet set l1 x).
Proof. unfold lastSet. apply fold_left_app. Qed.
Lemma lastSet_none {X} (set : string -> option X) l x : (forall a, In a l -> set a = None) -> lastSet set l x = x.
Proof.
  revert x. induction l as [|a l IH]; intros x H; [reflexivity|]. cbn. rewrite (H a) by now left.
  apply IH. intros b B. apply H. now right.
Qed.
Lemma lastSet_cases {X} (set : string -> option X) l x :
  (lastSet set l x = x /\ forall a, In a l -> set a = None) \/ exists a, In a l /\ set a = Some (lastSet set l x).
Proof.
  revert x. induction l as [|a l IH]; intros x; [left; now split|]. cbn.
  destruct (IH (match set a with Some v => v | None => x end)) as [[E N]|(b & B & E)].
  - unfold lastSet in *. rewrite E. destruct (set a) as [v|] eqn:S.
    + right. exists a. split; [now left|assumption].
    + left. split; [reflexivity|]. intros b [->|B]; auto.
  - right. exists b. split; [now right|assumption].
Qed.
Lemma reg_all {X} base (g : args -> X) set :
  (forall arg a, g (snd (parseArg base arg a)) = match set arg with Some v => v | None => g a end) ->
  forall l a, g (parseAll base l a) = lastSet set l (g a).
Proof.
  intros H l. induction l as [|b l IH]; intros a; [reflexivity|]. unfold parseAll in *. cbn. rewrite IH, H. reflexivity.
Qed.
Lemma lastSet_perm {X} (set : string -> option X) l l' x : Permutation l l' ->
  (forall a b u v, In a l -> In b l -> set a = Some u -> set b = Some v -> u = v) ->
  lastSet set l x = lastSet set l' x.
Proof.
  intros P C. destruct (lastSet_cases set l x) as [[E N]|(a & A & E)].
  - rewrite E. symmetry. apply lastSet_none. intros a A. apply N. now apply (Permutation_in a (Permutation_sym P)).
  - destruct (lastSet_cases set l' x) as [[E' N]|(b & B & E')].
    + apply (Permutation_in a P), N in A. congruence.
    + apply (C a b); try assumption. now apply (Permutation_in b (Permutation_sym P)).
Qed.

Lemma prefix_ex p s : prefix p s = true -> exists r, s = p ++ r.
Proof.
  revert s. induction p as [|c p IH]; intros s H; [exists s; reflexivity|]. destruct s as [|d s]; [discriminate|].
  cbn in H. destruct (ascii_dec c d) as [->|]; [|discriminate]. destruct (IH s H) as [r ->]. now exists r.
Qed.
Lemma prefix_app p s : prefix p (p ++ s) = true.
Proof. induction p as [|c p IH]; [now destruct s|]. cbn. destruct (ascii_dec c c); [assumption|congruence]. Qed.
Lemma eqb_true a b : (a =? b)%string = true -> a = b. Proof. apply String.eqb_eq. Qed.

Lemma digit_spec c : match digit c with Some d => isDigit c d | None => forall d, ~ isDigit c d end.
Proof.
  unfold digit, isDigit. destruct (Z.leb_spec 48 (Z.of_nat (nat_of_ascii c))) as [A|A]; cbn [andb].
  - destruct (Z.leb_spec (Z.of_nat (nat_of_ascii c)) 57) as [B|B]; [lia|]. intros d. lia.
  - intros d. lia.
Qed.
Lemma digit_iff c d : digit c = Some d <-> isDigit c d.
Proof.
  assert (H := digit_spec c). destruct (digit c) as [e|].
  - split; [intros [= <-]; assumption|]. intros D. f_equal. unfold isDigit in *. lia.
  - split; [discriminate|]. intros D. now destruct (H d).
Qed.
Lemma atoi_dec s : forall acc n, decimal acc s n <-> atoi acc s = n.
Proof.
  induction s as [|c s IH]; intros acc n; cbn [atoi].
  - split; [now inversion 1|intros <-; constructor].
  - assert (D := digit_spec c). destruct (digit c) as [d|].
    + split.
      * inversion 1 as [| ? ? ? N | ? ? e ? ? E M]; subst; [now destruct (N d)|].
        assert (e = d) as -> by (unfold isDigit in *; lia). now apply IH.
      * intros H. apply (dec_more _ _ d); [assumption|now apply IH].
    + split.
      * inversion 1 as [| ? ? ? N | ? ? e ? ? E M]; subst; [reflexivity|now destruct (D e)].
      * intros <-. now constructor.
Qed.
Lemma atoi_nonneg s : forall acc, 0 <= acc -> 0 <= atoi acc s.
Proof.
  induction s as [|c s IH]; intros acc A; [assumption|]. cbn [atoi]. assert (D := digit_spec c).
  destruct (digit c) as [d|]; [|assumption]. apply IH. unfold isDigit in D. lia.
Qed.
Lemma substring_all s : substring 0 (length s) s = s.
Proof. induction s as [|c s IH]; [reflexivity|]. cbn. now rewrite IH. Qed.
Lemma tail_app p s : tail (length p) (p ++ s) = s.
Proof.
  unfold tail. induction p as [|c p IH]; cbn; [|exact IH].
  rewrite Nat.sub_0_r. apply substring_all.
Qed.
Definition headOrder (s : string) : Z := match s with String c _ => match digit c with Some _ => atoi 0 s | None => -1 end | EmptyString => -1 end.
Lemma order_MX s : orderOf 3 ("-MX" ++ s) = headOrder s.
Proof. unfold orderOf. now rewrite (tail_app "-MX" s : tail 3 _ = s). Qed.
Lemma order_Fbar s : orderOf 5 ("-Fbar" ++ s) = headOrder s.
Proof. unfold orderOf. now rewrite (tail_app "-Fbar" s : tail 5 _ = s). Qed.

(* the registers *)
Definition setForm (arg : string) : option Z :=
  if (arg =? "-linear")%string then Some 1
  else if (arg =? "-UL")%string then Some 4
  else if prefix "-MX" arg then Some 5
  else if (arg =? "-Mixed")%string then Some 6
  else if (arg =? "-mixed")%string then Some 6
  else if prefix "-Fbar" arg then Some 7
  else if (arg =? "-Tensor")%string then Some 2 else None.
Definition setOrder (arg : string) : option Z :=
  if prefix "-MX" arg then if 0 <=? orderOf 3 arg then Some (orderOf 3 arg) else None
  else if prefix "-Fbar" arg then if 0 <=? orderOf 5 arg then Some (orderOf 5 arg) else None
  else None.

Ltac fstr := repeat match goal with
  | H : (_ =? _)%string = true |- _ => apply eqb_true in H; subst
  | H : prefix _ _ = true |- _ => apply prefix_ex in H; destruct H as [? H]; first [discriminate H | subst] end.
Lemma setForm_iff arg f : setForm arg = Some f <-> asksForm arg f.
Proof.
  split.
  - unfold setForm. repeat match goal with |- context [if ?b then _ else _] => destruct b eqn:? end; intros [= <-]; fstr; constructor.
  - destruct 1 as [| | |s| | |s]; try reflexivity; now destruct s.
Qed.
Lemma setOrder_iff arg p : setOrder arg = Some p <-> asksOrder arg p.
Proof.
  split.
  - unfold setOrder. destruct (prefix "-MX" arg) eqn:A; [|destruct (prefix "-Fbar" arg) eqn:B; [|discriminate]]; fstr.
    + rewrite order_MX. destruct x as [|c s]; [discriminate|]. unfold headOrder. destruct (digit c) as [d|] eqn:D; [|discriminate].
      destruct (0 <=? atoi 0 (String c s)); [|discriminate]. intros [= <-]. apply digit_iff in D. econstructor; [eassumption|now apply atoi_dec].
    + rewrite order_Fbar. destruct x as [|c s]; [discriminate|]. unfold headOrder. destruct (digit c) as [d|] eqn:D; [|discriminate].
      destruct (0 <=? atoi 0 (String c s)); [|discriminate]. intros [= <-]. apply digit_iff in D. econstructor; [eassumption|now apply atoi_dec].
  - destruct 1 as [c d s n D N|c d s n D N]; unfold setOrder.
    + rewrite prefix_app, order_MX. unfold headOrder. apply digit_iff in D. rewrite D. apply atoi_dec in N.
      assert (P := atoi_nonneg (String c s) 0). rewrite N in *. destruct (0 <=? n) eqn:E; [reflexivity|lia].
    + replace (prefix "-MX" ("-Fbar" ++ String c s)) with false by reflexivity.
      rewrite prefix_app, order_Fbar. unfold headOrder. apply digit_iff in D. rewrite D. apply atoi_dec in N.
      assert (P := atoi_nonneg (String c s) 0). rewrite N in *. destruct (0 <=? n) eqn:E; [reflexivity|lia].
Qed.

Lemma form_set a f p : 0 <= f -> chosenForm (setFormulation a f p) = f.
Proof.
  intros F. unfold setFormulation, chosenForm. replace (0 <=? f) with true by lia.
  destruct (0 <=? p); cbn; destruct (options a) as [|? [|? ?]]; reflexivity.
Qed.
Lemma order_set a f p : 0 <= f -> chosenOrder (setFormulation a f p) = if 0 <=? p then p else chosenOrder a.
Proof.
  intros F. unfold setFormulation, chosenOrder. replace (0 <=? f) with true by lia.
  destruct (0 <=? p); cbn; destruct (options a) as [|? [|? ?]]; reflexivity.
Qed.
Lemma mx_set a f p : mx (setFormulation a f p) = mx a.
Proof. unfold setFormulation. destruct (0 <=? f), (0 <=? p); reflexivity. Qed.
Lemma alg_set a f p : algor (setFormulation a f p) = algor a.
Proof. unfold setFormulation. destruct (0 <=? f), (0 <=? p); reflexivity. Qed.
Lemma ps_set a f p : planeStrain (setFormulation a f p) = planeStrain a.
Proof. unfold setFormulation. destruct (0 <=? f), (0 <=? p); reflexivity. Qed.
Lemma axi_set a f p : axiSymmetry (setFormulation a f p) = axiSymmetry a.
Proof. unfold setFormulation. destruct (0 <=? f), (0 <=? p); reflexivity. Qed.

Ltac cases := repeat match goal with
  | |- context [if ?b then _ else _] => match b with context [prefix] => destruct b eqn:? | context [String.eqb] => destruct b eqn:? end end.
Lemma form_reg base arg a : chosenForm (snd (parseArg base arg a)) = match setForm arg with Some v => v | None => chosenForm a end.
Proof.
  unfold parseArg, setForm. cbv zeta. cases; fstr; try discriminate; try reflexivity; cbn [snd];
  try (rewrite form_set; [reflexivity|cbv; discriminate]);
  try (match goal with |- context [?b ?x ?y] => match type of b with string -> Z -> bool * Z => destruct (b x y) end end; reflexivity).
Qed.
Lemma order_reg base arg a : chosenOrder (snd (parseArg base arg a)) = match setOrder arg with Some v => v | None => chosenOrder a end.
Proof.
  unfold parseArg, setOrder. cbv zeta. cases; fstr; try discriminate; try reflexivity; cbn [snd];
  try (rewrite order_set; [|cbv; discriminate]; try (destruct (0 <=? orderOf _ _); reflexivity); reflexivity);
  try (match goal with |- context [?b ?x ?y] => match type of b with string -> Z -> bool * Z => destruct (b x y) end end; reflexivity).
Qed.
Definition setMx (arg : string) : option mxType :=
  if (arg =? "-Mixed")%string then Some MxFull else if (arg =? "-mixed")%string then Some MxReduced else None.
Definition setAlg (arg : string) : option algo :=
  if (arg =? "-GA")%string then Some GENALPHA else if (arg =? "-oldHHT")%string then Some OLDHHT
  else if (arg =? "-HHT")%string then Some NEWHHT else if (arg =? "-arclen")%string then Some ARCLEN else None.
Definition setPS (arg : string) : option bool := if prefix "-2Dpstra" arg then Some true else None.
Definition setAxi (arg : string) : option bool := if prefix "-2Daxi" arg then Some true else None.
Ltac reg lem := cbv zeta; cases; fstr; try discriminate; try reflexivity; cbn [snd]; try (rewrite lem; reflexivity);
  try (match goal with |- context [?b ?x ?y] => match type of b with string -> Z -> bool * Z => destruct (b x y) end end; reflexivity).
Lemma mx_reg base arg a : mx (snd (parseArg base arg a)) = match setMx arg with Some v => v | None => mx a end.
Proof. unfold parseArg, setMx. reg mx_set. Qed.
Lemma alg_reg base arg a : algor (snd (parseArg base arg a)) = match setAlg arg with Some v => v | None => algor a end.
Proof. unfold parseArg, setAlg. reg alg_set. Qed.
Lemma ps_reg base arg a : planeStrain (snd (parseArg base arg a)) = match setPS arg with Some v => v | None => planeStrain a end.
Proof. unfold parseArg, setPS. reg ps_set. Qed.
Lemma axi_reg base arg a : axiSymmetry (snd (parseArg base arg a)) = match setAxi arg with Some v => v | None => axiSymmetry a end.
Proof. unfold parseArg, setAxi. reg axi_set. Qed.
Lemma lastSet_of {X} (set : string -> option X) (asks : string -> X -> Prop) l x x0 :
  (forall a v, set a = Some v <-> asks a v) -> lastOf asks l x -> lastSet set l x0 = x.
Proof.
  intros I (l1 & a & l2 & -> & A & N). rewrite lastSet_app. cbn. apply I in A. rewrite A. apply lastSet_none.
  intros b B. destruct (set b) as [y|] eqn:E; [|reflexivity]. apply I in E. now destruct (N b y).
Qed.
Lemma lastSet_noneOf {X} (set : string -> option X) (asks : string -> X -> Prop) l x0 :
  (forall a v, set a = Some v <-> asks a v) -> noneOf asks l -> lastSet set l x0 = x0.
Proof.
  intros I N. apply lastSet_none. intros b B. destruct (set b) as [y|] eqn:E; [|reflexivity]. apply I in E. now destruct (N b y).
Qed.
Lemma last_form base l a f : lastOf asksForm l f -> chosenForm (parseAll base l a) = f.
Proof. intros H. rewrite (reg_all base chosenForm setForm (form_reg base)). now apply (lastSet_of _ asksForm); [apply setForm_iff|]. Qed.
Lemma last_order base l a p : lastOf asksOrder l p -> chosenOrder (parseAll base l a) = p.
Proof. intros H. rewrite (reg_all base chosenOrder setOrder (order_reg base)). now apply (lastSet_of _ asksOrder); [apply setOrder_iff|]. Qed.
Lemma none_form base l a : noneOf asksForm l -> chosenForm (parseAll base l a) = chosenForm a.
Proof. intros H. rewrite (reg_all base chosenForm setForm (form_reg base)). now apply (lastSet_noneOf _ asksForm); [apply setForm_iff|]. Qed.
Lemma none_order base l a : noneOf asksOrder l -> chosenOrder (parseAll base l a) = chosenOrder a.
Proof. intros H. rewrite (reg_all base chosenOrder setOrder (order_reg base)). now apply (lastSet_noneOf _ asksOrder); [apply setOrder_iff|]. Qed.
Lemma setMx_ask a v : setMx a = Some v -> asksMx a v.
Proof. unfold setMx. cases; intros [= <-]; fstr; constructor. Qed.
Lemma setAlg_ask a v : setAlg a = Some v -> asksAlg a v.
Proof. unfold setAlg. cases; intros [= <-]; fstr; constructor. Qed.
Lemma perm_reg {X} base (g : args -> X) set (asks : string -> X -> Prop) l l' a :
  (forall arg a, g (snd (parseArg base arg a)) = match set arg with Some v => v | None => g a end) ->
  (forall a v, set a = Some v -> asks a v) -> Permutation l l' -> agree asks l -> g (parseAll base l a) = g (parseAll base l' a).
Proof.
  intros R I P C. rewrite !(reg_all base g set R). apply lastSet_perm; [assumption|]. intros b c u v B C' U V. apply (C b c); auto.
Qed.
Lemma perm_all base l l' a : Permutation l l' -> agree asksForm l -> agree asksOrder l -> agree asksMx l -> agree asksAlg l ->
  let x := parseAll base l a in let y := parseAll base l' a in
  chosenForm x = chosenForm y /\ chosenOrder x = chosenOrder y /\ mx x = mx y /\ algor x = algor y /\
  planeStrain x = planeStrain y /\ axiSymmetry x = axiSymmetry y.
Proof.
  intros P F O M A x y. repeat split.
  - apply (perm_reg base chosenForm setForm asksForm); auto using form_reg. intros ? ?. apply setForm_iff.
  - apply (perm_reg base chosenOrder setOrder asksOrder); auto using order_reg. intros ? ?. apply setOrder_iff.
  - apply (perm_reg base mx setMx asksMx); auto using mx_reg, setMx_ask.
  - apply (perm_reg base algor setAlg asksAlg); auto using alg_reg, setAlg_ask.
  - apply (perm_reg base planeStrain setPS (fun _ b => b = true)); auto using ps_reg; [|intros ? ? ? ? _ _ -> ->; reflexivity].
    unfold setPS. intros ? ?. destruct (prefix _ _); intros [= <-]; reflexivity.
  - apply (perm_reg base axiSymmetry setAxi (fun _ b => b = true)); auto using axi_reg; [|intros ? ? ? ? _ _ -> ->; reflexivity].
    unfold setAxi. intros ? ?. destruct (prefix _ _); intros [= <-]; reflexivity.
Qed.

(* the file: <updatedlagrange/> does not downgrade *)
Definition near (s t : Z * Z * args) : Prop :=
  let '(f, p, a) := s in let '(f', p', a') := t in p = p' /\ a = a' /\ (f = f' \/ (f < 4 /\ f' = 4)).
Lemma near_step d s t c : near s t -> near (formStep d s c) (formStep d t c).
Proof.
  destruct s as [[f p] a], t as [[f' p'] a']. intros (-> & -> & H). destruct c; cbn -[Z.ltb]; auto.
  - destruct H as [->|[H ->]]; [auto|]. replace (f <? UPDATED_LAGRANGE) with true by (symmetry; apply Z.ltb_lt; exact H). cbn. auto.
  - repeat match goal with |- context [if ?b then _ else _] => destruct b end; cbn; auto.
Qed.
Lemma near_fold d cs : forall s t, near s t -> near (fold_left (formStep d) cs s) (fold_left (formStep d) cs t).
Proof. induction cs as [|c cs IH]; intros s t H; [assumption|]. cbn. now apply IH, near_step. Qed.
Definition fileForm (cs : list child) (a : args) : Z := chosenForm (parseFormulation cs a).
Lemma near_UL d s : near s (formStep d s UpdatedLagrange).
Proof.
  destruct s as [[f p] a]. cbn -[Z.ltb]. repeat split. unfold UPDATED_LAGRANGE. destruct (Z.ltb_spec f 4); auto.
Qed.
Lemma fold_form_ge d cs : forall s, -1 <= fst (fst s) -> -1 <= fst (fst (fold_left (formStep d) cs s)).
Proof.
  induction cs as [|c cs IH]; intros [[f p] a] H; [assumption|]. cbn [fold_left]. apply IH. cbn in H.
  destruct c; cbn -[Z.ltb]; unfold TOTAL_LAGRANGE, UPDATED_LAGRANGE, LINEAR, MIXED_QnPn1, MIXED_QnQn1, FBAR, NONLINEAR; try lia.
  - destruct (f <? 4); lia.
  - repeat match goal with |- context [if ?b then _ else _] => destruct b end; cbn; lia.
Qed.
Lemma file_UL cs1 cs2 a : 5 <= fst (fst (fold_left (formStep (dim a)) (cs1 ++ cs2)%list (-1, -1, a))) ->
  parseFormulation (cs1 ++ UpdatedLagrange :: cs2) a = parseFormulation (cs1 ++ cs2) a.
Proof.
  unfold parseFormulation. rewrite !fold_left_app. cbn [fold_left].
  set (s := fold_left _ cs1 _). assert (N := near_fold (dim a) cs2 s _ (near_UL (dim a) s)).
  destruct (fold_left _ cs2 s) as [[f p] b], (fold_left _ cs2 (formStep _ s _)) as [[f' p'] b'].
  cbn in N |- *. destruct N as (-> & -> & [->|[L ->]]); [reflexivity|lia].
Qed.
Lemma file_form cs a f : fst (fst (fold_left (formStep (dim a)) cs (-1, -1, a))) = f -> 0 <= f -> chosenForm (parseFormulation cs a) = f.
Proof.
  unfold parseFormulation. destruct (fold_left _ cs _) as [[g p] b]. cbn [fst]. intros -> P. now apply form_set.
Qed.

(** The input file. *)
Lemma step_quiet d s c f : fst (fst s) = f -> (forall y, ~ asksChild c y) ->
  fst (fst (formStep d s c)) = match c with UpdatedLagrange => Z.max f 4 | _ => f end.
Proof.
  destruct s as [[form p] a]. cbn [fst]. intros <- N. destruct c as [| | | | |ty o|]; cbn [formStep fst]; try reflexivity.
  - exfalso. exact (N _ chl_total).
  - unfold UPDATED_LAGRANGE. destruct (Z.ltb_spec form 4); lia.
  - exfalso. exact (N _ chl_linear).
  - destruct (ty =? "Qp/Pp-1")%string eqn:E1; [apply String.eqb_eq in E1; subst; exfalso; exact (N _ (chl_MX o))|].
    destruct (ty =? "Qp/Qp-1")%string eqn:E2; [apply String.eqb_eq in E2; subst; exfalso; exact (N _ (chl_Mixed o))|].
    destruct (ty =? "Fbar")%string eqn:E3; [apply String.eqb_eq in E3; subst; exfalso; exact (N _ (chl_Fbar o))|].
    destruct (ty =? "Tensor")%string eqn:E4; [apply String.eqb_eq in E4; subst; exfalso; exact (N _ (chl_tensor o))|]. reflexivity.
Qed.
Lemma step_asks d s c f : asksChild c f -> fst (fst (formStep d s c)) = f.
Proof. intros H. destruct s as [[form p] a]. inversion H; reflexivity. Qed.
Lemma fold_quiet d l : forall s f, fst (fst s) = f -> (forall b y, In b l -> ~ asksChild b y) ->
  (In UpdatedLagrange l -> fst (fst (fold_left (formStep d) l s)) = Z.max f 4) /\
  (~ In UpdatedLagrange l -> fst (fst (fold_left (formStep d) l s)) = f).
Proof.
  induction l as [|c l IH]; intros s f E N; [split; [intros []|intros _; exact E]|]. cbn [fold_left].
  assert (Nc : forall y, ~ asksChild c y) by (intros y; apply N; now left).
  pose proof (step_quiet d s c f E Nc) as F.
  assert (Nl : forall b y, In b l -> ~ asksChild b y) by (intros b y I; apply N; now right).
  destruct (IH _ _ F Nl) as [A B].
  assert (D : In UpdatedLagrange l \/ ~ In UpdatedLagrange l).
  { clear. induction l as [|x l [I|I]]; [now right|left; now right|]. destruct x; try (right; intros [H|H]; [discriminate H|contradiction]). left; now left. }
  split.
  - intros I. destruct D as [D|D].
    + rewrite (A D). destruct c; try reflexivity. lia.
    + destruct I as [-> | I]; [|contradiction]. exact (B D).
  - intros I. assert (D' : ~ In UpdatedLagrange l) by (intros J; apply I; now right). rewrite (B D'). destruct c; try reflexivity. exfalso. apply I. now left.
Qed.
Lemma asks_pos c f : asksChild c f -> 1 <= f.
Proof. intros H. inversion H; lia. Qed.
Lemma chosen_form_set a f p : 0 <= f -> chosenForm (setFormulation a f p) = f.
Proof.
  intros F. unfold setFormulation, chosenForm. apply Z.leb_le in F. rewrite F.
  destruct (0 <=? p); destruct (options a) as [|x [|y l]]; reflexivity.
Qed.
Lemma last_child : forall cs a f, lastChild asksChild cs f ->
  (~ refinedBy cs f -> chosenForm (parseFormulation cs a) = f) /\ (refinedBy cs f -> chosenForm (parseFormulation cs a) = Z.max f 4).
Proof.
  assert (G : forall l1 c l2 a f, asksChild c f -> (forall b y, In b l2 -> ~ asksChild b y) ->
    (In UpdatedLagrange l2 -> chosenForm (parseFormulation (l1 ++ c :: l2) a) = Z.max f 4) /\
    (~ In UpdatedLagrange l2 -> chosenForm (parseFormulation (l1 ++ c :: l2) a) = f)).
  { intros l1 c l2 a f C N. unfold parseFormulation. rewrite fold_left_app. cbn [fold_left].
    set (s := formStep _ _ c). assert (E : fst (fst s) = f) by (apply step_asks; exact C).
    destruct (fold_quiet (dim a) l2 s f E N) as [A B]. pose proof (asks_pos _ _ C).
    split; intros I; [specialize (A I)|specialize (B I)]; destruct (fold_left _ l2 s) as [[g p] a'] eqn:Q; cbn [fst] in *; subst; apply chosen_form_set; lia. }
  intros cs a f (l1 & c & l2 & -> & C & N). split.
  - intros R. apply (G l1 c l2 a f C N). intros I. apply R. exists l1, c, l2. auto.
  - intros (m1 & d & m2 & E & D & K & I). rewrite E. now apply (G m1 d m2 a f D K).
Qed.
Lemma order_quiet d s c : (forall y, ~ orderChild c y) -> snd (fst (formStep d s c)) = snd (fst s).
Proof.
  destruct s as [[form p] a]. intros N. destruct c as [| | | | |ty [o|]|]; cbn [formStep fst snd]; try reflexivity.
  - exfalso. exact (N _ (chl_order ty o)).
  - repeat match goal with |- context [if ?b then _ else _] => destruct b end; reflexivity.
Qed.
Lemma last_child_order : forall cs a p, 0 <= p -> lastChild orderChild cs p -> chosenOrder (parseFormulation cs a) = p.
Proof.
  intros cs a p P (l1 & c & l2 & -> & C & N). unfold parseFormulation. rewrite fold_left_app. cbn [fold_left].
  set (s0 := fold_left _ l1 _). set (s := formStep _ s0 c).
  assert (E : snd (fst s) = p).
  { unfold s. destruct s0 as [[form q] a0]. inversion C; subst. cbn [formStep]. repeat match goal with |- context [if ?b then _ else _] => destruct b end; reflexivity. }
  assert (F : snd (fst (fold_left (formStep (dim a)) l2 s)) = p).
  { clearbody s. clear - E N. revert s E. induction l2 as [|b l2 IH]; intros s E; [exact E|]. cbn [fold_left]. apply IH.
    - intros x y I. apply N. now right.
    - rewrite order_quiet; [exact E|]. intros y. apply N. now left. }
  destruct (fold_left _ l2 s) as [[g q] a']. cbn [fst snd] in F. subst q. unfold setFormulation, chosenOrder. apply Z.leb_le in P. rewrite P.
  destruct (0 <=? g); destruct (options a') as [|x [|y l]]; reflexivity.
Qed.
