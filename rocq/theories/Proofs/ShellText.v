(** Keyword input of plates, shells and beams: every group of a description is read as the XML elements are. *)
From Coq Require Import List ZArith QArith Bool Lia.
From Verif.Lib Require Import Base.
From Verif.Model Require Import ShellText.
From Verif.Spec Require Import ShellText.
Import ListNotations.
Local Open Scope Z_scope.

Lemma atoi_int : forall z, atoi (int z) = z.
Proof. intros z; cbn. apply Z.quot_1_r. Qed.

Lemma last_cons : forall {A} (l : list A) a d, last (a :: l) d = last l a.
Proof. intros A l; induction l as [|b l IH]; intros a d; [reflexivity|]. change (last (b :: l) d = last (b :: l) a). rewrite !IH. reflexivity. Qed.

Section S.
Variable m : sim.

(** ** Sections *)
Fixpoint linesFrom (k : keyword) (i : nat) (ls : list (list word)) (s : state) : res state :=
  match ls with [] => Ret s | l :: ls => let* s1 := dataLine m k i l s in linesFrom k (S i) ls s1 end.
Lemma run_in : forall k ls i rest s, ls <> [] ->
  run m (map data ls ++ rest) (In k i (i + length ls)) s = let* s1 := linesFrom k i ls s in run m rest Top (finish k s1).
Proof.
  intros k ls; induction ls as [|l ls IH]; intros i rest s H; [contradiction|].
  cbn [map app run linesFrom data words l_key l_args]. destruct (dataLine m k i l s) as [| |s1]; cbn; auto.
  replace (i + S (length ls))%nat with (S i + length ls)%nat by lia.
  destruct ls as [|l2 ls].
  - cbn [length map app linesFrom bind]. rewrite Nat.add_0_r, Nat.eqb_refl. reflexivity.
  - replace (match (S i + length (l2 :: ls))%nat with O => false | S m' => (i =? m')%nat end) with false
      by (symmetry; cbn [Nat.add length]; apply Nat.eqb_neq; lia).
    apply IH. discriminate.
Qed.
Lemma run_enter : forall k ls rest s,
  run m (map data ls ++ rest) (fst (enter k (Z.of_nat (length ls)) s)) (snd (enter k (Z.of_nat (length ls)) s)) =
  let* s1 := linesFrom k 0 ls s in run m rest Top (finish k s1).
Proof.
  intros k ls rest s. unfold enter. destruct ls as [|l ls]; [reflexivity|].
  replace (Z.of_nat (length (l :: ls)) <=? 0) with false by (symmetry; apply Z.leb_gt; cbn [length]; lia).
  cbn [fst snd]. rewrite Nat2Z.id. apply (run_in k (l :: ls) 0). discriminate.
Qed.

(** A section that is not complete when the file ends. *)
Lemma run_part : forall k ls i n s, (i + length ls < n)%nat ->
  run m (map data ls) (In k i n) s = let* s1 := linesFrom k i ls s in Ret (finish k s1).
Proof.
  intros k ls; induction ls as [|l ls IH]; intros i n s H; [reflexivity|].
  cbn [map run linesFrom data words l_key l_args]. destruct (dataLine m k i l s) as [| |s1]; cbn [bind]; auto.
  cbn [length] in H. replace (Nat.eqb (S i) n) with false by (symmetry; apply Nat.eqb_neq; lia).
  apply IH. lia.
Qed.

(** ** Materials *)
Definition addIso (s : state) (d : isoD) : state := pushMat (matOf m d) (i_t d) (matCode (i_code d) s).
Lemma iso_lines : forall l i s, linesFrom ISOTROPIC i (map (isoWords m) l) s = Ret (fold_left addIso l s).
Proof.
  induction l as [|d l IH]; intros i s; [reflexivity|].
  cbn [map linesFrom dataLine fold_left]. unfold addIso at 2, matOf.
  destruct m; cbn [isoWords isoLine]; rewrite atoi_int; cbn [TextInput.atof fst snd bind]; apply IH.
Qed.

(** ** Pressures *)
Definition addPres (s : state) (d : presD) : state :=
  setProps (setPropertyType (q_code d) BODYLOAD None (myProps s)) (setScalars ((q_code d, FConst (q_p d)) :: myScalars s) s).
Lemma pres_lines : forall l i s, (forall d, List.In d l -> 0 < q_code d) ->
  linesFrom PRESSURE i (map presWords l) s = Ret (fold_left addPres l s).
Proof.
  induction l as [|d l IH]; intros i s H; [reflexivity|].
  cbn [map linesFrom dataLine fold_left presWords presLine]. rewrite atoi_int.
  replace (0 <? q_code d) with true by (symmetry; apply Z.ltb_lt, H; left; reflexivity).
  cbn [bind TextInput.atof]. rewrite IH by (intros; apply H; right; assumption). reflexivity.
Qed.

(** ** Point loads *)
Definition setBy (o : pload) (d : loadD) : pload :=
  match m with
  | BeamC1 => mkPL (d_patch d) [d_u d] (l_dir o) (Some (d_P d))
  | Plate => mkPL (d_patch d) [d_u d; d_v d] (l_dir o) (Some (d_P d))
  | Shell3 => mkPL (d_patch d) [d_u d; d_v d] (d_dir d) (Some (d_P d))
  end.
Fixpoint setAll (os : list pload) (ds : list loadD) : list pload :=
  match os, ds with o :: os, d :: ds => setBy o d :: setAll os ds | _, _ => os end.
Lemma setLoads_setLoads0 : forall a b s, setLoads a (setLoads b s) = setLoads a s.
Proof. reflexivity. Qed.
Lemma setNth_app : forall pre o r f, setNth (length pre) f (pre ++ o :: r) = pre ++ f o :: r.
Proof. induction pre as [|a pre IH]; intros; cbn; [reflexivity|]. f_equal; apply IH. Qed.
Lemma load_line : forall s pre o r d, myLoads s = pre ++ o :: r ->
  loadLine m (length pre) (loadWords m d) s = Ret (setLoads (pre ++ setBy o d :: r) s).
Proof.
  intros s pre o r d H. unfold loadLine, loadWords, setBy.
  destruct m; rewrite H, setNth_app, ?atoi_int; reflexivity.
Qed.
Lemma load_lines : forall ds pre os s, (length ds <= length os)%nat -> myLoads s = pre ++ os ->
  linesFrom POINTLOAD (length pre) (map (loadWords m) ds) s = Ret (setLoads (pre ++ setAll os ds) s).
Proof.
  induction ds as [|d ds IH]; intros pre os s L H.
  - cbn [map linesFrom]. replace (setAll os []) with os by (destruct os; reflexivity). rewrite <- H. destruct s; reflexivity.
  - destruct os as [|o os]; [cbn in L; lia|]. cbn [map linesFrom dataLine]. rewrite (load_line s pre o os d H). cbn [bind].
    replace (S (length pre)) with (length (pre ++ [setBy o d])) by (rewrite app_length; cbn; lia).
    rewrite (IH (pre ++ [setBy o d]) os).
    + cbn [setAll]. rewrite <- app_assoc. reflexivity.
    + cbn in L; lia.
    + cbn. rewrite <- app_assoc. reflexivity.
Qed.
(** The direction of a load that is not set by the lines. *)
Definition keeps (o : pload) : Prop := l_dir o = l_dir (defLoad m) \/ m = Shell3.
Lemma setBy_of : forall o d, keeps o -> setBy o d = loadOf m d.
Proof.
  intros o d H. unfold keeps in H. unfold setBy, loadOf.
  destruct m; [destruct H as [-> | H]; [reflexivity|discriminate] | reflexivity | destruct H as [-> | H]; [reflexivity|discriminate]].
Qed.
Lemma setAll_of : forall ds os, length os = length ds -> Forall keeps os -> setAll os ds = map (loadOf m) ds.
Proof.
  induction ds as [|d ds IH]; intros os L H; destruct os as [|o os]; try discriminate L; [reflexivity|].
  cbn. inversion H; subst. rewrite setBy_of by assumption. f_equal. apply IH; [now injection L|assumption].
Qed.
Lemma keeps_of : forall ds, Forall keeps (map (loadOf m) ds).
Proof.
  intros ds. apply Forall_map, Forall_forall. intros d _. unfold keeps, loadOf. destruct m; cbn; auto.
Qed.
Lemma keeps_resize : forall n os, Forall keeps os -> Forall keeps (resize m n os).
Proof.
  intros n os H. unfold resize. apply Forall_app. split.
  - apply Forall_forall. intros x Hx. apply (proj1 (Forall_forall keeps os) H). eapply (In_nth_error) in Hx as [k Hk].
    apply nth_error_In with k. rewrite <- (firstn_skipn n os). rewrite nth_error_app1; [exact Hk|]. apply nth_error_Some; congruence.
  - apply Forall_forall. intros x Hx. apply repeat_spec in Hx. subst. left; reflexivity.
Qed.
Lemma resize_length : forall n os, length (resize m n os) = n.
Proof.
  intros n os. unfold resize. rewrite app_length, repeat_length, firstn_length. lia.
Qed.
Lemma run_missing : forall ps ds n, (length ds < n)%nat ->
  run m (mkL (Some POINTLOAD) [int (Z.of_nat n)] :: map data (map (loadWords m) ds)) Top (init ps) =
  Ret (setLoads (map (loadOf m) ds ++ repeat (defLoad m) (n - length ds)) (init ps)).
Proof.
  intros ps ds n H. cbn [run start l_key l_args]. rewrite atoi_int.
  replace (Z.of_nat n <? 0) with false by (symmetry; apply Z.ltb_ge; lia). cbn [bind]. unfold enter.
  replace (Z.of_nat n <=? 0) with false by (symmetry; apply Z.leb_gt; lia). cbn [fst snd]. rewrite Nat2Z.id.
  rewrite run_part by (rewrite map_length; cbn; lia).
  rewrite (load_lines ds [] (resize m n [])); [|rewrite resize_length; lia|reflexivity].
  cbn [bind finish app]. rewrite setLoads_setLoads0. do 2 f_equal. unfold resize. cbn [length firstn].
  rewrite firstn_nil, Nat.sub_0_r. cbn [app]. clear -H. revert n H.
  induction ds as [|d ds IH]; intros n H; cbn [map app length].
  - rewrite Nat.sub_0_r. destruct n; reflexivity.
  - destruct n as [|n]; [cbn in H; lia|]. cbn [repeat setAll Nat.sub]. cbn in H. rewrite IH by lia.
    f_equal. apply setBy_of. left; reflexivity.
Qed.
Lemma values_of : forall ds r, loadValues (map (loadOf m) ds ++ r) = let* v := loadValues r in Ret (map d_P ds ++ v).
Proof.
  induction ds as [|d ds IH]; intros r; cbn [map app].
  - destruct (loadValues r); reflexivity.
  - cbn [loadValues]. replace (l_val (loadOf m d)) with (Some (d_P d)) by (destruct m; reflexivity).
    rewrite IH. destruct (loadValues r); reflexivity.
Qed.

(** ** Groups *)
Definition addText (s : state) (g : group) : state :=
  match g with
  | GGravity g => setGravity g s
  | GIso l => useFront (fold_left addIso l s)
  | GLoad l => setLoads (map (loadOf m) l) s
  | GPres l => fold_left addPres l s
  end.
Definition okGroup (g : group) : Prop := match g with GPres l => forall d, List.In d l -> 0 < q_code d | _ => True end.
Lemma setLoads_setLoads : forall a b s, setLoads a (setLoads b s) = setLoads a s.
Proof. reflexivity. Qed.
Lemma run_group : forall g rest s, okGroup g -> Forall keeps (myLoads s) ->
  run m (asText m g ++ rest) Top s = run m rest Top (addText s g).
Proof.
  intros g rest s H K. destruct g as [q|l|l|l]; cbn [asText].
  - reflexivity.
  - unfold section. cbn [app run start l_key l_args bind]. rewrite atoi_int, run_enter, iso_lines. reflexivity.
  - unfold section. cbn [app run start l_key l_args]. rewrite atoi_int.
    replace (Z.of_nat (length (map (loadWords m) l)) <? 0) with false by (symmetry; apply Z.ltb_ge; lia).
    cbn [bind]. rewrite run_enter, Nat2Z.id.
    rewrite (load_lines l [] (resize m (length (map (loadWords m) l)) (myLoads s))).
    + cbn [bind finish app]. rewrite setLoads_setLoads. cbn [addText].
      rewrite setAll_of; [reflexivity| |apply keeps_resize, K]. rewrite resize_length, map_length. reflexivity.
    + rewrite resize_length, map_length. lia.
    + reflexivity.
  - unfold section. cbn [app run start l_key l_args bind]. rewrite atoi_int, run_enter, pres_lines by exact H. reflexivity.
Qed.
Lemma fold_keep : forall {A} (f : state -> A -> state) (P : state -> Prop) l s, (forall s a, P s -> P (f s a)) -> P s -> P (fold_left f l s).
Proof. intros A f P l; induction l as [|a l IH]; intros s H Hs; cbn; auto. Qed.
Lemma iso_loads : forall l s, myLoads (fold_left addIso l s) = myLoads s.
Proof.
  intros l s. apply (fold_keep addIso (fun t => myLoads t = myLoads s)); [|reflexivity].
  intros t d Ht. unfold addIso, matCode. destruct (0 <? i_code d); exact Ht.
Qed.
Lemma pres_loads : forall l s, myLoads (fold_left addPres l s) = myLoads s.
Proof. intros l s. apply (fold_keep addPres (fun t => myLoads t = myLoads s)); [|reflexivity]. intros t d Ht. exact Ht. Qed.
Lemma keeps_text : forall g s, Forall keeps (myLoads s) -> Forall keeps (myLoads (addText s g)).
Proof.
  intros g s K. destruct g as [q|l|l|l]; cbn [addText].
  - exact K.
  - cbn. rewrite iso_loads. exact K.
  - cbn. apply keeps_of.
  - rewrite pres_loads. exact K.
Qed.
Lemma run_groups : forall gs s, Forall okGroup gs -> Forall keeps (myLoads s) ->
  run m (textFile m gs) Top s = Ret (fold_left addText gs s).
Proof.
  induction gs as [|g gs IH]; intros s H K; [reflexivity|].
  inversion H; subst. cbn [textFile flat_map fold_left]. rewrite run_group by assumption.
  apply IH; [assumption|]. apply keeps_text, K.
Qed.

(** ** The XML elements *)
Definition addXml (s : state) (g : group) : state := parseXml m (asXml g) s.
Lemma parseXml_app : forall a b s, parseXml m (a ++ b) s = parseXml m b (parseXml m a s).
Proof. intros. unfold parseXml. apply fold_left_app. Qed.
Lemma parse_groups : forall gs s, parseXml m (xmlFile gs) s = fold_left addXml gs s.
Proof.
  induction gs as [|g gs IH]; intros s; [reflexivity|].
  cbn [xmlFile flat_map fold_left]. rewrite parseXml_app. apply IH.
Qed.
Lemma parseXml_map : forall {A} (f : A -> elem) l s, parseXml m (map f l) s = fold_left (fun s a => parseElem m (f a) s) l s.
Proof. intros A f l; induction l as [|a l IH]; intros s; [reflexivity|]. cbn. apply IH. Qed.

Lemma loadX_step : forall d s, parseElem m (loadX d) s = setLoads (myLoads s ++ [loadOf m d]) s.
Proof. intros d s. unfold loadX, loadOf. cbn. destruct m; reflexivity. Qed.
Lemma loadX_all : forall l s, addXml s (GLoad l) = setLoads (myLoads s ++ map (loadOf m) l) s.
Proof.
  intros l s. unfold addXml. cbn [asXml]. rewrite parseXml_map. revert s.
  induction l as [|d l IH]; intros s; cbn [fold_left map].
  - rewrite app_nil_r. destruct s; reflexivity.
  - rewrite loadX_step, IH. cbn. rewrite <- app_assoc. reflexivity.
Qed.
Lemma isoX_step : forall d s, parseElem m (isoX d) s = useFront (addIso s d).
Proof. intros d s. unfold isoX, addIso, matOf. cbn. destruct m; reflexivity. Qed.
Lemma useFront_add : forall d s, useFront (addIso (useFront s) d) = useFront (addIso s d).
Proof.
  intros d s. unfold addIso. replace (matCode (i_code d) (useFront s)) with (useFront (matCode (i_code d) s)).
  - generalize (matCode (i_code d) s). clear s. intros [a b c e f g h i j]. unfold useFront, pushMat; cbn.
    destruct a, b; cbn; try reflexivity; destruct (isZeroQ q); reflexivity.
  - unfold matCode. destruct (0 <? i_code d); reflexivity.
Qed.
Lemma useFront_idem : forall s, useFront (useFront s) = useFront s.
Proof.
  intros [a b c e f g h i j]. unfold useFront; cbn. destruct a, b; cbn; try reflexivity; destruct (isZeroQ q); reflexivity.
Qed.
Lemma isoX_all : forall l s, useFront s = s -> addXml s (GIso l) = useFront (fold_left addIso l s).
Proof.
  intros l s H. unfold addXml. cbn [asXml]. rewrite parseXml_map.
  assert (G : forall l s, useFront (fold_left addIso l (useFront s)) = useFront (fold_left addIso l s)).
  { clear. induction l as [|d l IH]; intros s; cbn [fold_left]; [apply useFront_idem|].
    rewrite <- (IH (addIso (useFront s) d)), <- (IH (addIso s d)), useFront_add. reflexivity. }
  revert s H. induction l as [|d l IH]; intros s H; cbn [fold_left]; [symmetry; exact H|].
  rewrite isoX_step, IH by apply useFront_idem. apply G.
Qed.

(** ** Both side by side *)
Lemma same_refl : forall a, same a a.
Proof. intros; repeat split. Qed.
Lemma same_trans : forall a b c, same a b -> same b c -> same a c.
Proof. unfold same; intros a b c H1 H2; intuition congruence. Qed.
Lemma same_sym : forall a b, same a b -> same b a.
Proof. unfold same; intros a b H; intuition congruence. Qed.
Lemma same_iso : forall d a b, same a b -> same (addIso a d) (addIso b d).
Proof.
  intros d a b (H1 & H2 & H3 & H4 & H5 & H6 & H7). unfold same, addIso, matCode, nMat.
  destruct (0 <? i_code d); cbn; repeat split; congruence.
Qed.
Lemma same_isos : forall l a b, same a b -> same (fold_left addIso l a) (fold_left addIso l b).
Proof. induction l as [|d l IH]; intros a b H; cbn; [exact H|]. apply IH, same_iso, H. Qed.
Lemma same_front : forall a b, same a b -> same (useFront a) (useFront b).
Proof.
  intros a b (H1 & H2 & H3 & H4 & H5 & H6 & H7). unfold same; cbn.
  rewrite H1, H2, H3, H4, H5, H6, H7. repeat split.
Qed.
Lemma same_pres : forall d a b, same a b -> same (addPres a d) (addPres b d).
Proof.
  intros d a b (H1 & H2 & H3 & H4 & H5 & H6 & H7). unfold same, addPres; cbn. repeat split; congruence.
Qed.
Lemma presX_step : forall d s, 0 < q_code d -> same (parseElem m (presX d) s) (addPres s d) /\
  myLoads (parseElem m (presX d) s) = myLoads s.
Proof.
  intros d s H. unfold presX. cbn [parseElem]. replace (0 <? q_code d) with true by (symmetry; apply Z.ltb_lt, H).
  destruct m; try (destruct (haveLoads _)); split; try reflexivity; repeat split.
Qed.
Lemma presX_all : forall l a b, (forall d, List.In d l -> 0 < q_code d) -> same a b ->
  same (fold_left addPres l a) (addXml b (GPres l)) /\ myLoads (addXml b (GPres l)) = myLoads b.
Proof.
  intros l a b H E. unfold addXml. cbn [asXml]. rewrite parseXml_map.
  revert a b H E. induction l as [|d l IH]; intros a b H E; cbn [fold_left]; [split; [exact E|reflexivity]|].
  destruct (presX_step d b (H d (or_introl eq_refl))) as (S1 & L1).
  destruct (IH (addPres a d) (parseElem m (presX d) b)) as (S2 & L2).
  - intros e He; apply H; right; exact He.
  - apply same_trans with (addPres b d); [apply same_pres, E|apply same_sym, S1].
  - split; [exact S2|]. rewrite L2. exact L1.
Qed.
(** The integrand already uses the first material and thickness. *)
Definition fronted (s : state) : Prop :=
  material s = material (useFront s) /\ thickness s = thickness (useFront s).
Lemma fronted_fix : forall s, fronted s -> useFront s = s.
Proof. intros [a b c e f g h i j] (H1 & H2). unfold useFront in *; cbn in *. rewrite <- H1, <- H2. reflexivity. Qed.
Lemma fronted_same : forall a b, same a b -> fronted a -> fronted b.
Proof.
  intros a b (H1 & H2 & H3 & H4 & H5 & H6 & H7) (F1 & F2). unfold fronted in *; cbn in *.
  rewrite <- H1, <- H2, <- H6, <- H7. auto.
Qed.
Lemma fronted_text : forall g s, fronted s -> fronted (addText s g).
Proof.
  intros g s H. destruct g as [q|l|l|l]; cbn [addText].
  - exact H.
  - unfold fronted. rewrite useFront_idem. auto.
  - exact H.
  - apply (fold_keep addPres fronted); [|exact H]. intros t d Ht. exact Ht.
Qed.
Lemma group_same : forall g a b, okGroup g -> fronted a -> same a b -> same (addText a g) (addXml b g).
Proof.
  intros g a b H F E. destruct g as [q|l|l|l]; cbn [addText].
  - unfold addXml; cbn. unfold same in *; cbn in *. intuition.
  - rewrite isoX_all by (apply fronted_fix, (fronted_same a b E F)). apply same_front, same_isos, E.
  - rewrite loadX_all. exact E.
  - apply presX_all; assumption.
Qed.
Lemma groups_same : forall gs a b, Forall okGroup gs -> fronted a -> same a b ->
  same (fold_left addText gs a) (fold_left addXml gs b).
Proof.
  induction gs as [|g gs IH]; intros a b H F E; cbn; [exact E|].
  inversion H; subst. apply IH; [assumption|apply fronted_text, F|apply group_same; assumption].
Qed.

(** ** Contents *)
Lemma iso_tabs : forall l s, mVec (fold_left addIso l s) = mVec s ++ map (matOf m) l /\ tVec (fold_left addIso l s) = tVec s ++ map i_t l
  /\ gravity (fold_left addIso l s) = gravity s.
Proof.
  induction l as [|d l IH]; intros s; cbn [fold_left map]; [rewrite !app_nil_r; auto|].
  destruct (IH (addIso s d)) as (-> & -> & ->). unfold addIso, matCode. destruct (0 <? i_code d); cbn; rewrite <- !app_assoc; auto.
Qed.
Lemma text_tabs : forall gs s,
  mVec (fold_left addText gs s) = mVec s ++ map (matOf m) (isos gs) /\
  tVec (fold_left addText gs s) = tVec s ++ map i_t (isos gs) /\
  gravity (fold_left addText gs s) = last (gravs gs) (gravity s).
Proof.
  induction gs as [|g gs IH]; intros s; cbn [fold_left]; [cbn; rewrite !app_nil_r; auto|].
  destruct (IH (addText s g)) as (-> & -> & ->). destruct g as [q|l|l|l]; cbn [addText isos gravs flat_map].
  - repeat split. exact (eq_sym (last_cons (gravs gs) q (gravity s))).
  - destruct (iso_tabs l s) as (E1 & E2 & E3). cbn. rewrite E1, E2, E3, !map_app, <- !app_assoc. auto.
  - auto.
  - assert (P : mVec (fold_left addPres l s) = mVec s /\ tVec (fold_left addPres l s) = tVec s /\ gravity (fold_left addPres l s) = gravity s).
    { apply (fold_keep addPres (fun t => mVec t = mVec s /\ tVec t = tVec s /\ gravity t = gravity s)); auto. }
    destruct P as (-> & -> & ->). auto.
Qed.
Lemma text_loads : forall gs s, myLoads (fold_left addText gs s) = last (map (map (loadOf m)) (loadGroups gs)) (myLoads s).
Proof.
  induction gs as [|g gs IH]; intros s; cbn [fold_left]; [reflexivity|].
  rewrite IH. destruct g as [q|l|l|l]; cbn [addText loadGroups flat_map app].
  - reflexivity.
  - cbn. rewrite iso_loads. reflexivity.
  - exact (eq_sym (last_cons _ (map (loadOf m) l) (myLoads s))).
  - rewrite pres_loads. reflexivity.
Qed.
Lemma xml_loads : forall gs s, Forall okGroup gs -> myLoads (fold_left addXml gs s) = myLoads s ++ map (loadOf m) (loads gs).
Proof.
  induction gs as [|g gs IH]; intros s H; cbn [fold_left]; [cbn; rewrite app_nil_r; reflexivity|].
  inversion H; subst. rewrite IH by assumption. unfold loads. destruct g as [q|l|l|l]; cbn [loadGroups flat_map app concat].
  - reflexivity.
  - f_equal. unfold addXml. cbn [asXml]. rewrite parseXml_map.
    apply (fold_keep (fun s a => parseElem m (isoX a) s) (fun t => myLoads t = myLoads s)); [|reflexivity].
    intros t d Ht. rewrite isoX_step. cbn. unfold matCode. destruct (0 <? i_code d); exact Ht.
  - rewrite loadX_all. cbn. rewrite map_app, app_assoc. reflexivity.
  - f_equal. apply (presX_all l s s H2 (same_refl s)).
Qed.

(** ** Pressures shown *)
Definition usesFirst (s : state) : Prop := material s = hd_error (mVec s).
Definition heavy (x : elem) : Prop := match x with XGravity g => ~ (dflt g 0%Q == 0)%Q | _ => True end.
Lemma isZeroQ_false : forall q, ~ (q == 0)%Q -> isZeroQ q = false.
Proof. intros q H. unfold isZeroQ. destruct (Qeq_bool q 0) eqn:E; [|reflexivity]. apply Qeq_bool_iff in E. contradiction. Qed.
Lemma uses_step : forall x s, usesFirst s -> usesFirst (parseElem m x s).
Proof.
  intros x s H. unfold usesFirst in *. destruct x; cbn [parseElem].
  - exact H.
  - unfold matCode. destruct m, (0 <? code); cbn; destruct (mVec s); reflexivity.
  - exact H.
  - destruct (0 <? code); [|exact H]. destruct m; try destruct (haveLoads _); exact H.
Qed.
Lemma shown_step : forall x s, heavy x -> usesFirst s -> haveLoads s = true -> haveLoads (parseElem m x s) = true.
Proof.
  intros x s Hx U H. destruct x; cbn [parseElem].
  - unfold haveLoads in *. cbn [setGravity presFld gravity material]. cbn in Hx. rewrite (isZeroQ_false _ Hx).
    apply orb_true_iff in H. apply orb_true_iff. destruct H as [H|H]; [left; exact H|right].
    apply andb_true_iff in H. apply andb_true_iff. split; [reflexivity|apply H].
  - unfold haveLoads in *. unfold usesFirst in U.
    assert (G : forall mt q0, presFld (useFront (pushMat mt q0 (matCode code s))) = presFld s /\
                gravity (useFront (pushMat mt q0 (matCode code s))) = gravity s /\
                (forall m0, material s = Some m0 -> material (useFront (pushMat mt q0 (matCode code s))) = Some m0)).
    { intros mt q0. unfold matCode. destruct (0 <? code); cbn; (split; [reflexivity|split; [reflexivity|]]);
        intros m0 E; rewrite E in U; destruct (mVec s); cbn in *; [discriminate U|auto|discriminate U|auto]. }
    assert (K : forall s2, presFld s2 = presFld s -> gravity s2 = gravity s -> (forall m0, material s = Some m0 -> material s2 = Some m0) ->
      negb match presFld s2 with [] => true | _ => false end
      || negb (isZeroQ (gravity s2)) && match material s2 with Some mt => negb (isZeroQ (m_rho mt)) | None => false end = true).
    { intros s2 -> -> E. apply orb_true_iff in H. apply orb_true_iff. destruct H as [H|H]; [left; exact H|right].
      destruct (material s) as [m0|] eqn:Em; [rewrite (E m0 eq_refl); exact H|]. rewrite andb_false_r in H. discriminate. }
    destruct m; apply K; apply G.
  - exact H.
  - destruct (0 <? code); [|exact H]. destruct m; try exact H; destruct (haveLoads (setProps _ _)) eqn:E; try exact E;
      unfold haveLoads; cbn; destruct (presFld s); reflexivity.
Qed.
Lemma shown_all : forall xs s, Forall heavy xs -> usesFirst s -> haveLoads s = true -> haveLoads (parseXml m xs s) = true.
Proof.
  induction xs as [|x xs IH]; intros s F U H; [exact H|]. inversion F; subst. cbn. apply IH; [assumption|apply uses_step, U|].
  apply shown_step; assumption.
Qed.
Lemma shown_pressure : forall code f s, m <> BeamC1 -> 0 < code -> haveLoads (parseElem m (XPressure code f) s) = true.
Proof.
  intros code f s Hm Hc. cbn [parseElem]. replace (0 <? code) with true by (symmetry; apply Z.ltb_lt, Hc).
  destruct m; try contradiction; destruct (haveLoads (setProps _ _)) eqn:E; try exact E;
    unfold haveLoads; cbn; destruct (presFld s); reflexivity.
Qed.
Lemma uses_all : forall xs s, usesFirst s -> usesFirst (parseXml m xs s).
Proof. induction xs as [|x xs IH]; intros s U; [exact U|]. cbn. apply IH, uses_step, U. Qed.
End S.
