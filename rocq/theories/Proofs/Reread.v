From Coq Require Import Sorting.Sorted QArith.QArith_base.
From Verif Require Import Lib.Base Lib.Vec3 Model.Couplings Model.ContactInput Model.Boundary Model.Tables Model.Reread Proofs.Couplings Proofs.Tables Spec.Reread.
Import ListNotations.
Local Open Scope nat_scope.

Section P.
Context {M : Type}.
Implicit Types (s : model M) (ts : list (tag M)) (file : list (element M)).
Notation isT := (fun t : tag M => match t with TContact bs => [bs] | _ => [] end).

Fixpoint addRigid ts (f : Z -> option Z) : Z -> option Z :=
  match ts with [] => f | TRigid c i :: r => addRigid r (fun k => if (k =? c)%Z then Some i else f k) | _ :: r => addRigid r f end.
Definition codesIn ts : list Z := flat_map (fun t => match t with TForce c => [c] | _ => [] end) ts.
Definition linesIn p ts : list line := flat_map (fun t => match t with TCoupling q ls => if (q =? p)%Z then ls else [] | _ => [] end) ts.
Definition dualsIn ts : list nat := flat_map (fun t => match t with TDual f => [f] | _ => [] end) ts.
Definition addCodes cs l := fold_left (fun l c => addCode c l) cs l.

Lemma parse_app ls ls' m : parseCpl (ls ++ ls') m = parseCpl ls' (parseCpl ls m).
Proof. apply fold_left_app. Qed.

Lemma elast_spec ts : forall s, let s' := fold_left readElast ts s in
  mats s' = mats s ++ matsIn ts /\
  cur s' = match hd_error (rev (matsIn ts)) with Some m => Some m | None => cur s end /\
  secs s' = addCodes (codesIn ts) (secs s) /\ masters s' = addRigid ts (masters s) /\
  (forall p, cpls s' p = parseCpl (linesIn p ts) (cpls s p)) /\
  contact s' = contact s /\ bodies s' = bodies s /\ duals s' = duals s ++ dualsIn ts.
Proof.
  induction ts as [|t ts IH]; intros s; cbn [fold_left]; [cbn; rewrite !app_nil_r; repeat split|].
  destruct (IH (readElast s t)) as (A & B & C & D & E & F & G & H). clear IH.
  cbv zeta. rewrite A, B, C, D, F, G, H. destruct t; cbn [readElast mats cur secs masters contact bodies duals addRigid codesIn linesIn dualsIn matsIn flat_map app];
    repeat split; try reflexivity.
  - rewrite <- app_assoc. reflexivity.
  - fold (matsIn ts). cbn [rev]. destruct (rev (matsIn ts)); reflexivity.
  - intros p. rewrite E. reflexivity.
  - intros p. rewrite E. reflexivity.
  - intros p. rewrite E. reflexivity.
  - intros p. rewrite E. cbn [readElast cpls]. rewrite (Z.eqb_sym patch p). destruct (Z.eqb_spec p patch) as [->|]; cbn [app]; [|reflexivity].
    fold (linesIn patch ts). rewrite parse_app. reflexivity.
  - intros p. rewrite E. reflexivity.
  - rewrite <- app_assoc. reflexivity.
  - intros p. rewrite E. reflexivity.
Qed.

Definition contactsIn ts : list (list (list bodyTag)) := flat_map isT ts.
Definition orElse {A} (x y : option A) : option A := match x with Some a => Some a | None => y end.
Lemma finite_spec ts : forall s dm, 
  readFinite s dm ts =
  if (match contactsIn ts with [] => false | [_] => contact s | _ => true end) then Rejected
  else Ret (mkModel (mats s ++ matsIn ts) (cur s) (secs s) (masters s) (cpls s) (match contactsIn ts with [] => contact s | _ => true end)
             (bodies s ++ flat_map (map readBody) (contactsIn ts)) (duals s), orElse dm (hd_error (matsIn ts))).
Proof.
  induction ts as [|t ts IH]; intros s dm.
  - cbn. rewrite !app_nil_r. destruct s, dm; reflexivity.
  - destruct t; cbn [readFinite matsIn contactsIn flat_map app]; try (fold (matsIn ts) (contactsIn ts)); try apply IH.
    + rewrite IH. cbn [contact mats cur secs masters cpls bodies duals]. rewrite <- app_assoc. destruct dm; reflexivity.
    + destruct (contact s) eqn:K; [destruct (contactsIn ts) as [|? [|? ?]]; reflexivity|]. rewrite IH. cbn [contact mats cur secs masters cpls bodies duals].
      destruct (contactsIn ts) as [|x [|y r]]; cbn [flat_map]; rewrite ?app_nil_r, <- ?app_assoc; reflexivity.
Qed.

(** Reading a whole file. *)
Lemma matsIn_app a b : matsIn (a ++ b) = matsIn a ++ @matsIn M b. Proof. apply flat_map_app. Qed.
Lemma addRigid_app a b f : addRigid (a ++ b) f = addRigid b (addRigid a f).
Proof. revert f. induction a as [|t a IH]; intros f; [reflexivity|]. destruct t; cbn; apply IH. Qed.
Lemma file_spec file : forall s, match readFile file s with
  | UB => False
  | Rejected => contactsOf file <> [] /\ (contact s = false -> 2 <= length (contactsOf file))
  | Ret s' =>
    (contact s = true -> contactsOf file = []) /\ length (contactsOf file) <= 1 /\
    mats s' = mats s ++ matsOf file /\ cur s' = orElse (chosen file) (cur s) /\
    secs s' = addCodes (codesIn (elastTags file)) (secs s) /\ masters s' = addRigid (elastTags file) (masters s) /\
    (forall p, cpls s' p = parseCpl (linesOf p file) (cpls s p)) /\
    contact s' = (match contactsOf file with [] => contact s | _ => true end) /\ bodies s' = bodies s ++ flat_map (map readBody) (contactsOf file) /\
    duals s' = duals s ++ dualsOf file
  end.
Proof.
  induction file as [|e file IH]; intros s.
  - cbn. rewrite !app_nil_r. repeat split; try lia; reflexivity.
  - cbn [readFile]. destruct e as [ts|ts].
    + cbn [readElement bind]. destruct (elast_spec ts s) as (A & B & C & D & E & F & G & H). set (s1 := fold_left readElast ts s) in *.
      specialize (IH s1). destruct (readFile file s1) as [| |s']; [exact IH|rewrite F in IH; exact IH|].
      destruct IH as (Z0 & Z1 & A' & B' & C' & D' & E' & F' & G' & H').
      rewrite F in Z0. split; [exact Z0|]. split; [exact Z1|].
      unfold matsOf, dualsOf, elastTags. cbn [flat_map tagsOf chosen]. fold (elastTags file).
      split; [rewrite A', A, matsIn_app, app_assoc; reflexivity|].
      split; [rewrite B', B; destruct (chosen file); [reflexivity|]; cbn [orElse]; destruct (hd_error (rev (matsIn ts))); reflexivity|].
      split; [rewrite C', C; unfold addCodes, codesIn; rewrite flat_map_app, fold_left_app; reflexivity|].
      split; [rewrite D', D, addRigid_app; reflexivity|].
      split; [intros p; rewrite E', E; unfold linesOf; cbn [elastTags flat_map]; fold (elastTags file); rewrite flat_map_app, parse_app; reflexivity|].
      split; [rewrite F', F; reflexivity|]. split; [rewrite G', G; reflexivity|].
      rewrite H', H, flat_map_app, app_assoc. reflexivity.
    + cbn [readElement]. rewrite finite_spec.
      assert (K : contactsOf (Finite ts :: file) = contactsIn ts ++ contactsOf file) by (unfold contactsOf, finiteTags; cbn [flat_map]; rewrite flat_map_app; reflexivity).
      destruct (match contactsIn ts with [] => false | [_] => contact s | _ :: _ :: _ => true end) eqn:Q; cbn [bind].
      * rewrite K. destruct (contactsIn ts) as [|x [|y r]]; [discriminate|rewrite Q; cbn; split; [discriminate|intros E; congruence]|cbn; split; [discriminate|intros _; lia]].
      * set (s1 := setDefault _). specialize (IH s1).
        assert (F : mats s1 = mats s ++ matsIn ts /\ cur s1 = orElse (hd_error (matsIn ts)) (cur s) /\ secs s1 = secs s /\ masters s1 = masters s /\ cpls s1 = cpls s /\
          contact s1 = (match contactsIn ts with [] => contact s | _ => true end) /\ bodies s1 = bodies s ++ flat_map (map readBody) (contactsIn ts) /\ duals s1 = duals s).
        { subst s1. unfold setDefault. cbn [snd fst orElse]. destruct (hd_error (matsIn ts)); cbn; repeat split; reflexivity. }
        clearbody s1. destruct F as (A & B & C & D & E & F & G & H).
        destruct (readFile file s1) as [| |s']; [exact IH| |].
        -- destruct IH as [N L]. rewrite K. split; [destruct (contactsIn ts); [exact N|discriminate]|].
           intros Z. destruct (contactsIn ts) as [|x [|y r]]; cbn [app length]; [apply L; rewrite F; exact Z| |discriminate].
           destruct (contactsOf file); [congruence|cbn; lia].
        -- destruct IH as (Z0 & Z1 & A' & B' & C' & D' & E' & F' & G' & H').
           rewrite K. split; [intros Z; destruct (contactsIn ts) as [|x [|y r]]; [cbn; apply Z0; rewrite F; exact Z|congruence|discriminate]|].
           split; [destruct (contactsIn ts) as [|x [|y r]]; [exact Z1|rewrite (Z0 F); cbn; lia|discriminate]|].
           unfold matsOf, dualsOf, elastTags. cbn [flat_map tagsOf chosen app]. fold (elastTags file).
           split; [rewrite A', A, matsIn_app, app_assoc; reflexivity|].
           split; [rewrite B', B; destruct (chosen file); [reflexivity|]; cbn [orElse]; destruct (hd_error (matsIn ts)); reflexivity|].
           split; [rewrite C', C; reflexivity|]. split; [rewrite D', D; reflexivity|].
           split; [intros p; rewrite E', E; reflexivity|].
           split; [rewrite F', F; destruct (contactsIn ts) as [|x [|y r]]; [reflexivity|rewrite (Z0 F)..]; reflexivity|].
           split; [rewrite G', G, flat_map_app, app_assoc; reflexivity|]. rewrite H', H. reflexivity.
Qed.

(** Sections. *)
Lemma addCode_in c l x : In x (addCode c l) <-> x = c \/ In x l.
Proof.
  induction l as [|k l IH]; cbn; [intuition|]. destruct (k <? c)%Z; [cbn; rewrite IH; intuition|]. destruct (Z.eqb_spec k c); cbn; intuition.
Qed.
Lemma addCode_sorted c l : StronglySorted Z.lt l -> StronglySorted Z.lt (addCode c l).
Proof.
  induction l as [|k l IH]; intros S; [repeat constructor|]. inversion S as [|? ? S1 F]; subst. cbn. destruct (Z.ltb_spec k c).
  - constructor; [now apply IH|]. rewrite Forall_forall in *. intros x X. apply addCode_in in X. destruct X as [->|X]; [assumption|now apply F].
  - destruct (Z.eqb_spec k c); [assumption|]. constructor; [assumption|]. constructor; [lia|]. rewrite Forall_forall in *. intros x X. specialize (F x X). lia.
Qed.
Lemma addCodes_spec cs : forall l, StronglySorted Z.lt l -> StronglySorted Z.lt (addCodes cs l) /\ forall x, In x (addCodes cs l) <-> In x cs \/ In x l.
Proof.
  induction cs as [|c cs IH]; intros l S; [cbn; intuition|]. destruct (IH (addCode c l)) as [A B]; [now apply addCode_sorted|]. split; [exact A|].
  intros x. unfold addCodes in *. cbn [fold_left]. rewrite B, addCode_in. cbn. intuition.
Qed.

(** Rigid couplings. *)
Definition rigidIn (c : Z) ts : list Z := flat_map (fun t => match t with TRigid k i => if (k =? c)%Z then [i] else [] | _ => [] end) ts.
Lemma addRigid_spec ts : forall f c, addRigid ts f c = orElse (hd_error (rev (rigidIn c ts))) (f c).
Proof.
  induction ts as [|t ts IH]; intros f c; [reflexivity|]. destruct t; cbn [addRigid rigidIn flat_map app]; rewrite ?IH; try reflexivity.
  fold (rigidIn c ts). rewrite (Z.eqb_sym code c). destruct (c =? code)%Z; cbn [app rev]; [|reflexivity]. destruct (rev (rigidIn c ts)); reflexivity.
Qed.

(** After any number of refinements. *)
Fixpoint times {A} (n : nat) (l : list A) : list A := match n with O => [] | S k => times k l ++ l end.
Lemma after_spec (dflt : M) file n : match after dflt file n with
  | UB => False
  | Rejected => contactsOf file <> [] /\ (n = 0 -> 2 <= length (contactsOf file))
  | Ret s' =>
    (0 < n -> contactsOf file = []) /\ length (contactsOf file) <= 1 /\
    mats s' = matsOf file /\ cur s' = orElse (chosen file) (if n =? 0 then Some dflt else None) /\
    secs s' = addCodes (codesIn (elastTags file)) [] /\ (forall c, masters s' c = rigidOf c file) /\
    (forall p, cpls s' p = parseCpl (times (S n) (linesOf p file)) []) /\
    contact s' = (match contactsOf file with [] => false | _ => true end) /\ bodies s' = flat_map (map readBody) (contactsOf file) /\
    duals s' = dualsOf file
  end.
Proof.
  induction n as [|n IH].
  - cbn [after]. pose proof (file_spec file (fresh dflt)) as H. destruct (readFile file (fresh dflt)) as [| |s']; [exact H|destruct H as [H L]; split; [exact H|intros _; apply L; reflexivity]|].
    destruct H as (Z0 & Z1 & A & B & C & D & E & F & G & H). cbn [fresh mats cur secs masters cpls contact bodies duals app] in *.
    split; [lia|]. split; [exact Z1|]. split; [exact A|]. split; [exact B|]. split; [exact C|].
    split; [intros c; rewrite D, addRigid_spec; unfold rigidOf; fold (rigidIn c (elastTags file)); destruct (hd_error (rev (rigidIn c (elastTags file)))); reflexivity|].
    split; [intros p; rewrite E; reflexivity|]. split; [exact F|]. split; [exact G|exact H].
  - cbn [after]. destruct (after dflt file n) as [| |s]; cbn [bind]; [exact IH|split; [apply IH|discriminate]|].
    destruct IH as (Y0 & Y1 & A' & B' & C' & D' & E' & F' & G' & H').
    pose proof (file_spec file (clear s)) as H. destruct (readFile file (clear s)) as [| |s']; [exact H|destruct H as [H L]; split; [exact H|discriminate]|].
    destruct H as (Z0 & Z1 & A & B & C & D & E & F & G & H). cbn [clear mats cur secs masters cpls contact bodies duals app] in *.
    assert (K : contactsOf file = []) by (destruct (contactsOf file) eqn:K; [reflexivity|discriminate (Z0 F')]).
    split; [intros _; exact K|]. split; [exact Z1|]. split; [exact A|]. split; [exact B|]. split; [exact C|].
    split; [intros c; rewrite D, addRigid_spec, D'; unfold rigidOf; fold (rigidIn c (elastTags file)); destruct (hd_error (rev (rigidIn c (elastTags file)))); reflexivity|].
    split; [intros p; rewrite E, E', <- parse_app; reflexivity|].
    rewrite F, F', G, G', H, K. repeat split; reflexivity.
Qed.
End P.

(** Couplings: the displacement of the slave is multiplied. *)
Lemma mastersOf_times t n ls : mastersOf t (times n ls) = times n (mastersOf t ls).
Proof. induction n as [|n IH]; [reflexivity|]. cbn [times]. transitivity (mastersOf t (times n ls) ++ mastersOf t ls); [apply flat_map_app|]. rewrite IH. reflexivity. Qed.
Lemma weighted_app a b u : weighted (a ++ b) u = vadd (weighted a u) (weighted b u).
Proof.
  induction a as [|x a IH].
  - change (weighted [] u) with vzero. cbn [app]. generalize (weighted b u). intros [x y z]. unfold vadd, vzero. cbn [vx vy vz]. f_equal; lra.
  - change (weighted ((x :: a) ++ b) u) with (vadd (vscal (snd x) (u (fst x))) (weighted (a ++ b) u)).
    change (weighted (x :: a) u) with (vadd (vscal (snd x) (u (fst x))) (weighted a u)). rewrite IH.
    generalize (vscal (snd x) (u (fst x))) (weighted a u) (weighted b u). intros [] [] []. unfold vadd. cbn. f_equal; lra.
Qed.
Lemma weighted_times n l u : weighted (times n l) u = vscal (INR n) (weighted l u).
Proof.
  induction n as [|n IH]; [change (weighted (times 0 l) u) with vzero; generalize (weighted l u); intros []; unfold vscal, vzero; cbn; f_equal; lra|].
  cbn [times]. rewrite weighted_app, IH, S_INR. generalize (weighted l u). intros []. unfold vadd, vscal. cbn. f_equal; lra.
Qed.

(** Injection. *)
Local Open Scope nat_scope.
Lemma set_length l i v : length (set l i v) = length l.
Proof. revert i. induction l as [|x l IH]; intros [|i]; cbn; auto. Qed.
Lemma nth_set l : forall i v k, nth_error (set l i v) k = if (k =? i) && (i <? length l) then Some v else nth_error l k.
Proof.
  induction l as [|x l IH]; intros i v k; [cbn; destruct k; rewrite andb_false_r; reflexivity|]. destruct i, k; cbn; try reflexivity. rewrite IH. reflexivity.
Qed.
Lemma inject_length dofs : forall g v, length (inject g dofs v) = length g.
Proof. unfold inject. induction dofs as [|d dofs IH]; intros g [|x v]; cbn; try reflexivity. rewrite IH, set_length. reflexivity. Qed.
(* the value at [dof] after injection, if all entries for [dof] carry the same value *)
Lemma inject_keep dofs : forall g v dof x, nth_error g dof = Some x -> (forall k, nth_error dofs k = Some dof -> nth_error v k = Some x \/ nth_error v k = None) -> nth_error (inject g dofs v) dof = Some x.
Proof.
  unfold inject. induction dofs as [|d dofs IH]; intros g [|y v] dof x G H; cbn; try exact G. apply IH.
  - rewrite nth_set. destruct (Nat.eqb_spec dof d) as [->|]; [|exact G]. destruct (H 0 eq_refl) as [E|E]; cbn in E; [|discriminate]. injection E as ->.
    destruct (d <? length g); [reflexivity|exact G].
  - intros k K. exact (H (S k) K).
Qed.
Lemma inject_get dofs : forall g v dof k x, nth_error dofs k = Some dof -> nth_error v k = Some x -> dof < length g ->
  (forall j, nth_error dofs j = Some dof -> nth_error v j = Some x \/ nth_error v j = None) -> nth_error (inject g dofs v) dof = Some x.
Proof.
  induction dofs as [|d dofs IH]; intros g v dof k x D V L H; [destruct k; discriminate|]. destruct v as [|y v]; [destruct k; discriminate|]. destruct k as [|k].
  - injection D as ->. injection V as ->. apply (inject_keep dofs (set g dof x) v).
    + rewrite nth_set, Nat.eqb_refl. apply Nat.ltb_lt in L. rewrite L. reflexivity.
    + intros j J. exact (H (S j) J).
  - apply (IH (set g d y) v dof k x D V); [now rewrite set_length|]. intros j J. exact (H (S j) J).
Qed.

Section Inj.
Variables (nd nsol : nat) (sol : list (list R)).
Lemma injectPatches_length i ps : forall p g g', injectPatches sol nsol i p ps g = Ret g' -> length g' = length g.
Proof.
  induction ps as [|d ps IH]; intros p g g' H; cbn in H; [injection H as <-; reflexivity|]. destruct (nth_error sol (p * nsol + i)) as [v|]; [|discriminate].
  rewrite (IH _ _ _ H), inject_length. reflexivity.
Qed.
Lemma injectPatches_keep i ps : forall p g g' dof x, injectPatches sol nsol i p ps g = Ret g' -> nth_error g dof = Some x ->
  (forall q dq j vq y, nth_error ps q = Some dq -> nth_error dq j = Some dof -> nth_error sol ((p + q) * nsol + i) = Some vq -> nth_error vq j = Some y -> y = x) ->
  nth_error g' dof = Some x.
Proof.
  induction ps as [|d ps IH]; intros p g g' dof x H G A; cbn in H; [injection H as <-; exact G|]. destruct (nth_error sol (p * nsol + i)) as [v|] eqn:V; [|discriminate].
  apply (IH _ _ _ dof x H).
  - apply inject_keep; [exact G|]. intros k K. destruct (nth_error v k) as [y|] eqn:Y; [left; f_equal|now right]. refine (A 0 d k v y eq_refl K _ Y). rewrite Nat.add_0_r. exact V.
  - intros q dq j vq y Q J Z Y. refine (A (S q) dq j vq y Q J _ Y). replace (p + S q) with (S p + q) by lia. exact Z.
Qed.
Lemma injectPatches_get i ps : forall p g g' q dq j dof vq x, injectPatches sol nsol i p ps g = Ret g' ->
  nth_error ps q = Some dq -> nth_error dq j = Some dof -> nth_error sol ((p + q) * nsol + i) = Some vq -> nth_error vq j = Some x -> dof < length g ->
  (forall q dq j vq y, nth_error ps q = Some dq -> nth_error dq j = Some dof -> nth_error sol ((p + q) * nsol + i) = Some vq -> nth_error vq j = Some y -> y = x) ->
  nth_error g' dof = Some x.
Proof.
  induction ps as [|d ps IH]; intros p g g' q dq j dof vq x H Q J S X L A; [destruct q; discriminate|]. cbn in H.
  destruct (nth_error sol (p * nsol + i)) as [v|] eqn:V; [|discriminate]. destruct q as [|q].
  - injection Q as ->. rewrite Nat.add_0_r in S. rewrite S in V. injection V as ->.
    apply (injectPatches_keep i ps (Datatypes.S p) (inject g dq v) g' dof x H).
    + apply (inject_get dq g v dof j x J X L). intros k K. destruct (nth_error v k) as [y|] eqn:Y; [left; f_equal|now right].
      refine (A 0 dq k v y eq_refl K _ Y). rewrite Nat.add_0_r. exact S.
    + intros q dq' k vq y Q J' S' Y. refine (A (Datatypes.S q) dq' k vq y Q J' _ Y). replace (p + Datatypes.S q) with (Datatypes.S p + q) by lia. exact S'.
  - apply (IH (Datatypes.S p) (inject g d v) g' q dq j dof vq x H Q J); [|exact X|now rewrite inject_length|].
    + replace (Datatypes.S p + q) with (p + Datatypes.S q) by lia. exact S.
    + intros q' dq' k vq' y Q' J' S' Y. refine (A (Datatypes.S q') dq' k vq' y Q' J' _ Y). replace (p + Datatypes.S q') with (Datatypes.S p + q') by lia. exact S'.
Qed.
Lemma injectAll_spec ps : forall n l, injectAll sol nsol n ps nd = Ret l ->
  length l = n /\ forall i g, nth_error l i = Some g -> i < n /\ injectPatches sol nsol i 0 ps (repeat 0%R nd) = Ret g.
Proof.
  induction n as [|n IH]; intros l H; cbn in H.
  - injection H as <-. split; [reflexivity|]. intros i g E. destruct i; discriminate.
  - destruct (injectAll sol nsol n ps nd) as [| |l0]; try discriminate. cbn in H.
    destruct (injectPatches sol nsol n 0 ps (repeat 0%R nd)) as [| |g0] eqn:G; try discriminate. injection H as <-.
    destruct (IH l0 eq_refl) as [A B]. split; [rewrite app_length, A; cbn; lia|]. intros i g E. destruct (Nat.lt_ge_cases i n) as [C|C].
    + rewrite nth_error_app1 in E by lia. destruct (B i g E). split; [lia|assumption].
    + rewrite nth_error_app2 in E by lia. rewrite A in E. destruct (i - n) as [|k] eqn:K; [|destruct k; discriminate]. injection E as <-.
      replace i with n by lia. split; [lia|exact G].
Qed.
(* no patch is missing: the injection succeeds *)
Lemma injectPatches_total i ps : forall p g, i < nsol -> (p + length ps) * nsol <= length sol -> exists g', injectPatches sol nsol i p ps g = Ret g'.
Proof.
  induction ps as [|d ps IH]; intros p g I L; cbn [injectPatches]; [eauto|]. cbn [length] in L.
  destruct (nth_error sol (p * nsol + i)) as [v|] eqn:V; [|apply nth_error_None in V; nia]. apply IH; [exact I|]. replace (Datatypes.S p + length ps) with (p + Datatypes.S (length ps)) by lia. exact L.
Qed.
Lemma injectAll_total ps n : n <= nsol -> length ps * nsol <= length sol -> exists l, injectAll sol nsol n ps nd = Ret l.
Proof.
  induction n as [|n IH]; intros N L; cbn [injectAll]; [eauto|]. destruct IH as [l ->]; [lia|exact L|]. cbn [bind].
  destruct (injectPatches_total n ps 0 (repeat 0%R nd)) as [g ->]; [lia|exact L|]. cbn. eauto.
Qed.
End Inj.

(** The section forces. *)
Lemma forceAt_none f s : exists v, forceAt [] f s = Ret v /\ forall k, v k = sumL (fun n => f n k) s.
Proof. induction s as [|n s (v & E & V)]; cbn; [eexists; split; [reflexivity|reflexivity]|]. rewrite E. cbn. eexists. split; [reflexivity|]. intros k. cbn. rewrite V. reflexivity. Qed.
Lemma forceAt_some f w nn (g : nat -> R) s : w = map (fun i => g (S i)) (seq 0 nn) -> w <> [] -> (forall n, In n s -> 1 <= n <= nn) ->
  exists v, forceAt w f s = Ret v /\ forall k, v k = sumL (fun n => (g n * f n k)%R) s.
Proof.
  intros W N. induction s as [|n s IH]; intros H; cbn [forceAt]; [eexists; split; [reflexivity|reflexivity]|].
  destruct IH as (v & E & V); [intros m Hm; apply H; now right|]. rewrite E. cbn [bind]. destruct w as [|w0 w']; [congruence|].
  destruct (H n (or_introl eq_refl)) as [H1 H2]. destruct n as [|n]; [lia|].
  assert (Q : nth_error (w0 :: w') n = Some (g (S n))).
  { rewrite W. erewrite map_nth_error; [reflexivity|]. rewrite nth_error_nth' with (d := 0); [|rewrite seq_length; lia]. rewrite seq_nth by lia. reflexivity. }
  rewrite Q. eexists. split; [reflexivity|]. intros k. cbn. rewrite V. reflexivity.
Qed.

(** Shells. *)
Local Open Scope Z_scope.
Section Sh.
Context {M F : Type}.
Implicit Types (l : list (iso M F)).
Lemma parse_tfunc {G} (l : list (iso M G)) : forall s, tFunc (parseAllIso l s) = (rev (funcsIn l) ++ tFunc s)%list.
Proof.
  induction l as [|e l IH]; intros s; [reflexivity|]. change (parseAllIso (e :: l) s) with (parseAllIso l (parseIso s e)). rewrite IH. unfold parseIso, funcsIn. cbn [flat_map].
  destruct (efunc e); cbn [tFunc app rev]; [rewrite <- app_assoc|]; reflexivity.
Qed.
Lemma stamp_funcs (k : nat) l : funcsIn (stamp k l) = map (fun x => (fst x, (k, snd x))) (funcsIn l).
Proof. induction l as [|e l IH]; [reflexivity|]. unfold funcsIn, stamp in *. cbn [map flat_map efunc ecode ethick emat]. rewrite map_app, IH. destruct (efunc e); reflexivity. Qed.
Lemma lookup_stamp (k : nat) q (m : list (Z * F)) : lookupF q (map (fun x => (fst x, (k, snd x))) m) = option_map (pair k) (lookupF q m).
Proof. induction m as [|[c f] m IH]; [reflexivity|]. cbn. destruct (c =? q)%Z; [reflexivity|exact IH]. Qed.
Lemma stamp_mats k l : map emat (stamp k l) = map emat l. Proof. unfold stamp. rewrite map_map. reflexivity. Qed.
Lemma stamp_thick k l : map ethick (stamp k l) = map ethick l. Proof. unfold stamp. rewrite map_map. reflexivity. Qed.

Definition withStamp (n : nat) (t : thick F) : thick (nat * F) := match t with NoThick => NoThick | Const x => Const x | Func f => Func (n, f) end.
Lemma init_table n l (s : shell M (nat * F)) p t : 0 <= p -> l <> [] -> Z.of_nat (length l) < wrap ->
  mVec s = map emat l -> tVec s = map ethick l -> tFunc s = rev (funcsIn (stamp n l)) ->
  tableThick l (Z.min p (Z.of_nat (length l) - 1)) = Some t ->
  exists s', initShell s p = Ret s' /\ curMat (klp s') = nth_error (map emat l) (Nat.min (Z.to_nat p) (length l - 1)) /\ curThick (klp s') = withStamp n t.
Proof.
  intros P N W A B C T. assert (L0 : (0 < length l)%nat) by (destruct l; [congruence|cbn; lia]).
  destruct (init_safe s p) as (s' & E & K & _); [assumption|rewrite A, B, !map_length; reflexivity|rewrite A; destruct l; [congruence|discriminate]|rewrite A, map_length; assumption|].
  exists s'. split; [exact E|]. split; [rewrite K, A, map_length; reflexivity|]. clear K.
  unfold initShell in E. rewrite clamp_nonempty in E; [|assumption|rewrite A; destruct l; [congruence|discriminate]|rewrite A, map_length; assumption].
  rewrite A, map_length in E. set (q := Z.min p _) in *. destruct (at_ (map emat l) q) as [| |m]; [discriminate..|]. cbn [bind] in E.
  rewrite C, stamp_funcs, <- map_rev, lookup_stamp in E. unfold tableThick in T. destruct (lookupF q (rev (funcsIn l))) as [f|].
  - cbn [option_map] in E. injection E as <-. injection T as <-. reflexivity.
  - cbn [option_map] in E. rewrite B in E. unfold at_ in E. destruct (nth_error l (Z.to_nat q)) as [e|] eqn:Ne; [|discriminate].
    rewrite (map_nth_error ethick _ _ Ne) in E. cbn [bind] in E. unfold isZeroQ in E. destruct (Qeq_bool (ethick e) 0); [discriminate|]. injection E as <-. injection T as <-. reflexivity.
Qed.
Lemma visit_table n l (s0 : shell M (nat * F)) ps p t : (forall q, In q (ps ++ [p])%list -> 0 <= q) -> l <> [] -> Z.of_nat (length l) < wrap ->
  mVec s0 = [] -> tVec s0 = [] -> tFunc s0 = [] -> tableThick l (Z.min p (Z.of_nat (length l) - 1)) = Some t ->
  exists s', visit (parseAllIso (stamp n l) s0) (ps ++ [p]) = Ret s' /\
    curMat (klp s') = nth_error (map emat l) (Nat.min (Z.to_nat p) (length l - 1)) /\ curThick (klp s') = withStamp n t.
Proof.
  intros P N W A B C T. destruct (parse_tables (stamp n l) s0) as [TA TB]. pose proof (parse_tfunc (stamp n l) s0) as TC.
  rewrite A, stamp_mats in TA. rewrite B, stamp_thick in TB. rewrite C, app_nil_r in TC. cbn [app] in TA, TB.
  destruct (visit_safe ps (parseAllIso (stamp n l) s0)) as (s1 & E & A1 & B1 & C1).
  - intros q Q. apply P, in_or_app. now left.
  - rewrite TA, TB, !map_length. reflexivity.
  - rewrite TA. destruct l; [congruence|discriminate].
  - rewrite TA, map_length. assumption.
  - rewrite visit_app, E. cbn [bind visit]. destruct (init_table n l s1 p t) as (s' & E' & K1 & K2); try assumption; try congruence.
    + apply P, in_or_app. right. now left.
    + rewrite E'. cbn. eauto.
Qed.
Lemma shell_table l ps p t n : (forall q, In q (ps ++ [p])%list -> 0 <= q) -> l <> [] -> Z.of_nat (length l) < wrap ->
  tableThick l (Z.min p (Z.of_nat (length l) - 1)) = Some t ->
  exists s', shellAfter l (ps ++ [p]) n = Ret s' /\
    curMat (klp s') = nth_error (map emat l) (Nat.min (Z.to_nat p) (length l - 1)) /\ curThick (klp s') = withStamp n t.
Proof.
  intros P N W T. induction n as [|n (s & E & _)]; cbn [shellAfter].
  - now apply (visit_table 0 l emptyShell ps p t).
  - rewrite E. cbn [bind]. now apply (visit_table (S n) l (clearShell s) ps p t).
Qed.
End Sh.
