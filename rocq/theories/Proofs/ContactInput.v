(** Proofs about the set-up of contact analyses. *)
From Verif Require Import Lib.Base Model.ContactInput.
Import ListNotations.
Local Open Scope Z_scope.

(** The multiplier map is injective, and its values are the numbers [lo+1 .. hi]. *)
Definition wf (lo hi : Z) (m : alMap) : Prop :=
  lo <= hi /\ NoDup (map fst m) /\ NoDup (map snd m) /\ (forall v, In v (map snd m) <-> lo < v <= hi).

Lemma alFind_in m : forall n v, alFind m n = Some v -> In (n, v) m.
Proof. induction m as [|[k w] r IH]; intros n v; cbn; [discriminate|]. destruct (Z.eqb_spec k n); [intros [= ->]; left; congruence|right; now apply IH]. Qed.
Lemma alFind_none m : forall n, alFind m n = None <-> ~ In n (map fst m).
Proof.
  induction m as [|[k w] r IH]; intros n; cbn; [split; auto|]. destruct (Z.eqb_spec k n); [split; [discriminate|intros H; exfalso; apply H; now left]|].
  rewrite IH. split; [intros H [E|E]; contradiction|intros H E; apply H; now right].
Qed.

Definition ext (m m' : alMap) : Prop := forall n v, alFind m n = Some v -> alFind m' n = Some v.
Lemma ext_refl m : ext m m. Proof. intros n v H; exact H. Qed.
Lemma ext_trans a b c : ext a b -> ext b c -> ext a c. Proof. intros H1 H2 n v H. apply H2, H1, H. Qed.

Lemma alElm_spec lo : forall nodes m hi, wf lo hi m ->
  let '(m', hi', l) := alElm m hi nodes in
  wf lo hi' m' /\ ext m m' /\ hi <= hi' /\
  Forall2 (fun n v => alFind m' n = Some v) nodes l /\
  (forall n, In n (map fst m') <-> In n (map fst m) \/ In n nodes).
Proof.
  induction nodes as [|n r IH]; intros m hi W; cbn [alElm].
  - split; [exact W|]. split; [apply ext_refl|]. split; [lia|]. split; [constructor|]. intros n. split; [now left|now intros [H|[]]].
  - destruct (alFind m n) as [v|] eqn:E.
    + specialize (IH m hi W). destruct (alElm m hi r) as [[m' hi'] l]. destruct IH as (I1 & I2 & I3 & I4 & I5).
      split; [exact I1|]. split; [exact I2|]. split; [exact I3|]. split; [constructor; [now apply I2|exact I4]|].
      intros x. rewrite I5. cbn [In]. split; [tauto|]. intros [H|[<-|H]]; [now left| |now right]. left.
      apply alFind_in in E. now apply (in_map fst) in E.
    + destruct W as (W0 & W1 & W2 & W3). assert (W' : wf lo (hi + 1) ((n, hi + 1) :: m)).
      { apply alFind_none in E. split; [lia|]. split; [now constructor|]. split.
        - cbn. constructor; [|exact W2]. rewrite W3. lia.
        - intros v. cbn [map In snd]. rewrite W3. lia. }
      specialize (IH ((n, hi + 1) :: m) (hi + 1) W'). destruct (alElm ((n, hi + 1) :: m) (hi + 1) r) as [[m' hi'] l]. destruct IH as (I1 & I2 & I3 & I4 & I5).
      split; [exact I1|]. split; [|split; [lia|]; split].
      * intros x w Hx. apply I2. cbn. destruct (Z.eqb_spec n x); [subst; congruence|exact Hx].
      * constructor; [apply I2; cbn; now rewrite Z.eqb_refl|exact I4].
      * intros x. rewrite I5. cbn [map In fst]. tauto.
Qed.
Lemma alElms_spec lo : forall elms m hi, wf lo hi m ->
  let '(m', hi', ls) := alElms m hi elms in
  wf lo hi' m' /\ ext m m' /\ hi <= hi' /\
  Forall2 (Forall2 (fun n v => alFind m' n = Some v)) elms ls /\
  (forall n, In n (map fst m') <-> In n (map fst m) \/ exists e, In e elms /\ In n e).
Proof.
  induction elms as [|e r IH]; intros m hi W; cbn [alElms].
  - split; [exact W|]. split; [apply ext_refl|]. split; [lia|]. split; [constructor|]. intros n. split; [now left|now intros [H|(e & [] & _)]].
  - assert (K := alElm_spec lo e m hi W). destruct (alElm m hi e) as [[m1 h1] l1]. destruct K as (K1 & K2 & K3 & K4 & K5).
    specialize (IH m1 h1 K1). destruct (alElms m1 h1 r) as [[m2 h2] l2]. destruct IH as (I1 & I2 & I3 & I4 & I5).
    split; [exact I1|]. split; [eapply ext_trans; eassumption|]. split; [lia|]. split.
    + constructor; [|exact I4]. clear - K4 I2. induction K4; constructor; [now apply I2|assumption].
    + intros n. rewrite I5, K5. split.
      * intros [[H|H]|(x & Hx & Hn)]; [now left|right; exists e; split; [now left|exact H]|right; exists x; split; [now right|exact Hn]].
      * intros [H|(x & [<-|Hx] & Hn)]; [left; now left|left; now right|right; exists x; now split].
Qed.
Lemma alFind_inj lo hi m : wf lo hi m -> forall a b v, alFind m a = Some v -> alFind m b = Some v -> a = b.
Proof.
  intros (_ & _ & W & _) a b v Ha Hb. apply alFind_in in Ha, Hb. clear - W Ha Hb. induction m as [|[k w] r IH]; [easy|]. cbn in *.
  inversion W as [|? ? Hx Hr]; subst. destruct Ha as [[= -> ->]|Ha], Hb as [Hb|Hb].
  - now injection Hb as ->.
  - exfalso. apply Hx. now apply (in_map snd) in Hb.
  - injection Hb as -> ->. exfalso. apply Hx. now apply (in_map snd) in Ha.
  - now apply IH.
Qed.

(** Dirichlet tags. *)
Fixpoint slavesOf (tags : list bodyTag) : list Z :=
  match tags with [] => [] | Slave ps :: r => ps ++ slavesOf r | _ :: r => slavesOf r end.
Definition valid (t : bodyTag) : option (Z * option nat) :=
  match t with
  | Dirichlet c None => Some (c, None)
  | Dirichlet c (Some f) => if ((0 <? c) && (c <=? 3))%bool then Some (c, Some f) else None
  | _ => None
  end.
Lemma readTag_slaves b t : b_slaves (readTag b t) = (b_slaves b ++ slavesOf [t])%list.
Proof. destruct t as [ps|c [f|]|e|]; cbn; rewrite ?app_nil_r; try reflexivity. destruct (_ && _)%bool; cbn; reflexivity. Qed.
Lemma fold_slaves : forall tags b, b_slaves (fold_left readTag tags b) = (b_slaves b ++ slavesOf tags)%list.
Proof.
  induction tags as [|t r IH]; intros b; cbn [fold_left]; [cbn; now rewrite app_nil_r|]. rewrite IH, readTag_slaves. destruct t; cbn; rewrite ?app_nil_r, ?app_assoc; reflexivity.
Qed.
(** A constraint is put on exactly the slave patches given before it. *)
Lemma fold_cons : forall tags b q, In q (b_cons (fold_left readTag tags b)) <->
  In q (b_cons b) \/ exists pre t post c f, tags = (pre ++ t :: post)%list /\ valid t = Some (c, f) /\ q = MCon (mc_patch q) c f /\
    In (mc_patch q) (b_slaves b ++ slavesOf pre)%list.
Proof.
  induction tags as [|t r IH]; intros b q; cbn [fold_left].
  - split; [now left|]. intros [H|(pre & t & post & c & f & E & _)]; [exact H|]. destruct pre; discriminate.
  - rewrite IH, readTag_slaves. assert (T : In q (b_cons (readTag b t)) <-> In q (b_cons b) \/ exists c f, valid t = Some (c, f) /\ q = MCon (mc_patch q) c f /\ In (mc_patch q) (b_slaves b)).
    { destruct t as [ps|c [f|]|e|]; cbn [readTag b_cons valid].
      - split; [now left|]. intros [H|(c & f & [=] & _)]. exact H.
      - destruct (_ && _)%bool; cbn [b_cons].
        + rewrite in_app_iff, in_map_iff. split; [intros [H|(p & <- & Hp)]; [now left|right; exists c, (Some f); now repeat split]|].
          intros [H|(c' & f' & [= <- <-] & Eq & Hp)]; [now left|]. right. exists (mc_patch q). now split.
        + split; [now left|]. intros [H|(c' & f' & [=] & _)]. exact H.
      - rewrite in_app_iff, in_map_iff. split; [intros [H|(p & <- & Hp)]; [now left|right; exists c, None; now repeat split]|].
        intros [H|(c' & f' & [= <- <-] & Eq & Hp)]; [now left|]. right. exists (mc_patch q). now split.
      - split; [now left|]. intros [H|(c & f & [=] & _)]. exact H.
      - split; [now left|]. intros [H|(c & f & [=] & _)]. exact H. }
    rewrite T. split.
    + intros [[H|(c & f & V & E & Hp)]|(pre & t' & post & c & f & E & V & Eq & Hp)]; [now left| |].
      * right. exists [], t, r, c, f. cbn [slavesOf]. rewrite app_nil_r. now repeat split.
      * right. exists (t :: pre), t', post, c, f. split; [now rewrite E|]. split; [exact V|]. split; [exact Eq|].
        replace (slavesOf (t :: pre)) with (slavesOf [t] ++ slavesOf pre)%list by (destruct t; cbn; rewrite ?app_nil_r; reflexivity). now rewrite app_assoc.
    + intros [H|(pre & t' & post & c & f & E & V & Eq & Hp)]; [left; now left|]. destruct pre as [|t0 pre]; cbn [app] in E; injection E as <- E.
      * left. right. exists c, f. cbn [slavesOf] in Hp. rewrite app_nil_r in Hp. now repeat split.
      * right. exists pre, t', post, c, f. split; [exact E|]. split; [exact V|]. split; [exact Eq|].
        replace (slavesOf (t :: pre)) with (slavesOf [t] ++ slavesOf pre)%list in Hp by (destruct t; cbn; rewrite ?app_nil_r; reflexivity). now rewrite app_assoc in Hp.
Qed.
