(** Set-up of contact analyses (C103, C104). *)
From Verif Require Import Lib.Base Model.ContactInput Proofs.ContactInput.
Import ListNotations.
Local Open Scope Z_scope.

(** ** C103: Lagrange multipliers of the slave boundary nodes *)

(** For any number of contact elements of any number of patches: the multipliers of the elements are given by one injective map on
    the nodes, with the elements' node ordering kept; the numbers used are exactly those following the existing node numbers. *)
Theorem C103_multipliers : forall g elms,
  let '(_, g', ls) := alElms [] g elms in
  exists mult : Z -> Z,
    ls = map (map mult) elms /\
    (forall a b, (exists e, In e elms /\ In a e) -> (exists e, In e elms /\ In b e) -> mult a = mult b -> a = b) /\
    (forall v, g < v <= g' <-> exists e n, In e elms /\ In n e /\ mult n = v).
Proof.
  intros g elms. assert (W : wf g g []). { split; [lia|]. split; [constructor|]. split; [constructor|]. intros v. cbn. lia. }
  assert (K := alElms_spec g elms [] g W). destruct (alElms [] g elms) as [[m g'] ls]. destruct K as (K1 & _ & _ & K4 & K5).
  exists (fun n => match alFind m n with Some v => v | None => 0 end).
  assert (D : forall n, (exists e, In e elms /\ In n e) -> exists v, alFind m n = Some v).
  { intros n H. destruct (alFind m n) as [v|] eqn:E; [now exists v|]. apply alFind_none in E. exfalso. apply E, K5. now right. }
  split; [|split].
  - clear - K4. induction K4 as [|e l elms ls H _ IH]; [reflexivity|]. cbn [map]. f_equal; [|exact IH]. clear - H.
    induction H as [|n v e l E _ IH]; [reflexivity|]. cbn [map]. now rewrite E, IH.
  - intros a b Ha Hb. destruct (D a Ha) as (v & Ev). destruct (D b Hb) as (w & Ew). rewrite Ev, Ew. intros ->. exact (alFind_inj g g' m K1 a b w Ev Ew).
  - destruct K1 as (_ & N1 & _ & N3). intros v. rewrite <- N3. split.
    + intros H. apply in_map_iff in H. destruct H as ([n w] & E & H). cbn in E. subst w.
      assert (Hn : In n (map fst m)) by now apply (in_map fst) in H. apply K5 in Hn. destruct Hn as [[]|(e & He & Hn)].
      exists e, n. split; [exact He|]. split; [exact Hn|]. destruct (D n (ex_intro _ e (conj He Hn))) as (w & Ew). rewrite Ew.
      apply alFind_in in Ew. clear - N1 H Ew. induction m as [|[k x] r IH]; [easy|]. cbn in *. inversion N1 as [|? ? Hx Hr]; subst.
      destruct H as [[= -> ->]|H], Ew as [E|E].
      * now injection E.
      * exfalso. apply Hx. now apply (in_map fst) in E.
      * injection E as -> ->. exfalso. apply Hx. now apply (in_map fst) in H.
      * now apply IH.
    + intros (e & n & He & Hn & <-). destruct (D n (ex_intro _ e (conj He Hn))) as (w & Ew). rewrite Ew. apply alFind_in in Ew. now apply (in_map snd) in Ew.
Qed.
(** Handling the patches one by one, in whatever grouping, gives the same numbers as all elements at once. *)
Theorem C103_patchwise : forall e1 m g e2,
  alElms m g (e1 ++ e2) = let '(m1, g1, l1) := alElms m g e1 in let '(m2, g2, l2) := alElms m1 g1 e2 in (m2, g2, (l1 ++ l2)%list).
Proof.
  induction e1 as [|e r IH]; intros m g e2; cbn [alElms app]; [destruct (alElms m g e2) as [[? ?] ?]; reflexivity|].
  destruct (alElm m g e) as [[m1 g1] l1]. rewrite IH. destruct (alElms m1 g1 r) as [[m2 g2] l2]. destruct (alElms m2 g2 e2) as [[m3 g3] l3]. reflexivity.
Qed.
Example C103_ex : alElms [] 10 [[1; 2]; [2; 3]; [3; 1]] = ([(3, 13); (2, 12); (1, 11)], 13, [[11; 12]; [12; 13]; [13; 11]]).
Proof. reflexivity. Qed.

(** ** C104: reading the rigid bodies *)

(** What is in effect: a condition acts from exactly the slave patches given before it. *)
Theorem C104_conditions_partial : forall tags q, In q (b_cons (readBody tags)) <->
  exists pre t post c f, tags = (pre ++ t :: post)%list /\ valid t = Some (c, f) /\ q = MCon (mc_patch q) c f /\ In (mc_patch q) (slavesOf pre).
Proof. intros tags q. unfold readBody. rewrite fold_cons. cbn. split; [intros [[]|H]; exact H|now right]. Qed.
(** So all of them act from all slave patches if the slaves come first. *)
Theorem C104_slaves_first_partial : forall pre post, slavesOf post = [] -> (forall t, In t pre -> valid t = None) ->
  let b := readBody (pre ++ post) in
  b_slaves b = slavesOf pre /\
  forall q, In q (b_cons b) <-> exists t c f, In t (pre ++ post)%list /\ valid t = Some (c, f) /\ q = MCon (mc_patch q) c f /\ In (mc_patch q) (b_slaves b).
Proof.
  intros pre post Hs Hv b. assert (S1 : forall a c, slavesOf (a ++ c) = (slavesOf a ++ slavesOf c)%list).
  { induction a as [|t a IH]; intros c; cbn; [reflexivity|]. destruct t; rewrite IH, ?app_assoc; reflexivity. }
  assert (Eb : b_slaves b = slavesOf pre). { unfold b, readBody. rewrite fold_slaves, S1, Hs. cbn. now rewrite app_nil_r. }
  split; [exact Eb|]. intros q. unfold b at 1. rewrite C104_conditions_partial, Eb. split.
  - intros (p1 & t & p2 & c & f & E & V & Eq & Hp). exists t, c, f. split; [rewrite E; apply in_or_app; right; now left|]. split; [exact V|]. split; [exact Eq|].
    assert (Es : slavesOf (pre ++ post) = slavesOf pre) by (rewrite S1, Hs; now rewrite app_nil_r). rewrite <- Es, E, S1. apply in_or_app. now left.
  - intros (t & c & f & Ht & V & Eq & Hp). apply in_app_or in Ht. destruct Ht as [Ht|Ht]; [rewrite (Hv t Ht) in V; discriminate|].
    apply in_split in Ht. destruct Ht as (l1 & l2 & E). exists (pre ++ l1)%list, t, l2, c, f. split; [rewrite E; now rewrite <- app_assoc|].
    split; [exact V|]. split; [exact Eq|]. rewrite S1. apply in_or_app. now left.
Qed.
(** A condition given before the slave boundary is dropped: the same children in another sequence give another model. *)
Theorem C104_order_refuted : exists t1 t2, b_slaves (readBody [t1; t2]) = b_slaves (readBody [t2; t1]) /\
  b_slaves (readBody [t1; t2]) <> [] /\ b_cons (readBody [t1; t2]) <> [] /\ b_cons (readBody [t2; t1]) = [].
Proof. exists (Slave [1]), (Dirichlet 12 None). repeat split; discriminate. Qed.
(** A prescribed motion in several directions at once is ignored. *)
Theorem C104_combined_direction_refuted : exists comp f ps, ps <> [] /\ b_cons (readBody [Slave ps; Dirichlet comp (Some f)]) = [] /\
  b_cons (readBody [Slave ps; Dirichlet comp None]) <> [].
Proof. exists 12, 1%nat, [1]. repeat split; discriminate. Qed.
(** A body for which no radius is given gets that of the body before it, and not the default. *)
Theorem C104_radius_partial : forall given r0, (forall g, In g given -> g <> None) -> map Some (radii r0 given) = given.
Proof.
  induction given as [|g t IH]; intros r0 H; [reflexivity|]. destruct g as [x|]; [|exfalso; apply (H None); [now left|reflexivity]].
  cbn [radii map]. f_equal. apply IH. intros g Hg. apply H. now right.
Qed.
Theorem C104_radius_refuted : exists given, radii 1 given <> map (fun g => match g with Some x => x | None => 1%R end) given.
Proof. exists [Some 5%R; None]. cbn. intros E. injection E as E. lra. Qed.
(** Exactly the bodies with a positive penalty take part. *)
Theorem C104_active_partial : forall bs b, In b (active bs) <-> In b bs /\ (0 < b_eps b)%R.
Proof. intros bs b. unfold active. rewrite filter_In. destruct (Rlt_dec 0 (b_eps b)); intuition discriminate. Qed.
(** The penalty is the last one given, wherever it stands, and 1 if none is given: such a body takes part. *)
Theorem C104_penalty : forall tags, b_eps (readBody tags) = last (flat_map (fun t => match t with Eps e => [e] | _ => [] end) tags) 1%R.
Proof.
  intros tags. unfold readBody. change 1%R with (b_eps (Body [] [] 1)) at 2. generalize (Body [] [] 1).
  induction tags as [|t tags IH]; intros b; [reflexivity|]. cbn [fold_left flat_map]. rewrite IH. clear IH.
  destruct t as [ps|c [f|]|e|]; cbn [readTag app]; try reflexivity.
  - now destruct ((0 <? c)%Z && (c <=? 3)%Z)%bool.
  - cbn [b_eps]. generalize (flat_map (fun t => match t with Eps e => [e] | _ => [] end) tags). clear. intros l.
    destruct l as [|x l]; [reflexivity|]. change (last (e :: x :: l) (b_eps b)) with (last (x :: l) (b_eps b)).
    revert x. induction l as [|y l IH]; intros x; [reflexivity|]. exact (IH y).
Qed.
Theorem C104_default_penalty tags : (forall e, ~ In (Eps e) tags) -> In (readBody tags) (active [readBody tags]).
Proof.
  intros H. apply C104_active_partial. split; [now left|]. rewrite C104_penalty.
  replace (flat_map _ tags) with (@nil R); [cbn; lra|]. induction tags as [|t tags IH]; [reflexivity|]. cbn.
  rewrite <- IH by (intros e He; apply (H e); now right). destruct t; try reflexivity. exfalso. apply (H e). now left.
Qed.
Example C104_ex : b_cons (readBody [Slave [1; 2]; Point; Dirichlet 2 (Some 4%nat); Eps 100; Dirichlet 1 None]) =
  [MCon 1 2 (Some 4%nat); MCon 2 2 (Some 4%nat); MCon 1 1 None; MCon 2 1 None].
Proof. reflexivity. Qed.

Print Assumptions C103_multipliers.
Print Assumptions C103_patchwise.
Print Assumptions C104_conditions_partial.
Print Assumptions C104_slaves_first_partial.
Print Assumptions C104_order_refuted.
Print Assumptions C104_combined_direction_refuted.
Print Assumptions C104_radius_partial.
Print Assumptions C104_radius_refuted.
Print Assumptions C104_active_partial.
Print Assumptions C104_penalty.
Print Assumptions C104_default_penalty.
