(** Lemmas for Props/LoadInput.v. *)
From Verif Require Import Lib.Base Model.PointLoads Spec.PointLoads Proofs.PointLoads Model.LoadInput Spec.LoadInput.
Import ListNotations.

(** The stored form of a load. *)
Definition stores (l : bload) (m : load) : Prop :=
  bl_p l = snd m /\
  match fst m with
  | InNode n d => bl_inod l = n /\ bl_ldof l = d /\ bl_xi l = -1 /\ (1 <= d)%Z
  | InPoint q u e d => bl_inod l = q /\ bl_ldof l = (if e then - d else d)%Z /\ bl_xi l = u /\ (1 <= d)%Z /\ 0 <= u /\ (1 <= q)%Z
  end.
Definition nfOf (k : sort) : Z := match k with KBar => 3%Z | KBeam => 6%Z end.
Lemma read_proper k c : proper k c -> exists l, readChild (nfOf k) c = (true, l) /\ Forall2 stores l (meant c).
Proof.
  destruct c as [[[d|] [u|] e q [[p dp]|] el]|[[n|] [d|] [[p dp]|] el]|ok]; cbn [proper readChild meant]; try contradiction.
  - intros [H1 [H2 H3]]. unfold readPoint. cbn [tFun tDof tU tOnElm tPatch tElse dfl].
    destruct (Z.ltb_spec 0 d); [|lia]. fold (nfOf k) in H1. destruct (Z.leb_spec d (nfOf k)); [|lia].
    destruct (Rle_dec 0 u); [|lra]. destruct (Rle_dec u 1); [|lra]. cbn [andb]. eexists. split; [reflexivity|]. constructor; [|constructor].
    split; [reflexivity|]. cbn. repeat split; (lia || lra || assumption).
  - intros [H1 H2]. unfold readNode. cbn [nFun nNode nDof nElse dfl]. fold (nfOf k) in H2.
    destruct (Z.ltb_spec 0 n); [|lia]. destruct (Z.ltb_spec 0 d); [|lia]. destruct (Z.leb_spec d (nfOf k)); [|lia]. cbn [andb].
    eexists. split; [reflexivity|]. constructor; [|constructor]. split; [reflexivity|]. cbn. repeat split; lia.
  - intros ->. exists []. split; [reflexivity|constructor].
Qed.
Lemma children_proper k cs : (forall c, In c cs -> proper k c) -> forall ls ms, Forall2 stores ls ms ->
  exists ls', readChildren (nfOf k) cs ls = (true, ls') /\ Forall2 stores ls' (ms ++ flat_map meant cs).
Proof.
  induction cs as [|c cs IH]; intros H ls ms F; cbn [readChildren flat_map].
  - exists ls. rewrite app_nil_r. auto.
  - destruct (read_proper k c (H c (or_introl eq_refl))) as [l [-> FL]].
    destruct (IH (fun x Hx => H x (or_intror Hx)) (ls ++ l) (ms ++ meant c)) as [ls' [E F']]; [apply Forall2_app; assumption|].
    exists ls'. split; [exact E|]. rewrite app_assoc. exact F'.
Qed.
Lemma file_proper k ts : properFile k ts -> forall s ms, (sProb s = None \/ sProb s = Some k) -> Forall2 stores (sLoads s) ms ->
  exists s', readFile ts s = (true, s') /\ Forall2 stores (sLoads s') (ms ++ allMeant ts) /\ (ts <> [] -> sNf s' = nfOf k /\ sProb s' = Some k).
Proof.
  induction ts as [|[k0 cs] ts IH]; intros H s ms HP F; cbn [readFile].
  - exists s. split; [reflexivity|]. unfold allMeant; cbn [flat_map]. rewrite app_nil_r. split; [exact F|]. intros X; contradiction X; reflexivity.
  - destruct (H (k0, cs) (or_introl eq_refl)) as [E HC]. cbn [fst snd] in E, HC. subst k0. unfold readTop. fold (nfOf k).
    replace (match sProb s with Some KBar => match k with KBar => true | KBeam => false end | Some KBeam => match k with KBar => false | KBeam => true end | None => true end) with true
      by (destruct HP as [-> | ->]; destruct k; reflexivity).
    destruct (children_proper k cs HC (sLoads s) ms F) as [ls' [-> FL]].
    destruct (IH (fun t Ht => H t (or_intror Ht)) (mkBst (nfOf k) (Some k) ls') (ms ++ flat_map meant cs) (or_intror eq_refl) FL) as [s' [E [F' X]]].
    exists s'. split; [exact E|]. split; [unfold allMeant in *; cbn [flat_map snd]; rewrite app_assoc; exact F'|]. intros _.
    destruct ts as [|t ts]; [|apply X; discriminate]. cbn [readFile] in E. injection E as <-. split; reflexivity.
Qed.

(** Preparation of one stored load. *)
Lemma prep_one o l m : (forall q x, 0 <= elemOf o q x)%Z -> (forall q x, 0 <= fst (evalPt o q x))%Z -> stores l m -> fst (barPrep1 o l) = true ->
  acts o (fst m) (barPlace (snd (barPrep1 o l))) /\ bl_p (snd (barPrep1 o l)) = snd m.
Proof.
  intros HE HM [Hp Hs] OK. destruct m as [[n d|q u e d] p]; cbn [fst snd] in *.
  - destruct Hs as [H1 [H2 [H3 H4]]]. unfold barPrep1 in *. destruct (Rle_dec 0 (bl_xi l)); [lra|]. cbn [snd]. split; [|exact Hp].
    unfold acts, barPlace. destruct (Z.ltb_spec 0 (bl_ldof l)); [|lia]. congruence.
  - destruct Hs as [H1 [H2 [H3 [H4 [H5 H6]]]]].
    pose proof (barPrep1_spec o l) as X. destruct (barPrep1 o l) as [ok l'] eqn:E. cbn [fst snd] in *. subst ok.
    destruct X as [X1 [_ [_ X3]]]; [lra|lia|destruct e; lia|apply HM|exact HE|]. specialize (X3 eq_refl). split; [|congruence].
    unfold acts. rewrite H1, H3 in X3. replace (bl_ldof l <? 0)%Z with e in X3; [replace (Z.abs (bl_ldof l)) with d in X3; [exact X3|]|]; rewrite H2; destruct e; try lia.
Qed.
Lemma prep_all o ls ms : (forall q x, 0 <= elemOf o q x)%Z -> (forall q x, 0 <= fst (evalPt o q x))%Z -> Forall2 stores ls ms -> fst (barPrep o ls) = true ->
  Forall2 (fun l m => acts o (fst m) (barPlace l) /\ bl_p l = snd m) (snd (barPrep o ls)) ms.
Proof.
  intros HE HM F OK. unfold barPrep in *. cbn [fst snd] in *. induction F as [|l m ls ms HS F IH]; cbn [map forallb] in *; [constructor|].
  apply andb_true_iff in OK. destruct OK as [O1 O2]. constructor; [apply prep_one; assumption|apply IH, O2].
Qed.
