(** Properties of the load input of bars, cables and beams: C152. *)
From Verif Require Import Lib.Base Model.PointLoads Spec.PointLoads Proofs.PointLoads Model.LoadInput Spec.LoadInput Proofs.LoadInput.
From Verif Require Props.PointLoads.
From Coq Require Import Permutation.
Import ListNotations.

(** ** C152: the loads written in the input act on the model, or the input is refused *)
(** Properly specified loads: from the input file to the load vector.  The loads of all elements of the file, whatever other elements
    stand between them, act where they are meant to, and with all unknowns of the nodes available nothing else is in the load vector. *)
Theorem C152_forces_partial : forall o k ts nsd dyn sep mode t v, properFile k ts -> ts <> [] ->
  (0 < nvec o)%nat -> (sep = true -> dyn = true /\ (2 < nvec o)%nat /\ mode = DYNAMIC) -> mode <> VIBRATION ->
  (forall q x, 0 <= elemOf o q x)%Z -> (forall q x, 0 <= fst (evalPt o q x))%Z ->
  exists s, readFile ts freshBst = (true, s) /\
    let (ok, ls) := barPrep o (sLoads s) in
    ok = true -> (forall l, In l ls -> placeOk o (unknowns nsd s) (barPlace l)) ->
    exists w ps, barAssemble o (unknowns nsd s) dyn sep 0 mode t ls v = Ret (true, w) /\ Forall2 (fun m p => acts o (fst m) p) (allMeant ts) ps /\
      forall n d, w (extIndex o sep) n d = v (extIndex o sep) n d + totalForce (shape o) (combine ps (map (fun m => snd m t) (allMeant ts))) n d.
Proof.
  intros o k ts nsd dyn sep mode t v H HN H1 H2 H3 H4 H5. destruct (file_proper k ts H freshBst [] (or_introl eq_refl) (Forall2_nil _)) as [s [E [F _]]].
  exists s. split; [exact E|]. cbn [app] in F. pose proof (prep_all o (sLoads s) (allMeant ts) H4 H5 F) as PA. destruct (barPrep o (sLoads s)) as [ok ls]. cbn [fst snd] in PA.
  intros OK PO. specialize (PA OK). destruct (Props.PointLoads.C96_bar_loads_partial o (unknowns nsd s) dyn sep mode t ls v H1 H2 H3 PO) as [w [EW [W _]]].
  exists w, (map barPlace ls). split; [exact EW|]. split.
  - clear - PA. induction PA as [|l m ls ms [A _] F IH]; cbn [map]; constructor; assumption.
  - intros n d. specialize (W n d). replace (combine (map barPlace ls) (map (fun m => snd m t) (allMeant ts))) with (map (fun l => (barPlace l, bl_p l t)) ls); [lra|].
    clear - PA. induction PA as [|l m ls ms [_ A] F IH]; cbn [map combine]; [reflexivity|]. rewrite IH, A. reflexivity.
Qed.
(** Every proper load is stored, once and in order; none is added. *)
Theorem C152_stored_partial : forall k ts, properFile k ts -> exists s, readFile ts freshBst = (true, s) /\
  length (sLoads s) = length (allMeant ts) /\ map bl_p (sLoads s) = map snd (allMeant ts) /\
  forall l, In l (sLoads s) -> exists m, In m (allMeant ts) /\ stores l m.
Proof.
  intros k ts H. destruct (file_proper k ts H freshBst [] (or_introl eq_refl) (Forall2_nil _)) as [s [E [F _]]]. cbn [app] in F. exists s. split; [exact E|]. clear E.
  split; [clear - F; induction F as [|? ? ? ? _ _ IH]; cbn [length]; [reflexivity|now rewrite IH]|]. split.
  - induction F as [|l m ls ms [A _] F IH]; cbn [map]; [reflexivity|]. rewrite IH, A. reflexivity.
  - induction F as [|l m ls ms A F IH]; intros x Hx; [destruct Hx|]. destruct Hx as [<-|Hx]; [exists m; split; [left; reflexivity|exact A]|].
    destruct (IH x Hx) as [y [Hy Sy]]. exists y. split; [right; exact Hy|exact Sy].
Qed.
(** The sequence of the loads in the file has no influence on the forces. *)
Theorem C152_sequence : forall sh (l l' : list (place * R)) n d, Permutation l l' -> totalForce sh l n d = totalForce sh l' n d.
Proof.
  intros sh l l' n d P. unfold totalForce, sumL. induction P as [|x l l' P IH|x y l|l l' l'' P1 IH1 P2 IH2]; cbn [fold_right]; [reflexivity|rewrite IH; reflexivity|ring|congruence].
Qed.
(** Bars and beams in one file are refused, whatever they contain. *)
Theorem C152_mixed : forall k k' cs cs' r s, k <> k' -> sProb s = None -> fst (readTop k cs s) = true -> fst (readFile ((k, cs) :: (k', cs') :: r) s) = false.
Proof.
  intros k k' cs cs' r s HK HP H. cbn [readFile]. destruct (readTop k cs s) as [ok s'] eqn:E. cbn [fst] in H. subst ok.
  assert (P : sProb s' = Some k). { unfold readTop in E. rewrite HP in E. destruct (readChildren _ _ _) as [ok ls]. destruct k; injection E as _ <-; reflexivity. }
  unfold readTop. rewrite P. destruct k, k'; try (contradiction HK; reflexivity); reflexivity.
Qed.
(** A load in a direction or at a point that does not exist is dropped and the file is accepted, for any values and any other content. *)
Theorem C152_dropped_refuted :
  (forall k d u e q f el, (d < 1 \/ nfOf k < d)%Z \/ u < 0 \/ 1 < u -> readTop k [Point (mkPtag (Some d) (Some u) e q (Some f) el)] freshBst = (true, mkBst (nfOf k) (Some k) [])) /\
  (forall k n d f el, (n < 1 \/ d < 1 \/ nfOf k < d)%Z -> readTop k [Node (mkNtag (Some n) (Some d) (Some f) el)] freshBst = (true, mkBst (nfOf k) (Some k) [])) /\
  (exists k c, meant c <> [] /\ readTop k [c] freshBst = (true, mkBst (nfOf k) (Some k) [])).
Proof.
  assert (A : forall k d u e q f el, (d < 1 \/ nfOf k < d)%Z \/ u < 0 \/ 1 < u -> readTop k [Point (mkPtag (Some d) (Some u) e q (Some f) el)] freshBst = (true, mkBst (nfOf k) (Some k) [])).
  { intros k d u e q [p dp] el H. unfold readTop. fold (nfOf k). cbn [sProb freshBst sLoads readChildren readChild]. unfold readPoint. cbn [tFun tDof tU tOnElm tPatch dfl].
    replace ((0 <? d)%Z && (d <=? nfOf k)%Z && (if Rle_dec 0 u then true else false) && (if Rle_dec u 1 then true else false))%bool with false; [reflexivity|].
    destruct (Z.ltb_spec 0 d); [|reflexivity]. destruct (Z.leb_spec d (nfOf k)); [|reflexivity]. destruct (Rle_dec 0 u); [|reflexivity]. destruct (Rle_dec u 1); [|reflexivity].
    destruct H as [H|H]; [lia|lra]. }
  split; [exact A|]. split.
  - intros k n d [p dp] el H. unfold readTop. fold (nfOf k). cbn [sProb freshBst sLoads readChildren readChild]. unfold readNode. cbn [nFun nNode nDof dfl].
    destruct (Z.ltb_spec 0 n); [|reflexivity]. destruct (Z.ltb_spec 0 d); [|reflexivity]. destruct (Z.leb_spec d (nfOf k)); [lia|reflexivity].
  - exists KBar, (Point (mkPtag (Some 4%Z) (Some 1) None None (Some (fun _ => 1, fun _ => 0)) true)). split; [discriminate|]. apply A. left. right. cbn. lia.
Qed.
(** Bars in the plane: the third direction is accepted by the reader although the nodes only have two. *)
Theorem C152_plane_refuted : forall n f el, (1 <= n)%Z -> exists s, readTop KBar [Node (mkNtag (Some n) (Some 3%Z) (Some f) el)] freshBst = (true, s) /\
  unknowns 2 s = 2%Z /\ exists l, sLoads s = [l] /\ bl_ldof l = 3%Z.
Proof.
  intros n [p dp] el H. unfold readTop. cbn [sProb freshBst sLoads readChildren readChild]. unfold readNode. cbn [nFun nNode nDof dfl].
  destruct (Z.ltb_spec 0 n); [|lia]. cbn. eexists. split; [reflexivity|]. split; [reflexivity|]. eexists. split; reflexivity.
Qed.
(** A beam with a load in a node, a material, and a load in a point of an element, in two elements of the file. *)
Example C152_case : properFile KBeam [(KBeam, [Node (mkNtag (Some 7%Z) (Some 5%Z) (Some (fun t => 2 * t, fun _ => 2)) true); Other true]);
  (KBeam, [Point (mkPtag (Some 2%Z) (Some (1 / 2)) (Some true) None (Some (fun _ => 3, fun _ => 0)) true)])].
Proof. intros t [<-|[<-|[]]]; (split; [reflexivity|]); cbn [snd]; intros c [<-|H]; cbn; try (repeat split; (lia || lra)); [destruct H as [<-|[]]; reflexivity|destruct H]. Qed.

Print Assumptions C152_forces_partial.
Print Assumptions C152_stored_partial.
Print Assumptions C152_sequence.
Print Assumptions C152_mixed.
Print Assumptions C152_dropped_refuted.
Print Assumptions C152_plane_refuted.
