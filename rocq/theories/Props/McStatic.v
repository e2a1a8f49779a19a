(** C155: coupled analyses of a model and its beams. *)
From Coq Require Import List ZArith QArith Bool Ascii String Lia.
From Verif.Lib Require Import Base.
From Verif.Model Require Import McStatic.
From Verif.Spec Require Import McStatic.
From Verif.Proofs Require Import McStatic.
Import ListNotations.

(** The status tells the first step that failed, and the print tolerance is left as it was. *)
Theorem C155_status : forall ss solved exporter zt format s, ss <> [] -> log s = [] ->
  exists s' c, solveStatic ss solved exporter zt format s = Ret (s', c) /\ c = firstFailure (checks ss solved format) /\ tol s' = tol s.
Proof. intros ss solved exporter zt format s HN HL. destruct (solve_run ss solved exporter zt format s HN HL) as (s' & c & R & C & T & _). exists s', c. auto. Qed.
Lemma fields_none f ss : (forall n i, f (EField n i) = false) -> filter f (fieldEvs ss) = [].
Proof. intros H. unfold fieldEvs. induction (seq 0 (List.length ss)) as [|k l IH]; [reflexivity|]. cbn. rewrite H. exact IH. Qed.
Lemma map_none {A} f (g : A -> event) l : (forall a, f (g a) = false) -> filter f (map g l) = [].
Proof. intros H. induction l as [|a l IH]; [reflexivity|]. cbn. rewrite H. exact IH. Qed.
Lemma map_all {A} f (g : A -> event) l : (forall a, f (g a) = true) -> filter f (map g l) = map g l.
Proof. intros H. induction l as [|a l IH]; [reflexivity|]. cbn. rewrite H, IH. reflexivity. Qed.
Lemma geo_none f ss : (forall i g n, f (EGeo i g n) = false) -> forall i g, filter f (geoEv i g ss) = [].
Proof. intros H. induction ss as [|a r IH]; intros i g; [reflexivity|]. cbn. rewrite H. destruct (geoOk a); [apply IH|reflexivity]. Qed.
Lemma out_none f ss : (forall i g n, f (EGeo i g n) = false) -> (forall i m g n, f (ERes i m g n) = false) -> f EStep = false -> f EClose = false -> filter f (outEvs ss) = [].
Proof.
  intros H1 H2 H3 H4. unfold outEvs. rewrite filter_app, geo_none by exact H1. destruct (forallb geoOk ss); [|reflexivity]. rewrite filter_app. unfold resEvs. rewrite map_none by (intros; apply H2).
  destruct (forallb solOk ss); [|reflexivity]. cbn. rewrite H3, H4. reflexivity.
Qed.
Lemma map_pairs {B} (g : nat -> B) ss : forall i, map (fun p => g (fst p)) (pairs i ss) = map g (seq i (List.length ss)).
Proof. induction ss as [|a r IH]; intros i; [reflexivity|]. rewrite pairs_cons. cbn [map fst List.length seq]. rewrite IH. reflexivity. Qed.
(** All parts are assembled, in static mode, into one system, which is then solved once; nothing is solved if an assembly fails. *)
Theorem C155_system : forall ss solved exporter zt format s s' c, ss <> [] -> log s = [] -> solveStatic ss solved exporter zt format s = Ret (s', c) ->
  (c <> 4%Z -> filter (fun e => isAsm e || isSolve e) (rev (log s')) = map (fun i => EAsm i 0 STATIC) (seq 0 (List.length ss)) ++ [ESolve 0]) /\
  (c = 4%Z -> filter isSolve (rev (log s')) = []).
Proof.
  intros ss solved exporter zt format s s' c HN HL R. destruct (solve_run ss solved exporter zt format s HN HL) as (t & d & R' & C & _ & L & _). rewrite R in R'. injection R' as <- <-.
  rewrite L, rev_involutive. clear L R. unfold checks in C. rewrite first_sims in C. set (f := fun e => isAsm e || isSolve e).
  assert (FF : forall f, (forall n i, f (EField n i) = false) -> filter f (if exporter then fieldEvs ss else []) = []) by (intros; destruct exporter; [apply fields_none; assumption|reflexivity]).
  rewrite !filter_app, (FF f), (FF isSolve) by reflexivity. cbn [app]. destruct (forallb asmOk ss) eqn:HA.
  - split.
    + intros _. unfold asmEvs. rewrite upto_all by (rewrite forallb_pairs; exact HA). rewrite map_all by reflexivity. rewrite (map_pairs (fun i => EAsm i 0 STATIC)). f_equal. cbn [app filter f isAsm isSolve orb]. f_equal.
      destruct solved; [|reflexivity]. rewrite !filter_app. unfold dumpEvs. rewrite map_none by reflexivity. destruct exporter; (destruct (format <? 0)%Z; [reflexivity|]); cbn [filter isAsm isSolve orb app]; apply out_none; reflexivity.
    + intros ->. exfalso. destruct solved; cbn [app firstFailure] in C; [|discriminate]. destruct (format <? 0)%Z; [discriminate|]. rewrite first_sims, <- (app_nil_r (map _ ss)), first_sims in C.
      destruct (forallb geoOk ss); [destruct (forallb solOk ss); discriminate|discriminate].
  - split; [intros X; contradiction|]. intros _. unfold asmEvs. rewrite map_none by reflexivity. reflexivity.
Qed.
(** Result points are printed for the parts that have them, with the given tolerance if positive. *)
Definition isDump (e : event) : bool := match e with EDump _ _ _ => true | _ => false end.
Definition isExport (e : event) : bool := match e with EExport => true | _ => false end.
Theorem C155_printed : forall ss solved exporter zt format s s' c, ss <> [] -> log s = [] -> solveStatic ss solved exporter zt format s = Ret (s', c) ->
  (c <> 4%Z -> c <> 5%Z -> filter isDump (rev (log s')) = map (fun p => EDump (fst p) RECOVERY (if Qlt_le_dec 0 zt then zt else tol s)) (filter (fun p => hasPts (snd p)) (combine (seq 0 (List.length ss)) ss)) /\
    filter isExport (rev (log s')) = if exporter then [EExport] else []) /\
  (c = 4%Z \/ c = 5%Z -> filter isDump (rev (log s')) = [] /\ filter isExport (rev (log s')) = []).
Proof.
  intros ss solved exporter zt format s s' c HN HL R. destruct (solve_run ss solved exporter zt format s HN HL) as (t & d & R' & C & _ & L & _). rewrite R in R'. injection R' as <- <-.
  rewrite L, rev_involutive. clear L R. unfold checks in C. rewrite first_sims in C.
  assert (FF : forall f, (forall n i, f (EField n i) = false) -> filter f (if exporter then fieldEvs ss else []) = []) by (intros; destruct exporter; [apply fields_none; assumption|reflexivity]).
  rewrite !filter_app, (FF isDump), (FF isExport) by reflexivity. unfold asmEvs. rewrite !(map_none _ _ (upto _ _)) by reflexivity. cbn [app].
  destruct (forallb asmOk ss) eqn:HA; [|split; [intros X; contradiction|intros _; split; reflexivity]]. destruct solved; cbn [app firstFailure] in C.
  - split.
    + intros _ _. cbn [app filter isDump isExport]. rewrite !filter_app. unfold dumpEvs. rewrite (map_all isDump), (map_none isExport) by reflexivity. split.
      * replace (filter isDump (if exporter then [EExport] else [])) with (@nil event) by (destruct exporter; reflexivity). destruct (format <? 0)%Z; [apply app_nil_r|]. rewrite out_none by reflexivity. apply app_nil_r.
      * replace (filter isExport (if exporter then [EExport] else [])) with (if exporter then [EExport] else []) by (destruct exporter; reflexivity).
        destruct (format <? 0)%Z; [apply app_nil_r|]. rewrite out_none by reflexivity. apply app_nil_r.
    + intros HC. exfalso. destruct (format <? 0)%Z; [cbn in C; destruct HC; congruence|]. rewrite first_sims, <- (app_nil_r (map _ ss)), first_sims in C.
      destruct (forallb geoOk ss); [destruct (forallb solOk ss)|]; cbn in C; destruct HC; congruence.
  - split; [intros _ X; contradiction|]. intros _. split; reflexivity.
Qed.
(** The results of each part are shown on the geometry blocks of this part, and no block belongs to two parts. *)
Lemma geo_all ss : forallb geoOk ss = true -> forall i g, geoEv i g ss = map (fun p => EGeo (i + fst p) (g + blocksBefore ss (fst p)) (nGeo (snd p))) (pairs 0 ss).
Proof.
  induction ss as [|a r IH]; intros H i g; [reflexivity|]. cbn [forallb] in H. apply andb_prop in H as [Ha H]. rewrite pairs_cons. cbn [geoEv map fst snd]. rewrite Ha.
  change (blocksBefore (a :: r) 0) with 0%nat. rewrite !Nat.add_0_r, (IH H). f_equal. unfold pairs. rewrite <- seq_shift.
  assert (X : forall l m, combine (map S l) m = map (fun p : nat * sim => (S (fst p), snd p)) (combine l m)) by (induction l as [|x l IHl]; intros [|y m]; cbn; [reflexivity..|rewrite IHl; reflexivity]).
  rewrite X, map_map. apply map_ext. intros [j b]. cbn [fst snd]. change (blocksBefore (a :: r) (S j)) with (nGeo a + blocksBefore r j)%nat. f_equal; lia.
Qed.
Definition isGeo (e : event) : bool := match e with EGeo _ _ _ => true | _ => false end.
Definition isRes (e : event) : bool := match e with ERes _ _ _ _ => true | _ => false end.
Theorem C155_shown : forall ss solved exporter zt format s s', ss <> [] -> log s = [] -> solveStatic ss solved exporter zt format s = Ret (s', 0%Z) -> (0 <= format)%Z ->
  filter isGeo (rev (log s')) = map (fun p => EGeo (fst p) (blocksBefore ss (fst p)) (nGeo (snd p))) (combine (seq 0 (List.length ss)) ss) /\
  filter isRes (rev (log s')) = map (fun p => ERes (fst p) RECOVERY (blocksBefore ss (fst p)) (nGeo (snd p))) (combine (seq 0 (List.length ss)) ss) /\
  hd_error (log s') = Some EClose /\ (forall i, (i < List.length ss)%nat -> att s' i = false) /\
  (forall i j a, (i < j)%nat -> nth_error ss i = Some a -> (blocksBefore ss i + nGeo a <= blocksBefore ss j)%nat).
Proof.
  intros ss solved exporter zt format s s' HN HL R HF. destruct (solve_run ss solved exporter zt format s HN HL) as (t & d & R' & C & _ & L & AT). rewrite R in R'. injection R' as <- <-. clear R.
  unfold checks in C. rewrite first_sims in C. destruct (forallb asmOk ss) eqn:HA; [|discriminate]. destruct solved; [|discriminate]. cbn [app firstFailure] in C.
  replace (format <? 0)%Z with false in * by (symmetry; apply Z.ltb_ge; exact HF). rewrite first_sims, <- (app_nil_r (map _ ss)), first_sims in C.
  destruct (forallb geoOk ss) eqn:HG; [|discriminate]. destruct (forallb solOk ss) eqn:HS; [|discriminate]. clear C.
  assert (FF : forall f, (forall n i, f (EField n i) = false) -> filter f (if exporter then fieldEvs ss else []) = []) by (intros; destruct exporter; [apply fields_none; assumption|reflexivity]).
  assert (EF : forall f, f EExport = false -> filter f (if exporter then [EExport] else []) = []) by (intros f H; destruct exporter; [cbn; rewrite H|]; reflexivity).
  assert (O : outEvs ss = map (fun p => EGeo (fst p) (blocksBefore ss (fst p)) (nGeo (snd p))) (pairs 0 ss) ++ map (fun p => ERes (fst p) RECOVERY (blocksBefore ss (fst p)) (nGeo (snd p))) (pairs 0 ss) ++ [EStep; EClose]).
  { unfold outEvs. rewrite HG, HS, (geo_all ss HG). unfold resEvs. rewrite upto_all by (rewrite forallb_pairs; exact HS). reflexivity. }
  rewrite O in L. rewrite L, rev_involutive. fold (pairs 0 ss). repeat split.
  - rewrite !filter_app, FF, EF by reflexivity. unfold asmEvs, dumpEvs. rewrite (map_none isGeo _ (upto _ _)), (map_none isGeo _ (filter _ _)), (map_all isGeo), (map_none isGeo) by reflexivity. cbn. rewrite !app_nil_r. reflexivity.
  - rewrite !filter_app, FF, EF by reflexivity. unfold asmEvs, dumpEvs. rewrite (map_none isRes _ (upto _ _)), (map_none isRes _ (filter _ _)), (map_none isRes (fun p => EGeo _ _ _)), (map_all isRes) by reflexivity. cbn. rewrite !app_nil_r. reflexivity.
  - rewrite !rev_app_distr. reflexivity.
  - exact (AT eq_refl eq_refl HF).
  - clear. intros i. revert ss. induction i as [|i IH]; intros ss j a Hj E; destruct ss as [|b r]; try discriminate; destruct j as [|j]; try lia.
    + cbn in E. injection E as ->. change (blocksBefore (a :: r) (S j)) with (nGeo a + blocksBefore r j)%nat. change (blocksBefore (a :: r) 0) with 0%nat. lia.
    + cbn [nth_error] in E. specialize (IH r j a ltac:(lia) E). change (blocksBefore (b :: r) (S i)) with (nGeo b + blocksBefore r i)%nat. change (blocksBefore (b :: r) (S j)) with (nGeo b + blocksBefore r j)%nat. lia.
Qed.
(** The exported fields: u1 and u2 for a model with beams, as registered by the program (main_LinEl.C 532-533). *)
Theorem C155_fields : forall a b solved zt format s s' c, log s = [] -> solveStatic [a; b] solved true zt format s = Ret (s', c) ->
  firstn 2 (rev (log s')) = [EField "u1" 0; EField "u2" 1].
Proof.
  intros a b solved zt format s s' c HL R. destruct (solve_run [a; b] solved true zt format s ltac:(discriminate) HL) as (t & d & R' & _ & _ & L & _). rewrite R in R'. injection R' as <- <-.
  rewrite L, rev_involutive. reflexivity.
Qed.
(** When an output fails, the file that was opened is not closed, although no part refers to it any longer. *)
Theorem C155_closed_refuted : exists ss s', solveStatic ss true false 0 0 (fresh 0) = Ret (s', 16%Z) /\ In (EGeo 0 0 1) (log s') /\ ~ In EClose (log s') /\ (forall i, att s' i = false).
Proof.
  exists [mkSim true true 1 true false]. eexists. split; [reflexivity|]. split; [cbn; auto|]. split; [cbn; intuition discriminate|]. intros i. cbn. unfold upd. destruct (i =? 0)%nat; reflexivity.
Qed.
(** Two plates with stiffeners of three patches. *)
Example C155_case : exists s', solveStatic [mkSim true true 2 true true; mkSim true false 3 true true] true true (1 # 100) 0 (fresh (1 # 10)) = Ret (s', 0%Z) /\
  In (ERes 1 RECOVERY 2 3) (log s') /\ In (EDump 0 RECOVERY (1 # 100)) (log s') /\ tol s' = (1 # 10)%Q.
Proof. eexists. split; [reflexivity|]. cbn. intuition. Qed.

Print Assumptions C155_status.
Print Assumptions C155_system.
Print Assumptions C155_printed.
Print Assumptions C155_shown.
Print Assumptions C155_fields.
Print Assumptions C155_closed_refuted.
