From Coq Require Import List Ascii String Arith Bool Lia Sorting.Permutation Sorting.Sorted.
From Verif Require Import Lib.Base Model.FileNames Proofs.FileNames Model.Superelement.
Import ListNotations.
Local Open Scope list_scope.
Local Open Scope nat_scope.

(** ** Selection *)
Lemma scan_some s l sc : (forall id, In (TSuperelement (Some id)) l -> id = s) -> exists r, scanSC (Some s) l sc = Some r.
Proof.
  revert sc. induction l as [|[k|[id|]|k] l IH]; intros sc H; cbn; try (eexists; reflexivity); try (apply IH; intros; apply H; now right).
  rewrite (H id (or_introl eq_refl)), Nat.eqb_refl. apply IH. intros; apply H; now right.
Qed.
Lemma scan_none s l sc id : In (TSuperelement (Some id)) l -> id <> s -> scanSC (Some s) l sc = None.
Proof.
  revert sc. induction l as [|[k|[i|]|k] l IH]; intros sc H N; cbn; try contradiction;
    try (destruct H as [H|H]; [discriminate|]; apply IH; assumption).
  destruct (Nat.eqb_spec i s); [|reflexivity]. destruct H as [H|H]; [injection H as ->; contradiction|]. now apply IH.
Qed.

Lemma scan_free l sc : exists r, scanSC None l sc = Some r.
Proof. revert sc. induction l as [|[k|[id|]|k] l IH]; intros sc; cbn; try (eexists; reflexivity); apply IH. Qed.

(** The last condensation tag. *)
Fixpoint lastSC (l : list tag) (d : option nat) : option nat :=
  match l with [] => d | TStatCond k :: r => lastSC r (Some k) | _ :: r => lastSC r d end.
Lemma scan_last sup l sc r : scanSC sup l sc = Some r -> r = lastSC l sc.
Proof.
  revert sc. induction l as [|[k|[id|]|k] l IH]; intros sc H; cbn in *; try (injection H as <-; reflexivity); try (now apply IH).
  destruct sup as [s|]; [destruct (id =? s); [now apply IH|discriminate]|now apply IH].
Qed.

(** ** Sorting *)
Lemma insertN_perm x l : Permutation (x :: l) (insertN x l).
Proof. induction l as [|y r IH]; cbn; [reflexivity|]. destruct (x <=? y); [reflexivity|]. rewrite perm_swap. now constructor. Qed.
Lemma sortN_perm l : Permutation l (sortN l).
Proof. induction l as [|x r IH]; cbn; [constructor|]. rewrite <- insertN_perm. now constructor. Qed.
Lemma insertN_sorted x l : Sorted le l -> Sorted le (insertN x l).
Proof.
  induction l as [|y r IH]; intros H; cbn; [repeat constructor|]. destruct (Nat.leb_spec x y); [constructor; [assumption|constructor; assumption]|].
  inversion H as [|? ? SS HH]; subst. constructor; [now apply IH|]. destruct r as [|z t]; cbn; [constructor; lia|].
  inversion HH; subst. destruct (x <=? z); constructor; lia.
Qed.
Lemma sortN_sorted l : Sorted le (sortN l).
Proof. induction l; cbn; [constructor|]. now apply insertN_sorted. Qed.

Lemma retained_fold I (get : I -> list nat -> list nat * bool) (nodes : I -> list nat) (valid : I -> bool) items :
  (forall it ns, snd (get it ns) = valid it /\ forall x, In x (fst (get it ns)) <-> In x ns \/ (valid it = true /\ In x (nodes it))) ->
  forall ns ok, let st := fold_left (fun st it => let '(ns, ok) := st in let '(ns', k) := get it ns in (ns', ok && k)) items (ns, ok) in
    snd st = ok && forallb valid items /\
    forall x, In x (fst st) <-> In x ns \/ exists it, In it items /\ valid it = true /\ In x (nodes it).
Proof.
  intros H. induction items as [|it r IH]; intros ns ok; cbn [fold_left forallb].
  - cbn. rewrite andb_true_r. split; [reflexivity|]. intros x. split; [tauto|]. intros [A|(i & [] & _)]. exact A.
  - destruct (H it ns) as [Hk Hn]. destruct (get it ns) as [ns' k] eqn:E. cbn [fst snd] in *. subst k.
    destruct (IH ns' (ok && valid it)) as [A B]. cbn in *. split.
    + rewrite A. now rewrite andb_assoc.
    + intros x. rewrite B, Hn. split.
      * intros [[C|[C D]]|(j & C & D)]; [now left|right; exists it; auto|right; exists j; auto].
      * intros [C|(j & [C|C] & D)]; [auto|subst; destruct D; auto|right; exists j; auto].
Qed.

(** ** Result blocks *)
(** Material of patch and columns of an FE model evaluated with its own materials. *)
Fixpoint ownFrom (s i : nat) (m : femodel) : list col :=
  match m with
  | [] => []
  | PNull :: r => ownFrom s (S i) r
  | PFE n a :: r => repeat (mkCol s i (Some a)) n ++ ownFrom s (S i) r
  end.
Definition noNull (m : femodel) : Prop := ~ In PNull m.

Lemma eval_own s id i m cur : noNull m -> exists cur', evalPatches s id id i m cur = Ret (ownFrom s i m, cur').
Proof.
  revert i cur. induction m as [|[|n a] m IH]; intros i cur H; cbn.
  - eexists; reflexivity.
  - exfalso. apply H. now left.
  - destruct (IH (S i) (fun k => if k =? id then Some a else cur k)) as [cur' E]; [intro; apply H; now right|]. rewrite E. cbn. rewrite Nat.eqb_refl. eexists; reflexivity.
Qed.
Lemma eval_foreign s id prob i m cur : noNull m -> id <> prob ->
  exists cs cur', evalPatches s id prob i m cur = Ret (cs, cur') /\ cur' prob = cur prob /\ List.length cs = tessPoints m /\
    forall c, In c cs -> csup c = s /\ cmat c = cur prob.
Proof.
  revert i cur. induction m as [|[|n a] m IH]; intros i cur H N; cbn.
  - exists [], cur. repeat split; try reflexivity; destruct H0.
  - exfalso. apply H. now left.
  - assert (P : (prob =? id) = false) by (apply Nat.eqb_neq; congruence).
    destruct (IH (S i) (fun k => if k =? id then Some a else cur k)) as (cs & cur' & E & A & L & B); [intro; apply H; now right|assumption|].
    rewrite E. cbn [bind fst snd]. rewrite P in *. eexists _, _. split; [reflexivity|]. split; [exact A|]. split; [rewrite app_length, repeat_length; lia|].
    intros c Hc. apply in_app_iff in Hc. destruct Hc as [Hc|Hc]; [apply repeat_spec in Hc; subst; auto|]. now apply B.
Qed.
Lemma eval_null s id prob i m cur : In PNull m -> evalPatches s id prob i m cur = UB.
Proof. revert i cur. induction m as [|[|n a] m IH]; intros i cur H; cbn; [destruct H|reflexivity|]. destruct H as [H|H]; [discriminate|]. now rewrite IH. Qed.
Lemma own_length s i m : List.length (ownFrom s i m) = tessPoints m.
Proof. revert i. induction m as [|[|n a] m IH]; intros i; cbn; [reflexivity|apply IH|]. rewrite app_length, repeat_length, IH. reflexivity. Qed.

(** The block of row [j] (from 0) of superelement [s]. *)
Definition blk (nrow start nblk : nat) (data : nat -> list col) (s j : nat) : block :=
  mkBlock (nblk + nrow * s + j + 1) (start + s + 1) (j + 1) (data s).

Lemma wf_blocks n : forall j data geo nblk sid, exists sid', writeFields j n data geo nblk sid =
  (map (fun i => mkBlock (nblk + i + 1) geo (j + i + 1) data) (seq 0 n), nblk + n, sid').
Proof.
  induction n as [|n IH]; intros; cbn; [exists sid; f_equal; f_equal; lia|].
  destruct (IH (S j) data geo (S nblk) (pushAt j (S nblk) sid)) as [sid' E]. rewrite E. exists sid'. f_equal. f_equal; [|lia].
  f_equal; [f_equal; lia|]. rewrite <- seq_shift, map_map. apply map_ext. intros i. f_equal; lia.
Qed.

Lemma pushAt_app pre l post x : pushAt (List.length pre) x (pre ++ l :: post) = pre ++ (l ++ [x]) :: post.
Proof. induction pre as [|p r IH]; cbn; [reflexivity|]. now rewrite IH. Qed.
Lemma pushAt_end pre x : pushAt (List.length pre) x pre = pre ++ [[x]].
Proof. induction pre as [|p r IH]; cbn; [reflexivity|]. now rewrite IH. Qed.

(** Lists of block numbers after [s] superelements with [n] rows each. *)
Lemma wf_sid_first n : forall pre data geo nblk,
  snd (writeFields (List.length pre) n data geo nblk pre) = pre ++ map (fun i => [nblk + i + 1]) (seq 0 n).
Proof.
  induction n as [|n IH]; intros; cbn [writeFields]; [now rewrite app_nil_r|].
  rewrite pushAt_end. specialize (IH (pre ++ [[S nblk]]) data geo (S nblk)). rewrite app_length in IH. cbn [List.length] in IH. rewrite Nat.add_1_r in IH.
  destruct (writeFields (S (List.length pre)) n data geo (S nblk) (pre ++ [[S nblk]])) as [[bs k] sid]. cbn [snd] in *. rewrite IH, <- app_assoc. cbn [seq map app].
  do 2 f_equal; [f_equal; lia|]. rewrite <- seq_shift, map_map. apply map_ext. intros i. f_equal. lia.
Qed.
Lemma wf_sid_next n : forall pre (f : nat -> list nat) data geo nblk,
  snd (writeFields (List.length pre) n data geo nblk (pre ++ map f (seq 0 n))) = pre ++ map (fun i => f i ++ [nblk + i + 1]) (seq 0 n).
Proof.
  induction n as [|n IH]; intros; cbn [writeFields]; [reflexivity|]. cbn [seq map].
  rewrite pushAt_app. specialize (IH (pre ++ [f 0 ++ [S nblk]]) (fun i => f (S i)) data geo (S nblk)). rewrite app_length in IH. cbn [List.length] in IH. rewrite Nat.add_1_r in IH.
  rewrite <- seq_shift, map_map. rewrite <- app_assoc in IH. cbn [app] in IH.
  destruct (writeFields (S (List.length pre)) n data geo (S nblk) (pre ++ (f 0 ++ [S nblk]) :: map (fun x => f (S x)) (seq 0 n))) as [[bs k] sid]. cbn [snd] in *.
  rewrite IH, <- app_assoc. cbn [app]. replace (nblk + 0 + 1) with (S nblk) by lia. do 2 f_equal. rewrite ?map_map. apply map_ext. intros i. do 2 f_equal. lia.
Qed.

(** All blocks, for data that the evaluation of each superelement returns. *)
Lemma glv_blocks subs prob nrow zero data : forall sups s geo nblk cur sid,
  (forall k id cur0, nth_error sups k = Some id -> exists cur1,
     match link subs id with Some m => evalPatches (s + k) id prob 0 m cur0 | None => Ret (zero (s + k), cur0) end = Ret (data (s + k), cur1)) ->
  exists sid', glvS2 subs prob nrow zero sups s geo nblk cur sid =
    Ret (flat_map (fun k => map (fun j => mkBlock (nblk + nrow * k + j + 1) (geo + k + 1) (j + 1) (data (s + k))) (seq 0 nrow)) (seq 0 (List.length sups)),
         nblk + nrow * List.length sups, sid') /\
    ((s = 0 -> sid = []) -> forall m0, (s <> 0 -> m0 + nrow * s = nblk /\ sid = map (fun j => map (fun k => m0 + nrow * k + j + 1) (seq 0 s)) (seq 0 nrow)) -> (s = 0 -> m0 = nblk) ->
      (sups <> [] \/ s <> 0) -> sid' = map (fun j => map (fun k => m0 + nrow * k + j + 1) (seq 0 (s + List.length sups))) (seq 0 nrow)).
Proof.
  induction sups as [|id r IH]; intros s geo nblk cur sid H; cbn [glvS2].
  - exists sid. cbn. split; [f_equal; f_equal; f_equal; lia|]. intros _ m0 M _ [C|C]; [congruence|]. rewrite Nat.add_0_r. now apply M.
  - destruct (H 0 id cur eq_refl) as [cur1 E]. rewrite Nat.add_0_r in E. rewrite E. cbn [bind fst snd].
    destruct (wf_blocks nrow 0 (data s) (S geo) nblk sid) as [sidA EA]. rewrite EA.
    assert (SA : sidA = snd (writeFields 0 nrow (data s) (S geo) nblk sid)) by (rewrite EA; reflexivity).
    destruct (IH (S s) (S geo) (nblk + nrow) cur1 sidA) as [sid' [E2 Q]].
    { intros k id' cur0 Hk. destruct (H (S k) id' cur0 Hk) as [c C]. exists c. replace (S s + k) with (s + S k) by lia. exact C. }
    rewrite E2. cbn [bind]. exists sid'. split.
    + cbn [List.length seq flat_map].
      match goal with |- Ret (?a, ?b, _) = Ret (?c, ?d, _) => assert (a = c) as ->; [|replace b with d by lia; reflexivity] end.
      f_equal.
      * rewrite Nat.mul_0_r, !Nat.add_0_r. replace (S geo) with (geo + 1) by lia. apply map_ext. intros i. f_equal; lia.
      * rewrite <- seq_shift, flat_map_concat_map, flat_map_concat_map, map_map. f_equal. apply map_ext. intros k. apply map_ext. intros j. replace (s + S k) with (S s + k) by lia. f_equal; lia.
    + intros Z0 m0 M0 Z1 _. replace (s + List.length (id :: r)) with (S s + List.length r) by (cbn; lia). apply Q; [discriminate| |discriminate|right; discriminate].
      intros _. destruct (Nat.eq_dec s 0) as [->|N].
      * rewrite (Z0 eq_refl) in SA. rewrite (Z1 eq_refl) in *. split; [lia|]. rewrite SA. rewrite (wf_sid_first nrow []). cbn [app seq map]. apply map_ext. intros j. f_equal. lia.
      * destruct (M0 N) as [A B]. split; [lia|]. rewrite SA, B. rewrite (wf_sid_next nrow [] (fun j => map (fun k => m0 + nrow * k + j + 1) (seq 0 s))). cbn [app].
        apply map_ext. intros j. rewrite seq_S, map_app. cbn [map]. f_equal. f_equal. lia.
Qed.
