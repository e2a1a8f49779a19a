From Coq Require Import List Lia Lra Permutation.
From Verif.Lib Require Import Base.
From Verif.Spec Require Import Threads.
From Verif.Model Require Import LinIsotropic NeoHooke History Threads.
Import ListNotations.
Local Open Scope R_scope.

Lemma exec_app {S V} (a b : list (nat * op S V)) : forall s,
  exec (a ++ b) s = let '(l1, s1) := exec a s in let '(l2, s2) := exec b s1 in (l1 ++ l2, s2).
Proof.
  induction a as [|[i o] a IH]; intros s; cbn [app exec].
  - destruct (exec b s); reflexivity.
  - destruct (o s) as [s1 v]. rewrite IH. destruct (exec a s1) as [l1 s2]. destruct (exec b s2) as [l2 s3]. destruct v; reflexivity.
Qed.
Lemma by_cons {A} i j (a : A) l : by_thread i ((j, a) :: l) = if Nat.eqb j i then a :: by_thread i l else by_thread i l.
Proof. unfold by_thread. cbn [filter fst]. destruct (Nat.eqb j i); reflexivity. Qed.
Lemma by_app {A} i (a b : list (nat * A)) : by_thread i (a ++ b) = by_thread i a ++ by_thread i b.
Proof. unfold by_thread. rewrite filter_app, map_app. reflexivity. Qed.

(** * The linear material *)
Definition rdn : op R R := rd (fun n => n).
Lemma ops_shape {Pt} (m : linMat Pt) x :
  linOps m x = match lnuFunc m with Some f => wr (fun _ => f x) :: repeat rdn 4 | None => repeat rdn 4 end.
Proof. unfold linOps. destruct (lnuFunc m); reflexivity. Qed.

Lemma const_run {Pt} (m : linMat Pt) c : (forall f, lnuFunc m = Some f -> forall x, f x = c) ->
  forall tr s (k : nat -> nat) (pts : nat -> list Pt),
  (s = c \/ (lnuFunc m <> None /\ forall i, k i = 0%nat)) ->
  (forall i, by_thread i tr = repeat rdn (k i) ++ concat (map (linOps m) (pts i))) ->
  forall i, by_thread i (fst (exec tr s)) = repeat c (k i + 4 * length (pts i)).
Proof.
  intros Hc. induction tr as [|[j o] tr IH]; intros s k pts Hs Hp i.
  - cbn. specialize (Hp i). cbn in Hp. symmetry in Hp. apply app_eq_nil in Hp. destruct Hp as [P1 P2].
    assert (k i = 0%nat) as -> by (destruct (k i); [reflexivity|discriminate]).
    destruct (pts i) as [|x xs]; [reflexivity|]. cbn in P2. rewrite ops_shape in P2. destruct (lnuFunc m); discriminate.
  - pose proof (Hp j) as Hj. rewrite by_cons, Nat.eqb_refl in Hj.
    assert (Rest : forall i0, j <> i0 -> by_thread i0 tr = repeat rdn (k i0) ++ concat (map (linOps m) (pts i0))).
    { intros i0 N. rewrite <- Hp, by_cons. destruct (Nat.eqb_spec j i0); [contradiction|reflexivity]. }
    (* a read by thread j *)
    assert (Read : forall k' pts', o = rdn -> s = c -> by_thread j tr = repeat rdn k' ++ concat (map (linOps m) pts') ->
              (1 + (k' + 4 * length pts') = k j + 4 * length (pts j))%nat ->
              by_thread i (fst (exec ((j, o) :: tr) s)) = repeat c (k i + 4 * length (pts i))).
    { intros k' pts' -> Es Bj Len. cbn [exec]. unfold rdn at 1, rd. destruct (exec tr s) as [l s2] eqn:Ex. cbn [fst]. rewrite by_cons.
      assert (K := IH s (fun i0 => if Nat.eqb j i0 then k' else k i0) (fun i0 => if Nat.eqb j i0 then pts' else pts i0) (or_introl Es)).
      rewrite Ex in K. cbn [fst] in K.
      assert (K1 : forall i0, by_thread i0 l = repeat c ((if Nat.eqb j i0 then k' else k i0) + 4 * length (if Nat.eqb j i0 then pts' else pts i0))).
      { apply K. intros i0. destruct (Nat.eqb_spec j i0) as [<-|N]; [exact Bj|apply Rest, N]. }
      rewrite K1. destruct (Nat.eqb_spec j i) as [<-|N]; [|reflexivity]. rewrite <- Len, Es. reflexivity. }
    destruct (k j) as [|k'] eqn:Kj.
    + destruct (pts j) as [|x xs] eqn:Pj; [discriminate|]. cbn [repeat map concat app] in Hj. rewrite ops_shape in Hj.
      destruct (lnuFunc m) as [f|] eqn:Ef.
      * assert (Ho : o = wr (fun _ => f x)) by (apply (f_equal (hd o)) in Hj; exact Hj).
        assert (Hr : by_thread j tr = repeat rdn 4 ++ concat (map (linOps m) xs)) by (apply (f_equal (@tl _)) in Hj; exact Hj).
        subst o. cbn [exec]. unfold wr at 1. rewrite (Hc f eq_refl x). destruct (exec tr c) as [l s2] eqn:Ex. cbn [fst].
        assert (K := IH c (fun i0 => if Nat.eqb j i0 then 4%nat else k i0) (fun i0 => if Nat.eqb j i0 then xs else pts i0) (or_introl eq_refl)).
        rewrite Ex in K. cbn [fst] in K.
        rewrite K. { destruct (Nat.eqb_spec j i) as [<-|N]; [|reflexivity]. rewrite Kj, Pj. cbn [length]. f_equal. lia. }
        intros i0. destruct (Nat.eqb_spec j i0) as [<-|N]; [exact Hr|apply Rest, N].
      * assert (Ho : o = rdn) by (apply (f_equal (hd o)) in Hj; exact Hj).
        destruct Hs as [Es|[C _]]; [|contradiction].
        apply (Read 3%nat xs Ho Es); [apply (f_equal (@tl _)) in Hj; exact Hj|cbn [length]; lia].
    + assert (Ho : o = rdn) by (apply (f_equal (hd o)) in Hj; exact Hj).
      destruct Hs as [Es|[_ C]]; [|rewrite C in Kj; discriminate].
      apply (Read k' (pts j) Ho Es); [apply (f_equal (@tl _)) in Hj; exact Hj|lia].
Qed.

Lemma same_stress {Pt} (m : linMat Pt) x eps nu :
  stressR m x eps nu nu nu nu = stress (lnsd m) (lps m) (lax m) (lsig4 m) (lE m x) nu eps.
Proof. reflexivity. Qed.

Lemma stresses_const {Pt} (m : linMat Pt) c : forall xs,
  stresses m xs (repeat c (4 * length xs)) = map (fun p => stress (lnsd m) (lps m) (lax m) (lsig4 m) (lE m (fst p)) c (snd p)) xs.
Proof.
  induction xs as [|[x eps] xs IH]; [reflexivity|].
  replace (4 * length ((x, eps) :: xs))%nat with (S (S (S (S (4 * length xs))))) by (cbn [length]; lia).
  cbn [repeat stresses map fst snd]. rewrite IH, same_stress. reflexivity.
Qed.

Lemma parallel_const {Pt} (m : linMat Pt) nu c tr (pts : nat -> list (Pt * (nat -> R))) :
  (forall x, nuAt (lnuFunc m) nu x = c) ->
  (forall i, by_thread i tr = concat (map (fun p => linOps m (fst p)) (pts i))) ->
  forall i, stresses m (pts i) (by_thread i (fst (exec tr nu))) =
            map (fun p => stress (lnsd m) (lps m) (lax m) (lsig4 m) (lE m (fst p)) (nuAt (lnuFunc m) nu (fst p)) (snd p)) (pts i).
Proof.
  intros Hn Hp i. destruct (pts i) as [|[x0 e0] q] eqn:Pi; [reflexivity|]. rewrite <- Pi.
  rewrite (const_run m c) with (k := fun _ => 0%nat) (pts := fun i => map fst (pts i)).
  - rewrite map_length. cbn [Nat.add]. rewrite stresses_const. apply map_ext. intros p. rewrite Hn. reflexivity.
  - intros f Ef x. rewrite <- (Hn x). unfold nuAt. rewrite Ef. reflexivity.
  - destruct (lnuFunc m) as [f|] eqn:Ef; [right; split; [discriminate|reflexivity]|left]. rewrite <- (Hn x0). reflexivity.
  - intros i0. rewrite Hp, map_map. reflexivity.
Qed.

(** Evaluations one after the other. *)
Definition blocks {S V P} (ops : P -> list (op S V)) (sched : list (nat * P)) : list (nat * op S V) :=
  concat (map (fun e => map (pair (fst e)) (ops (snd e))) sched).

Lemma lin_block {Pt} (m : linMat Pt) i x s :
  exec (map (pair i) (linOps m x)) s = (repeat (i, nuAt (lnuFunc m) s x) 4, nuAt (lnuFunc m) s x).
Proof. rewrite ops_shape. unfold nuAt. destruct (lnuFunc m) as [f|]; reflexivity. Qed.
Lemma by_repeat {A} i j (a : A) n : by_thread i (repeat (j, a) n) = if Nat.eqb j i then repeat a n else [].
Proof. induction n; cbn [repeat]; [destruct (Nat.eqb j i); reflexivity|]. rewrite by_cons, IHn. destruct (Nat.eqb j i); reflexivity. Qed.

Lemma sequential_reads {Pt} (m : linMat Pt) nu i : forall sched s,
  (lnuFunc m = None -> s = nu) ->
  by_thread i (fst (exec (blocks (fun p : Pt * (nat -> R) => linOps m (fst p)) sched) s)) =
  concat (map (fun p => repeat (nuAt (lnuFunc m) nu (fst p)) 4) (by_thread i sched)).
Proof.
  induction sched as [|[j [x eps]] sched IH]; intros s Hs; [reflexivity|].
  unfold blocks. cbn [map concat fst snd]. rewrite exec_app, lin_block.
  assert (E : nuAt (lnuFunc m) s x = nuAt (lnuFunc m) nu x). { unfold nuAt in *. destruct (lnuFunc m); [reflexivity|apply Hs; reflexivity]. }
  rewrite E. specialize (IH (nuAt (lnuFunc m) nu x)). fold (@blocks R R _ (fun p : Pt * (nat -> R) => linOps m (fst p)) sched).
  destruct (exec (blocks _ sched) (nuAt (lnuFunc m) nu x)) as [l s2] eqn:Ex. cbn [fst] in *.
  rewrite by_app, by_repeat, by_cons, IH.
  - destruct (Nat.eqb j i); reflexivity.
  - intros N. unfold nuAt. rewrite N. reflexivity.
Qed.
Lemma sequential_lin {Pt} (m : linMat Pt) nu sched i :
  stresses m (by_thread i sched) (by_thread i (fst (exec (blocks (fun p : Pt * (nat -> R) => linOps m (fst p)) sched) nu))) =
  map (fun p => stress (lnsd m) (lps m) (lax m) (lsig4 m) (lE m (fst p)) (nuAt (lnuFunc m) nu (fst p)) (snd p)) (by_thread i sched).
Proof.
  rewrite (sequential_reads m nu) by (intros; reflexivity). induction (by_thread i sched) as [|[x eps] l IH]; [reflexivity|].
  cbn [map concat]. rewrite <- IH. reflexivity.
Qed.

(** * The hyperelastic material *)
Lemma writes_findLame e (m : neo) : nNu m <= 1/2 -> 0 < e -> subBmod (setBmod (setSmod (setEmod e m))) = findLame e m.
Proof.
  intros Hn He. unfold findLame, subBmod, setBmod, setSmod, setEmod. cbn [nNu nEmod mVER iVOL Bmod Smod].
  destruct (Rlt_dec (1/2) (nNu m)); [lra|]. destruct (Rlt_dec 0 e); [|lra]. reflexivity.
Qed.
Lemma lame_values e (m : neo) : -1 < nNu m < 1/2 -> 0 < e ->
  let m' := subBmod (setBmod (setSmod (setEmod e m))) in
  Bmod m' = bulkOf (mVER m) e (nNu m) /\ Smod m' = shearOf e (nNu m) /\ nNu m' = nNu m /\ mVER m' = mVER m.
Proof.
  intros Hn He. unfold subBmod, setBmod, setSmod, setEmod, bulkOf, shearOf. cbn [nNu nEmod mVER iVOL Bmod Smod].
  destruct (Rle_dec (1/2) (nNu m)); [lra|]. destruct (Rlt_dec (nNu m) (1/2)); [|lra].
  repeat split; [destruct (Nat.eqb (mVER m) 1)|]; field; lra.
Qed.
Lemma sequential_neo {Pt} (M : neoMat Pt) f i ver nu : hE M = Some f -> -1 < nu < 1/2 -> forall sched m,
  nNu m = nu -> mVER m = ver -> (forall p, In p sched -> 0 < f (snd p)) ->
  by_thread i (fst (exec (blocks (neoOps M) sched) m)) =
  concat (map (fun x => [bulkOf ver (f x) nu; shearOf (f x) nu]) (by_thread i sched)).
Proof.
  intros Hf Hn. induction sched as [|[j x] sched IH]; intros m Em Ev Hp; [reflexivity|].
  unfold blocks. cbn [map concat fst snd]. rewrite exec_app. fold (@blocks neo R _ (neoOps M) sched).
  unfold neoOps at 1. rewrite Hf. destruct (Rlt_dec 0 (f x)) as [He|He]; [|exfalso; apply He, (Hp (j, x)); left; reflexivity].
  cbn [app map exec]. unfold wr, rd. cbn [fst snd].
  pose proof (lame_values (f x) m ltac:(rewrite Em; exact Hn) He) as (V1 & V2 & V3 & V4).
  set (m' := subBmod _) in *. rewrite V1, V2, Em, Ev. specialize (IH m').
  destruct (exec (blocks (neoOps M) sched) m') as [l s2]. cbn [fst] in *. cbn [app]. rewrite !by_cons, IH; [|congruence..|].
  - destruct (Nat.eqb j i); reflexivity.
  - intros p Hp'. apply Hp. right. exact Hp'.
Qed.
Lemma reads_only {S V} (tr : list (nat * op S V)) (s : S) (g : op S V -> option V) :
  (forall p, In p tr -> snd p s = (s, g (snd p))) ->
  forall i, by_thread i (fst (exec tr s)) = concat (map (fun o => match g o with Some v => [v] | None => [] end) (by_thread i tr)).
Proof.
  intros H i. induction tr as [|[j o] tr IH]; [reflexivity|]. cbn [exec].
  rewrite (H (j, o) (or_introl eq_refl)) at 1. cbn [snd].
  specialize (IH (fun p Hp => H p (or_intror Hp))). destruct (exec tr s) as [l s2]. cbn [fst] in *.
  rewrite (by_cons i j o tr). destruct (g o) eqn:G; rewrite ?by_cons, IH; destruct (Nat.eqb j i); cbn [map concat]; rewrite ?G; reflexivity.
Qed.
Lemma in_thread {A} (l : list (nat * A)) p : In p l -> In (snd p) (by_thread (fst p) l).
Proof. intros H. unfold by_thread. apply in_map, filter_In. split; [exact H|apply Nat.eqb_refl]. Qed.
Lemma parallel_neo {Pt} (M : neoMat Pt) m tr (pts : nat -> list Pt) : hE M = None ->
  (forall i, by_thread i tr = concat (map (neoOps M) (pts i))) ->
  forall i, by_thread i (fst (exec tr m)) = concat (map (fun _ => [Bmod m; Smod m]) (pts i)).
Proof.
  intros Hf Hp i.
  assert (G : forall p, In p tr -> snd p m = (m, snd (snd p m))).
  { intros p Hi. apply in_thread in Hi. rewrite Hp in Hi. apply in_concat in Hi. destruct Hi as (q & Q1 & Q2).
    apply in_map_iff in Q1. destruct Q1 as (x & <- & _). unfold neoOps in Q2. rewrite Hf in Q2. cbn [app] in Q2.
    destruct Q2 as [<-|[<-|[]]]; reflexivity. }
  rewrite (reads_only tr m (fun o => snd (o m)) G), Hp. induction (pts i) as [|x q IH]; [reflexivity|].
  cbn [map concat]. rewrite map_app, concat_app, IH. unfold neoOps. rewrite Hf. reflexivity.
Qed.

(** * The plastic material *)
Section P.
Context {H T O : Type}.
Variable upd : H -> T -> T -> nat -> bool -> option (H * O).
Variables (h0 : H) (f0 : T).
Lemma put_same {A} i (a : A) l b : nth_error l i = Some b -> nth_error (put i a l) i = Some a.
Proof. revert l. induction i; intros [|c l]; cbn; try discriminate; auto. Qed.
Lemma put_other {A} i j (a : A) l : i <> j -> nth_error (put i a l) j = nth_error l j.
Proof.
  revert j l. induction i; intros [|j] [|c l] N; cbn; try reflexivity; [contradiction|].
  apply IHi. intros ->. contradiction.
Qed.
Lemma put_comm {A} i j (a b : A) l : i <> j -> put i a (put j b l) = put j b (put i a l).
Proof.
  revert j l. induction i; intros [|j] [|c l] N; cbn; try reflexivity; [contradiction|].
  f_equal. apply IHi. intros ->. contradiction.
Qed.
Definition pe first it (e : nat * T) l := plasticEval upd h0 f0 first it (fst e) (snd e) l.
Lemma pe_other first it e l j : fst e <> j -> nth_error (fst (pe first it e l)) j = nth_error l j.
Proof.
  intros N. unfold pe, plasticEval. destruct (nth_error l (fst e)) as [[p|]|]; [| |reflexivity].
  - destruct (History.evaluate upd first it (snd e) p). apply put_other, N.
  - destruct (Nat.eqb it 0 && first)%bool; [|reflexivity]. destruct (History.evaluate upd first it (snd e) (newPoint h0 f0)). apply put_other, N.
Qed.
Lemma pe_local first it e l l' : nth_error l (fst e) = nth_error l' (fst e) -> snd (pe first it e l) = snd (pe first it e l').
Proof.
  intros E. unfold pe, plasticEval. rewrite E. destruct (nth_error l' (fst e)) as [[p|]|]; [| |reflexivity].
  - destruct (History.evaluate upd first it (snd e) p). reflexivity.
  - destruct (Nat.eqb it 0 && first)%bool; [|reflexivity]. destruct (History.evaluate upd first it (snd e) (newPoint h0 f0)). reflexivity.
Qed.
Definition change first it (e : nat * T) (l : list (option (point H T))) : option (option (point H T)) :=
  match nth_error l (fst e) with
  | None => None
  | Some None => if (Nat.eqb it 0 && first)%bool then Some (Some (fst (History.evaluate upd first it (snd e) (newPoint h0 f0)))) else None
  | Some (Some p) => Some (Some (fst (History.evaluate upd first it (snd e) p)))
  end.
Lemma pe_change first it e l : fst (pe first it e l) = match change first it e l with Some p => put (fst e) p l | None => l end.
Proof.
  unfold pe, plasticEval, change. destruct (nth_error l (fst e)) as [[p|]|]; [| |reflexivity].
  - destruct (History.evaluate upd first it (snd e) p). reflexivity.
  - destruct (Nat.eqb it 0 && first)%bool; [|reflexivity]. destruct (History.evaluate upd first it (snd e) (newPoint h0 f0)). reflexivity.
Qed.
Lemma pe_comm first it e e' l : fst e <> fst e' -> fst (pe first it e (fst (pe first it e' l))) = fst (pe first it e' (fst (pe first it e l))).
Proof.
  intros N. rewrite (pe_change first it e), (pe_change first it e' (fst _)).
  assert (C1 : change first it e (fst (pe first it e' l)) = change first it e l).
  { unfold change. rewrite pe_other by (intros Q; apply N; symmetry; exact Q). reflexivity. }
  assert (C2 : change first it e' (fst (pe first it e l)) = change first it e' l).
  { unfold change. rewrite pe_other by exact N. reflexivity. }
  rewrite C1, C2, !pe_change. destruct (change first it e l), (change first it e' l); try reflexivity. apply put_comm, N.
Qed.
Definition accesses first it (tr : list (nat * (nat * T))) := map (fun p => (fst p, plasticOp upd h0 f0 first it (snd p))) tr.
Lemma exec_cons first it t e tr l :
  exec (accesses first it ((t, e) :: tr)) l =
  ((t, (fst e, snd (pe first it e l))) :: fst (exec (accesses first it tr) (fst (pe first it e l))), snd (exec (accesses first it tr) (fst (pe first it e l)))).
Proof.
  cbn [accesses map exec fst snd]. unfold plasticOp at 1. fold (pe first it e l). destruct (pe first it e l) as [l1 r]. cbn [fst snd].
  fold (accesses first it tr). destruct (exec (accesses first it tr) l1) as [q s2]. reflexivity.
Qed.
Lemma exec_results first it : forall tr l, NoDup (map (fun p => fst (snd p)) tr) ->
  fst (exec (accesses first it tr) l) = map (fun p => (fst p, (fst (snd p), snd (pe first it (snd p) l)))) tr.
Proof.
  induction tr as [|[t e] tr IH]; intros l N; [reflexivity|]. rewrite exec_cons. cbn [fst map snd]. inversion N as [|? ? N1 N2]; subst. cbn [fst snd] in N1. f_equal.
  rewrite IH by exact N2. apply map_ext_in. intros [t' e'] I'. cbn [fst snd]. do 2 f_equal. apply pe_local, pe_other.
  intros Q. apply N1. rewrite Q. apply in_map_iff. exists (t', e'). split; [reflexivity|exact I'].
Qed.
Lemma exec_final first it tr tr' : Permutation tr tr' -> forall l, NoDup (map (fun p => fst (snd p)) tr) ->
  snd (exec (accesses first it tr) l) = snd (exec (accesses first it tr') l).
Proof.
  induction 1 as [|[t e] tr tr' P IH|[t e] [t' e'] tr|tr tr' tr'' P1 IH1 P2 IH2]; intros l N.
  - reflexivity.
  - rewrite !exec_cons. cbn [snd]. apply IH. inversion N; assumption.
  - rewrite !exec_cons. cbn [snd fst]. rewrite pe_comm; [reflexivity|].
    inversion N as [|? ? N1 N2]; subst. cbn [map fst snd] in N1. intros Q. apply N1. left. exact Q.
  - rewrite IH1 by exact N. apply IH2. eapply Permutation_NoDup; [|exact N]. apply Permutation_map, P1.
Qed.
End P.
