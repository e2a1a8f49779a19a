From Coq Require Import Sorting.Sorted.
From Verif Require Import Lib.Base Lib.Sums Lib.Vec3 Model.Couplings.
Import ListNotations.

(* all pairs listed for a slave, in reading order *)
Definition mastersOf (s : Z) (ls : list line) : list master := flat_map (fun l => if (fst l =? s)%Z then snd l else []) ls.
Definition klt (a b : Z * list master) : Prop := (fst a < fst b)%Z.
Definition wf (m : list (Z * list master)) : Prop := StronglySorted klt m /\ Forall (fun e => snd e <> []) m.
Fixpoint get (s : Z) (m : list (Z * list master)) : list master :=
  match m with [] => [] | (s', ps) :: r => if (s' =? s)%Z then ps else get s r end.
Lemma get_absent s m : (forall e, In e m -> fst e <> s) -> get s m = [].
Proof.
  induction m as [|[k ps] m IH]; intros H; [reflexivity|]. cbn. destruct (Z.eqb_spec k s) as [->|]; [destruct (H (s, ps)); [now left|reflexivity]|].
  apply IH. intros e E. apply H. now right.
Qed.
Lemma add_keys s p m e : In e (addMaster s p m) -> fst e = s \/ exists f, In f m /\ fst f = fst e.
Proof.
  induction m as [|[k ps] m IH]; cbn; [intros [<-|[]]; now left|]. destruct (Z.ltb_spec k s).
  - intros [<-|K]; [right; exists (k, ps); split; [now left|reflexivity]|]. destruct (IH K) as [|(f & F & G)]; [now left|right; exists f; split; [now right|assumption]].
  - destruct (Z.eqb_spec k s) as [->|].
    + intros [<-|K]; [now left|]. right. exists e. split; [now right|reflexivity].
    + intros [<-|K]; [now left|]. right. exists e. split; [exact K|reflexivity].
Qed.
Lemma add_wf s p m : wf m -> wf (addMaster s p m).
Proof.
  intros [S F]. split.
  - induction m as [|[k ps] m IH]; cbn; [repeat constructor|]. inversion S as [|? ? S1 G]; subst. inversion F; subst. destruct (Z.ltb_spec k s).
    + constructor; [now apply IH|]. rewrite Forall_forall in *. intros e E. destruct (add_keys _ _ _ _ E) as [K|(f & K & Q)]; unfold klt; cbn; [lia|]. rewrite <- Q. exact (G f K).
    + destruct (Z.eqb_spec k s) as [->|]; [constructor; [assumption|exact G]|]. constructor; [assumption|]. constructor; [unfold klt; cbn; lia|].
      rewrite Forall_forall in *. intros e E. specialize (G e E). unfold klt in *. cbn in *. lia.
  - clear S. induction m as [|[k ps] m IH]; cbn; [repeat constructor; discriminate|]. inversion F; subst. destruct (k <? s)%Z; [constructor; auto|].
    destruct (k =? s)%Z; [constructor; [cbn; now destruct ps|assumption]|]. constructor; [discriminate|assumption].
Qed.
Lemma get_add s p m t : wf m -> get t (addMaster s p m) = if (s =? t)%Z then get t m ++ [p] else get t m.
Proof.
  intros [S _]. induction m as [|[k ps] m IH]; cbn; [now destruct (s =? t)%Z|]. inversion S as [|? ? S1 G]; subst. destruct (Z.ltb_spec k s).
  - cbn. destruct (Z.eqb_spec k t) as [->|]; [|now apply IH]. destruct (Z.eqb_spec s t); [lia|reflexivity].
  - destruct (Z.eqb_spec k s) as [->|].
    + cbn. destruct (Z.eqb_spec s t); reflexivity.
    + cbn. destruct (Z.eqb_spec s t) as [->|]; [|reflexivity]. destruct (Z.eqb_spec k t); [lia|]. rewrite get_absent; [reflexivity|].
      rewrite Forall_forall in G. intros e E. specialize (G e E). unfold klt in G. cbn in G. lia.
Qed.
Lemma line_spec l : forall m t, wf m -> wf (parseLine m l) /\ get t (parseLine m l) = get t m ++ (if (fst l =? t)%Z then snd l else []).
Proof.
  destruct l as [s ps]. unfold parseLine. cbn [fst snd]. induction ps as [|p ps IH]; intros m t W; cbn.
  - split; [assumption|]. destruct (s =? t)%Z; now rewrite app_nil_r.
  - destruct (IH (addMaster s p m) t (add_wf s p m W)) as [A B]. split; [assumption|]. rewrite B, get_add by assumption.
    destruct (s =? t)%Z; [now rewrite <- app_assoc|reflexivity].
Qed.
Lemma parse_spec ls : forall m t, wf m -> wf (parseCpl ls m) /\ get t (parseCpl ls m) = get t m ++ mastersOf t ls.
Proof.
  induction ls as [|l ls IH]; intros m t W; cbn; [split; [assumption|now rewrite app_nil_r]|].
  destruct (line_spec l m t W) as [A B]. destruct (IH (parseLine m l) t A) as [C D]. unfold parseCpl in *. split; [assumption|]. rewrite D, B, <- app_assoc. reflexivity.
Qed.
Lemma in_get m t ps : wf m -> In (t, ps) m <-> get t m = ps /\ ps <> [].
Proof.
  intros [S F]. induction m as [|[k qs] m IH]; cbn; [split; [intros []|intros [<- N]; congruence]|].
  inversion S as [|? ? S1 G]; subst. inversion F as [|? ? Q F1]; subst. cbn in Q. destruct (Z.eqb_spec k t) as [->|N].
  - split; [|intros [-> _]; now left]. intros [[= <-]|K]; [now split|]. rewrite Forall_forall in G. specialize (G _ K). unfold klt in G; cbn in G. lia.
  - rewrite <- (IH S1 F1). split; [|auto]. intros [[= E _]|K]; [congruence|assumption].
Qed.
(* effect of a constraint *)
Lemma combine_fst_snd (ps : list master) : combine (map fst ps) (map snd ps) = ps.
Proof. induction ps as [|[a b] ps IH]; [reflexivity|]. cbn. now rewrite IH. Qed.
Lemma couple_disp s ps u : slaveDisp (couple (s, ps)) u = weighted ps u.
Proof.
  unfold couple. cbn [fst snd]. destruct ps as [|[m w] [|q ps]]; [reflexivity| |].
  - destruct (Req_EM_T w 1) as [->|]; [|reflexivity]. cbn. destruct (u m) as [a b c]. unfold vadd, vscal, vzero; cbn. f_equal; ring.
  - cbn [slaveDisp]. now rewrite combine_fst_snd.
Qed.
Lemma couple_slave e : slaveOf (couple e) = fst e.
Proof. unfold couple. destruct e as [s [|[m w] [|]]]; cbn; try reflexivity. now destruct (Req_EM_T w 1). Qed.
Lemma couplings_spec ls c : In c (couplings ls) -> forall u, slaveDisp c u = weighted (mastersOf (slaveOf c) ls) u /\ mastersOf (slaveOf c) ls <> [].
Proof.
  intros H u. unfold couplings in H. apply in_map_iff in H. destruct H as ([s ps] & <- & I).
  destruct (parse_spec ls [] s) as [W G]; [repeat constructor|]. cbn in G. apply (in_get _ s ps W) in I. destruct I as [I N].
  rewrite couple_slave, couple_disp. cbn. rewrite <- G, I. now split.
Qed.
Lemma couplings_complete ls s : mastersOf s ls <> [] -> exists c, In c (couplings ls) /\ slaveOf c = s.
Proof.
  intros N. destruct (parse_spec ls [] s) as [W G]; [repeat constructor|]. cbn in G. exists (couple (s, mastersOf s ls)). split; [|apply couple_slave].
  apply in_map. apply (in_get _ _ _ W). now split.
Qed.
Lemma couplings_unique ls : NoDup (map slaveOf (couplings ls)).
Proof.
  unfold couplings. rewrite map_map. destruct (parse_spec ls [] 0%Z) as [[S _] _]; [repeat constructor|].
  assert (E : map (fun e => slaveOf (couple e)) (parseCpl ls []) = map fst (parseCpl ls [])) by (apply map_ext; intros; apply couple_slave). rewrite E. clear E.
  induction S as [|e m S IH F]; cbn; constructor; [|assumption]. intros K. apply in_map_iff in K. destruct K as (f & E & K).
  rewrite Forall_forall in F. specialize (F f K). unfold klt in F. lia.
Qed.
(* rigid motion *)
Definition rigid (t w : v3) (X : v3) : v3 := vadd t (vcross w X).
Definition wsum (l : list master) : R := sumL snd l.
Lemma vc_add a b k : vc (vadd a b) k = vc a k + vc b k. Proof. destruct k as [|[|[|k]]]; reflexivity. Qed.
Lemma weighted_rigid (X : Z -> v3) t w l : weighted l (fun n => rigid t w (X n)) = vadd (vscal (wsum l) t) (vcross w (weighted l X)).
Proof.
  induction l as [|[m a] l IH]; unfold wsum, sumL in *; cbn [weighted fold_right fst snd].
  - unfold vcross, vadd, vscal, vzero; cbn. f_equal; ring.
  - unfold weighted in IH. rewrite IH. generalize (fold_right (fun p a0 => vadd (vscal (snd p) (X (fst p))) a0) vzero l). intros [x y z].
    generalize (fold_right (fun a0 s => snd a0 + s) 0 l). intros r. destruct t, w, (X m). unfold rigid, vadd, vscal, vcross; cbn. f_equal; ring.
Qed.
Lemma rigid_iff (X : Z -> v3) s l :
  (forall t w, weighted l (fun n => rigid t w (X n)) = rigid t w (X s)) <-> (wsum l = 1 /\ weighted l X = X s).
Proof.
  split.
  - intros H. assert (E : forall t w, vadd (vscal (wsum l) t) (vcross w (weighted l X)) = vadd t (vcross w (X s))) by (intros; rewrite <- weighted_rigid; apply H).
    destruct (weighted l X) as [a b c], (X s) as [x y z]. split.
    + assert (E1 := E (V 1 0 0) (V 0 0 0)). unfold vadd, vscal, vcross in E1; cbn in E1. injection E1 as E1 _ _. lra.
    + assert (E1 := E (V 0 0 0) (V 1 0 0)). assert (E2 := E (V 0 0 0) (V 0 1 0)). unfold vadd, vscal, vcross in E1, E2; cbn in E1, E2.
      injection E1 as _ E1 E1'. injection E2 as E2 _ E2'. f_equal; lra.
  - intros [A B] t w. rewrite weighted_rigid, A, B. unfold rigid. destruct t, w, (X s). unfold vadd, vscal, vcross; cbn. f_equal; ring.
Qed.
