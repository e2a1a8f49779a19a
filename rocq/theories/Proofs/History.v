From Coq Require Import List Bool Arith Lia.
Import ListNotations.
From Verif.Model Require Import History.
From Verif.Spec Require Import History.

Section P.
Context {H T O : Type}.
Variable upd : H -> T -> T -> nat -> bool -> option (H * O).

Local Notation iterate := (iterate upd).
Local Notation assemble := (assemble upd).
Local Notation increment := (increment upd).

(** After initIntegration with it > 0 (or in the first step) the history is untouched. *)
Lemma init_keep first it (p : point H T) : (first = true \/ it <> 0) -> HVp (initIntegration first it p) = HVp p
  /\ Fp (initIntegration first it p) = Fp p.
Proof.
  intros Hc. unfold initIntegration, updateState.
  replace (negb first && Nat.eqb it 0) with false; [destruct (updated p); auto|].
  destruct Hc as [->|Hc]; [reflexivity|]. apply Nat.eqb_neq in Hc. rewrite Hc, andb_false_r. reflexivity.
Qed.

Lemma eval_keeps first it F (p : point H T) : HVp (fst (evaluate upd first it F p)) = HVp p.
Proof. unfold evaluate. destruct (upd _ _ _ _ _) as [[h o]|]; reflexivity. Qed.

Lemma eval_Fp first it F (p : point H T) : (first = true \/ it <> 0) -> Fp (fst (evaluate upd first it F p)) = Fp p.
Proof.
  intros Hc. unfold evaluate.
  replace (Nat.eqb it 0 && negb first) with false.
  2:{ destruct Hc as [->|Hc]; [rewrite andb_false_r; reflexivity|]. apply Nat.eqb_neq in Hc; rewrite Hc; reflexivity. }
  destruct (upd _ _ _ _ _) as [[h o]|]; reflexivity.
Qed.

Lemma asm_keep first it F (p : point H T) : (first = true \/ it <> 0) ->
  HVp (fst (assemble first it F p)) = HVp p /\ Fp (fst (assemble first it F p)) = Fp p.
Proof.
  intros Hc. unfold History.assemble. destruct (init_keep first it p Hc) as [h1 h2].
  split; [rewrite eval_keeps; assumption|rewrite eval_Fp; assumption].
Qed.

Lemma iter_keep first l : forall it (p : point H T), (first = true \/ it <> 0) ->
  HVp (iterate first it l p) = HVp p /\ Fp (iterate first it l p) = Fp p.
Proof.
  induction l as [|F l IH]; intros it p Hc; [split; reflexivity|]. cbn [History.iterate].
  destruct (IH (S it) (fst (assemble first it F p))) as [h1 h2]; [right; lia|].
  destruct (asm_keep first it F p Hc) as [h3 h4]. split; congruence.
Qed.

Lemma iter_app first l1 : forall l2 it (p : point H T),
  iterate first it (l1 ++ l2) p = iterate first (it + length l1) l2 (iterate first it l1 p).
Proof.
  induction l1 as [|F l1 IH]; intros l2 it p; cbn [app History.iterate length].
  - rewrite Nat.add_0_r; reflexivity.
  - rewrite IH. f_equal. lia.
Qed.

(** The outcome of an evaluation depends only on HVp, Fp and the arguments. *)
Lemma asm_out first it F (p q : point H T) : (first = true \/ it <> 0) -> HVp p = HVp q -> Fp p = Fp q ->
  snd (assemble first it F p) = snd (assemble first it F q) /\
  HVc (fst (assemble first it F p)) = HVc (fst (assemble first it F q)).
Proof.
  intros Hc h1 h2. unfold History.assemble, evaluate.
  destruct (init_keep first it p Hc) as [-> ->]. destruct (init_keep first it q Hc) as [-> ->].
  rewrite h1, h2. destruct (upd _ _ _ _ _) as [[h o]|]; split; try reflexivity; cbn; assumption || reflexivity.
Qed.

(** C12: any two sequences of earlier trials of the same increment lead to the same result of a trial. *)
Lemma trials_irrelevant first l1 l2 F it (p : point H T) :
  length l1 = length l2 -> (first = true \/ it <> 0) ->
  snd (assemble first (it + length l1) F (iterate first it l1 p)) =
  snd (assemble first (it + length l2) F (iterate first it l2 p)) /\
  HVc (fst (assemble first (it + length l1) F (iterate first it l1 p))) =
  HVc (fst (assemble first (it + length l2) F (iterate first it l2 p))).
Proof.
  intros Hl Hc. rewrite <- Hl.
  destruct (iter_keep first l1 it p Hc) as [h1 h2]. destruct (iter_keep first l2 it p Hc) as [h3 h4].
  apply asm_out; [destruct Hc; [left; assumption|right; lia]| |]; congruence.
Qed.

(** Same, including the first iteration of later steps (it = 0), where Fp is set to the first trial. *)
Lemma asm0 F (p : point H T) :
  Fp (fst (assemble false 0 F p)) = F /\
  HVp (fst (assemble false 0 F p)) = (if updated p then HVc p else HVp p).
Proof.
  unfold History.assemble. rewrite eval_keeps. split.
  - unfold evaluate. cbn [Nat.eqb andb negb]. destruct (upd _ _ _ _ _) as [[h o]|]; reflexivity.
  - unfold initIntegration, updateState; cbn. destruct (updated p); reflexivity.
Qed.

(** What is used and left by an increment that starts (it=0) with F0 and ends with Fl. *)
Lemma inc_result (fst_ : bool) F0 l Fl (p : point H T) cv h o :
  let hv := if fst_ then HVp p else if updated p then HVc p else HVp p in
  let fp := if fst_ then Fp p else F0 in
  upd hv fp Fl (length (F0 :: l)) fst_ = Some (h, o) ->
  let p' := increment p (mkA fst_ (F0 :: l ++ [Fl]) cv) in
  HVc p' = h /\ updated p' = true /\ HVp p' = hv /\ Fp p' = fp.
Proof.
  intros hv fp Hu p'. subst p'. unfold History.increment; cbn [first trials History.iterate].
  rewrite iter_app. cbn [History.iterate].
  set (p1 := fst (assemble fst_ 0 F0 p)).
  assert (H1 : HVp p1 = hv /\ Fp p1 = fp).
  { subst p1 hv fp. destruct fst_.
    - apply asm_keep; left; reflexivity.
    - destruct (asm0 F0 p) as [-> ->]. split; reflexivity. }
  destruct H1 as [h1 h2].
  destruct (iter_keep fst_ l 1 p1) as [h3 h4]; [right; lia|].
  set (p2 := iterate fst_ 1 l p1) in *. cbn [plus].
  destruct (init_keep fst_ (S (length l)) p2) as [h5 h6]; [right; lia|].
  unfold History.assemble, evaluate. replace (Nat.eqb (S (length l)) 0 && negb fst_) with false by reflexivity.
  rewrite h5, h6, h3, h4, h1, h2.
  change (S (length l)) with (length (F0 :: l)). rewrite Hu. cbn. auto.
Qed.

(** A history of increments: the code's run and the specified one. *)
Fixpoint run (p : point H T) (l : list (attempt T)) : point H T :=
  match l with [] => p | a :: r => run (increment p a) r end.
Fixpoint spec_run (s : H * T) (l : list (attempt T)) : option (H * T) :=
  match l with
  | [] => Some s
  | a :: r => match result upd s (first a) (trials a) with
              | None => None
              | Some s' => spec_run (if converged a then s' else s) r
              end
  end.

(** Histories as produced by the driver: the first increment is flagged [first], every later increment starts from
    the last converged deformation; at least one corrector. *)
Fixpoint driven (fst_ : bool) (s : H * T) (l : list (attempt T)) : Prop :=
  match l with
  | [] => True
  | a :: r => first a = fst_ /\ (exists m Fl, trials a = snd s :: m ++ [Fl]) /\
              match result upd s (first a) (trials a) with
              | None => True
              | Some s' => if converged a then driven false s' r else driven fst_ s r
              end
  end.

Lemma result_last s b F0 m Fl s' : result upd s b (F0 :: m ++ [Fl]) = Some s' ->
  exists h o, upd (fst s) (snd s) Fl (length (F0 :: m)) b = Some (h, o) /\ s' = (h, Fl).
Proof.
  unfold result. change (F0 :: m ++ [Fl]) with ((F0 :: m) ++ [Fl]).
  rewrite rev_app_distr, app_length. cbn [rev app length plus].
  replace (S (length m + 1) - 1) with (S (length m)) by lia.
  destruct (upd _ _ _ _ _) as [[h o]|] eqn:E; intros Hs; [|discriminate].
  injection Hs as <-. exists h, o. split; reflexivity.
Qed.

(** What the point must know before an increment: in the first step the initial state, later the last results. *)
Definition holds (fst_ : bool) (p : point H T) (s : H * T) : Prop :=
  if fst_ then HVp p = fst s /\ Fp p = snd s else updated p = true /\ HVc p = fst s.

(** Once an increment has converged the [first] flag is off. *)
Definition still_first (fst_ : bool) (l : list (attempt T)) : bool := fst_ && negb (existsb converged l).

(** C13 positive part: if every increment after the first step converges, the history used by any later increment is
    that of the last converged one. *)
Lemma run_holds l : forall (fst_ : bool) (p : point H T) s s',
  holds fst_ p s -> Forall (fun a => converged a = true \/ first a = true) l ->
  driven fst_ s l -> spec_run s l = Some s' ->
  holds (still_first fst_ l) (run p l) s'.
Proof.
  induction l as [|a l IH]; intros fst_ p s s' Hp Hc Hd Hs.
  { cbn in Hs |- *. injection Hs as <-. unfold still_first. rewrite andb_true_r. exact Hp. }
  cbn [run spec_run driven] in *. destruct Hd as (Hf & (m & Fl & Ht) & Hd).
  destruct (result upd s (first a) (trials a)) as [s1|] eqn:E; [|discriminate].
  inversion Hc as [|a' l' Hca Hcl]; subst a' l'.
  rewrite Ht in E. destruct (result_last _ _ _ _ _ _ E) as (h & o & Hu & ->).
  assert (Hinc : let p' := increment p a in HVc p' = h /\ updated p' = true /\ (fst_ = true -> HVp p' = HVp p /\ Fp p' = Fp p)).
  { destruct a as [fa ta ca]; cbn in Hf, Ht, Hca, Hu |- *; subst fa ta.
    destruct (inc_result fst_ (snd s) m Fl p ca h o) as (g1 & g2 & g3 & g4).
    - destruct fst_; destruct Hp as [-> ->]; exact Hu.
    - repeat split; auto; subst fst_; assumption. }
  cbv zeta in Hinc. destruct Hinc as (g1 & g2 & g3).
  destruct (converged a) eqn:Ec.
  - unfold still_first; cbn [existsb]. rewrite Ec, orb_true_l, andb_false_r.
    change false with (still_first false l). apply (IH false (increment p a) (h, Fl) s'); auto. split; assumption.
  - destruct Hca as [Hca|Hca]; [discriminate|]. rewrite Hf in Hca. clear Hf. subst fst_.
    unfold still_first; cbn [existsb]. rewrite Ec, orb_false_l.
    apply (IH true (increment p a) s s'); auto. unfold holds. destruct (g3 eq_refl) as [-> ->]. exact Hp.
Qed.

(** The result of the last trial of an increment that begins at the last converged deformation. *)
Lemma uses_last fst_ (p : point H T) s m Fl h o :
  holds fst_ p s -> upd (fst s) (snd s) Fl (length (snd s :: m)) fst_ = Some (h, o) ->
  snd (assemble fst_ (length (snd s :: m)) Fl (iterate fst_ 0 (snd s :: m) p)) = Some o.
Proof.
  intros Hp Hu. cbn [History.iterate length].
  set (p1 := fst (assemble fst_ 0 (snd s) p)).
  assert (H1 : HVp p1 = fst s /\ Fp p1 = snd s).
  { subst p1. destruct fst_; cbn in Hp.
    - destruct (asm_keep true 0 (snd s) p) as [-> ->]; [left; reflexivity|exact Hp].
    - destruct (asm0 (snd s) p) as [-> ->]. destruct Hp as [-> ->]. split; reflexivity. }
  destruct H1 as [h1 h2].
  destruct (iter_keep fst_ m 1 p1) as [h3 h4]; [right; lia|].
  set (p2 := iterate fst_ 1 m p1) in *.
  destruct (init_keep fst_ (S (length m)) p2) as [h5 h6]; [right; lia|].
  unfold History.assemble, evaluate. replace (Nat.eqb (S (length m)) 0 && negb fst_) with false by reflexivity.
  rewrite h5, h6, h3, h4, h1, h2.
  change (S (length m)) with (length (snd s :: m)). rewrite Hu. reflexivity.
Qed.

Lemma history_used l (fst_ : bool) (p : point H T) s s' m Fl h o :
  holds fst_ p s -> Forall (fun a => converged a = true \/ first a = true) l ->
  driven fst_ s l -> spec_run s l = Some s' ->
  let b := still_first fst_ l in
  upd (fst s') (snd s') Fl (length (snd s' :: m)) b = Some (h, o) ->
  snd (assemble b (length (snd s' :: m)) Fl (iterate b 0 (snd s' :: m) (run p l))) = Some o.
Proof.
  intros Hp Hc Hd Hs b Hu. apply (uses_last b (run p l) s' m Fl h o); [|exact Hu].
  apply (run_holds l fst_ p s s'); assumption.
Qed.

(** C12 for arbitrary re-evaluations: pairs (iteration number, trial). *)
Fixpoint evals (fst_ : bool) (l : list (nat * T)) (p : point H T) : point H T :=
  match l with [] => p | (it, F) :: r => evals fst_ r (fst (assemble fst_ it F p)) end.
Lemma evals_keep fst_ l : forall (p : point H T), Forall (fun x => fst_ = true \/ fst x <> 0) l ->
  HVp (evals fst_ l p) = HVp p /\ Fp (evals fst_ l p) = Fp p.
Proof.
  induction l as [|[it F] l IH]; intros p Hc; [split; reflexivity|]. cbn [evals].
  inversion Hc as [|x l' Hx Hl]; subst.
  destruct (IH (fst (assemble fst_ it F p)) Hl) as [h1 h2].
  destruct (asm_keep fst_ it F p Hx) as [h3 h4]. split; congruence.
Qed.
Lemma reevaluation fst_ l1 l2 it F (p : point H T) :
  Forall (fun x => fst_ = true \/ fst x <> 0) l1 -> Forall (fun x => fst_ = true \/ fst x <> 0) l2 ->
  (fst_ = true \/ it <> 0) ->
  snd (assemble fst_ it F (evals fst_ l1 p)) = snd (assemble fst_ it F (evals fst_ l2 p)) /\
  HVc (fst (assemble fst_ it F (evals fst_ l1 p))) = HVc (fst (assemble fst_ it F (evals fst_ l2 p))).
Proof.
  intros H1 H2 Hc. destruct (evals_keep fst_ l1 p H1) as [h1 h2]. destruct (evals_keep fst_ l2 p H2) as [h3 h4].
  apply asm_out; [assumption| |]; congruence.
Qed.

(** C13 negative part: after a diverged increment (not the first) the next increment starts from the history of the
    diverged iterations. *)
Lemma diverged_commits (p : point H T) F0 m Fl h o F0' m' Fl' h' o' c2 :
  upd (if updated p then HVc p else HVp p) F0 Fl (length (F0 :: m)) false = Some (h, o) ->
  upd h F0' Fl' (length (F0' :: m')) false = Some (h', o') ->
  HVc (increment (increment p (mkA false (F0 :: m ++ [Fl]) false)) (mkA false (F0' :: m' ++ [Fl']) c2)) = h'.
Proof.
  intros h1 h2. destruct (inc_result false F0 m Fl p false h o h1) as (g1 & g2 & _).
  destruct (inc_result false F0' m' Fl' (increment p (mkA false (F0 :: m ++ [Fl]) false)) c2 h' o') as (g3 & _); [|exact g3].
  rewrite g2, g1. exact h2.
Qed.
End P.

(** * The elastic branch as instance (PlasticMaterial.C:363-377 and 605-608): be := (Fc Fp^-1) be (Fc Fp^-1)^T. *)
From Coq Require Import Reals Lra.
From Verif.Lib Require Import Base Tensor3.
Open Scope R_scope.
Definition push (F0 F1 be : t3) : t3 := let A := mul3 F1 (inv3 F0) in mul3 A (mul3 be (trn A)).
Definition elastic (be F0 F1 : t3) (it : nat) (fs : bool) : option (t3 * t3) :=
  if Req_EM_T (det3 F0) 0 then None else if Req_EM_T (det3 F1) 0 then None
  else Some (push F0 F1 be, push F0 F1 be).

Definition diag (c : R) : t3 := fun i j => if Nat.eqb i j then c else 0.

(** On converged elastic histories be stays F F^T. *)
Lemma push_FFt F0 F1 be : det3 F0 <> 0 -> eq3 be (mul3 F0 (trn F0)) -> eq3 (push F0 F1 be) (mul3 F1 (trn F1)).
Proof.
  intros HD Hb. unfold push. set (G := inv3 F0).
  assert (HG : eq3 (mul3 G F0) kron) by (apply inv3_l; exact HD). clearbody G.
  assert (E1 : eq3 (mul3 (mul3 F1 G) (mul3 be (trn (mul3 F1 G))))
                   (mul3 F1 (mul3 (mul3 G F0) (mul3 (trn (mul3 G F0)) (trn F1))))).
  { eapply eq3_trans; [apply mul3_ext; [apply eq3_refl|apply mul3_ext; [exact Hb|apply eq3_refl]]|].
    intros i j _ _. unfold mul3, trn. ring. }
  eapply eq3_trans; [exact E1|]. apply mul3_ext; [apply eq3_refl|].
  assert (HGt : eq3 (trn (mul3 G F0)) kron).
  { intros i j Hi Hj. unfold trn. rewrite HG by lia. unfold kron. rewrite Nat.eqb_sym. reflexivity. }
  eapply eq3_trans; [apply mul3_ext; [exact HG|apply mul3_ext; [exact HGt|apply eq3_refl]]|].
  intros i j Hi Hj. idx i; idx j; unfold mul3, kron; cbn [Nat.eqb]; ring.
Qed.

Lemma result_elastic s b l s' : result elastic s b l = Some s' -> det3 (snd s) <> 0 ->
  eq3 (fst s) (mul3 (snd s) (trn (snd s))) ->
  det3 (snd s') <> 0 /\ eq3 (fst s') (mul3 (snd s') (trn (snd s'))).
Proof.
  unfold result. intros H Hd He. destruct (rev l) as [|F r]; [injection H as <-; split; assumption|].
  unfold elastic in H. destruct (Req_EM_T (det3 (snd s)) 0); [discriminate|].
  destruct (Req_EM_T (det3 F) 0); [discriminate|]. injection H as <-. cbn [fst snd]. split; [assumption|].
  apply push_FFt; assumption.
Qed.

Lemma spec_elastic l : forall s s', spec_run elastic s l = Some s' -> det3 (snd s) <> 0 ->
  eq3 (fst s) (mul3 (snd s) (trn (snd s))) ->
  det3 (snd s') <> 0 /\ eq3 (fst s') (mul3 (snd s') (trn (snd s'))).
Proof.
  induction l as [|a l IH]; intros s s' H Hd He; [cbn in H; injection H as <-; split; assumption|].
  cbn [spec_run] in H. destruct (result elastic s (first a) (trials a)) as [s1|] eqn:E; [|discriminate].
  destruct (result_elastic _ _ _ _ E Hd He) as [h1 h2].
  destruct (converged a); apply (IH _ _ H); assumption.
Qed.

(** A converged step at rest, a diverged attempt to twice the size, then a step at rest again. *)
Definition bad_history : list (attempt t3) :=
  [mkA true [diag 1; diag 1] true; mkA false [diag 1; diag 2] false].

Lemma det_diag c : det3 (diag c) = c * c * c.
Proof. unfold det3, diag; cbn. ring. Qed.
Lemma el_diag be a c it fs : a <> 0 -> c <> 0 -> elastic be (diag a) (diag c) it fs = Some (push (diag a) (diag c) be, push (diag a) (diag c) be).
Proof.
  intros Ha Hc. unfold elastic. rewrite !det_diag.
  destruct (Req_EM_T (a*a*a) 0) as [E|_]; [exfalso; apply Rmult_integral in E; destruct E as [E|E]; [apply Rmult_integral in E; destruct E|]; contradiction|].
  destruct (Req_EM_T (c*c*c) 0) as [E|_]; [exfalso; apply Rmult_integral in E; destruct E as [E|E]; [apply Rmult_integral in E; destruct E|]; contradiction|].
  reflexivity.
Qed.
Lemma push_diag a c be : a <> 0 -> push (diag a) (diag c) be 1%nat 1%nat = (c/a) * (c/a) * be 1%nat 1%nat.
Proof. intros Ha. unfold push, mul3, inv3, trn. rewrite det_diag. unfold diag; cbn [Nat.eqb]. field. exact Ha. Qed.

Lemma bad_outcome : exists o o',
  snd (assemble elastic false 1 (diag 1) (iterate elastic false 0 [diag 1] (run elastic (newPoint (diag 1) (diag 1)) bad_history))) = Some o /\
  (exists s h, spec_run elastic (diag 1, diag 1) bad_history = Some s /\ elastic (fst s) (snd s) (diag 1) 1 false = Some (h, o')) /\
  o 1%nat 1%nat = 4 /\ o' 1%nat 1%nat = 1.
Proof.
  assert (one : 1 <> 0) by lra. assert (two : 2 <> 0) by lra.
  set (p0 := newPoint (diag 1) (diag 1)).
  destruct (inc_result elastic true (diag 1) [] (diag 1) p0 true _ _ (el_diag (diag 1) 1 1 1%nat true one one)) as (a1 & a2 & _).
  set (p1 := increment elastic p0 (mkA true (diag 1 :: [] ++ [diag 1]) true)) in *.
  set (h1 := push (diag 1) (diag 1) (diag 1)) in *.
  assert (E2 : elastic (if updated p1 then HVc p1 else HVp p1) (diag 1) (diag 2) 1 false = Some (push (diag 1) (diag 2) h1, push (diag 1) (diag 2) h1)).
  { rewrite a2, a1. apply el_diag; assumption. }
  destruct (inc_result elastic false (diag 1) [] (diag 2) p1 false _ _ E2) as (b1 & b2 & _).
  set (p2 := increment elastic p1 (mkA false (diag 1 :: [] ++ [diag 2]) false)) in *.
  set (h2 := push (diag 1) (diag 2) h1) in *.
  assert (HH : holds false p2 (h2, diag 1)) by (split; [exact b2|exact b1]).
  pose proof (uses_last elastic false p2 (h2, diag 1) [] (diag 1) _ _ HH (el_diag h2 1 1 1%nat false one one)) as U.
  exists (push (diag 1) (diag 1) h2), (push (diag 1) (diag 1) h1).
  split; [exact U|]. split.
  - exists (h1, diag 1), (push (diag 1) (diag 1) h1). split; [|apply el_diag; assumption].
    unfold bad_history; cbn [spec_run]. unfold result; cbn [first trials rev app length Nat.sub converged fst snd].
    rewrite el_diag by assumption. cbn [fst snd]. fold h1. rewrite el_diag by assumption. reflexivity.
  - rewrite !push_diag by assumption. subst h2. rewrite push_diag by assumption. subst h1. rewrite push_diag by assumption.
    unfold diag; cbn [Nat.eqb]. split; field.
Qed.

Lemma bad_driven : driven elastic true (diag 1, diag 1) bad_history.
Proof.
  assert (one : 1 <> 0) by lra. assert (two : 2 <> 0) by lra.
  unfold bad_history; cbn [driven]. unfold result; cbn [first trials rev app length Nat.sub fst snd converged].
  rewrite el_diag by assumption. cbn [fst snd]. rewrite el_diag by assumption.
  split; [reflexivity|]. split; [exists [], (diag 1); reflexivity|].
  split; [reflexivity|]. split; [exists [], (diag 2); reflexivity|]. exact I.
Qed.
