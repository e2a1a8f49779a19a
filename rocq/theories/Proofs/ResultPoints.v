From Coq Require Import List Lia.
From Verif.Spec Require Import ResultPoints.
From Verif.Model Require Import History ResultPoints.
Import ListNotations.

Section R.
Context {H T O : Type}.
Variable upd : H -> T -> T -> nat -> bool -> option (H * O).
Variables (h0 : H) (f0 : T).
Notation law := (fun h f F => upd h f F 1 false).

(** The history a point will start from at the next sweep. *)
Definition held (p : point H T) : H := if updated p then HVc p else HVp p.
Lemma updated_held p : HVp (updateState true p) = held p /\ Fp (updateState true p) = Fp p /\ updated (updateState true p) = false.
Proof. unfold updateState, held. destruct (updated p) eqn:E; cbn; auto. Qed.

Lemma evals_length Fs : forall l, length l <= length Fs -> length (fst (resEvals upd h0 f0 Fs l)) = length Fs.
Proof.
  induction Fs as [|F r IH]; intros l L; cbn [resEvals].
  - destruct l; [reflexivity|cbn in L; lia].
  - destruct l as [|p q].
    + destruct (resEval upd F (newPoint h0 f0)) as [p' o]. specialize (IH [] ltac:(cbn; lia)). destruct (resEvals upd h0 f0 r []). cbn in *. lia.
    + destruct (resEval upd F p) as [p' o]. specialize (IH q ltac:(cbn in L; lia)). destruct (resEvals upd h0 f0 r q). cbn in *. lia.
Qed.
Lemma evals_nth Fs : forall l i d, i < length Fs ->
  nth i (snd (resEvals upd h0 f0 Fs l)) None = snd (resEval upd (nth i Fs d) (nth i l (newPoint h0 f0))) /\
  nth i (fst (resEvals upd h0 f0 Fs l)) (newPoint h0 f0) = fst (resEval upd (nth i Fs d) (nth i l (newPoint h0 f0))).
Proof.
  induction Fs as [|F r IH]; intros l i d L; [cbn in L; lia|]. cbn [resEvals]. destruct l as [|p q].
  - destruct (resEval upd F (newPoint h0 f0)) as [p' o] eqn:E. destruct i as [|i].
    + destruct (resEvals upd h0 f0 r []). cbn. rewrite E. auto.
    + specialize (IH [] i d ltac:(cbn in L; lia)). destruct (resEvals upd h0 f0 r []). cbn [fst snd nth] in *. destruct i; exact IH.
  - destruct (resEval upd F p) as [p' o] eqn:E. destruct i as [|i].
    + destruct (resEvals upd h0 f0 r q). cbn. rewrite E. auto.
    + specialize (IH q i d ltac:(cbn in L; lia)). destruct (resEvals upd h0 f0 r q). cbn [fst snd nth] in *. exact IH.
Qed.
Lemma fresh_held : held (newPoint h0 f0) = h0 /\ updateState true (newPoint h0 f0) = newPoint h0 f0.
Proof. split; reflexivity. Qed.
Lemma eval_step F p : updated p = false ->
  match upd (HVp p) (Fp p) F 1 false with
  | Some (h, o) => snd (resEval upd F p) = Some o /\ held (fst (resEval upd F p)) = h /\ Fp (fst (resEval upd F p)) = F
  | None => snd (resEval upd F p) = None /\ held (fst (resEval upd F p)) = HVp p /\ Fp (fst (resEval upd F p)) = F
  end.
Proof.
  intros U. unfold resEval, evaluate. cbn [Nat.eqb andb negb]. destruct (upd (HVp p) (Fp p) F 1 false) as [[h o]|]; cbn; auto.
  rewrite U. unfold held. cbn. auto.
Qed.

Lemma sweeps_follow n d i : i < n -> forall ss l, (forall s, In s ss -> length s = n) -> length l <= n ->
  map (fun os => nth i os None) (sweeps upd h0 f0 l ss) =
  follow law (held (nth i l (newPoint h0 f0))) (Fp (nth i l (newPoint h0 f0))) (map (fun s => nth i s d) ss).
Proof.
  intros Hi. induction ss as [|s ss IH]; intros l Hn Hl; [reflexivity|]. cbn [sweeps map follow].
  assert (Ls : length s = n) by (apply Hn; left; reflexivity).
  unfold sweep. pose proof (evals_nth s (initResultPoints l) i d ltac:(lia)) as [N1 N2].
  pose proof (evals_length s (initResultPoints l) ltac:(unfold initResultPoints; rewrite map_length; lia)) as L2.
  destruct (resEvals upd h0 f0 s (initResultPoints l)) as [l' os]. cbn [fst snd] in *. cbn [map].
  assert (Q : nth i (initResultPoints l) (newPoint h0 f0) = updateState true (nth i l (newPoint h0 f0))).
  { unfold initResultPoints. rewrite <- (proj2 fresh_held) at 1. apply map_nth. }
  rewrite Q in N1, N2. set (p := nth i l (newPoint h0 f0)) in *. destruct (updated_held p) as (U1 & U2 & U3).
  pose proof (eval_step (nth i s d) (updateState true p) U3) as St. rewrite U1, U2 in St.
  rewrite IH by (try (intros; apply Hn; right; assumption); lia). rewrite N1, N2.
  destruct (upd (held p) (Fp p) (nth i s d) 1 false) as [[h o]|]; destruct St as (S1 & S2 & S3); rewrite S1, S2, S3; reflexivity.
Qed.
End R.

From Verif.Spec Require Import History.
From Verif.Proofs Require Import History.
Section I.
Context {H T O : Type}.
Variable upd : H -> T -> T -> nat -> bool -> option (H * O).
Variable law : H -> T -> T -> option (H * O).
Hypothesis steady : forall h f F it b, 1 <= it -> upd h f F it b = law h f F.
(** Following the last trials of converged increments leads to the specified state. *)
Lemma follow_converged d l : forall b s s' Fs, Forall (fun a => converged a = true) l -> driven upd b s l -> spec_run upd s l = Some s' ->
  skipn (length l) (follow law (fst s) (snd s) (map (fun a => last (trials a) d) l ++ Fs)) = follow law (fst s') (snd s') Fs.
Proof.
  induction l as [|a l IH]; intros b s s' Fs Hc Hd Hs; [injection Hs as <-; reflexivity|].
  cbn [driven spec_run] in *. destruct Hd as (Hf & (m & Fl & Ht) & Hd).
  destruct (result upd s (first a) (trials a)) as [s1|] eqn:E; [|discriminate].
  inversion Hc as [|a' l' Ca Cl]; subst a' l'. rewrite Ca in *.
  rewrite Ht in E. destruct (result_last upd _ _ _ _ _ _ E) as (h & o & Hu & ->).
  rewrite steady in Hu by (cbn [length]; lia).
  cbn [map app length]. rewrite Ht. change (snd s :: m ++ [Fl]) with ((snd s :: m) ++ [Fl]). rewrite last_last.
  cbn [follow]. rewrite Hu. cbn [skipn]. change Fl with (snd (h, Fl)) at 1. change h with (fst (h, Fl)) at 1. apply (IH false); assumption.
Qed.
End I.
