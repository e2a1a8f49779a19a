(** Proofs about the restart of simulations. *)
From Coq Require Import List QArith Bool Lia Lqa.
From Verif.Model Require Import History Restart.
Import ListNotations.
Open Scope Q_scope.

Section R.
Context {H T X U P : Type}.
Variable upd : H -> T -> T -> nat -> bool -> option (H * X).
Variables (timeOf : P -> Q) (advance : P -> option P) (push : U -> U) (due : P -> bool) (initAcc : P -> U -> U).
Variable solve : P -> U -> list (point H T) -> option (P * U * list (list (attempt T))).
Notation nl := (nlStep upd timeOf advance push due solve).
Notation nm := (nmStep upd timeOf advance push due solve).
Notation st := (state H T U P).

Definition what (o : output U P) : Q * U := (oTime o, oSol o).

(** Two states that differ in the save time only make the same steps. *)
Definition same (a b : st) : Prop := prm a = prm b /\ sol a = sol b /\ pts a = pts b.

Lemma nl_same c a b : same a b ->
  match nl c a, nl c b with
  | None, None => True
  | Some (a', x), Some (b', y) => same a' b' /\ what x = what y
  | _, _ => False end.
Proof.
  intros (A & B & C). unfold nlStep. rewrite A, B, C. destruct (advance (prm b)) as [p|]; [|exact I].
  destruct (solve p (push (sol b)) (pts b)) as [[[p' u] t]|]; [|exact I]. repeat split.
Qed.
Lemma nm_same c a b : same a b ->
  match nm c a, nm c b with
  | None, None => True
  | Some (a', x), Some (b', y) => same a' b' /\ what x = what y /\ oRestart x = oRestart y
  | _, _ => False end.
Proof.
  intros (A & B & C). unfold nmStep. rewrite A, B, C. destruct (advance (prm b)) as [p|]; [|exact I].
  destruct (solve p (push (sol b)) (pts b)) as [[[p' u] t]|]; [|exact I]. repeat split.
Qed.

Lemma runs_same (step : st -> option (st * output U P)) :
  (forall a b, same a b -> match step a, step b with None, None => True | Some (a', x), Some (b', y) => same a' b' /\ what x = what y | _, _ => False end) ->
  forall n a b, same a b -> map what (snd (runs step n a)) = map what (snd (runs step n b)).
Proof.
  intros K n; induction n as [|n IH]; intros a b E; [reflexivity|]. cbn [runs]. specialize (K a b E).
  destruct (step a) as [[a' x]|], (step b) as [[b' y]|]; try contradiction; [|reflexivity].
  destruct K as (E' & W). specialize (IH a' b' E'). destruct (runs step n a') as [ea la], (runs step n b') as [eb lb].
  cbn in *. now rewrite W, IH.
Qed.

Lemma runs_eq (step : st -> option (st * output U P)) n : forall a b, a = b -> snd (runs step n a) = snd (runs step n b).
Proof. intros; now subst. Qed.

Lemma nl_dump c s s' o d : nl c s = Some (s', o) -> oRestart o = Some d -> d = (prm s', sol s') /\ oSaved o = true /\ oTime o = timeOf (prm s').
Proof.
  unfold nlStep. intros A B. destruct (advance (prm s)) as [p|]; [|discriminate].
  destruct (solve p (push (sol s)) (pts s)) as [[[p' u] t]|]; [|discriminate]. inversion A; subst; clear A. cbn in *.
  destruct (_ || _); [|discriminate]. destruct (_ && _); [|discriminate]. now inversion B.
Qed.
Lemma nm_dump c s s' o d : nm c s = Some (s', o) -> oRestart o = Some d -> d = (prm s', sol s').
Proof.
  unfold nmStep. intros A B. destruct (advance (prm s)) as [p|]; [|discriminate].
  destruct (solve p (push (sol s)) (pts s)) as [[[p' u] t]|]; [|discriminate]. inversion A; subst; clear A. cbn in *.
  destruct (_ && _); [|discriminate]. now inversion B.
Qed.

Lemma record_nil a : record upd ([] : list (point H T)) a = [].
Proof. now destruct a. Qed.

(** No material points: none appear. *)
Lemma nl_nil c s s' o : nl c s = Some (s', o) -> pts s = [] -> pts s' = [].
Proof.
  unfold nlStep. intros A B. destruct (advance (prm s)) as [p|]; [|discriminate].
  destruct (solve p (push (sol s)) (pts s)) as [[[p' u] t]|]; [|discriminate]. inversion A; subst; cbn. rewrite B. apply record_nil.
Qed.
Lemma nm_nil c s s' o : nm c s = Some (s', o) -> pts s = [] -> pts s' = [].
Proof.
  unfold nmStep. intros A B. destruct (advance (prm s)) as [p|]; [|discriminate].
  destruct (solve p (push (sol s)) (pts s)) as [[[p' u] t]|]; [|discriminate]. inversion A; subst; cbn. rewrite B. apply record_nil.
Qed.
Lemma runs_nil (step : st -> option (st * output U P)) : (forall s s' o, step s = Some (s', o) -> pts s = [] -> pts s' = []) ->
  forall n s, pts s = [] -> pts (fst (runs step n s)) = [].
Proof.
  intros K n; induction n as [|n IH]; intros s E; [exact E|]. cbn [runs]. destruct (step s) as [[s' o]|] eqn:S1; [|exact E].
  specialize (IH s' (K _ _ _ S1 E)). destruct (runs step n s'). exact IH.
Qed.

(** The last output of a run is that of its last step. *)
Lemma runs_last (step : st -> option (st * output U P)) : forall n s s' l o, runs step n s = (s', l ++ [o]) ->
  exists s1, step s1 = Some (s', o) /\ exists k, fst (runs step k s) = s1.
Proof.
  induction n as [|n IH]; intros s s' l o E; [destruct l; discriminate|].
  cbn [runs] in E. destruct (step s) as [[s1 o1]|] eqn:S1; [|destruct l; discriminate].
  destruct (runs step n s1) as [e t] eqn:R. inversion E; subst. destruct l as [|x l].
  - cbn in H2. inversion H2; subst. destruct n; [|cbn [runs] in R; destruct (step s1) as [[s2 o2]|]; [destruct (runs step n s2); discriminate|]];
    inversion R; subst; exists s; (split; [exact S1|exists O; reflexivity]).
  - cbn in H2. inversion H2; subst. destruct (IH _ _ _ _ R) as (s2 & A & k & B). exists s2. split; [exact A|].
    exists (Datatypes.S k). cbn [runs]. rewrite S1. destruct (runs step k s1). exact B.
Qed.

(** A run that wrote a restart state in its last step continues as a run started from that state. *)
Lemma nl_resume c d0 k s l o d n : runs (nl c) k (start timeOf c [] d0) = (s, l ++ [o]) -> oRestart o = Some d ->
  map what (snd (runs (nl c) n (start timeOf c [] d))) = map what (snd (runs (nl c) n s)).
Proof.
  intros R D. destruct (runs_last _ _ _ _ _ _ R) as (s1 & S1 & k1 & E1). destruct (nl_dump _ _ _ _ _ S1 D) as (-> & _).
  apply runs_same; [apply nl_same|]. repeat split. cbn. symmetry.
  apply (nl_nil _ _ _ _ S1). rewrite <- E1. apply runs_nil; [exact (nl_nil c)|reflexivity].
Qed.
Lemma nm_resume c d0 k s l o d n : runs (nm c) k (nmStart timeOf initAcc c [] d0) = (s, l ++ [o]) -> oRestart o = Some d ->
  (doInitAcc c = true -> initAcc (fst d) (snd d) = snd d) ->
  map what (snd (runs (nm c) n (nmStart timeOf initAcc c [] d))) = map what (snd (runs (nm c) n s)).
Proof.
  intros R D IA. destruct (runs_last _ _ _ _ _ _ R) as (s1 & S1 & k1 & E1). pose proof (nm_dump _ _ _ _ _ S1 D) as ->.
  apply runs_same.
  - intros a b E. pose proof (nm_same c a b E) as K. destruct (nm c a) as [[? ?]|], (nm c b) as [[? ?]|]; tauto.
  - unfold nmStart, same; cbn in *. repeat split.
    + destruct (doInitAcc c); [now apply IA|reflexivity].
    + symmetry. apply (nm_nil _ _ _ _ S1). rewrite <- E1. apply runs_nil; [exact (nm_nil c)|reflexivity].
Qed.

(** The whole output agrees if the last step had no cut-back and another save interval fits before the end. *)
Lemma nl_dump_save c s s' o d : nl c s = Some (s', o) -> oRestart o = Some d ->
  exists p, advance (prm s) = Some p /\ nextSave s' = clamp c (timeOf p + dtSave c).
Proof.
  unfold nlStep. intros A B. destruct (advance (prm s)) as [p|]; [|discriminate].
  destruct (solve p (push (sol s)) (pts s)) as [[[p' u] t]|]; [|discriminate]. inversion A; subst; clear A. cbn in *.
  exists p. split; [reflexivity|]. destruct (_ || _); [reflexivity|discriminate].
Qed.
Lemma nl_resume_save c d0 k s l o d n : runs (nl c) k (start timeOf c [] d0) = (s, l ++ [o]) -> oRestart o = Some d ->
  (forall p q u v x a, advance p = Some q -> solve q u v = Some (x, a) -> timeOf (fst x) = timeOf q) -> timeOf (fst d) + dtSave c <= stopTime c ->
  snd (runs (nl c) n (start timeOf c [] d)) = snd (runs (nl c) n s).
Proof.
  intros R D NC LE. destruct (runs_last _ _ _ _ _ _ R) as (s1 & S1 & k1 & E1). destruct (nl_dump _ _ _ _ _ S1 D) as (-> & _).
  apply runs_eq. destruct s as [p u q x]. unfold start; cbn [fst snd prm sol] in *. f_equal.
  - symmetry. apply (nl_nil _ _ _ _ S1). rewrite <- E1. apply runs_nil; [exact (nl_nil c)|reflexivity].
  - destruct (nl_dump_save _ _ _ _ _ S1 D) as (p1 & A & B). cbn in B. rewrite B.
    assert (timeOf p = timeOf p1) as E.
    { unfold nlStep in S1. rewrite A in S1. destruct (solve p1 (push (sol s1)) (pts s1)) as [[[p' v] t]|] eqn:SV; [|discriminate].
      inversion S1; subst. exact (NC _ _ _ _ _ _ A SV). }
    rewrite <- E. unfold clamp. apply Qle_bool_iff in LE. now rewrite LE.
Qed.

End R.
