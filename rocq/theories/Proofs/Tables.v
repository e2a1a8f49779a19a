From Coq Require Import List ZArith QArith Bool Lia.
From Verif Require Import Lib.Base Model.Tables.
Import ListNotations.
Open Scope Z_scope.

Lemma at_lt {A} (l : list A) i : 0 <= i < Z.of_nat (length l) -> exists a, at_ l i = Ret a /\ nth_error l (Z.to_nat i) = Some a.
Proof.
  intros H. unfold at_. destruct (nth_error l (Z.to_nat i)) as [a|] eqn:E; [now exists a|].
  apply nth_error_None in E. lia.
Qed.
Lemma clamp_nonempty {A} (l : list A) p : 0 <= p -> l <> [] -> Z.of_nat (length l) < wrap -> clampIdx l p = Z.min p (Z.of_nat (length l) - 1).
Proof.
  intros P N W. unfold clampIdx. assert (L : (0 < length l)%nat) by (destruct l; [congruence|cbn; lia]).
  destruct (Z.leb_spec (Z.of_nat (length l)) p); [rewrite Z.mod_small by lia|]; lia.
Qed.
Lemma init_spec {M} (l : list M) p : 0 <= p -> l <> [] -> Z.of_nat (length l) < wrap ->
  exists m, initElasticity true l p = Ret m /\ nth_error l (Nat.min (Z.to_nat p) (length l - 1)) = Some m.
Proof.
  intros P N W. unfold initElasticity. cbn [negb]. rewrite clamp_nonempty by assumption.
  assert (L : (0 < length l)%nat) by (destruct l; [congruence|cbn; lia]).
  destruct (at_lt l (Z.min p (Z.of_nat (length l) - 1))) as (a & E & K); [lia|]. exists a. split; [assumption|].
  rewrite <- K. f_equal. lia.
Qed.
Lemma init_empty {M} p : 0 <= p -> @initElasticity M true [] p = UB.
Proof.
  intros P. unfold initElasticity, clampIdx. cbn [negb length Z.of_nat]. replace (0 <=? p) with true by (symmetry; apply Z.leb_le; lia).
  unfold at_. now destruct (Z.to_nat _).
Qed.

Section S.
Context {M F : Type}.
Implicit Types (s : shell M F) (e : iso M F).
Lemma parse_tables l : forall s, mVec (parseAllIso l s) = (mVec s ++ map emat l)%list /\ tVec (parseAllIso l s) = (tVec s ++ map ethick l)%list.
Proof.
  induction l as [|e l IH]; intros s; cbn; [now rewrite !app_nil_r|]. destruct (IH (parseIso s e)) as [A B].
  unfold parseAllIso in *. rewrite A, B. unfold parseIso. cbv zeta. destruct (efunc e); cbn; rewrite <- !app_assoc; split; reflexivity.
Qed.
Lemma parse_func l : forall s, (forall e, In e l -> efunc e = None) -> tFunc (parseAllIso l s) = tFunc s.
Proof.
  induction l as [|e l IH]; intros s N; [reflexivity|]. cbn. unfold parseAllIso in *. rewrite IH by (intros; apply N; now right).
  unfold parseIso. rewrite (N e) by now left. reflexivity.
Qed.
Lemma init_safe s p : 0 <= p -> length (tVec s) = length (mVec s) -> mVec s <> [] -> Z.of_nat (length (mVec s)) < wrap ->
  exists s', initShell s p = Ret s' /\ curMat (klp s') = nth_error (mVec s) (Nat.min (Z.to_nat p) (length (mVec s) - 1)) /\
    mVec s' = mVec s /\ tVec s' = tVec s /\ tFunc s' = tFunc s.
Proof.
  intros P L N W. unfold initShell. rewrite clamp_nonempty by assumption.
  assert (L0 : (0 < length (mVec s))%nat) by (destruct (mVec s); [congruence|cbn; lia]).
  set (i := Z.min p _). destruct (at_lt (mVec s) i) as (m & E & K); [lia|]. destruct (at_lt (tVec s) i) as (t & Et & Kt); [lia|].
  rewrite E. cbn [bind]. assert (I : Z.to_nat i = Nat.min (Z.to_nat p) (length (mVec s) - 1)) by lia.
  destruct (lookupF i (tFunc s)) as [f|].
  - eexists. split; [reflexivity|]. cbn. rewrite <- I, K. auto.
  - rewrite Et. cbn [bind]. eexists. split; [reflexivity|]. cbn. rewrite <- I, K. destruct (isZeroQ t); cbn; auto.
Qed.
Lemma visit_app s ps qs : visit s (ps ++ qs)%list = let* s' := visit s ps in visit s' qs.
Proof.
  revert s. induction ps as [|p ps IH]; intros s; [reflexivity|]. cbn. destruct (initShell s p); cbn; [reflexivity|reflexivity|apply IH].
Qed.
Lemma visit_safe ps : forall s, (forall p, In p ps -> 0 <= p) -> length (tVec s) = length (mVec s) -> mVec s <> [] -> Z.of_nat (length (mVec s)) < wrap ->
  exists s', visit s ps = Ret s' /\ mVec s' = mVec s /\ tVec s' = tVec s /\ tFunc s' = tFunc s.
Proof.
  induction ps as [|p ps IH]; intros s P L N W; [exists s; auto|]. cbn.
  destruct (init_safe s p) as (s1 & E & _ & A & B & C); auto; [apply P; now left|]. rewrite E. cbn [bind].
  destruct (IH s1) as (s2 & E2 & A2 & B2 & C2); [intros; apply P; now right|congruence|congruence|congruence|].
  exists s2. rewrite E2, A2, B2, C2. auto.
Qed.
Lemma init_thick s p e l : 0 <= p -> mVec s = map emat l -> tVec s = map ethick l -> tFunc s = [] ->
  Z.of_nat (length l) < wrap -> nth_error l (Nat.min (Z.to_nat p) (length l - 1)) = Some e -> ~ (ethick e == 0)%Q ->
  exists s', initShell s p = Ret s' /\ klp s' = mkInt (Some (emat e)) (Const (ethick e)).
Proof.
  intros P A B C W N Z. unfold initShell. assert (L0 : (0 < length l)%nat) by (destruct l; [destruct (Nat.min _ _); discriminate|cbn; lia]).
  rewrite clamp_nonempty; [|assumption|rewrite A; destruct l; [cbn in L0; lia|discriminate]|rewrite A, map_length; assumption].
  rewrite A, map_length. set (i := Z.min p _). assert (I : Z.to_nat i = Nat.min (Z.to_nat p) (length l - 1)) by lia.
  unfold at_. rewrite I, (map_nth_error emat _ _ N). cbn [bind]. rewrite C. cbn [lookupF]. rewrite B, (map_nth_error ethick _ _ N). cbn [bind].
  replace (isZeroQ (ethick e)) with false; [eexists; split; reflexivity|]. symmetry. unfold isZeroQ.
  destruct (Qeq_bool (ethick e) 0) eqn:Q; [|reflexivity]. apply Qeq_bool_iff in Q. contradiction.
Qed.
Lemma visit_thick l ps p e s : (forall q, In q (ps ++ [p])%list -> 0 <= q) -> (forall e, In e l -> efunc e = None) -> Z.of_nat (length l) < wrap ->
  nth_error l (Nat.min (Z.to_nat p) (length l - 1)) = Some e -> ~ (ethick e == 0)%Q ->
  mVec s = [] -> tVec s = [] -> tFunc s = [] ->
  exists s', visit (parseAllIso l s) (ps ++ [p]) = Ret s' /\ klp s' = mkInt (Some (emat e)) (Const (ethick e)).
Proof.
  intros P N W K Z A B C. destruct (parse_tables l s) as [TA TB]. assert (TC := parse_func l s N). rewrite A, B, C in *. cbn [app] in *.
  assert (L0 : (0 < length l)%nat) by (destruct l; [destruct (Nat.min _ _); discriminate|cbn; lia]).
  destruct (visit_safe ps (parseAllIso l s)) as (s1 & E & A1 & B1 & C1).
  - intros q Q. apply P, in_or_app. now left.
  - rewrite TA, TB, !map_length. reflexivity.
  - rewrite TA. destruct l; [cbn in L0; lia|discriminate].
  - rewrite TA, map_length. assumption.
  - rewrite visit_app, E. cbn [bind visit].
    destruct (init_thick s1 p e l) as (s2 & E2 & K2); try congruence; [apply P, in_or_app; right; now left|].
    rewrite E2. cbn [bind]. now exists s2.
Qed.
End S.
