From Coq Require Import ZArith Bool SpecFloat Lia QArith Qreals Reals Lra.
From Verif.Model Require Import NuGuard.

(** Value of a finite double. *)
Definition sfQ (x : spec_float) : Q :=
  match x with
  | S754_finite s m e =>
      let v := if (e <? 0)%Z then (Zpos m # Z.to_pos (2 ^ (- e))) else inject_Z (Zpos m * 2 ^ e) in
      if s then Qopp v else v
  | _ => 0
  end.

(** Binary64 canonical values, as required by the format. *)
Definition binary64 (x : spec_float) : Prop := valid_binary 53 1024 x = true.

(** What the documentation demands: nu is a number in [0, 0.5). *)
Definition admissible (x : spec_float) : Prop :=
  match x with
  | S754_nan | S754_infinity _ => False
  | _ => (0 <= sfQ x < 1 # 2)%Q
  end.

Lemma valid_digits m e s : binary64 (S754_finite s m e) ->
  (Z.max (Zpos (digits2_pos m) + e - 53) (-1074) = e)%Z.
Proof.
  unfold binary64, valid_binary, bounded, canonical_mantissa, fexp, emin. intros H.
  apply andb_prop in H as [H _]. apply Zeq_bool_eq in H. exact H.
Qed.

Lemma digits_bound m : (2 ^ (Zpos (digits2_pos m) - 1) <= Zpos m < 2 ^ Zpos (digits2_pos m))%Z.
Proof.
  induction m; cbn [digits2_pos].
  - rewrite Pos2Z.inj_succ. replace (Z.succ (Zpos (digits2_pos m)) - 1)%Z with (Zpos (digits2_pos m)) by lia.
    replace (Z.succ (Zpos (digits2_pos m))) with (1 + Zpos (digits2_pos m))%Z by lia.
    rewrite Z.pow_add_r by lia. change (2^1)%Z with 2%Z.
    assert (2 ^ Zpos (digits2_pos m) = 2 * 2 ^ (Zpos (digits2_pos m) - 1))%Z.
    { rewrite <- (Z.pow_succ_r 2) by lia. f_equal; lia. } lia.
  - rewrite Pos2Z.inj_succ. replace (Z.succ (Zpos (digits2_pos m)) - 1)%Z with (Zpos (digits2_pos m)) by lia.
    replace (Z.succ (Zpos (digits2_pos m))) with (1 + Zpos (digits2_pos m))%Z by lia.
    rewrite Z.pow_add_r by lia. change (2^1)%Z with 2%Z.
    assert (2 ^ Zpos (digits2_pos m) = 2 * 2 ^ (Zpos (digits2_pos m) - 1))%Z.
    { rewrite <- (Z.pow_succ_r 2) by lia. f_equal; lia. } lia.
  - cbn. lia.
Qed.

Lemma half_le_iff m e : binary64 (S754_finite false m e) ->
  (fge (S754_finite false m e) fhalf = true <-> (1 # 2 <= sfQ (S754_finite false m e))%Q).
Proof.
  intros Hb. pose proof (valid_digits _ _ _ Hb) as Hd. pose proof (digits_bound m) as [Hlo Hhi].
  unfold fge, fhalf, SFleb, SFcompare.
  set (d := Zpos (digits2_pos m)) in *.
  unfold sfQ.
  destruct (Z.compare_spec (-53) e) as [He|He|He].
  - subst e. cbn [Z.ltb Z.compare]. change (2 ^ (- -53))%Z with 9007199254740992%Z.
    unfold Qle; cbn [Qnum Qden]. change (Zpos (Z.to_pos 9007199254740992)) with 9007199254740992%Z.
    change (Pos.compare_cont Eq 4503599627370496 m) with (4503599627370496 ?= m)%positive.
    clear Hb Hd Hlo Hhi d. rewrite Z.mul_1_l.
    destruct (Pos.compare_spec 4503599627370496 m) as [Hc|Hc|Hc].
    + split; [intros _; clear -Hc; lia|intros _; exact eq_refl].
    + split; [intros _; clear -Hc; lia|intros _; exact eq_refl].
    + split; [intros H; discriminate H|]. intros H; exfalso. clear -H Hc. apply Pos2Z.pos_lt_pos in Hc. set (z := Z.pos m) in *. clearbody z. clear m. lia.
  - (* -53 < e : normal number >= 0.5 *)
    split; [intros _|reflexivity].
    assert (Hd2 : (d = 53)%Z) by lia.
    assert (Hm : (4503599627370496 <= Zpos m)%Z).
    { rewrite Hd2 in Hlo. change (2 ^ (53 - 1))%Z with 4503599627370496%Z in Hlo. exact Hlo. }
    destruct (Z.ltb_spec e 0).
    + unfold Qle; cbn [Qnum Qden].
      assert (2 ^ (- e) <= 2 ^ 52)%Z by (apply Z.pow_le_mono_r; lia).
      rewrite Z2Pos.id by (apply Z.pow_pos_nonneg; lia).
      change (2^52)%Z with 4503599627370496%Z in *. lia.
    + unfold Qle; cbn [Qnum Qden inject_Z].
      assert (0 < 2 ^ e)%Z by (apply Z.pow_pos_nonneg; lia). nia.
  - (* e < -53 *)
    split; [discriminate|]. intros H. exfalso.
    destruct (Z.ltb_spec e 0); [|lia].
    unfold Qle in H; cbn [Qnum Qden] in H.
    rewrite Z2Pos.id in H by (apply Z.pow_pos_nonneg; lia).
    assert (d <= 53)%Z by lia.
    assert (2 ^ d <= 2 ^ 53)%Z by (apply Z.pow_le_mono_r; lia).
    assert (2 ^ 54 <= 2 ^ (- e))%Z by (apply Z.pow_le_mono_r; lia).
    change (2^53)%Z with 9007199254740992%Z in *. change (2^54)%Z with 18014398509481984%Z in *. lia.
Qed.

Lemma sfQ_pos m e : (0 < sfQ (S754_finite false m e))%Q.
Proof.
  unfold sfQ. destruct (Z.ltb_spec e 0).
  - reflexivity.
  - unfold Qlt; cbn [Qnum Qden inject_Z]. assert (0 < 2 ^ e)%Z by (apply Z.pow_pos_nonneg; lia). nia.
Qed.

(** Apart from NaN the guard accepts exactly the admissible values. *)
Lemma guard_exact nu : binary64 nu -> nu <> S754_nan ->
  (nu_rejected nu = false <-> admissible nu).
Proof.
  intros Hb Hn. unfold nu_rejected. destruct nu as [s|s| |s m e].
  - destruct s; cbn; split; intros; try reflexivity; split; try reflexivity; apply Qle_refl.
  - destruct s; cbn; split; intros; try discriminate; contradiction.
  - contradiction.
  - destruct s.
    + cbn [flt SFltb SFcompare fzero orb]. split; [discriminate|].
      intros [H _]. exfalso. change (sfQ (S754_finite true m e)) with (- sfQ (S754_finite false m e))%Q in H.
      pose proof (sfQ_pos m e). rewrite <- (Qopp_involutive 0) in H. apply Qopp_le_compat in H.
      rewrite !Qopp_involutive in H. change (- 0)%Q with 0%Q in H.
      apply (Qlt_not_le _ _ H0). exact H.
    + change (flt (S754_finite false m e) fzero) with false. cbn [orb].
      pose proof (half_le_iff m e Hb) as Hh. pose proof (sfQ_pos m e) as Hp.
      unfold admissible. split.
      * intros Hf. split; [apply Qlt_le_weak; exact Hp|].
        apply Qnot_le_lt. intros Hc. apply Hh in Hc. congruence.
      * intros [_ Hlt]. destruct (fge (S754_finite false m e) fhalf) eqn:Eg; [|reflexivity].
        exfalso. apply (Qlt_not_le _ _ Hlt). apply Hh. reflexivity.
Qed.

Lemma nan_accepted : nu_rejected S754_nan = false.
Proof. reflexivity. Qed.

(** Non-vacuity: nu = 0.3 is a binary64 value, not NaN; so are 0.5 and -0.0. *)
Example b64_03 : binary64 (S754_finite false 5404319552844595 (-54)). Proof. reflexivity. Qed.
Example b64_half : binary64 fhalf. Proof. reflexivity. Qed.
Example guard_half : nu_rejected fhalf = true. Proof. reflexivity. Qed.
Example guard_03 : nu_rejected (S754_finite false 5404319552844595 (-54)) = false. Proof. reflexivity. Qed.

Lemma nan_refuted : exists nu, binary64 nu /\ ~ admissible nu /\
  (forall nsd, evaluate_ok nsd nu = true) /\ lame_ok nu = true.
Proof.
  exists S754_nan. split; [reflexivity|]. split; [cbn; tauto|]. split; [|reflexivity].
  intros nsd; unfold evaluate_ok; destruct (Nat.eqb nsd 1); reflexivity.
Qed.

Lemma guard_partial : forall nsd nu, (2 <= nsd)%nat -> binary64 nu -> nu <> S754_nan ->
  (evaluate_ok nsd nu = true <-> admissible nu) /\ (lame_ok nu = true <-> admissible nu).
Proof.
  intros nsd nu Hd Hb Hn. pose proof (guard_exact nu Hb Hn) as H. unfold evaluate_ok, lame_ok.
  replace (Nat.eqb nsd 1) with false by (symmetry; apply Nat.eqb_neq; lia).
  split; rewrite <- H; destruct (nu_rejected nu); cbn; split; congruence.
Qed.
