From Coq Require Import List Ascii String Arith Bool Lia FinFun DecimalString DecimalNat.
From Verif Require Import Model.FileNames.
Import ListNotations.
Local Open Scope list_scope.

Definition noDot (s : chars) : Prop := ~ In dot s.
Lemma noDot_cons c s : noDot (c :: s) <-> c <> dot /\ noDot s.
Proof. unfold noDot. cbn. intuition congruence. Qed.
Lemma token_app stem e : noDot stem -> token (stem ++ dot :: e) = stem.
Proof.
  induction stem as [|c stem IH]; intros H; [reflexivity|]. apply noDot_cons in H. destruct H as [H1 H2]. cbn. destruct (Ascii.eqb_spec c dot); [contradiction|]. now rewrite IH.
Qed.
Lemma skip_nodot stem r : noDot stem -> stem <> [] -> skipDots (stem ++ r) = (0, stem ++ r).
Proof.
  intros H N. destruct stem as [|c s]; [congruence|]. apply noDot_cons in H. destruct H as [H _]. cbn. now destruct (Ascii.eqb_spec c dot).
Qed.
Lemma strtok_stem stem e : noDot stem -> stem <> [] -> strtokDot (stem ++ dot :: e) = Some (0, stem).
Proof. intros H N. unfold strtokDot. rewrite skip_nodot, token_app by assumption. now destruct stem. Qed.
Lemma strcat_stem cap stem e ext : noDot stem -> stem <> [] -> List.length (stem ++ ext) <= cap -> strcatExt cap (stem ++ dot :: e) ext = Some (stem ++ ext, stem ++ ext).
Proof. intros H N L. unfold strcatExt. rewrite strtok_stem by assumption. cbn [repeat app]. destruct (Nat.leb_spec (List.length (stem ++ ext)) cap); [reflexivity|lia]. Qed.
Lemma dumps_stem cap stem : noDot stem -> stem <> [] -> forall exts e, Forall (fun x => exists y, x = dot :: y) exts -> Forall (fun x => List.length (stem ++ x) <= cap) exts ->
  dumpFiles cap (stem ++ dot :: e) exts = Some (map (app stem) exts) /\ dumpFilesNL cap (stem ++ dot :: e) exts = Some (map (app stem) exts).
Proof.
  intros H N. induction exts as [|x r IH]; intros e F1 F2; [split; reflexivity|]. inversion F1 as [|? ? [y ->] F3]; subst. inversion F2; subst. cbn [dumpFiles dumpFilesNL].
  rewrite strcat_stem by assumption. destruct (IH y) as [-> ->]; [assumption|assumption|]. split; reflexivity.
Qed.
(* leading dots are kept by the nonlinear program *)
Lemma skip_dots n s : (forall c r, s = c :: r -> c <> dot) -> skipDots (repeat dot n ++ s) = (n, s).
Proof.
  intros H. induction n as [|n IH]; cbn [repeat app].
  - destruct s as [|c r]; [reflexivity|]. cbn. destruct (Ascii.eqb_spec c dot) as [E|]; [|reflexivity]. now destruct (H c r).
  - cbn [skipDots]. rewrite Ascii.eqb_refl, IH. reflexivity.
Qed.
Lemma dumpsNL_dots cap n stem : noDot stem -> stem <> [] -> forall exts e, Forall (fun x => exists y, x = dot :: y) exts -> Forall (fun x => List.length (repeat dot n ++ stem ++ x) <= cap) exts ->
  dumpFilesNL cap (repeat dot n ++ stem ++ dot :: e) exts = Some (map (fun x => repeat dot n ++ stem ++ x) exts).
Proof.
  intros H N. induction exts as [|x r IH]; intros e F1 F2; [reflexivity|]. inversion F1 as [|? ? [y ->] F3]; subst. inversion F2; subst. cbn [dumpFilesNL].
  unfold strcatExt, strtokDot. rewrite skip_dots.
  2:{ destruct stem as [|a s]; [congruence|]. intros c q [= <- _]. now apply noDot_cons in H. }
  rewrite token_app by assumption. destruct stem as [|a s] eqn:E; [congruence|]. rewrite <- E in *.
  destruct (Nat.leb_spec (List.length (repeat dot n ++ stem ++ dot :: y)) cap); [|lia]. rewrite IH by assumption. reflexivity.
Qed.
(* restart *)
Lemma blast_none s : noDot s -> beforeLastDot s = None.
Proof. induction s as [|c s IH]; intros H; [reflexivity|]. apply noDot_cons in H. destruct H. cbn. rewrite IH by assumption. now destruct (Ascii.eqb_spec c dot). Qed.
Lemma blast stem e : noDot e -> beforeLastDot (stem ++ dot :: e) = Some stem.
Proof. intros H. induction stem as [|c s IH]; cbn; [now rewrite blast_none|]. now rewrite IH. Qed.
Lemma list_of_string_inj a b : str a = str b -> a = b.
Proof. unfold str. intros H. rewrite <- (string_of_list_ascii_of_string a), <- (string_of_list_ascii_of_string b). now rewrite H. Qed.
Lemma to_uint_nonnil n : Nat.to_uint n <> Decimal.Nil.
Proof.
  intros H. assert (E := Unsigned.of_to n). rewrite H in E. cbn in E. subst n. discriminate.
Qed.
Lemma dec_inj i j : dec i = dec j -> i = j.
Proof.
  unfold dec. intros H. apply list_of_string_inj in H. assert (A := NilZero.usu (Nat.to_uint i) (to_uint_nonnil i)). assert (B := NilZero.usu (Nat.to_uint j) (to_uint_nonnil j)).
  rewrite H in A. rewrite A in B. injection B as B. now apply Unsigned.to_uint_inj.
Qed.
Lemma dec_nonempty i : dec i <> [].
Proof.
  unfold dec. intros H. assert (A := NilZero.usu (Nat.to_uint i) (to_uint_nonnil i)). change (@nil ascii) with (str EmptyString) in H. apply list_of_string_inj in H. rewrite H in A. discriminate.
Qed.
Definition nm (base : chars) (i : nat) : chars := match i with O => base | _ => base ++ dec i end.
Lemma nm_inj base i j : nm base i = nm base j -> i = j.
Proof.
  destruct i, j; cbn; intros H; try reflexivity.
  - exfalso. symmetry in H. rewrite <- (app_nil_r base) in H at 2. apply app_inv_head in H. now apply dec_nonempty in H.
  - exfalso. rewrite <- (app_nil_r base) in H at 2. apply app_inv_head in H. now apply dec_nonempty in H.
  - apply app_inv_head in H. now apply dec_inj.
Qed.
Lemma fresh_sound exist base : forall fuel i r, freshLoop fuel exist base (nm base i) (S i) = Some r ->
  exist (r ++ str ".hdf5") = false /\ exists k, i <= k /\ r = nm base k /\ forall j, i <= j < k -> exist (nm base j ++ str ".hdf5") = true.
Proof.
  induction fuel as [|fuel IH]; intros i r H; [discriminate|]. cbn [freshLoop] in H. destruct (exist (nm base i ++ str ".hdf5")) eqn:E.
  - change (base ++ dec (S i)) with (nm base (S i)) in H. apply IH in H. destruct H as [A (k & K & B & C)]. split; [assumption|]. exists k. repeat split; [lia|assumption|].
    intros j J. destruct (Nat.eq_dec j i) as [->|]; [assumption|apply C; lia].
  - injection H as <-. split; [assumption|]. exists i. repeat split; [lia|]. intros j J. lia.
Qed.
Lemma fresh_none exist base : forall fuel i, freshLoop fuel exist base (nm base i) (S i) = None -> forall j, i <= j < i + fuel -> exist (nm base j ++ str ".hdf5") = true.
Proof.
  induction fuel as [|fuel IH]; intros i H j J; [lia|]. cbn [freshLoop] in H. destruct (exist (nm base i ++ str ".hdf5")) eqn:E; [|discriminate].
  change (base ++ dec (S i)) with (nm base (S i)) in H. destruct (Nat.eq_dec j i) as [->|]; [assumption|]. apply (IH _ H). lia.
Qed.
Lemma fresh_total (files : list chars) exist base : (forall f, exist f = true -> In f files) -> forall fuel, List.length files < fuel -> exists r, freshLoop fuel exist base base 1 = Some r.
Proof.
  intros F fuel L. destruct (freshLoop fuel exist base base 1) eqn:E; [eauto|]. exfalso. change base with (nm base 0) in E at 2.
  assert (A := fresh_none exist base fuel 0 E). cbn in A.
  assert (I1 : incl (map (fun j => nm base j ++ str ".hdf5") (seq 0 fuel)) files).
  { intros f H. apply in_map_iff in H. destruct H as (j & <- & H). apply in_seq in H. apply F, A. lia. }
  assert (I2 : List.length (map (fun j => nm base j ++ str ".hdf5") (seq 0 fuel)) <= List.length files); [apply NoDup_incl_length; [|exact I1]|rewrite map_length, seq_length in I2; lia].
  apply Injective_map_NoDup; [|apply seq_NoDup]. intros i j H. apply app_inv_tail in H. now apply nm_inj in H.
Qed.
