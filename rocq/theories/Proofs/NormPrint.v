(** Proofs about the printed norms. *)
From Coq Require Import List String Arith Bool Reals Lra Lia.
From Verif Require Import Lib.Base Lib.Sums Model.Norms Spec.Norms Proofs.Norms Model.NormPrint Spec.NormPrint.
Import ListNotations.
Open Scope string_scope.
Open Scope nat_scope.

Lemma right_app : forall sr rr l1 l2 prev, right sr rr prev l1 -> (forall p, right sr rr p l2) -> right sr rr prev (l1 ++ l2)%list.
Proof.
  intros sr rr l1. induction l1 as [|[t v|t v] l1 IH]; intros l2 prev A B; cbn in *; auto.
  - destruct A as [A1 A2]. split; auto.
  - destruct A as [A1 A2]. split; auto.
Qed.
Lemma headings_app : forall a b, headings (a ++ b)%list = (headings a ++ headings b)%list.
Proof. intros a b. unfold headings. apply flat_map_app. Qed.

Lemma nth_pairs : forall (f g : nat -> nq) n a k, k < n ->
  nth_error (flat_map (fun j => [f j; g j]) (seq a n)) (2 * k) = Some (f (a + k)) /\
  nth_error (flat_map (fun j => [f j; g j]) (seq a n)) (2 * k + 1) = Some (g (a + k)).
Proof.
  intros f g n. induction n as [|n IH]; intros a k K; [lia|]. destruct k as [|k].
  - cbn. rewrite Nat.add_0_r. auto.
  - replace (2 * S k) with (S (S (2 * k))) by lia. replace (S (S (2 * k)) + 1) with (S (S (2 * k + 1))) by lia.
    cbn [seq flat_map app nth_error]. replace (a + S k) with (S a + k) by lia. apply IH. lia.
Qed.

Lemma at1_map : forall (A : Type) (V : A -> R) l i q, nth_error l i = Some q -> at1 (map V l) (S i) = Ret (V q).
Proof. intros A V l i q H. cbn. now rewrite nth_error_map, H. Qed.

Lemma section_ana : forall V n k, k < n ->
  at1 (map V (orderFirst true n)) (5 + (2 * k + 1)) = Ret (V (VirtH (S k))) /\
  at1 (map V (orderFirst true n)) (5 + (2 * k + 2)) = Ret (V (VirtU (S k))).
Proof.
  intros V n k K. destruct (nth_pairs VirtH VirtU n 1 k K) as [A B]. split.
  - replace (5 + (2 * k + 1)) with (S (5 + 2 * k)) by lia. apply at1_map. exact A.
  - replace (5 + (2 * k + 2)) with (S (5 + (2 * k + 1))) by lia. apply at1_map. exact B.
Qed.
Lemma section_plain : forall V n k, k < n -> at1 (map V (orderFirst false n)) (3 + (k + 1)) = Ret (V (VirtH (S k))).
Proof.
  intros V n k K. replace (3 + (k + 1)) with (S (3 + k)) by lia. apply at1_map. cbn [orderFirst Nat.add app nth_error].
  rewrite nth_error_map. rewrite (nth_error_nth' _ 0) by (rewrite seq_length; lia). rewrite seq_nth by lia. reflexivity.
Qed.
Lemma size_first : forall V withAna n, size (map V (orderFirst withAna n)) = if withAna then 5 + 2 * n else 3 + n.
Proof.
  intros V [] n; unfold size; rewrite map_length; cbn [orderFirst]; rewrite app_length; cbn [List.length].
  - assert (L : forall a, List.length (flat_map (fun k => [VirtH k; VirtU k]) (seq a n)) = 2 * n).
    { induction n as [|n IH]; intros a; auto. cbn [seq flat_map app List.length]. rewrite IH. lia. }
    rewrite L. reflexivity.
  - rewrite map_length, seq_length. reflexivity.
Qed.

Definition pairLines (V : nq -> R) (j : nat) : list line :=
  [Line ("Recovered section force a(u^h,w" ++ dec j ++ ")") (V (VirtH j));
   Line ("Exact section force       a(u,w" ++ dec j ++ ")") (V (VirtU j))].

Lemma loop_ana : forall V n m k fuel, k + m = n -> 2 * m <= fuel ->
  vcpLoop fuel true (sectionIndex true n) (map V (orderFirst true n)) (2 * k) = Ret (flat_map (pairLines V) (seq (S k) m)).
Proof.
  intros V n m. induction m as [|m IH]; intros k fuel K F.
  - destruct fuel as [|fuel]; auto. cbn [vcpLoop]. unfold sectionIndex.
    replace ((1 <=? S (2 * k)) && (S (2 * k) <=? 2 * n)) with false.
    2:{ symmetry. apply andb_false_iff. right. apply Nat.leb_gt. lia. }
    reflexivity.
  - destruct fuel as [|[|fuel]]; try lia. cbn [vcpLoop].
    assert (S1 : sectionIndex true n (S (2 * k)) = 5 + (2 * k + 1)).
    { unfold sectionIndex. rewrite (proj2 (Nat.leb_le 1 (S (2 * k)))) by lia. rewrite (proj2 (Nat.leb_le (S (2 * k)) (2 * n))) by lia. cbn [andb]. lia. }
    assert (S2 : sectionIndex true n (S (S (2 * k))) = 5 + (2 * k + 2)).
    { unfold sectionIndex. rewrite (proj2 (Nat.leb_le 1 (S (S (2 * k))))) by lia. rewrite (proj2 (Nat.leb_le (S (S (2 * k))) (2 * n))) by lia. cbn [andb]. lia. }
    rewrite S1, S2, (size_first V true n). destruct (section_ana V n k ltac:(lia)) as [A1 A2]. rewrite A1, A2.
    replace (5 + 2 * n <? 5 + (2 * k + 1)) with false by (symmetry; apply Nat.ltb_ge; lia).
    replace (5 + 2 * n <? 5 + (2 * k + 2)) with false by (symmetry; apply Nat.ltb_ge; lia).
    replace (5 + (2 * k + 1) =? 0) with false by reflexivity. replace (5 + (2 * k + 2) =? 0) with false by reflexivity. cbn [orb bind].
    replace (S (S (2 * k))) with (2 * S k) by lia. rewrite (IH (S k) fuel) by lia. cbn [bind].
    assert (E1 : Nat.even (S (2 * k)) = false). { rewrite Nat.even_succ, <- Nat.negb_even. rewrite Nat.even_mul. reflexivity. }
    assert (E2 : Nat.even (2 * S k) = true). { rewrite Nat.even_mul. reflexivity. }
    rewrite E1, E2. cbn [andb].
    replace ((S (2 * k) - 1) / 2 + 1) with (S k).
    2:{ replace (S (2 * k) - 1) with (k * 2) by lia. rewrite Nat.div_mul by lia. lia. }
    replace ((2 * S k - 1) / 2 + 1) with (S k).
    2:{ replace (2 * S k - 1) with (1 + k * 2) by lia. rewrite Nat.div_add by lia. change (1 / 2) with 0. lia. }
    reflexivity.
Qed.

Lemma loop_plain : forall V n m k fuel, k + m = n -> m <= fuel ->
  vcpLoop fuel false (sectionIndex false n) (map V (orderFirst false n)) k =
  Ret (map (fun j => Line ("Recovered section force a(u^h,w" ++ dec j ++ ")") (V (VirtH j))) (seq (S k) m)).
Proof.
  intros V n m. induction m as [|m IH]; intros k fuel K F.
  - destruct fuel as [|fuel]; auto. cbn [vcpLoop]. unfold sectionIndex.
    replace ((1 <=? S k) && (S k <=? n)) with false.
    2:{ symmetry. apply andb_false_iff. right. apply Nat.leb_gt. lia. }
    reflexivity.
  - destruct fuel as [|fuel]; try lia. cbn [vcpLoop].
    assert (S1 : sectionIndex false n (S k) = 3 + (k + 1)).
    { unfold sectionIndex. rewrite (proj2 (Nat.leb_le 1 (S k))) by lia. rewrite (proj2 (Nat.leb_le (S k) n)) by lia. cbn [andb]. lia. }
    rewrite S1, (size_first V false n). rewrite (section_plain V n k) by lia.
    replace (3 + n <? 3 + (k + 1)) with false by (symmetry; apply Nat.ltb_ge; lia).
    replace (3 + (k + 1) =? 0) with false by reflexivity. cbn [orb bind]. rewrite (IH (S k) fuel) by lia. reflexivity.
Qed.

(** ** From points to groups *)

Lemma totals_eq : forall ds bs k, totals ds bs k =
  (sumL (fun d => nth k (evalInt d) 0) ds + if (k =? 1)%nat then sumL (fun b => boundaryPart b External) bs else 0)%R.
Proof.
  intros ds bs k. unfold totals. induction bs as [|b bs IH].
  - cbn [fold_right sumL]. assert (E : forall l, fold_right (fun d pn => accum pn (evalInt d)) (fun _ => 0%R) l k = sumL (fun d => nth k (evalInt d) 0%R) l).
    { induction l as [|d l IH]; auto. cbn [fold_right sumL]. unfold accum at 1. rewrite IH. unfold sumL. lra. }
    rewrite E. destruct (k =? 1); cbn; lra.
  - cbn [fold_right]. unfold evalBou at 1. unfold sumL at 2. cbn [fold_right]. fold (sumL (fun b => boundaryPart b External) bs).
    unfold boundaryPart at 1. rewrite <- weight_eq. destruct (loads b); destruct (k =? 1) eqn:K; rewrite IH; lra.
Qed.

Lemma map_as_nth : forall (A : Type) (f : A -> R) (d : A) l, map f l = map (fun k => f (nth k l d)) (seq 0 (List.length l)).
Proof.
  intros A f d l. induction l as [|a l IH]; auto. cbn [List.length seq map]. f_equal. rewrite <- seq_shift, map_map. exact IH.
Qed.

Lemma order_length : forall withAna n, List.length (orderFirst withAna n) = firstFields withAna n.
Proof. intros withAna n. assert (H := size_first (fun _ => 0%R) withAna n). unfold size in H. rewrite map_length in H. rewrite H. now destruct withAna. Qed.

Lemma first_entry : forall withAna n d psol k, fits withAna n d -> k < firstFields withAna n ->
  nth k (evalInt d) 0%R = integrand d psol (nth k (orderFirst withAna n) Volume).
Proof.
  intros withAna n d psol k F K.
  assert (E : nth k (evalInt d) 0%R = firstEntry d (S k)) by (unfold firstEntry; cbn; now rewrite Nat.sub_0_r). rewrite E.
  destruct (le_lt_dec (S k) (if withAna then 5 else 3)) as [L|L].
  - rewrite (head_entry withAna n d psol (S k) F) by lia. f_equal. replace (S k - 1) with k by lia.
    destruct withAna; cbn [orderFirst]; rewrite app_nth1 by (cbn; lia); reflexivity.
  - destruct withAna; cbn [firstFields] in K.
    + set (m := (k - 5) / 2). set (r := (k - 5) mod 2).
      assert (D := Nat.div_mod (k - 5) 2 ltac:(lia)). fold m r in D. assert (R2 : r < 2) by (apply Nat.mod_upper_bound; lia).
      assert (Q := dual_entry true n d psol m r F ltac:(lia) R2). cbn [orderFirst]. rewrite app_nth2 by (cbn; lia). cbn [List.length].
      replace (S k) with (5 + 2 * m + r + 1) by lia. rewrite Q.
      destruct (nth_pairs VirtH VirtU n 1 m ltac:(lia)) as [A B].
      assert (r = 0 \/ r = 1) as [R0|R1] by lia.
      * rewrite R0 in *. replace (k - 5) with (2 * m) by lia. rewrite (nth_error_nth _ _ _ A). reflexivity.
      * rewrite R1 in *. replace (k - 5) with (2 * m + 1) by lia. rewrite (nth_error_nth _ _ _ B). reflexivity.
    + assert (Q := dual_entry false n d psol (k - 3) 0 F ltac:(lia) (Nat.lt_0_succ 0)). cbn [orderFirst]. rewrite app_nth2 by (cbn; lia). cbn [List.length].
      replace (S k) with (3 + (k - 3) + 0 + 1) by lia. rewrite Q. cbn [Nat.eqb]. f_equal.
      rewrite (nth_indep _ _ (VirtH 0)) by (rewrite map_length, seq_length; lia). rewrite map_nth, seq_nth by lia. reflexivity.
Qed.

Lemma order_volume : forall withAna n k, k < firstFields withAna n -> (nth k (orderFirst withAna n) EnergyR = Volume <-> S k = volumeIndexC withAna).
Proof.
  intros withAna n k K. destruct withAna; cbn [orderFirst volumeIndexC firstFields] in *.
  - destruct (le_lt_dec 5 k) as [L|L].
    + rewrite app_nth2 by (cbn; lia). cbn [List.length]. split; [|lia]. intros E. exfalso.
      assert (I : In (nth (k - 5) (flat_map (fun k => [VirtH k; VirtU k]) (seq 1 n)) EnergyR) (flat_map (fun k => [VirtH k; VirtU k]) (seq 1 n))).
      { apply nth_In. assert (H := order_length true n). cbn [orderFirst firstFields] in H. rewrite app_length in H. cbn [List.length] in H. lia. }
      rewrite E in I. apply in_flat_map in I. destruct I as [j [_ [H|[H|[]]]]]; discriminate H.
    + do 5 (destruct k as [|k]; [cbn; split; intros; try discriminate; try lia; reflexivity|]). lia.
  - destruct (le_lt_dec 3 k) as [L|L].
    + rewrite app_nth2 by (cbn; lia). cbn [List.length]. split; [|lia]. intros E. exfalso.
      assert (I : In (nth (k - 3) (map VirtH (seq 1 n)) EnergyR) (map VirtH (seq 1 n))) by (apply nth_In; rewrite map_length, seq_length; lia).
      rewrite E in I. apply in_map_iff in I. destruct I as [j [H _]]; discriminate H.
    + do 3 (destruct k as [|k]; [cbn; split; intros; try discriminate; try lia; reflexivity|]). lia.
Qed.

Lemma order_external : forall withAna n k, k < firstFields withAna n -> (nth k (orderFirst withAna n) EnergyR = External <-> k = 1).
Proof.
  intros withAna n k K. destruct withAna; cbn [orderFirst firstFields] in *.
  - destruct (le_lt_dec 5 k) as [L|L].
    + rewrite app_nth2 by (cbn; lia). cbn [List.length]. split; [|lia]. intros E. exfalso.
      assert (I : In (nth (k - 5) (flat_map (fun k => [VirtH k; VirtU k]) (seq 1 n)) EnergyR) (flat_map (fun k => [VirtH k; VirtU k]) (seq 1 n))).
      { apply nth_In. assert (H := order_length true n). cbn [orderFirst firstFields] in H. rewrite app_length in H. cbn [List.length] in H. lia. }
      rewrite E in I. apply in_flat_map in I. destruct I as [j [_ [H|[H|[]]]]]; discriminate H.
    + do 5 (destruct k as [|k]; [cbn; split; intros; try discriminate; try lia; reflexivity|]). lia.
  - destruct (le_lt_dec 3 k) as [L|L].
    + rewrite app_nth2 by (cbn; lia). cbn [List.length]. split; [|lia]. intros E. exfalso.
      assert (I : In (nth (k - 3) (map VirtH (seq 1 n)) EnergyR) (map VirtH (seq 1 n))) by (apply nth_In; rewrite map_length, seq_length; lia).
      rewrite E in I. apply in_map_iff in I. destruct I as [j [H _]]; discriminate H.
    + do 3 (destruct k as [|k]; [cbn; split; intros; try discriminate; try lia; reflexivity|]). lia.
Qed.

Lemma sumL_ext_in : forall (A : Type) (f g : A -> R) l, (forall x, In x l -> f x = g x) -> sumL f l = sumL g l.
Proof. intros A f g l H. induction l as [|a l IH]; auto. cbn. rewrite H by now left. unfold sumL in IH. rewrite IH by (intros; apply H; now right). reflexivity. Qed.
Lemma sumL_zero : forall (A : Type) (f : A -> R) l, (forall x, In x l -> f x = 0%R) -> sumL f l = 0%R.
Proof. intros A f l H. induction l as [|a l IH]; auto. cbn. rewrite H by now left. unfold sumL in IH. rewrite IH by (intros; apply H; now right). lra. Qed.

(** First group: the volume is not touched by the final operation, nothing else is left out. *)
Lemma first_group : forall root withAna n ds bs k, Forall (fits withAna n) ds ->
  normGroup root (totals ds bs) 0 (firstFields withAna n) (volumeIndexC withAna) = map (measured root ds bs k) (orderFirst withAna n).
Proof.
  intros root withAna n ds bs k F. rewrite (map_as_nth _ _ EnergyR), order_length. unfold normGroup. apply map_ext_in. intros j J. apply in_seq in J.
  assert (J' : j < firstFields withAna n) by lia. cbn [Nat.add]. rewrite totals_eq.
  set (q := nth j (orderFirst withAna n) EnergyR).
  assert (E : sumL (fun d => nth j (evalInt d) 0%R) ds = sumL (fun d => integrand d (psolAt k d) q) ds).
  { apply sumL_ext_in. intros d D. rewrite (first_entry withAna n d (psolAt k d) j); [|rewrite Forall_forall in F; now apply F|exact J'].
    unfold q. f_equal. apply nth_indep. rewrite order_length. exact J'. }
  assert (B : (if j =? 1 then sumL (fun b => boundaryPart b External) bs else 0%R) = sumL (fun b => boundaryPart b q) bs).
  { destruct (Nat.eqb_spec j 1) as [->|N].
    - assert (Q : q = External) by (apply (order_external withAna n 1 J'); reflexivity). now rewrite Q.
    - symmetry. apply sumL_zero. intros b _. unfold boundaryPart. destruct q eqn:Q; auto. exfalso. apply N. apply (order_external withAna n j J'). exact Q. }
  rewrite E, B. unfold measured. destruct (Nat.eqb_spec (S j) (volumeIndexC withAna)) as [V|V].
  - apply (order_volume withAna n j J') in V. fold q in V. rewrite V. reflexivity.
  - assert (Q : q <> Volume) by (intros Q; apply V, (order_volume withAna n j J'); exact Q). destruct q; auto. now elim Q.
Qed.

(** Projection [k] of as many as there are. *)
Lemma projection_group : forall root withAna n ds bs k, Forall (fits withAna n) ds ->
  Forall (fun d => k < List.length (prj d) /\ ~ In None (prj d)) ds ->
  normGroup root (totals ds bs) (firstFields withAna n + projFields withAna * k) (projFields withAna) 0 =
  map (measured root ds bs k) (orderProj withAna).
Proof.
  intros root withAna n ds bs k F P. rewrite (map_as_nth _ _ EnergyR). unfold normGroup.
  assert (L : List.length (orderProj withAna) = projFields withAna) by (destruct withAna; reflexivity). rewrite L.
  apply map_ext_in. intros j J. apply in_seq in J. change (S j =? 0) with false. cbv iota. rewrite totals_eq.
  assert (N1 : (firstFields withAna n + projFields withAna * k + j =? 1) = false) by (apply Nat.eqb_neq; destruct withAna; cbn [firstFields]; lia). rewrite N1.
  set (q := nth j (orderProj withAna) EnergyR).
  assert (E : sumL (fun d => nth (firstFields withAna n + projFields withAna * k + j) (evalInt d) 0%R) ds = sumL (fun d => integrand d (psolAt k d) q) ds).
  { apply sumL_ext_in. intros d D. rewrite Forall_forall in F, P. destruct (P d D) as [K NN].
    destruct (nth_error (prj d) k) as [[psol|]|] eqn:G.
    2:{ exfalso. apply NN. eapply nth_error_In. exact G. }
    2:{ exfalso. apply nth_error_None in G. lia. }
    assert (X := proj_entry withAna n d k psol (S j) (F d D) G ltac:(lia)). unfold projEntry, slotOf in X.
    replace (S j - 1) with j in X by lia.
    assert (Fl : List.length (filter present (firstn k (prj d))) = k).
    { assert (A : forall l : list (option (nat -> R)), ~ In None l -> filter present l = l).
      { induction l as [|[a|] l IH]; intros H; auto; cbn; [rewrite IH; auto; intros H'; apply H; now right|elim H; now left]. }
      rewrite A.
      - rewrite firstn_length. lia.
      - intros H. apply NN. rewrite <- (firstn_skipn k (prj d)). apply in_or_app. now left. }
    rewrite Fl in X. rewrite X. unfold psolAt. rewrite G. f_equal. unfold q.
    destruct withAna; cbn [projFields] in J; do 6 (destruct j as [|j]; [first [reflexivity | exfalso; lia]|]); lia. }
  assert (B : sumL (fun b => boundaryPart b q) bs = 0%R).
  { apply sumL_zero. intros b _. unfold q. destruct withAna; cbn [projFields] in J; do 6 (destruct j as [|j]; [first [reflexivity | exfalso; lia]|]); cbn; try reflexivity; lia. }
  unfold measured. rewrite E, B. unfold q. destruct withAna; cbn [projFields] in J; do 6 (destruct j as [|j]; [first [reflexivity | exfalso; lia]|]); lia.
Qed.


(** ** Reports *)

Ltac says1 := solve [ apply s_energy | apply s_external | apply s_exact | apply s_error | apply s_residual | apply s_sec | apply s_secU
  | apply s_sec_k | apply s_secU_k | apply p_energy | apply p_error | apply p_residual | apply p_jump | apply p_exact | apply p_effect
  | apply p_theta_ex | apply p_theta_res | apply p_l2 | apply p_l2e | apply x_energy | apply x_error | apply x_residual | apply x_exact
  | apply z_energy | apply z_energyR | apply z_errorR ].
Ltac rel1 := do 2 eexists; split; [reflexivity | split; [solve [ apply r_u | apply r_ur | apply r_sr | apply r_zr ] | cbn; unfold Rdiv; ring] ].
Ltac rights := repeat match goal with
  | |- right _ _ _ [] => exact Logic.I
  | |- right _ _ _ (Line _ _ :: _) => split; [says1|]
  | |- right _ _ _ (Rel _ _ :: _) => split; [rel1|]
  end.

Definition ext (v : R) : bool := if Req_EM_T v 0 then false else true.

Lemma right_sections_ana : forall V p x z l prev, right (says (solC V) p x z) (refers (solC V) p z) prev (flat_map (pairLines V) l).
Proof.
  intros V p x z l. induction l as [|k l IH]; intros prev; [exact Logic.I|]. cbn [flat_map pairLines app].
  split; [exact (s_sec_k (solC V) p x z k)|]. split; [exact (s_secU_k (solC V) p x z k)|]. apply IH.
Qed.
Lemma right_sections_plain : forall V p x z l prev, right (says (solC V) p x z) (refers (solC V) p z) prev
  (map (fun j => Line ("Recovered section force a(u^h,w" ++ dec j ++ ")") (V (VirtH j))) l).
Proof.
  intros V p x z l. induction l as [|k l IH]; intros prev; [exact Logic.I|]. cbn [map].
  split; [exact (s_sec_k (solC V) p x z k)|]. apply IH.
Qed.
Lemma headings_ana : forall V l, headings (flat_map (pairLines V) l) =
  flat_map (fun k => (["Recovered section force a(u^h,w" ++ dec k ++ ")"]%string ++ ["Exact section force       a(u,w" ++ dec k ++ ")"]%string)%list) l.
Proof. intros V l. induction l as [|k l IH]; auto. cbn [flat_map]. rewrite headings_app, IH. reflexivity. Qed.
Lemma headings_plain : forall V l, headings (map (fun j => Line ("Recovered section force a(u^h,w" ++ dec j ++ ")") (V (VirtH j))) l) =
  flat_map (fun k => (["Recovered section force a(u^h,w" ++ dec k ++ ")"]%string ++ [])%list) l.
Proof. intros V l. induction l as [|k l IH]; auto. cbn [map flat_map]. rewrite <- IH. reflexivity. Qed.

(* The rest of the report of the first group after the section forces. *)
Lemma first_report : forall withAna n V (Z : option (nq -> R)) ZP p x, let norm := map V (orderFirst withAna n) in
  let z := dualC (match Z with Some Zv => Zv | None => fun _ => 0%R end) ZP in
  exists l, printFirst withAna (sectionIndex withAna n) norm (option_map (fun Zv => map Zv (orderFirst withAna n)) Z) = Ret l /\
  right (says (solC V) p x z) (refers (solC V) p z) None l /\
  headings l = headingsFirst withAna (ext (V External)) (match Z with Some _ => true | None => false end) n.
Proof.
  intros withAna n V Z ZP p x norm z.
  assert (ZL : exists lz, match option_map (fun Zv => map Zv (orderFirst withAna n)) Z with
            | Some dn => let* d1 := at1 dn 1 in Ret [Line "Energy norm |z^h| = a(z^h,z^h)^0.5" d1]
            | None => Ret [] end = Ret lz /\ (forall pv, right (says (solC V) p x z) (refers (solC V) p z) pv lz) /\
            headings lz = if match Z with Some _ => true | None => false end then ["Energy norm |z^h| = a(z^h,z^h)^0.5"] else []).
  { destruct Z as [Zv|]; cbn [option_map].
    - exists [Line "Energy norm |z^h| = a(z^h,z^h)^0.5" (Zv EnergyH)]. split; [destruct withAna; reflexivity|]. split; [|reflexivity].
      intros pv. split; [exact (z_energy (solC V) p x z)|exact Logic.I].
    - exists []. repeat split. }
  destruct ZL as [lz [EZ [RZ HZ]]]. unfold printFirst. rewrite EZ.
  destruct withAna.
  - assert (S0 := size_first V true n). fold norm in S0. rewrite S0.
    assert (A1 : at1 norm 1 = Ret (V EnergyH)) by reflexivity. assert (A2 : at1 norm 2 = Ret (V External)) by reflexivity.
    assert (A3 : at1 norm 3 = Ret (V EnergyU)) by reflexivity. assert (A4 : at1 norm 4 = Ret (V ErrorU)) by reflexivity. rewrite A1, A2, A3, A4.
    replace (2 <? 5 + 2 * n) with true by reflexivity. replace (4 <=? 5 + 2 * n) with true by reflexivity. cbn [bind andb].
    set (e := if Req_EM_T (V External) 0 then [] else [Line "External energy ((f,u^h)+(t,u^h)^0.5" (V External)]).
    assert (RE : forall pv l, (forall q, right (says (solC V) p x z) (refers (solC V) p z) q l) -> right (says (solC V) p x z) (refers (solC V) p z) pv (e ++ l)%list).
    { intros pv l H. apply right_app; auto. unfold e. destruct (Req_EM_T (V External) 0); [exact Logic.I|]. split; [exact (s_external (solC V) p x z)|exact Logic.I]. }
    assert (HE : headings e = if ext (V External) then ["External energy ((f,u^h)+(t,u^h)^0.5"] else []) by (unfold e, ext; destruct (Req_EM_T (V External) 0); reflexivity).
    destruct n as [|n].
    + assert (Lp : vcpLoop (5 + 2 * 0) true (sectionIndex true 0) norm 2 = Ret []) by reflexivity. rewrite Lp. cbn -[headings right e].
      eexists. split; [reflexivity|]. split.
      * split; [exact (s_energy (solC V) p x z)|]. apply RE. intros q. split; [exact (s_exact (solC V) p x z)|]. split; [exact (s_error (solC V) p x z)|].
        split; [|apply RZ]. exists (V ErrorU), (V EnergyU). split; [reflexivity|]. split; [exact (r_u (solC V) p z)|unfold Rdiv; ring].
      * change (headings ([Line "Energy norm |u^h| = a(u^h,u^h)^0.5" (V EnergyH)] ++ e ++ [Line "Exact norm  |u|   = a(u,u)^0.5" (V EnergyU); Line "Exact error a(e,e)^0.5, e=u-u^h" (V ErrorU); Rel "|u|" (V ErrorU * (100 / V EnergyU))%R] ++ lz)%list = headingsFirst true (ext (V External)) (match Z with Some _ => true | None => false end) 0).
        rewrite !headings_app, HE, HZ. reflexivity.
    + assert (X1 : sectionIndex true (S n) 1 = 6). { unfold sectionIndex. rewrite (proj2 (Nat.leb_le 1 (2 * S n))) by lia. reflexivity. } rewrite X1.
      destruct (section_ana V (S n) 0 ltac:(lia)) as [B1 B2]. fold norm in B1, B2. change (5 + (2 * 0 + 1)) with 6 in B1. change (5 + (2 * 0 + 2)) with 7 in B2. rewrite B1, B2.
      change (negb (6 =? 0)) with true. rewrite (proj2 (Nat.leb_le 6 (5 + 2 * S n))) by lia. rewrite (proj2 (Nat.leb_le 7 (5 + 2 * S n))) by lia. cbn [andb bind].
      assert (Lp := loop_ana V (S n) n 1 (5 + 2 * S n) ltac:(lia) ltac:(lia)). fold norm in Lp. change (2 * 1) with 2 in Lp. rewrite Lp. cbn [bind].
      eexists. split; [reflexivity|]. split.
      * split; [exact (s_energy (solC V) p x z)|]. apply RE. intros q. split; [exact (s_exact (solC V) p x z)|]. split; [exact (s_error (solC V) p x z)|].
        split; [exists (V ErrorU), (V EnergyU); split; [reflexivity|]; split; [exact (r_u (solC V) p z)|unfold Rdiv; ring]|].
        split; [exact (s_sec (solC V) p x z)|]. split; [exact (s_secU (solC V) p x z)|]. exact (right_app _ _ _ _ _ (right_sections_ana V p x z (seq 2 n) _) RZ).
      * match goal with |- headings (?a :: _ ++ _)%list = _ => set (hd := a) end.
        match goal with |- headings (hd :: ?l)%list = _ => change (headings ([hd] ++ l)%list = headingsFirst true (ext (V External)) (match Z with Some _ => true | None => false end) (S n)) end.
        rewrite !headings_app, HE, HZ, headings_ana. reflexivity.
  - assert (S0 := size_first V false n). fold norm in S0. rewrite S0.
    assert (A1 : at1 norm 1 = Ret (V EnergyH)) by reflexivity. assert (A2 : at1 norm 2 = Ret (V External)) by reflexivity.
    assert (A3 : at1 norm 3 = Ret (V Volume)) by reflexivity. rewrite A1, A2, A3.
    replace (2 <? 3 + n) with true by reflexivity. cbn [bind andb].
    set (e := if Req_EM_T (V External) 0 then [] else [Line "External energy ((f,u^h)+(t,u^h)^0.5" (V External)]).
    assert (RE : forall pv l, (forall q, right (says (solC V) p x z) (refers (solC V) p z) q l) -> right (says (solC V) p x z) (refers (solC V) p z) pv (e ++ l)%list).
    { intros pv l H. apply right_app; auto. unfold e. destruct (Req_EM_T (V External) 0); [exact Logic.I|]. split; [exact (s_external (solC V) p x z)|exact Logic.I]. }
    assert (HE : headings e = if ext (V External) then ["External energy ((f,u^h)+(t,u^h)^0.5"] else []) by (unfold e, ext; destruct (Req_EM_T (V External) 0); reflexivity).
    destruct n as [|n].
    + assert (Lp : vcpLoop (3 + 0) false (sectionIndex false 0) norm 1 = Ret []) by reflexivity. rewrite Lp. cbn -[headings right e].
      eexists. split; [reflexivity|]. split.
      * split; [exact (s_energy (solC V) p x z)|]. apply RE. exact RZ.
      * change (headings ([Line "Energy norm |u^h| = a(u^h,u^h)^0.5" (V EnergyH)] ++ e ++ lz)%list = headingsFirst false (ext (V External)) (match Z with Some _ => true | None => false end) 0).
        rewrite !headings_app, HE, HZ. reflexivity.
    + assert (X1 : sectionIndex false (S n) 1 = 4) by reflexivity. rewrite X1.
      assert (B1 := section_plain V (S n) 0 ltac:(lia)). fold norm in B1. change (3 + (0 + 1)) with 4 in B1. rewrite B1.
      change (negb (4 =? 0)) with true. rewrite (proj2 (Nat.leb_le 4 (3 + S n))) by lia. cbn [andb bind].
      assert (Lp := loop_plain V (S n) n 1 (3 + S n) ltac:(lia) ltac:(lia)). fold norm in Lp. rewrite Lp. cbn [bind].
      eexists. split; [reflexivity|]. split.
      * split; [exact (s_energy (solC V) p x z)|]. apply RE. intros q.
        split; [exact (s_sec (solC V) p x z)|]. exact (right_app _ _ _ _ _ (right_sections_plain V p x z (seq 2 n) _) RZ).
      * match goal with |- headings (?a :: _ ++ _)%list = _ => set (hd := a) end.
        match goal with |- headings (hd :: ?l)%list = _ => change (headings ([hd] ++ l)%list = headingsFirst false (ext (V External)) (match Z with Some _ => true | None => false end) (S n)) end.
        rewrite !headings_app, HE, HZ, headings_plain. reflexivity.
Qed.
