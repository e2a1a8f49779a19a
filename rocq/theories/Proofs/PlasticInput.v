(** Proofs about the input of plastic materials. *)
From Verif.Lib Require Import Base.
From Verif.Model Require Import Plastic PlasticInput.
From Verif.Spec Require Import PlasticInput.

Lemma assign_length l iv : length (assign l iv) = length l.
Proof.
  destruct iv as [i v]. unfold assign. destruct (i <? length l)%nat eqn:E; [|reflexivity]. apply Nat.ltb_lt in E.
  rewrite app_length, firstn_length. cbn [length]. rewrite skipn_length. lia.
Qed.
Lemma assign_nth l i v j : nth j (assign l (i, v)) 0 = if ((j =? i) && (i <? length l))%nat then v else nth j l 0.
Proof.
  unfold assign. destruct (i <? length l)%nat eqn:E; [|now rewrite andb_false_r]. rewrite andb_true_r. apply Nat.ltb_lt in E.
  destruct (Nat.eqb_spec j i) as [->|N].
  - rewrite app_nth2; rewrite firstn_length; [|lia]. replace (i - Nat.min i (length l))%nat with 0%nat by lia. reflexivity.
  - destruct (Nat.lt_ge_cases j i) as [L|L].
    + rewrite app_nth1 by (rewrite firstn_length; lia). rewrite <- (firstn_skipn i l) at 2. rewrite app_nth1 by (rewrite firstn_length; lia). reflexivity.
    + rewrite app_nth2; rewrite firstn_length; [|lia]. replace (j - Nat.min i (length l))%nat with (S (j - S i)) by lia. cbn [nth].
      rewrite <- (firstn_skipn (S i) l) at 2. rewrite app_nth2; rewrite firstn_length; [|lia]. f_equal. lia.
Qed.
Lemma set_length i o l : length (set i o l) = length l.
Proof. destruct o; [apply assign_length|reflexivity]. Qed.
Lemma set_nth i o l j : (i < length l)%nat -> nth j (set i o l) 0 = if (j =? i)%nat then orElse o (nth i l 0) else nth j l 0.
Proof.
  intros L. apply Nat.ltb_lt in L. destruct o as [v|]; cbn [set orElse].
  - rewrite assign_nth, L, andb_true_r. reflexivity.
  - now destruct (Nat.eqb_spec j i) as [->|N].
Qed.
Lemma resize_length n l : length (resize0 n l) = Nat.max n (length l).
Proof. unfold resize0. rewrite app_length, repeat_length. lia. Qed.
Lemma nth_zeros (i k : nat) : nth i (repeat 0 k) 0 = 0.
Proof. revert k; induction i as [|i IH]; intros [|k]; cbn; try reflexivity. apply IH. Qed.
Lemma resize_nth n l i : nth i (resize0 n l) 0 = nth i l 0.
Proof.
  unfold resize0. destruct (Nat.lt_ge_cases i (length l)) as [L|L]; [now apply app_nth1|].
  rewrite app_nth2 by lia. rewrite nth_zeros. symmetry. now apply nth_overflow.
Qed.
Lemma child_nth l i : nth i (childParams l) 0 = 0.
Proof.
  revert i; induction l as [|[|f] l IH]; intros i; [now destruct i| |apply IH]. cbn. destruct i as [|i]; [reflexivity|apply IH].
Qed.

(** The parameters of a tag, by index. *)
Definition base (a : attrs) (i : nat) : R :=
  match i with
  | 0%nat => orElse (aE a) (orElse (aEmod a) (orElse (aBmod a) 0))
  | 1%nat => orElse (aNu a) (orElse (aSmod a) 0)
  | 3%nat => orElse (aRho a) 0 | 4%nat => orElse (aHiso a) 0 | 5%nat => orElse (aHkin a) 0 | 6%nat => orElse (aYield a) 0
  | 7%nat => orElse (aY0 a) 0 | 8%nat => orElse (aYinf a) 0 | 9%nat => orElse (aBeta a) 0 | 10%nat => orElse (aIstrt a) 0
  | _ => 0
  end.
Definition value (a : attrs) (i : nat) : R :=
  let y := toint (base a 6) in
  if (y =? 4)%Z then match i with 7%nat => orElse (aA a) (base a 7) | 8%nat => orElse (aB a) (base a 8) | 9%nat => orElse (aN a) (base a 9) | _ => base a i end
  else if (y =? 6)%Z then match i with 8%nat => orElse (aQ1 a) (base a 8) | 9%nat => orElse (aC1 a) (base a 9) | 11%nat => orElse (aQ2 a) 0 | 12%nat => orElse (aC2 a) 0 | _ => base a i end
  else base a i.
Lemma set_eq i o l : (i < length l)%nat -> nth i (set i o l) 0 = orElse o (nth i l 0).
Proof. intros L. rewrite set_nth by exact L. now rewrite Nat.eqb_refl. Qed.
Lemma set_neq i j o l : j <> i -> nth j (set i o l) 0 = nth j l 0.
Proof. intros N. destruct o as [v|]; [|reflexivity]. cbn [set]. rewrite assign_nth. apply Nat.eqb_neq in N. now rewrite N. Qed.
Ltac sn := repeat first [rewrite set_neq by discriminate
  | rewrite set_eq by (rewrite ?set_length, ?resize_length, ?set_length, ?resize_length; lia) | rewrite resize_nth].
Lemma params_value t i : (i < 13)%nat -> nth i (params t) 0 = value (attr t) i.
Proof.
  intros Hi. unfold params. set (a := attr t). set (c := childParams (children t)).
  assert (Z : forall j, nth j c 0 = 0) by (intros; apply child_nth).
  match goal with |- context [toint (nth 6 ?q 0)] => set (p := q) end.
  assert (B : forall j, (j < 13)%nat -> nth j p 0 = base a j).
  { intros j Hj. unfold p. do 13 (destruct j as [|j]; [sn; rewrite ?Z; reflexivity|]). lia. }
  assert (Lp : (11 <= length p)%nat) by (unfold p; rewrite !set_length, resize_length; lia).
  rewrite (B 6%nat) by lia. unfold value. destruct (toint (base a 6) =? 4)%Z; [|destruct (toint (base a 6) =? 6)%Z; [|now apply B]].
  - do 13 (destruct i as [|i]; [sn; rewrite ?B by lia; reflexivity|]). lia.
  - do 13 (destruct i as [|i]; [sn; rewrite ?resize_nth, ?B by lia; reflexivity|]). lia.
Qed.
Lemma params_length t : (11 <= length (params t))%nat /\ (toint (base (attr t) 6) = 6%Z -> (13 <= length (params t))%nat).
Proof.
  unfold params. set (a := attr t). match goal with |- context [toint (nth 6 ?q 0)] => set (p := q) end.
  assert (Lp : (11 <= length p)%nat) by (unfold p; rewrite !set_length, resize_length; lia).
  assert (B : nth 6 p 0 = base a 6) by (unfold p; sn; rewrite child_nth; reflexivity).
  rewrite B. split.
  - destruct (_ =? 4)%Z; [rewrite !set_length; lia|]. destruct (_ =? 6)%Z; [rewrite !set_length, resize_length; lia|exact Lp].
  - intros ->. cbn. rewrite !set_length, resize_length. lia.
Qed.

(** The constructor moves the parameters from index 4 on by two places. *)
Lemma ctor_nth p i : (11 <= length p)%nat -> (6 <= i)%nat -> nth i (ctor p) 0 = nth (i - 2) p 0.
Proof.
  intros L Hi. unfold ctor. assert (R : resize0 11 p = p) by (unfold resize0; replace (11 - length p)%nat with 0%nat by lia; apply app_nil_r).
  rewrite R. destruct p as [|p0 [|p1 [|p2 [|p3 r]]]]; cbn in L; try lia. destruct (moduli p0 p1) as [[[E nu] K] G].
  do 6 (destruct i as [|i]; [lia|]). reflexivity.
Qed.
Lemma ctor_low p : (11 <= length p)%nat ->
  nth 3 (ctor p) 0 = nth 3 p 0 /\ (nth 0 (ctor p) 0, nth 1 (ctor p) 0, nth 4 (ctor p) 0, nth 5 (ctor p) 0) = moduli (nth 0 p 0) (nth 1 p 0).
Proof.
  intros L. unfold ctor. assert (R : resize0 11 p = p) by (unfold resize0; replace (11 - length p)%nat with 0%nat by lia; apply app_nil_r).
  rewrite R. destruct p as [|p0 [|p1 [|p2 [|p3 r]]]]; cbn in L; try lia. cbn [nth]. destruct (moduli p0 p1) as [[[E nu] K] G]. split; reflexivity.
Qed.
Lemma ctor_length p : (11 <= length p)%nat -> length (ctor p) = (length p + 2)%nat.
Proof.
  intros L. unfold ctor. assert (R : resize0 11 p = p) by (unfold resize0; replace (11 - length p)%nat with 0%nat by lia; apply app_nil_r).
  rewrite R. destruct p as [|p0 [|p1 [|p2 [|p3 r]]]]; cbn in L; try lia. destruct (moduli p0 p1) as [[[E nu] K] G]. cbn. lia.
Qed.
Lemma rd_nth p i : (i < length p)%nat -> rd p i = Ret (nth i p 0).
Proof. intros L. unfold rd. now rewrite (nth_error_nth' p 0 L). Qed.

Definition mat (t : tag) : list R := fst (plasticMaterial t).
Lemma mat_value t i : (6 <= i < 15)%nat -> nth i (mat t) 0 = value (attr t) (i - 2).
Proof. intros B. unfold mat, plasticMaterial. cbn [fst]. rewrite ctor_nth by (apply params_length || lia). apply params_value. lia. Qed.
Lemma mat_length t : (13 <= length (mat t))%nat /\ (toint (base (attr t) 6) = 6%Z -> (15 <= length (mat t))%nat).
Proof.
  unfold mat, plasticMaterial. cbn [fst]. destruct (params_length t) as [A B]. rewrite ctor_length by exact A. split; [lia|]. intros K. specialize (B K). lia.
Qed.

Lemma value_plain a i : toint (base a 6) <> 4%Z -> toint (base a 6) <> 6%Z -> value a i = base a i.
Proof. intros A B. unfold value. apply Z.eqb_neq in A, B. now rewrite A, B. Qed.

Lemma voce_law t li e I1 J2 J3 : toint (orElse (aYield (attr t)) 0) = 1%Z ->
  exists y, yfunc (mat t) (snd (plasticMaterial t)) li e I1 J2 J3 = Ret y /\ yYY y = sqt23 * voce (attr t) e.
Proof.
  intros Y. destruct (mat_length t) as [L _]. unfold yfunc.
  do 5 (rewrite (rd_nth (mat t)) by lia; cbn [bind]). rewrite !mat_value by lia. cbn [Nat.sub].
  assert (Hy : toint (base (attr t) 6) = 1%Z) by exact Y. rewrite !value_plain by (rewrite Hy; discriminate). rewrite Hy.
  eexists. split; [reflexivity|]. cbn [yYY base]. unfold voce. ring.
Qed.
Lemma power_law t li e I1 J2 J3 : toint (orElse (aYield (attr t)) 0) = 4%Z -> epsZ <= e ->
  exists y, yfunc (mat t) (snd (plasticMaterial t)) li e I1 J2 J3 = Ret y /\ yYY y = sqt23 * power (attr t) e.
Proof.
  intros Y He. destruct (mat_length t) as [L _]. unfold yfunc.
  do 5 (rewrite (rd_nth (mat t)) by lia; cbn [bind]). rewrite !mat_value by lia. cbn [Nat.sub].
  assert (Hy : toint (base (attr t) 6) = 4%Z) by exact Y. unfold value. rewrite Hy. cbn [Z.eqb Pos.eqb]. rewrite Hy.
  destruct (Rlt_dec e epsZ) as [Q|_]; [lra|]. eexists. split; [reflexivity|]. cbn [yYY base]. unfold power. ring.
Qed.
Lemma double_law t li e I1 J2 J3 : toint (orElse (aYield (attr t)) 0) = 6%Z ->
  exists y, yfunc (mat t) (snd (plasticMaterial t)) li e I1 J2 J3 = Ret y /\ yYY y = sqt23 * doubleVoce (attr t) e.
Proof.
  intros Y. assert (Hy : toint (base (attr t) 6) = 6%Z) by exact Y. destruct (mat_length t) as [L L6]. specialize (L6 Hy). unfold yfunc.
  do 5 (rewrite (rd_nth (mat t)) by lia; cbn [bind]). rewrite !(rd_nth (mat t)) by lia. rewrite !mat_value by lia. cbn [Nat.sub].
  unfold value. rewrite Hy. cbn [Z.eqb Pos.eqb]. rewrite Hy. cbn [bind].
  eexists. split; [reflexivity|]. cbn [yYY base]. unfold doubleVoce. ring.
Qed.
Lemma curve_last l f r : ~ In true (map (fun c => match c with Curve _ => true | Other => false end) r) ->
  curveOf (l ++ Curve f :: r) = Some f.
Proof.
  intros N. unfold curveOf. rewrite fold_left_app. cbn. assert (G : forall h, fold_left (fun h c => match c with Curve f => Some f | Other => h end) r h = h); [|apply G].
  induction r as [|[|g] r IH]; intros h; [reflexivity|apply IH; intros K; apply N; now right|]. exfalso. apply N. now left.
Qed.
Lemma curve_law t ev de li e I1 J2 J3 : toint (orElse (aYield (attr t)) 0) = 5%Z -> curveOf (children t) = Some (ev, de) ->
  exists y, yfunc (mat t) (snd (plasticMaterial t)) li e I1 J2 J3 = Ret y /\ yYY y = sqt23 * ev e.
Proof.
  intros Y C. destruct (mat_length t) as [L _]. unfold yfunc.
  do 5 (rewrite (rd_nth (mat t)) by lia; cbn [bind]). rewrite !mat_value by lia. cbn [Nat.sub].
  assert (Hy : toint (base (attr t) 6) = 5%Z) by exact Y. rewrite !value_plain by (rewrite Hy; discriminate). rewrite Hy.
  cbn [plasticMaterial snd]. rewrite C. eexists. split; [reflexivity|]. reflexivity.
Qed.
Lemma elastic_data t : nth 3 (mat t) 0 = orElse (aRho (attr t)) 0 /\
  (nth 0 (mat t) 0, nth 1 (mat t) 0, nth 4 (mat t) 0, nth 5 (mat t) 0) =
  moduli (orElse (aE (attr t)) (orElse (aEmod (attr t)) (orElse (aBmod (attr t)) 0))) (orElse (aNu (attr t)) (orElse (aSmod (attr t)) 0)).
Proof.
  unfold mat, plasticMaterial. cbn [fst]. destruct (ctor_low (params t)) as [A B]; [apply params_length|]. rewrite A, B, !params_value by lia.
  unfold value. destruct (_ =? 4)%Z; [split; reflexivity|]. destruct (_ =? 6)%Z; split; reflexivity.
Qed.
Lemma start_data t : nth 7 (mat t) 0 = orElse (aHkin (attr t)) 0 /\ nth 12 (mat t) 0 = orElse (aIstrt (attr t)) 0.
Proof.
  rewrite !mat_value by lia. cbn [Nat.sub]. unfold value. destruct (_ =? 4)%Z; [split; reflexivity|]. destruct (_ =? 6)%Z; split; reflexivity.
Qed.
