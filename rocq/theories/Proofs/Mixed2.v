From Verif Require Import Lib.Base Lib.Sums Lib.Writes Model.Continuum Model.Mixed Spec.Mixed Proofs.Continuum Proofs.Mixed.

(** ** The sampling grid *)
Theorem fbar_grid nsd nPt x rt : (1 <= nsd)%nat -> 0 <= x -> x ^ nsd = INR nPt -> Rabs (rt - x) < / 2 ->
  (forall p s, fbarInit nsd nPt rt = Some (p, s) -> (p ^ nsd = nPt)%nat /\ s = nPt) /\
  (forall p, (p ^ nsd = nPt)%nat -> fbarInit nsd nPt rt = Some (p, nPt)).
Proof.
  intros Hn Hx Ex Hr. apply Rabs_def2 in Hr. unfold fbarInit. split.
  - intros p s H. destruct (Z.eqb_spec (ceilR (rt - / 2) ^ Z.of_nat nsd) (Z.of_nat nPt)) as [E|_]; [|discriminate].
    injection H as <- <-. split; [|reflexivity].
    assert (0 <= ceilR (rt - / 2))%Z.
    { unfold ceilR. pose proof (archimed (- (rt - / 2))) as [A B].
      assert (IZR (up (- (rt - / 2))) < 2) as L by lra. apply lt_IZR in L. lia. }
    apply Nat2Z.inj. rewrite Nat2Z.inj_pow, Z2Nat.id by assumption. exact E.
  - intros p Hp. assert (x = INR p) as ->.
    { apply (pow_inj_nonneg _ _ nsd Hn Hx (pos_INR p)). rewrite Ex, <- pow_INR. f_equal. symmetry. exact Hp. }
    rewrite (ceilR_spec (rt - / 2) (Z.of_nat p)) by (rewrite <- INR_IZR_INZ; lra).
    rewrite <- Nat2Z.inj_pow, Hp, Z.eqb_refl, Nat2Z.id. reflexivity.
Qed.

Lemma slots_seq calls : forall size iP, (iP + calls <= size)%nat -> slots calls size iP = Ret (seq iP calls).
Proof.
  induction calls as [|c IH]; intros size iP H; [reflexivity|]. cbn [slots seq]. unfold nextSlot.
  destruct (Nat.ltb_spec iP size); [|lia]. cbn [bind snd fst]. rewrite IH by lia. reflexivity.
Qed.
Lemma slots_over calls : forall size iP, (iP <= size)%nat -> (size < iP + calls)%nat -> slots calls size iP = UB.
Proof.
  induction calls as [|c IH]; intros size iP H1 H2; [lia|]. cbn [slots]. unfold nextSlot.
  destruct (Nat.ltb_spec iP size); [|reflexivity]. cbn [bind snd fst]. rewrite IH by lia. reflexivity.
Qed.

(** ** The three-field system *)
Lemma place_range n m x : validDof n m x -> (1 <= place n x <= n + 2 * m)%nat.
Proof. destruct x; cbn; lia. Qed.
Lemma place_inj n m x y : validDof n m x -> validDof n m y -> place n x = place n y -> x = y.
Proof. destruct x, y; cbn; intros; try (f_equal; lia); exfalso; lia. Qed.
Lemma place_surj n m k : (1 <= k <= n + 2 * m)%nat -> exists x, validDof n m x /\ place n x = k.
Proof.
  intros H. destruct (le_gt_dec k n) as [L|G]; [exists (DU k); cbn; lia|].
  destruct (Nat.Even_or_Odd (k - n)) as [[j E]|[j E]]; [exists (DP j)|exists (DT (S j))]; cbn; lia.
Qed.

Theorem newton_ok n m Kuu Kut Kup Ktt Ktp :
  exists N, newtonMatrix n m Kuu Kut Kup Ktt Ktp (zeros (n + 2 * m) (n + 2 * m)) = Ret N /\
    rows N = (n + 2 * m)%nat /\ cols N = (n + 2 * m)%nat /\
    forall x y, validDof n m x -> validDof n m y -> el N (place n x) (place n y) = threeField Kuu Kut Kup Ktt Ktp x y.
Proof.
  unfold newtonMatrix.
  match goal with |- exists M, bind (run_set ?m ?ws) _ = _ /\ _ => destruct (run_set_ok ws m) as [N1 [E1 [R1 [C1 [W1 Z1]]]]] end.
  { intros i j v Hv. apply In_loop in Hv. destruct Hv as [a [Ha Hv]]. apply in_app_iff in Hv. destruct Hv as [Hv|Hv];
      inl Hv; inw Hv; apply inb_true; cbn [rows cols zeros]; lia. }
  rewrite E1. cbn [bind].
  match goal with |- exists M, run_set ?m ?ws = _ /\ _ => destruct (run_set_ok ws m) as [N2 [E2 [R2 [C2 [W2 Z2]]]]] end.
  { intros i j v Hv. inl Hv. inw Hv; apply inb_true; rewrite ?R1, ?C1; cbn [rows cols zeros]; lia. }
  exists N2. split; [exact E2|]. split; [rewrite R2, R1; reflexivity|]. split; [rewrite C2, C1; reflexivity|].
  assert (U2 : forall x y, validDof n m x -> validDof n m y -> (match x, y with DU _, _ | _, DU _ | DP _, DP _ => True | _, _ => False end) ->
     el N2 (place n x) (place n y) = el N1 (place n x) (place n y)).
  { intros x y Hx Hy Hxy. apply Z2. intros v Hv. inl Hv. destruct x, y; cbn [place validDof] in *; try contradiction; inw Hv; lia. }
  assert (V1 : forall x y v, validDof n m x -> validDof n m y -> In (place n x, place n y, v)
     (loop n (fun i => loop n (fun j => [(i, j, Kuu i j)]) ++
        loop m (fun j => [(i, (n + 2 * j - 1)%nat, Kut i j); ((n + 2 * j - 1)%nat, i, Kut i j); (i, (n + 2 * j)%nat, Kup i j); ((n + 2 * j)%nat, i, Kup i j)]))) ->
     v = threeField Kuu Kut Kup Ktt Ktp x y /\ (match x, y with DU _, _ | _, DU _ => True | _, _ => False end)).
  { intros x y v Hx Hy Hv. apply In_loop in Hv. destruct Hv as [i [Hi Hv]]. apply in_app_iff in Hv. destruct Hv as [Hv|Hv].
    - inl Hv. destruct x, y; cbn [place validDof threeField] in *; inw Hv; try lia. split; [congruence|exact I].
    - inl Hv. rename x0 into j. destruct x, y; cbn [place validDof threeField] in *; inw Hv; try lia;
        (split; [|exact I]); repeat match goal with H : (n + 2 * ?a - 1 = n + 2 * ?b - 1)%nat |- _ => assert (a = b) as -> by lia; clear H
          | H : (n + 2 * ?a = n + 2 * ?b)%nat |- _ => assert (a = b) as -> by lia; clear H end; congruence. }
  assert (V2 : forall x y v, validDof n m x -> validDof n m y -> In (place n x, place n y, v)
     (loop m (fun i => loop m (fun j => [((n + 2 * i - 1)%nat, (n + 2 * j - 1)%nat, Ktt i j); ((n + 2 * i - 1)%nat, (n + 2 * j)%nat, Ktp i j); ((n + 2 * j)%nat, (n + 2 * i - 1)%nat, Ktp i j)]))) ->
     v = threeField Kuu Kut Kup Ktt Ktp x y).
  { intros x y v Hx Hy Hv. inl Hv. destruct x, y; cbn [place validDof threeField] in *; inw Hv; try lia;
      repeat match goal with H : (n + 2 * ?a - 1 = n + 2 * ?b - 1)%nat |- _ => assert (a = b) as -> by lia; clear H
          | H : (n + 2 * ?a = n + 2 * ?b)%nat |- _ => assert (a = b) as -> by lia; clear H end; congruence. }
  assert (A1 : forall x y, validDof n m x -> validDof n m y -> In (place n x, place n y, threeField Kuu Kut Kup Ktt Ktp x y)
     (loop n (fun i => loop n (fun j => [(i, j, Kuu i j)]) ++
        loop m (fun j => [(i, (n + 2 * j - 1)%nat, Kut i j); ((n + 2 * j - 1)%nat, i, Kut i j); (i, (n + 2 * j)%nat, Kup i j); ((n + 2 * j)%nat, i, Kup i j)]))) ->
     el N1 (place n x) (place n y) = threeField Kuu Kut Kup Ktt Ktp x y).
  { intros x y Hx Hy Hin. apply W1; [exact Hin|]. intros v Hv. apply (V1 x y v Hx Hy Hv). }
  intros x y Hx Hy. destruct x as [i|i|i], y as [j|j|j]; cbn [validDof] in Hx, Hy.
  - rewrite U2 by (cbn; auto; lia). apply A1; [cbn; lia|cbn; lia|]. apply In_loop. exists i. split; [exact Hx|]. apply in_app_iff. left. apply In_loop. exists j. split; [exact Hy|]. left. reflexivity.
  - rewrite U2 by (cbn; auto; lia). apply A1; [cbn; lia|cbn; lia|]. apply In_loop. exists i. split; [exact Hx|]. apply in_app_iff. right. apply In_loop. exists j. split; [exact Hy|]. cbn. auto.
  - rewrite U2 by (cbn; auto; lia). apply A1; [cbn; lia|cbn; lia|]. apply In_loop. exists i. split; [exact Hx|]. apply in_app_iff. right. apply In_loop. exists j. split; [exact Hy|]. cbn. auto.
  - rewrite U2 by (cbn; auto; lia). apply A1; [cbn; lia|cbn; lia|]. apply In_loop. exists j. split; [exact Hy|]. apply in_app_iff. right. apply In_loop. exists i. split; [exact Hx|]. cbn. auto.
  - apply W2; [|intros v Hv; apply (V2 (DT i) (DT j) v Hx Hy Hv)]. apply In_loop. exists i. split; [exact Hx|]. apply In_loop. exists j. split; [exact Hy|]. cbn. auto.
  - apply W2; [|intros v Hv; apply (V2 (DT i) (DP j) v Hx Hy Hv)]. apply In_loop. exists i. split; [exact Hx|]. apply In_loop. exists j. split; [exact Hy|]. cbn. auto.
  - rewrite U2 by (cbn; auto; lia). apply A1; [cbn; lia|cbn; lia|]. apply In_loop. exists j. split; [exact Hy|]. apply in_app_iff. right. apply In_loop. exists i. split; [exact Hx|]. cbn. auto.
  - apply W2; [|intros v Hv; apply (V2 (DP i) (DT j) v Hx Hy Hv)]. apply In_loop. exists j. split; [exact Hy|]. apply In_loop. exists i. split; [exact Hx|]. cbn. auto.
  - rewrite U2 by (cbn; auto; lia). rewrite Z1; [reflexivity|]. intros v Hv. apply (V1 (DP i) (DP j) v Hx Hy) in Hv. cbn in Hv. tauto.
Qed.

(** Symmetry, whenever the two diagonal blocks are symmetric. *)
Lemma threeField_symm n m Kuu Kut Kup Ktt Ktp : symm n Kuu -> symm m Ktt ->
  forall x y, validDof n m x -> validDof n m y -> threeField Kuu Kut Kup Ktt Ktp x y = threeField Kuu Kut Kup Ktt Ktp y x.
Proof. intros H1 H2 x y Hx Hy. destruct x, y; cbn in *; auto. Qed.

(** The residual uses the same places. *)
Theorem rhs_ok n m Ru Rt Rp (R0 : mat) : rows R0 = (n + 2 * m)%nat -> cols R0 = 1%nat ->
  exists V, rhsVector true n m Ru Rt Rp R0 = Ret V /\
    forall x, validDof n m x -> el V (place n x) 1 = match x with DU i => Ru i | DT j => Rt j | DP j => Rp j end.
Proof.
  intros HR HC. unfold rhsVector.
  match goal with |- exists M, bind (run_set ?m ?ws) _ = _ /\ _ => destruct (run_set_ok ws m) as [N1 [E1 [R1 [C1 [W1 Z1]]]]] end.
  { intros i j v Hv. inl Hv. inw Hv. apply inb_true; lia. }
  rewrite E1. cbn [bind].
  match goal with |- exists M, run_set ?m ?ws = _ /\ _ => destruct (run_set_ok ws m) as [N2 [E2 [R2 [C2 [W2 Z2]]]]] end.
  { intros i j v Hv. inl Hv. inw Hv; apply inb_true; rewrite ?R1, ?C1; lia. }
  exists N2. split; [exact E2|]. intros x Hx. destruct x as [i|i|i]; cbn [validDof place] in *.
  - rewrite Z2; [|intros v Hv; inl Hv; inw Hv; lia]. apply W1; [apply In_loop; exists i; split; [exact Hx|left; reflexivity]|].
    intros v Hv. inl Hv. inw Hv. congruence.
  - apply W2; [apply In_loop; exists i; split; [exact Hx|left; reflexivity]|].
    intros v Hv. inl Hv. inw Hv; try lia. f_equal. lia.
  - apply W2; [apply In_loop; exists i; split; [exact Hx|right; left; reflexivity]|].
    intros v Hv. inl Hv. inw Hv; try lia. f_equal. lia.
Qed.

Theorem rhs_neumann n m Ru Rt Rp (R0 : mat) : rows R0 = (n + 2 * m)%nat -> cols R0 = 1%nat ->
  exists V, rhsVector false n m Ru Rt Rp R0 = Ret V /\
    forall x, validDof n m x -> el V (place n x) 1 = match x with DU i => Ru i | _ => 0 end.
Proof.
  intros HR HC. unfold rhsVector.
  match goal with |- exists M, bind (run_set ?m ?ws) _ = _ /\ _ => destruct (run_set_ok ws m) as [N1 [E1 [R1 [C1 [W1 Z1]]]]] end.
  { intros i j v Hv. inl Hv. inw Hv. apply inb_true; lia. }
  rewrite E1. cbn [bind].
  match goal with |- exists M, run_set ?m ?ws = _ /\ _ => destruct (run_set_ok ws m) as [N2 [E2 [R2 [C2 [W2 Z2]]]]] end.
  { intros i j v Hv. apply In_loop_from in Hv. destruct Hv as [k [Hk Hv]]. inw Hv; apply inb_true; rewrite ?R1, ?C1; lia. }
  exists N2. split; [exact E2|]. intros x Hx.
  assert (T : forall k, (n < k <= n + 2 * m)%nat -> el N2 k 1 = 0).
  { intros k Hk. apply W2; [apply In_loop_from; exists k; split; [lia|left; reflexivity]|]. intros v Hv. apply In_loop_from in Hv. destruct Hv as [k' [Hk' Hv]]. inw Hv. reflexivity. }
  destruct x as [i|i|i]; cbn [validDof place] in *; try (apply T; lia).
  rewrite Z2; [|intros v Hv; apply In_loop_from in Hv; destruct Hv as [k [Hk Hv]]; inw Hv; lia].
  apply W1; [apply In_loop; exists i; split; [exact Hx|left; reflexivity]|]. intros v Hv. inl Hv. inw Hv. congruence.
Qed.
