From Coq Require Import List ZArith Arith Bool SpecFloat Reals Lra Lia.
From Verif Require Import Lib.Base Lib.Sums Model.Driver Model.ArcLength Spec.ArcLength.
Import ListNotations.

(** ** Convergence test *)

Lemma lt_finite : forall x t, SFltb (SFabs x) t = true -> finite x.
Proof. intros [s|s| |s m e] t H; cbn; auto; [|discriminate H]. destruct t as [[]|[]| |[] ? ?]; discriminate H. Qed.

Lemma div_finite : forall x r t, SFltb (SFabs (fdiv x r)) t = true -> finite x.
Proof.
  intros x r t H. destruct x as [s|s| |s m e]; cbn; auto.
  - apply lt_finite in H. destruct r; destruct H.
  - apply lt_finite in H. destruct r; destruct H.
Qed.

Local Ltac notconv := intros X; exfalso; revert X; repeat match goal with |- context [if ?b then _ else _] => destruct b end; discriminate.

Lemma check_pos : forall c s iter x l st s', (0 < iter)%nat -> checkConvergence c s iter x l = (st, s') ->
  convTol s' = convTol s /\ refNorm s' = refNorm s /\
  (st = CONVERGED -> SFltb (SFabs (fdiv x (refNorm s))) (convTol s) = true).
Proof.
  intros c s iter x l st s' I E. unfold checkConvergence in E.
  assert (I0 : (iter =? 0)%nat = false) by (apply Nat.eqb_neq; lia). rewrite I0 in E. cbn [andb] in E.
  set (nm := fdiv x (refNorm s)) in *.
  destruct (SFltb (SFabs nm) (convTol s)) eqn:C; cbn [andb] in E.
  - destruct ((0 <? iter)%nat || refAll c).
    + injection E as <- <-. auto.
    + destruct (isnan l); [injection E as <- <-; auto|].
      destruct (SFleb (SFabs nm) (SFabs (prevNorm s))); [injection E as <- <-; auto|].
      destruct ((maxIncr c <? S (nIncrease s))%nat || fgt (SFabs nm) (divgLim c)); injection E as <- <-; auto.
  - assert (N : forall b : bool, (if b then SLOW else OK) <> CONVERGED) by (intros []; discriminate).
    destruct (isnan l); [injection E as <- <-; repeat split; discriminate|].
    destruct (SFleb (SFabs nm) (SFabs (prevNorm s))); [injection E as <- <-; repeat split; notconv|].
    destruct ((maxIncr c <? S (nIncrease s))%nat || fgt (SFabs nm) (divgLim c)); injection E as <- <-; repeat split; try discriminate.
    notconv.
Qed.

Lemma check_zero : forall c s x l st s', checkConvergence c s 0 x l = (st, s') ->
  (st = CONVERGED -> SFeqb l fzero = true \/
     SFltb (SFabs x) (aTol c) = true \/ exists r, (r = SFabs x \/ r = refNorm s) /\ SFltb (SFabs (fdiv x r)) (rTol c) = true) /\
  (st <> CONVERGED -> (convTol s' = rTol c /\ (refNorm s' = SFabs x \/ refNorm s' = refNorm s)) \/ (convTol s' = aTol c /\ refNorm s' = fone)).
Proof.
  intros c s x l st s' E. unfold checkConvergence in E. cbn [Nat.eqb andb] in E.
  destruct (SFeqb l fzero) eqn:Z. { injection E as <- <-. split; auto. intros X; now destruct X. }
  set (ref := if refAll c || fgt (SFabs x) (refNorm s) then SFabs x else refNorm s) in *.
  assert (R : ref = SFabs x \/ ref = refNorm s) by (unfold ref; destruct (refAll c || fgt (SFabs x) (refNorm s)); auto).
  assert (N : forall b : bool, (if b then SLOW else OK) <> CONVERGED) by (intros []; discriminate).
  assert (G : forall nm s1, (SFltb (SFabs nm) (convTol s1) = true ->
        SFltb (SFabs x) (aTol c) = true \/ exists r, (r = SFabs x \/ r = refNorm s) /\ SFltb (SFabs (fdiv x r)) (rTol c) = true) ->
      (let status := if (1 <? 0)%nat && fgt (prevNorm s1) fzero && fgt (SFabs nm) (fmul (prevNorm s1) ftenth) then SLOW else OK in
       let '(status, ninc) :=
        if SFltb (SFabs nm) (convTol s1) && ((0 <? 0)%nat || refAll c) then (CONVERGED, nIncrease s1)
        else if isnan l then (DIVERGED, nIncrease s1)
        else if SFleb (SFabs nm) (SFabs (prevNorm s1)) then (status, 0%nat)
        else let n := S (nIncrease s1) in
             if (maxIncr c <? n)%nat || fgt (SFabs nm) (divgLim c) then (DIVERGED, n) else (status, n) in
       (status, mkChk (convTol s1) nm ninc (refNorm s1))) = (st, s') ->
      (st = CONVERGED -> SFltb (SFabs x) (aTol c) = true \/ exists r, (r = SFabs x \/ r = refNorm s) /\ SFltb (SFabs (fdiv x r)) (rTol c) = true) /\
      convTol s' = convTol s1 /\ refNorm s' = refNorm s1).
  { intros nm s1 A F. cbv zeta in F. destruct (SFltb (SFabs nm) (convTol s1)) eqn:C; cbn [andb] in F.
    - destruct ((0 <? 0)%nat || refAll c); [injection F as <- <-; auto|].
      destruct (isnan l); [injection F as <- <-; auto|].
      destruct (SFleb (SFabs nm) (SFabs (prevNorm s1))); [injection F as <- <-; auto|].
      destruct ((maxIncr c <? S (nIncrease s1))%nat || fgt (SFabs nm) (divgLim c)); injection F as <- <-; auto.
    - destruct (isnan l); [injection F as <- <-; split; auto; discriminate|].
      destruct (SFleb (SFabs nm) (SFabs (prevNorm s1))); [injection F as <- <-; split; auto; notconv|].
      destruct ((maxIncr c <? S (nIncrease s1))%nat || fgt (SFabs nm) (divgLim c)); injection F as <- <-; split; auto; try discriminate; notconv. }
  destruct (fgt (fmul ref (rTol c)) (aTol c)).
  - apply G in E; [|cbn; intros Y; right; eauto]. cbn in E. destruct E as [E1 [E2 E3]]. split; auto. intros _. left. split; auto. now rewrite E3.
  - apply G in E; [|cbn; auto]. cbn in E. destruct E as [E1 [E2 E3]]. split; auto.
Qed.

Lemma iterate_pos : forall c l iter s, (0 < iter)%nat -> iterate c s iter l = Some CONVERGED ->
  exists k x, nth_error l k = Some x /\ (iter + k <= maxit c)%nat /\ normsOk x = true /\
    SFltb (SFabs (fdiv (nrm x) (refNorm s))) (convTol s) = true.
Proof.
  intros c l. induction l as [|x l IH]; intros iter s I E; cbn [iterate] in E.
  - destruct (maxit c <? iter)%nat; discriminate E.
  - destruct (maxit c <? iter)%nat eqn:M; [discriminate E|]. apply Nat.ltb_ge in M.
    destruct (checkConvergence c s iter (nrm x) (lin x)) as [st s'] eqn:K.
    destruct (check_pos c s iter _ _ _ _ I K) as [K1 [K2 K3]].
    assert (GO : (if negb (solveOk x) then Some FAILURE else if negb (updateOk x) then Some FAILURE
       else if negb (assemOk x) then Some (if assemDiv x then DIVERGED else FAILURE) else iterate c s' (S iter) l) = Some CONVERGED ->
       exists k y, nth_error (x :: l) k = Some y /\ (iter + k <= maxit c)%nat /\ normsOk y = true /\
         SFltb (SFabs (fdiv (nrm y) (refNorm s))) (convTol s) = true).
    { intros F. destruct (negb (solveOk x)); [discriminate F|]. destruct (negb (updateOk x)); [discriminate F|].
      destruct (negb (assemOk x)); [destruct (assemDiv x); discriminate F|].
      apply IH in F; [|lia]. destruct F as [k [y [F1 [F2 [F3 F4]]]]]. rewrite K1, K2 in F4. exists (S k), y. repeat split; auto. lia. }
    destruct st; try (now apply GO); try discriminate E.
    exists 0%nat, x. destruct (normsOk x) eqn:N; [|discriminate E]. repeat split; auto. lia.
Qed.

Theorem step_converged : forall c s x0 l, iterate c s 0 (x0 :: l) = Some CONVERGED ->
  exists k x, nth_error (x0 :: l) k = Some x /\ (k <= maxit c)%nat /\ normsOk x = true /\
    ((k = 0%nat /\ SFeqb (lin x) fzero = true) \/ finite (nrm x) /\ accurate c (refNorm s) (nrm x0) (nrm x)).
Proof.
  intros c s x0 l E. cbn [iterate] in E.
  destruct (maxit c <? 0)%nat eqn:M; [discriminate E|].
  destruct (checkConvergence c s 0 (nrm x0) (lin x0)) as [st s'] eqn:K.
  destruct (check_zero c s _ _ _ _ K) as [K1 K2].
  assert (F1 : forall x, accurate c (refNorm s) (nrm x0) x -> finite x).
  { intros x [A|[A|[r [_ A]]]]; [now apply lt_finite in A|now apply div_finite in A|now apply div_finite in A]. }
  assert (GO : st <> CONVERGED -> (if negb (solveOk x0) then Some FAILURE else if negb (updateOk x0) then Some FAILURE
       else if negb (assemOk x0) then Some (if assemDiv x0 then DIVERGED else FAILURE) else iterate c s' 1 l) = Some CONVERGED ->
    exists k x, nth_error (x0 :: l) k = Some x /\ (k <= maxit c)%nat /\ normsOk x = true /\
    ((k = 0%nat /\ SFeqb (lin x) fzero = true) \/ finite (nrm x) /\ accurate c (refNorm s) (nrm x0) (nrm x))).
  { intros N F. destruct (negb (solveOk x0)); [discriminate F|]. destruct (negb (updateOk x0)); [discriminate F|].
    destruct (negb (assemOk x0)); [destruct (assemDiv x0); discriminate F|].
    apply iterate_pos in F; [|lia]. destruct F as [k [x [A1 [A2 [A3 A4]]]]]. exists (S k), x. repeat split; auto. right.
    assert (AC : accurate c (refNorm s) (nrm x0) (nrm x)).
    { destruct (K2 N) as [[B1 B2]|[B1 B2]]; rewrite B1 in A4; [right; right; exists (refNorm s'); auto|rewrite B2 in A4; right; left; auto]. }
    auto. }
  destruct st; try (apply GO; [discriminate|exact E]); try discriminate E.
  exists 0%nat, x0. destruct (normsOk x0) eqn:N; [|discriminate E]. repeat split; auto; [lia|].
  destruct (K1 eq_refl) as [A|[A|A]]; [left; auto|right|right].
  - assert (AC : accurate c (refNorm s) (nrm x0) (nrm x0)) by (left; auto). auto.
  - assert (AC : accurate c (refNorm s) (nrm x0) (nrm x0)) by (right; right; auto). auto.
Qed.

(** At most [maxit]+1 passes. *)
Theorem step_ends : forall c s l, (maxit c < length l)%nat -> iterate c s 0 l <> None.
Proof.
  intros c. assert (G : forall l s iter, (maxit c < iter + length l)%nat -> iterate c s iter l <> None).
  { induction l as [|x l IH]; intros s iter H; cbn [iterate length] in *.
    - assert (M : (maxit c <? iter)%nat = true) by (apply Nat.ltb_lt; lia). rewrite M. discriminate.
    - destruct (maxit c <? iter)%nat; [discriminate|]. destruct (checkConvergence c s iter (nrm x) (lin x)) as [st s'].
      destruct st; try discriminate;
      (destruct (negb (solveOk x)); [discriminate|]; destruct (negb (updateOk x)); [discriminate|];
       destruct (negb (assemOk x)); [discriminate|]; apply IH; lia). }
  intros s l H. now apply G.
Qed.

(** ** Increments *)
Section Path.
Variable n : nat.
Open Scope R_scope.
Notation dot := (dot n). Notation arc2 := (arc2 n). Notation regular := (regular n).

Lemma dot_axpy_r : forall u v w a, dot u (axpy v w a) = dot u v + a * dot u w.
Proof.
  intros. unfold ArcLength.dot, axpy. rewrite (sumf_ext n _ (fun i => u i * v i + a * (u i * w i))) by (intros; ring).
  rewrite sumf_plus, sumf_scal. reflexivity.
Qed.
Lemma dot_sym : forall u v, dot u v = dot v u.
Proof. intros. unfold ArcLength.dot. apply sumf_ext. intros; ring. Qed.
Lemma dot_axpy_l : forall u v w a, dot (axpy v w a) u = dot v u + a * dot w u.
Proof. intros. rewrite dot_sym, dot_axpy_r, !(dot_sym u). reflexivity. Qed.
Lemma dot_pos : forall u, 0 <= dot u u.
Proof. intros. unfold ArcLength.dot. apply sumf_nonneg. intros. apply Rle_0_sqr. Qed.
Lemma norm2_sq : forall u, norm2 n u * norm2 n u = dot u u.
Proof. intros. unfold norm2. apply sqrt_sqrt, dot_pos. Qed.

Theorem predictor_size : forall arclen beta lg tan,
  let w := if Rlt_dec beta 0 then 1 else if Rlt_dec 0 beta then beta * lg * lg else 0 in
  0 < w + dot tan tan ->
  predictorSize n arclen beta lg tan * predictorSize n arclen beta lg tan * (w + dot tan tan) = arclen * arclen.
Proof.
  intros arclen beta lg tan w H. unfold predictorSize. rewrite norm2_sq. unfold w in *.
  destruct (Rlt_dec beta 0); [|destruct (Rlt_dec 0 beta)].
  - assert (S := sqrt_lt_R0 _ H). assert (Q := sqrt_sqrt _ (Rlt_le _ _ H)).
    set (q := sqrt (1 + dot tan tan)) in *. rewrite <- Q. field. lra.
  - assert (S := sqrt_lt_R0 _ H). assert (Q := sqrt_sqrt _ (Rlt_le _ _ H)).
    set (q := sqrt (beta * lg * lg + dot tan tan)) in *. rewrite <- Q. field. lra.
  - rewrite Rplus_0_l in *. unfold norm2. assert (S := sqrt_lt_R0 _ H). assert (Q := sqrt_sqrt _ (Rlt_le _ _ H)).
    set (q := sqrt (dot tan tan)) in *. rewrite <- Q. field. lra.
Qed.

Lemma predictor_dlam : forall arclen beta lg res tan old t u,
  dlam (predictor n arclen beta lg res tan old t u) = predictorSize n arclen beta lg tan \/
  dlam (predictor n arclen beta lg res tan old t u) = - predictorSize n arclen beta lg tan.
Proof. intros. unfold predictor. cbn. destruct old; auto. destruct (Rlt_dec _ 0); auto. Qed.

Theorem predictor_length : forall arclen beta lg res tan old t u,
  let p := predictor n arclen beta lg res tan old t u in
  let w := if Rlt_dec beta 0 then 1 else if Rlt_dec 0 beta then beta * lg * lg else 0 in
  0 < w + dot tan tan -> dlam p * dlam p * (w + dot tan tan) = arclen * arclen.
Proof.
  intros arclen beta lg res tan old t u p w H. rewrite <- (predictor_size arclen beta lg tan H).
  destruct (predictor_dlam arclen beta lg res tan old t u) as [E|E]; fold p in E; rewrite E; fold w; ring.
Qed.

Lemma predictor_nonneg : forall arclen beta lg tan,
  let w := if Rlt_dec beta 0 then 1 else if Rlt_dec 0 beta then beta * lg * lg else 0 in
  0 < w + dot tan tan -> 0 <= arclen -> 0 <= predictorSize n arclen beta lg tan.
Proof.
  intros arclen beta lg tan w H A. unfold predictorSize. rewrite norm2_sq. unfold w in *. unfold Rdiv.
  destruct (Rlt_dec beta 0); [|destruct (Rlt_dec 0 beta)]; (apply Rmult_le_pos; [auto|]; left; apply Rinv_0_lt_compat).
  - now apply sqrt_lt_R0.
  - now apply sqrt_lt_R0.
  - rewrite Rplus_0_l in H. unfold norm2. now apply sqrt_lt_R0.
Qed.

(** The predictor continues in the direction of the last increment. *)
Theorem predictor_forward : forall arclen beta lg res tan old t u,
  let w := if Rlt_dec beta 0 then 1 else if Rlt_dec 0 beta then beta * lg * lg else 0 in
  0 < w + dot tan tan -> 0 <= arclen ->
  0 <= dlam (predictor n arclen beta lg res tan (Some old) t u) * dot old tan.
Proof.
  intros arclen beta lg res tan old t u w H A. assert (P := predictor_nonneg arclen beta lg tan H A). unfold predictor. cbn.
  destruct (Rlt_dec (dot old tan) 0); nra.
Qed.

Theorem corrector_plane : forall beta s res tan, beta < 0 -> dot (inc s) tan + dlam s <> 0 ->
  let s' := corrector n beta s res tan in
  dot (inc s) (axpy (inc s') (inc s) (-1)) + dlam s * (dlam s' - dlam s) = 0.
Proof.
  intros beta s res tan B D s'. unfold s', corrector. cbn [inc dlam].
  rewrite !dot_axpy_r. unfold correctorSize. destruct (Rlt_dec beta 0); [|contradiction]. field. exact D.
Qed.

Theorem corrector_tangent : forall beta s res tan, 0 <= beta ->
  let s' := corrector n beta s res tan in
  dot tan (axpy (inc s') (inc s) (-1)) + (dlam s' - dlam s) = 0.
Proof.
  intros beta s res tan B s'. unfold s', corrector. cbn [inc dlam].
  rewrite !dot_axpy_r. unfold correctorSize. destruct (Rlt_dec beta 0); [lra|]. assert (P := dot_pos tan). field. lra.
Qed.

(** The increments always add up to the total change. *)
Theorem totals : forall beta h arclen lg res tan old t u,
  let s := correct n beta (predictor n arclen beta lg res tan old t u) h in
  lam s = t + dlam s /\ forall i, sol s i = u i + inc s i.
Proof.
  intros beta h arclen lg res tan old t u s.
  assert (G : forall h s0, lam s0 = t + dlam s0 /\ (forall i, sol s0 i = u i + inc s0 i) ->
     lam (correct n beta s0 h) = t + dlam (correct n beta s0 h) /\ forall i, sol (correct n beta s0 h) i = u i + inc (correct n beta s0 h) i).
  { clear. induction h as [|[r v] h IH]; intros s0 [A B]; [auto|]. cbn. apply IH. unfold corrector. cbn. split; [lra|].
    intros i. unfold axpy. rewrite B. lra. }
  apply G. unfold predictor. cbn. split; [lra|]. intros i. unfold axpy. lra.
Qed.

(** Normal plane iterations never shorten the increment. *)
Lemma corrector_arc : forall beta s res tan, beta < 0 -> dot (inc s) tan + dlam s <> 0 -> arc2 s <= arc2 (corrector n beta s res tan).
Proof.
  intros beta s res tan B D. assert (P := corrector_plane beta s res tan B D). unfold arc2, corrector in *. cbn [inc dlam] in *.
  set (d := correctorSize n beta s res tan) in *. set (l := axpy res tan d) in *. rewrite dot_axpy_r in P. rewrite dot_axpy_r in P.
  rewrite dot_axpy_r, !dot_axpy_l. rewrite (dot_sym l (inc s)). assert (Q := dot_pos l).
  assert (0 <= d * d) by apply Rle_0_sqr. nra.
Qed.

Theorem arc_grows : forall beta h s, beta < 0 -> regular beta s h -> arc2 s <= arc2 (correct n beta s h).
Proof.
  intros beta h. induction h as [|[r v] h IH]; intros s B H; [cbn; lra|]. destruct H as [H1 H2]. cbn.
  apply Rle_trans with (arc2 (corrector n beta s r v)); [now apply corrector_arc|]. now apply IH.
Qed.

Theorem arc_at_least : forall arclen beta lg tan old t u h, beta < 0 -> 
  let p := predictor n arclen beta lg (fun _ => 0) tan old t u in
  arc2 p = arclen * arclen /\ (regular beta p h -> arclen * arclen <= arc2 (correct n beta p h)).
Proof.
  intros arclen beta lg tan old t u h B p.
  assert (E : arc2 p = arclen * arclen).
  { assert (L := predictor_length arclen beta lg (fun _ => 0) tan old t u). cbv zeta in L. fold p in L.
    destruct (Rlt_dec beta 0); [|contradiction]. assert (P := dot_pos tan). rewrite <- L by lra. clear L. unfold arc2.
    assert (I : inc p = axpy (fun _ => 0) tan (dlam p)) by reflexivity.
    rewrite I. rewrite dot_axpy_r, !dot_axpy_l.
    assert (Z : forall v, dot (fun _ => 0) v = 0) by (intros; unfold ArcLength.dot; apply sumf_0; intros; ring).
    rewrite (dot_sym tan (fun _ => 0)), !Z. ring. }
  split; auto. intros R. rewrite <- E. now apply arc_grows.
Qed.
End Path.
