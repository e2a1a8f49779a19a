From Verif Require Import Lib.Base Lib.Sums Lib.Writes Lib.Congruence Model.Continuum Spec.Continuum.

Lemma hitsum_mat n m g i0 j0 : (1 <= i0 <= n)%nat -> (1 <= j0 <= m)%nat ->
  hitsum i0 j0 (loop n (fun i => loop m (fun j => [(i, j, g i j)]))) = g i0 j0.
Proof.
  intros Hi Hj. rewrite hitsum_loop. apply (sumf_pick n i0); [exact Hi| |].
  - intros i Ri Ni. rewrite hitsum_loop. apply sumf_0. intros j Rj. rewrite hitsum_one.
    destruct (Nat.eqb_spec i0 i); [congruence|reflexivity].
  - rewrite hitsum_loop. apply (sumf_pick m j0); [exact Hj| |].
    + intros j Rj Nj. rewrite hitsum_one. destruct (Nat.eqb_spec j0 j); [congruence|]. rewrite andb_false_r. reflexivity.
    + rewrite hitsum_one, !Nat.eqb_refl. reflexivity.
Qed.

Lemma hitsum_unit n i0 j0 : (1 <= i0 <= n)%nat -> hitsum i0 j0 (loop n (fun i => [(i, i, 1)])) = kron i0 j0.
Proof.
  intros Hi. rewrite hitsum_loop. apply (sumf_pick n i0); [exact Hi| |].
  - intros i Ri Ni. rewrite hitsum_one. destruct (Nat.eqb_spec i0 i); [congruence|reflexivity].
  - rewrite hitsum_one, Nat.eqb_refl. unfold kron. rewrite (Nat.eqb_sym i0 j0). cbn [andb]. reflexivity.
Qed.

Definition plane (d n : nat) (N : nat -> R) (G : nat -> nat -> R) (r : R) : elm := mkElm d false n d N G r.

(** ** Deformation gradient *)
Lemma defgrad_ok d n N G r u go : (1 <= d)%nat -> (1 <= n)%nat ->
  exists F, formDefGradient (plane d n N G r) (d * n) u go = Ret F /\ rows F = d /\ cols F = d /\
    forall i j, (1 <= i <= d)%nat -> (1 <= j <= d)%nat ->
      el F i j = (if go then 0 else kron i j) + gradient d n G u i j.
Proof.
  intros Hd Hn. unfold formDefGradient, nDF. cbn [axi plane nsd nen ncol].
  destruct (Nat.eqb_spec (d * n) 0) as [E|_]; [exfalso; nia|].
  rewrite Nat.eqb_refl, Nat.ltb_irrefl. cbn [negb orb andb].
  destruct (run_add_ok (loop d (fun i => loop d (fun j => [(i, j, gradU (plane d n N G r) u i j)])))
    (mkMat d d (fun i j => if go then 0 else kron i j))) as [F [E [Er [Ec Ee]]]].
  { intros i j v Hv. apply In_loop in Hv. destruct Hv as [i' [Hi' Hv]]. apply In_loop in Hv. destruct Hv as [j' [Hj' [Hv|[]]]].
    injection Hv as <- <- <-. apply inb_true; cbn; lia. }
  exists F. unfold plane in *. rewrite E. cbn [bind]. repeat split; try assumption.
  intros i j Hi Hj. rewrite Ee, hitsum_mat by assumption. reflexivity.
Qed.

(** ** Green strain storage *)
Lemma green_ok d n N G r H : (d = 2 \/ d = 3)%nat ->
  exists E, greenStrain (plane d n N G r) H = Ret E /\
    forall v, (1 <= v <= nvoigt d)%nat ->
      el E v 1 = greenVoigt d (fun i j => kron i j + el H i j) v.
Proof.
  intros [-> | ->]; unfold greenStrain; cbn [axi plane nsd]; eexists; (split; [reflexivity|]); intros v Hv;
    unfold nvoigt in Hv; cbn in Hv; idx v; try (exfalso; lia);
    unfold greenVoigt, cauchyGreen, kron; cbn; field.
Qed.

(** ** B-matrix *)
Definition bnl (d : nat) (F G : nat -> nat -> R) (v i a : nat) : R :=
  let '(p, q) := vpair d v in
  if (p =? q)%nat then F i p * G a p else F i p * G a q + F i q * G a p.

Ltac inl H := first
  [ apply In_loop in H; let x := fresh "x" in let Hx := fresh "Hx" in destruct H as [x [Hx H]]; inl H
  | idtac ].
Ltac inw H := repeat (destruct H as [H|H]; [apply wr_inj in H; destruct H as [? [? ?]]; try subst|]); try destruct H.

Lemma bnl_ok d n N G r F : (d = 2 \/ d = 3)%nat ->
  exists B, formBnl (plane d n N G r) F = Ret B /\ rows B = nvoigt d /\ cols B = (d * n)%nat /\
    forall v a i, (1 <= v <= nvoigt d)%nat -> (1 <= a <= n)%nat -> (1 <= i <= d)%nat ->
      el B v (dof d a i) = bnl d (el F) G v i a.
Proof.
  intros Hd. unfold formBnl. cbn [axi plane nsd nen dN].
  set (ns := (d * (d + 1) / 2)%nat).
  assert (Hns : ns = nvoigt d) by reflexivity.
  destruct (run_set_ok (loop n (fun a => loop d (fun i => loop d (fun j => [(INDEX ns j i, a, el F i j * G a j)]))))
    (zeros (ns * d) n)) as [B1 [E1 [R1 [C1 [W1 N1]]]]].
  { intros i j v Hv. inl Hv. inw Hv. apply inb_true; cbn; [|lia]. unfold INDEX.
    destruct Hd as [-> | ->]; unfold ns; cbn; lia. }
  rewrite E1. cbn [bind].
  destruct Hd as [-> | ->]; unfold ns, nvoigt in *; cbn in Hns; clear Hns.
  - change (2 * (2 + 1) / 2)%nat with 3%nat in *.
    destruct (run_set_ok (loop n (fun a => loop 2 (fun i => [(INDEX 3 3 i, a, el F i 1%nat * G a 2%nat + el F i 2%nat * G a 1%nat)])))
      B1) as [B2 [E2 [R2 [C2 [W2 N2]]]]].
    { intros i j v Hv. inl Hv. inw Hv. apply inb_true; rewrite ?R1, ?C1; unfold INDEX; cbn; lia. }
    rewrite E2. cbn [bind]. eexists. split; [reflexivity|]. split; [reflexivity|]. split; [reflexivity|].
    intros v a i Hv Ha Hi.
    rewrite reshape_dof by (rewrite ?R2, ?R1; cbn; lia).
    assert (Hvc : (v = 1 \/ v = 2 \/ v = 3)%nat) by lia.
    destruct Hvc as [-> | [-> | ->]].
    + rewrite N2. 2:{ intros w Hw. inl Hw. inw Hw. unfold INDEX in *. lia. }
      apply W1.
      * apply In_loop. exists a. split; [exact Ha|]. apply In_loop. exists i. split; [exact Hi|]. apply In_loop. exists 1%nat. split; [lia|]. left. reflexivity.
      * intros w Hw. inl Hw. inw Hw. unfold INDEX in *. assert (x1 = 1 /\ x0 = i)%nat as [-> ->] by lia. reflexivity.
    + rewrite N2. 2:{ intros w Hw. inl Hw. inw Hw. unfold INDEX in *. lia. }
      apply W1.
      * apply In_loop. exists a. split; [exact Ha|]. apply In_loop. exists i. split; [exact Hi|]. apply In_loop. exists 2%nat. split; [lia|]. left. reflexivity.
      * intros w Hw. inl Hw. inw Hw. unfold INDEX in *. assert (x1 = 2 /\ x0 = i)%nat as [-> ->] by lia. reflexivity.
    + apply W2.
      * apply In_loop. exists a. split; [exact Ha|]. apply In_loop. exists i. split; [exact Hi|]. left. reflexivity.
      * intros w Hw. inl Hw. inw Hw. unfold INDEX in *. assert (x0 = i)%nat as -> by lia. reflexivity.
  - change (3 * (3 + 1) / 2)%nat with 6%nat in *.
    destruct (run_set_ok (loop n (fun a => loop 3 (fun i =>
        [(INDEX 6 4 i, a, el F i 1%nat * G a 2%nat + el F i 2%nat * G a 1%nat);
         (INDEX 6 5 i, a, el F i 2%nat * G a 3%nat + el F i 3%nat * G a 2%nat);
         (INDEX 6 6 i, a, el F i 3%nat * G a 1%nat + el F i 1%nat * G a 3%nat)])))
      B1) as [B2 [E2 [R2 [C2 [W2 N2]]]]].
    { intros i j v Hv. inl Hv. inw Hv; apply inb_true; rewrite ?R1, ?C1; unfold INDEX; cbn; lia. }
    rewrite E2. cbn [bind]. eexists. split; [reflexivity|]. split; [reflexivity|]. split; [reflexivity|].
    intros v a i Hv Ha Hi.
    rewrite reshape_dof by (rewrite ?R2, ?R1; cbn; lia).
    assert (Hvc : (v = 1 \/ v = 2 \/ v = 3 \/ v = 4 \/ v = 5 \/ v = 6)%nat) by lia.
    assert (Lo : forall v, (1 <= v <= 3)%nat -> el B2 (v + 6 * (i - 1))%nat a = el F i v * G a v).
    { intros w Hw. rewrite N2. 2:{ intros z Hz. inl Hz. inw Hz; unfold INDEX in *; lia. }
      apply W1.
      * apply In_loop. exists a. split; [exact Ha|]. apply In_loop. exists i. split; [exact Hi|]. apply In_loop. exists w. split; [lia|]. left. reflexivity.
      * intros z Hz. inl Hz. inw Hz. unfold INDEX in *. assert (x1 = w /\ x0 = i)%nat as [-> ->] by lia. reflexivity. }
    destruct Hvc as [-> | [-> | [-> | [-> | [-> | ->]]]]].
    + apply Lo; lia.
    + apply Lo; lia.
    + apply Lo; lia.
    + apply W2.
      * apply In_loop. exists a. split; [exact Ha|]. apply In_loop. exists i. split; [exact Hi|]. left. reflexivity.
      * intros w Hw. inl Hw. inw Hw; unfold INDEX in *; try (exfalso; lia). assert (x0 = i)%nat as -> by lia. reflexivity.
    + apply W2.
      * apply In_loop. exists a. split; [exact Ha|]. apply In_loop. exists i. split; [exact Hi|]. right. left. reflexivity.
      * intros w Hw. inl Hw. inw Hw; unfold INDEX in *; try (exfalso; lia). assert (x0 = i)%nat as -> by lia. reflexivity.
    + apply W2.
      * apply In_loop. exists a. split; [exact Ha|]. apply In_loop. exists i. split; [exact Hi|]. right. right. left.
        unfold bnl. cbn. f_equal. ring.
      * intros w Hw. inl Hw. inw Hw; unfold INDEX in *; try (exfalso; lia). assert (x0 = i)%nat as -> by lia. unfold bnl. cbn. ring.
Qed.

(** The linear strain-displacement matrix is the nonlinear one at F = I. *)
Lemma blin_ok d n N G r : (d = 2 \/ d = 3)%nat ->
  exists B, formBmatrix (plane d n N G r) = Ret B /\ rows B = nvoigt d /\ cols B = (d * n)%nat /\
    forall v a i, (1 <= v <= nvoigt d)%nat -> (1 <= a <= n)%nat -> (1 <= i <= d)%nat ->
      el B v (dof d a i) = bnl d kron G v i a.
Proof.
  intros Hd. unfold formBmatrix. cbn [axi plane nsd nen dN ncol]. rewrite Nat.ltb_irrefl.
  destruct Hd as [-> | ->].
  - change (2 * (2 + 1) / 2)%nat with 3%nat.
    match goal with |- exists B, bind (run_set ?m ?ws) _ = _ /\ _ => destruct (run_set_ok ws m) as [B1 [E1 [R1 [C1 [W1 N1]]]]] end.
    { intros i j v Hv. inl Hv. inw Hv; apply inb_true; unfold INDEX; cbn; lia. }
    rewrite E1. cbn [bind]. eexists. split; [reflexivity|]. split; [reflexivity|]. split; [reflexivity|].
    intros v a i Hv Ha Hi. unfold nvoigt in Hv. cbn in Hv.
    rewrite reshape_dof by (rewrite ?R1; cbn; lia).
    assert (Hvc : (v = 1 \/ v = 2 \/ v = 3)%nat) by lia.
    assert (Hic : (i = 1 \/ i = 2)%nat) by lia.
    destruct Hvc as [-> | [-> | ->]], Hic as [-> | ->]; unfold bnl, kron; cbn -[INDEX];
      first
      [ etransitivity; [apply N1; intros w Hw; inl Hw; inw Hw; unfold INDEX in *; lia|cbn; ring]
      | etransitivity; [apply W1;
          [ apply In_loop; exists a; split; [exact Ha|]; unfold INDEX; cbn; repeat (first [left; reflexivity | right])
          | intros w Hw; inl Hw; inw Hw; unfold INDEX in *; first [exfalso; lia | reflexivity]] | ring ] ].
  - change (3 * (3 + 1) / 2)%nat with 6%nat.
    match goal with |- exists B, bind (run_set ?m ?ws) _ = _ /\ _ => destruct (run_set_ok ws m) as [B1 [E1 [R1 [C1 [W1 N1]]]]] end.
    { intros i j v Hv. inl Hv. inw Hv; apply inb_true; unfold INDEX; cbn; lia. }
    rewrite E1. cbn [bind]. eexists. split; [reflexivity|]. split; [reflexivity|]. split; [reflexivity|].
    intros v a i Hv Ha Hi. unfold nvoigt in Hv. cbn in Hv.
    rewrite reshape_dof by (rewrite ?R1; cbn; lia).
    assert (Hvc : (v = 1 \/ v = 2 \/ v = 3 \/ v = 4 \/ v = 5 \/ v = 6)%nat) by lia.
    assert (Hic : (i = 1 \/ i = 2 \/ i = 3)%nat) by lia.
    destruct Hvc as [-> | [-> | [-> | [-> | [-> | ->]]]]], Hic as [-> | [-> | ->]]; unfold bnl, kron; cbn -[INDEX];
      first
      [ etransitivity; [apply N1; intros w Hw; inl Hw; inw Hw; unfold INDEX in *; lia|cbn; ring]
      | etransitivity; [apply W1;
          [ apply In_loop; exists a; split; [exact Ha|]; unfold INDEX; cbn; repeat (first [left; reflexivity | right])
          | intros w Hw; inl Hw; inw Hw; unfold INDEX in *; first [exfalso; lia | reflexivity]] | ring ] ].
Qed.
