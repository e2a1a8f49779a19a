From Verif Require Import Lib.Base Lib.Sums Lib.Writes Lib.Congruence Model.Continuum Spec.Continuum
  Proofs.Continuum Proofs.ContinuumKin.

Definition axisym (n : nat) (N : nat -> R) (G : nat -> nat -> R) (r : R) : elm := mkElm 2 true n 2 N G r.

Lemma epsR_pos : 0 < epsR.
Proof. unfold epsR. apply Rinv_0_lt_compat, pow_lt. lra. Qed.
Lemma epsR_lt1 : epsR < 1.
Proof. unfold epsR. rewrite <- Rinv_1. apply Rinv_lt_contravar; [|apply Rlt_pow_R1; [lra|lia]]. rewrite Rmult_1_l. apply pow_lt. lra. Qed.

(** Radial stretch of the interpolated displacement. *)
Definition radialDisp (n : nat) (N u : nat -> R) : R := sumf n (fun a => u (2 * (a - 1) + 1)%nat * N a).

Lemma axi_grad n N G r u : (1 <= n)%nat ->
  exists H, formDefGradient (axisym n N G r) (2 * n) u true = Ret H /\ rows H = 3%nat /\ cols H = 3%nat /\
    (forall i j, (1 <= i <= 2)%nat -> (1 <= j <= 2)%nat -> el H i j = gradient 2 n G u i j) /\
    (forall i j, (3 <= i)%nat \/ (3 <= j)%nat -> el H i j = 0).
Proof.
  intros Hn. unfold formDefGradient, nDF. cbn [axi axisym nsd nen ncol].
  destruct (Nat.eqb_spec (2 * n) 0) as [E|_]; [exfalso; lia|]. rewrite Nat.eqb_refl, Nat.ltb_irrefl. cbn [negb orb andb].
  match goal with |- exists E0, bind (run_add ?m ?ws) _ = _ /\ _ => destruct (run_add_ok ws m) as [F [E [Er [Ec Ee]]]] end.
  { intros i j v Hv. inl Hv. inw Hv. apply inb_true; cbn; lia. }
  exists F. rewrite E. cbn [bind]. split; [reflexivity|]. split; [exact Er|]. split; [exact Ec|]. split.
  - intros i j Hi Hj. rewrite Ee, (hitsum_mat 2 2 (gradU (mkElm 2 true n 2 N G r) u)) by assumption. cbn [el]. unfold gradU, gradient, dof. cbn [nsd nen dN]. ring.
  - intros i j Hij. rewrite Ee. cbn [el]. rewrite hitsum_loop, sumf_0; [ring|]. intros i' Hi'. rewrite hitsum_loop. apply sumf_0. intros j' Hj'.
    rewrite hitsum_one. destruct (Nat.eqb_spec i i'), (Nat.eqb_spec j j'); cbn [andb]; try reflexivity. subst. exfalso. lia.
Qed.

Lemma axi_green n N G r H : 
  exists E, greenStrain (axisym n N G r) H = Ret E /\ el E 3 1 = 0 /\
    el E 1 1 = greenVoigt 2 (fun i j => kron i j + el H i j) 1 /\
    el E 2 1 = greenVoigt 2 (fun i j => kron i j + el H i j) 2 /\
    el E 4 1 = greenVoigt 2 (fun i j => kron i j + el H i j) 3.
Proof.
  unfold greenStrain; cbn [axi axisym nsd]; eexists; (split; [reflexivity|]).
  split; [reflexivity|]. unfold greenVoigt, cauchyGreen, kron; cbn. split; [field|split; field].
Qed.

Lemma axi_B n N G r F : (3 <= n)%nat ->
  exists B, formBnl (axisym n N G r) F = Ret B /\
    (forall a i, (1 <= a <= n)%nat -> (1 <= i <= 2)%nat -> a <> 3%nat -> el B 3 (dof 2 a i) = 0) /\
    (forall a i, (1 <= a <= n)%nat -> (1 <= i <= 2)%nat -> el B 1 (dof 2 a i) = bnl 2 (el F) G 1 i a) /\
    (forall a i, (1 <= a <= n)%nat -> (1 <= i <= 2)%nat -> el B 2 (dof 2 a i) = bnl 2 (el F) G 2 i a) /\
    (forall a i, (1 <= a <= n)%nat -> (1 <= i <= 2)%nat -> el B 4 (dof 2 a i) = bnl 2 (el F) G 3 i a).
Proof.
  intros Hn. unfold formBnl. cbn [axi axisym nsd nen dN shp rad].
  match goal with |- exists B, bind (run_set ?m ?ws) _ = _ /\ _ => destruct (run_set_ok ws m) as [B1 [E1 [R1 [C1 [W1 N1]]]]] end.
  { intros i j v Hv. inl Hv. inw Hv. apply inb_true; cbn; unfold INDEX; lia. }
  rewrite E1. cbn [bind].
  match goal with |- exists B, bind (run_set ?m ?ws) _ = _ /\ _ => destruct (run_set_ok ws m) as [B2 [E2 [R2 [C2 [W2 N2]]]]] end.
  { intros i j v Hv. apply In_loop in Hv. destruct Hv as [a [Ha Hv]]. apply in_app_iff in Hv. destruct Hv as [Hv|Hv].
    - inl Hv. inw Hv. apply inb_true; rewrite ?R1, ?C1; unfold INDEX; cbn; lia.
    - inw Hv. apply inb_true; rewrite ?R1, ?C1; unfold INDEX; cbn; lia. }
  rewrite E2. cbn [bind]. eexists. split; [reflexivity|].
  assert (RR : forall v a i, (1 <= v <= 4)%nat -> (1 <= a <= n)%nat -> (1 <= i <= 2)%nat ->
     el (reshape B2 4 (2 * n)) v (dof 2 a i) = el B2 (v + 4 * (i - 1)) a).
  { intros. apply reshape_dof; try lia. rewrite R2, R1. reflexivity. }
  assert (Lo : forall v a i, (1 <= v <= 2)%nat -> (1 <= a <= n)%nat -> (1 <= i <= 2)%nat -> el B2 (v + 4 * (i - 1)) a = el F i v * G a v).
  { intros v a i Hv Ha Hi. rewrite N2.
    2:{ intros w Hw. apply In_loop in Hw. destruct Hw as [a' [Ha' Hw]]. apply in_app_iff in Hw. destruct Hw as [Hw|Hw].
        - inl Hw. inw Hw. unfold INDEX in *. lia.
        - inw Hw. unfold INDEX in *. lia. }
    apply W1.
    - apply In_loop. exists a. split; [exact Ha|]. apply In_loop. exists i. split; [exact Hi|]. apply In_loop. exists v. split; [lia|]. left. reflexivity.
    - intros w Hw. inl Hw. inw Hw. unfold INDEX in *. assert (x1 = v /\ x0 = i)%nat as [-> ->] by lia. reflexivity. }
  split; [|split; [|split]].
  - intros a i Ha Hi Ha3. rewrite RR by lia. rewrite N2.
    2:{ intros w Hw. apply In_loop in Hw. destruct Hw as [a' [Ha' Hw]]. apply in_app_iff in Hw. destruct Hw as [Hw|Hw].
        - inl Hw. inw Hw. unfold INDEX in *. lia.
        - inw Hw. unfold INDEX in *. lia. }
    rewrite N1; [reflexivity|]. intros w Hw. inl Hw. inw Hw. unfold INDEX in *. lia.
  - intros a i Ha Hi. rewrite RR by lia. apply Lo; lia.
  - intros a i Ha Hi. rewrite RR by lia. apply Lo; lia.
  - intros a i Ha Hi. rewrite RR by lia. apply W2.
    + apply In_loop. exists a. split; [exact Ha|]. apply in_app_iff. left. apply In_loop. exists i. split; [exact Hi|]. left. reflexivity.
    + intros w Hw. apply In_loop in Hw. destruct Hw as [a' [Ha' Hw]]. apply in_app_iff in Hw. destruct Hw as [Hw|Hw].
      * inl Hw. inw Hw. unfold INDEX in *. assert (x = i)%nat as -> by lia. reflexivity.
      * inw Hw. unfold INDEX in *. exfalso. lia.
Qed.

(** What the axisymmetric total-Lagrangian kinematics returns: the in-plane part is right, the stored hoop
    strain is always zero and the hoop row of B is zero for every node but the third. *)
Theorem axi_tl n N G r u : (3 <= n)%nat -> epsR < r ->
  exists F E B, kinematicsTL (axisym n N G r) (2 * n) u = Ret (F, E, B) /\
    (forall i j, (1 <= i <= 2)%nat -> (1 <= j <= 2)%nat -> el F i j = kron i j + gradient 2 n G u i j) /\
    el F 3 3 = 1 + radialDisp n N u / r /\
    el E 1 1 = greenVoigt 2 (el F) 1 /\ el E 2 1 = greenVoigt 2 (el F) 2 /\ el E 4 1 = greenVoigt 2 (el F) 3 /\
    (forall a i, (1 <= a <= n)%nat -> (1 <= i <= 2)%nat ->
       el B 1 (dof 2 a i) = bnl 2 (el F) G 1 i a /\ el B 2 (dof 2 a i) = bnl 2 (el F) G 2 i a /\ el B 4 (dof 2 a i) = bnl 2 (el F) G 3 i a) /\
    el E 3 1 = 0 /\ (forall a i, (1 <= a <= n)%nat -> (1 <= i <= 2)%nat -> a <> 3%nat -> el B 3 (dof 2 a i) = 0).
Proof.
  intros Hn Hr. unfold kinematicsTL. destruct (Nat.eqb_spec (2 * n) 0) as [E|_]; [exfalso; lia|].
  destruct (axi_grad n N G r u) as [H [EH [RH [CH [eH zH]]]]]; [lia|]. rewrite EH. cbn [bind].
  destruct (axi_green n N G r H) as [E [EE [e3 [e1 [e2 e4]]]]]. rewrite EE. cbn [bind].
  unfold nDF. cbn [axi axisym nsd rad].
  destruct (run_add_ok (loop 3 (fun i => [(i, i, 1)])) H) as [F1 [EF [RF [CF eF]]]].
  { intros i j v Hv. inl Hv. inw Hv. apply inb_true; lia. }
  rewrite EF. cbn [bind]. destruct (Rlt_dec epsR r) as [_|C]; [|contradiction].
  destruct (run_add_ok [(3%nat, 3%nat, udotN (axisym n N G r) u / r)] F1) as [F [EF2 [RF2 [CF2 eF2]]]].
  { intros i j v Hv. inw Hv. apply inb_true; rewrite ?RF, ?CF; lia. }
  rewrite EF2. cbn [bind]. 
  destruct (axi_B n N G r F Hn) as [B [EB [b3 [b1 [b2 b4]]]]]. rewrite EB. cbn [bind].
  assert (HF : forall i j, (1 <= i <= 2)%nat -> (1 <= j <= 2)%nat -> el F i j = kron i j + el H i j).
  { intros i j Hi Hj. rewrite eF2, hitsum_one, eF, hitsum_unit by lia.
    destruct (Nat.eqb_spec i 3); [lia|]. cbn [andb]. ring. }
  assert (GE : forall v, (1 <= v <= 3)%nat -> greenVoigt 2 (fun i j => kron i j + el H i j) v = greenVoigt 2 (el F) v).
  { intros v Hv. apply greenVoigt_ext; [auto|exact Hv|]. intros i j Hi Hj. symmetry. apply HF; assumption. }
  exists F, E, B. split; [reflexivity|]. rewrite <- !GE by lia.
  split; [intros i j Hi Hj; rewrite HF, eH by assumption; reflexivity|].
  split. { rewrite eF2, hitsum_one, eF, hitsum_unit, zH by lia. cbn [Nat.eqb andb]. unfold kron. cbn [Nat.eqb].
           unfold udotN, radialDisp. cbn [nen nsd shp axisym].
           rewrite (sumf_ext n (fun a => u (1 + 2 * (a - 1))%nat * N a) (fun a => u (2 * (a - 1) + 1)%nat * N a)) by (intros; do 2 f_equal; lia). lra. }
  split; [exact e1|]. split; [exact e2|]. split; [exact e4|]. split; [intros a i Ha Hi; auto|]. split; assumption.
Qed.

(** With fewer than three nodes the hoop write is outside the matrix. *)
Theorem axi_tl_ub n N G r u : (1 <= n < 3)%nat -> epsR < r -> kinematicsTL (axisym n N G r) (2 * n) u = UB.
Proof.
  intros Hn Hr. unfold kinematicsTL. destruct (Nat.eqb_spec (2 * n) 0) as [E|_]; [exfalso; lia|].
  destruct (axi_grad n N G r u) as [H [EH [RH [CH [eH zH]]]]]; [lia|]. rewrite EH. cbn [bind].
  destruct (axi_green n N G r H) as [E [EE _]]. rewrite EE. cbn [bind].
  unfold nDF. cbn [axi axisym nsd rad].
  destruct (run_add_ok (loop 3 (fun i => [(i, i, 1)])) H) as [F1 [EF [RF [CF eF]]]].
  { intros i j v Hv. inl Hv. inw Hv. apply inb_true; lia. }
  rewrite EF. cbn [bind]. destruct (Rlt_dec epsR r) as [_|C]; [|contradiction].
  destruct (run_add_ok [(3%nat, 3%nat, udotN (axisym n N G r) u / r)] F1) as [F [EF2 _]].
  { intros i j v Hv. inw Hv. apply inb_true; rewrite ?RF, ?CF; lia. }
  rewrite EF2. cbn [bind].
  unfold formBnl. cbn [axi axisym nsd nen dN shp rad].
  match goal with |- context [run_set (zeros ?a ?b) ?ws] => destruct (run_set_ok ws (zeros a b)) as [B1 [E1 [R1 [C1 [W1 N1]]]]] end.
  { intros i j v Hv. inl Hv. inw Hv. apply inb_true; cbn; unfold INDEX; lia. }
  rewrite E1. cbn [bind]. assert (Hc : cols B1 = n) by (rewrite C1; reflexivity).
  unfold loop at 1. destruct n as [|n']; [lia|]. cbn [seq flat_map].
  rewrite <- app_assoc. cbn [app]. rewrite run_set_oob; [reflexivity| |].
  - destruct (inb B1 (INDEX 4 3 1) 3) eqn:I; [|reflexivity]. apply inb_iff in I. rewrite Hc in I. lia.
  - intros a b w Hw. inl Hw. inw Hw. apply inb_true; rewrite ?R1, ?Hc; unfold INDEX; cbn; lia.
Qed.
