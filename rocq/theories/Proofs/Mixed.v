From Verif Require Import Lib.Base Lib.Sums Lib.Writes Model.Continuum Model.Mixed Spec.Mixed Proofs.Continuum.

(** ** The first elasticity tensor *)
Lemma amat2D_ok C Sg : symT 2 Sg -> forall k l, (1 <= k <= 4)%nat -> (1 <= l <= 4)%nat ->
  amat2D C Sg k l = let '(i, j) := gpair 2 k in let '(i', j') := gpair 2 l in firstElasticity 2 C Sg i j i' j'.
Proof.
  intros HS k l Hk Hl. pose proof (HS 1%nat 2%nat ltac:(lia) ltac:(lia)) as E.
  idx k; idx l; cbn; unfold firstElasticity, tensor4, kron; cbn; rewrite <- ?E; ring.
Qed.

Lemma amatAx_ok C Sg : symT 3 Sg -> Sg 1%nat 3%nat = 0 -> Sg 2%nat 3%nat = 0 ->
  forall k l, (1 <= k <= 5)%nat -> (1 <= l <= 5)%nat ->
  amatAx C Sg k l = let '(i, j) := gpairAx k in let '(i', j') := gpairAx l in firstElasticity 3 C Sg i j i' j'.
Proof.
  intros HS Z1 Z2 k l Hk Hl. pose proof (HS 1%nat 2%nat ltac:(lia) ltac:(lia)) as E.
  idx k; idx l; cbn; unfold firstElasticity, tensor4, kron; cbn; rewrite <- ?E; ring.
Qed.

Lemma amat3D_ok C Sg : symT 3 Sg -> forall k l, (1 <= k <= 9)%nat -> (1 <= l <= 9)%nat ->
  amat3D C Sg k l = (let '(i, j) := gpair 3 k in let '(i', j') := gpair 3 l in firstElasticity 3 C Sg i j i' j')
    + (if ((k =? 9) && (l =? 3))%nat%bool then Sg 1%nat 2%nat - Sg 1%nat 3%nat else 0).
Proof.
  intros HS k l Hk Hl.
  pose proof (HS 1%nat 2%nat ltac:(lia) ltac:(lia)) as E.
  pose proof (HS 1%nat 3%nat ltac:(lia) ltac:(lia)) as E1.
  pose proof (HS 2%nat 3%nat ltac:(lia) ltac:(lia)) as E2.
  idx k; idx l; cbn; unfold firstElasticity, tensor4, kron; cbn; rewrite <- ?E, <- ?E1, <- ?E2; ring.
Qed.

(** ** The discrete gradient operator and the F-bar tangent *)
Ltac dofs := repeat match goal with H : dof ?d ?a ?b = dof ?d ?c ?e |- _ => apply dof_inj in H; try lia; destruct H; try subst end.

Lemma gradOp_ok d hoop r N G n : (1 <= d)%nat -> exists M, gradOp d hoop r N G n = Ret M /\
  (forall i j a m, (1 <= i <= d)%nat -> (1 <= j <= d)%nat -> (1 <= a <= n)%nat -> (1 <= m <= d)%nat ->
     el M (dof d i j) (dof d a m) = kron j m * G a i) /\
  (hoop = true -> forall a m, (1 <= a <= n)%nat -> (1 <= m <= d)%nat -> el M (S (d * d)) (dof d a m) = kron m 1 * (N a / r)).
Proof.
  intros Hd. unfold gradOp.
  match goal with |- exists M, run_set ?m ?ws = _ /\ _ => destruct (run_set_ok ws m) as [M [E [R1 [C1 [W1 N1]]]]] end.
  { intros i j v Hv. apply In_loop in Hv. destruct Hv as [a [Ha Hv]]. apply in_app_iff in Hv. destruct Hv as [Hv|Hv].
    - inl Hv. inw Hv. apply inb_true; cbn [rows cols zeros].
      + pose proof (dof_range d d x x0 ltac:(assumption) ltac:(assumption)). unfold dof in *. destruct hoop; lia.
      + apply dof_range; assumption.
    - destruct hoop; [|inversion Hv]. inw Hv. apply inb_true; cbn [rows cols zeros]; [lia|]. apply dof_range; lia. }
  exists M. split; [exact E|].
  assert (Z : forall i j, el (zeros (if hoop then S (d * d) else (d * d)%nat) (d * n)) i j = 0) by reflexivity.
  split.
  - intros i j a m Hi Hj Ha Hm. pose proof (dof_range d d i j Hi Hj) as RG.
    assert (P : forall v', In (dof d i j, dof d a m, v') (loop n (fun a0 => loop d (fun i0 => loop d (fun j0 =>
        [(dof d i0 j0, dof d a0 j0, G a0 i0)])) ++ (if hoop then [(S (d * d), dof d a0 1, N a0 / r)] else []))) -> j = m /\ v' = G a i).
    { intros v' Hv. apply In_loop in Hv. destruct Hv as [a' [Ha' Hv]]. apply in_app_iff in Hv. destruct Hv as [Hv|Hv].
      - inl Hv. inw Hv. dofs. split; reflexivity.
      - destruct hoop; [|inversion Hv]. inw Hv. lia. }
    unfold kron. destruct (Nat.eqb_spec j m) as [->|Nj].
    + rewrite (W1 (dof d i m) (dof d a m) (G a i)); [ring| |intros v' Hv'; apply P in Hv'; tauto].
      apply In_loop. exists a. split; [exact Ha|]. apply in_app_iff. left. apply In_loop. exists i. split; [exact Hi|].
      apply In_loop. exists m. split; [exact Hm|]. left. reflexivity.
    + rewrite N1; [rewrite Z; ring|]. intros v' Hv'. apply P in Hv'. tauto.
  - intros -> a m Ha Hm.
    assert (P : forall v', In (S (d * d), dof d a m, v') (loop n (fun a0 => loop d (fun i0 => loop d (fun j0 =>
        [(dof d i0 j0, dof d a0 j0, G a0 i0)])) ++ [(S (d * d), dof d a0 1, N a0 / r)])) -> m = 1%nat /\ v' = N a / r).
    { intros v' Hv. apply In_loop in Hv. destruct Hv as [a' [Ha' Hv]]. apply in_app_iff in Hv. destruct Hv as [Hv|Hv].
      - inl Hv. inw Hv. pose proof (dof_range d d x x0 ltac:(assumption) ltac:(assumption)). unfold dof in *. lia.
      - inw Hv. dofs. split; reflexivity. }
    unfold kron. destruct (Nat.eqb_spec m 1) as [->|Nm].
    + rewrite (W1 (S (d * d)) (dof d a 1) (N a / r)); [ring| |intros v' Hv'; apply P in Hv'; tauto].
      apply In_loop. exists a. split; [exact Ha|]. apply in_app_iff. right. left. reflexivity.
    + rewrite N1; [rewrite Z; ring|]. intros v' Hv'. apply P in Hv'. tauto.
Qed.

(** The divergence rows of a gradient operator. *)
Definition divRow (d : nat) (hoop : bool) (G : nat -> nat -> R) (c : nat) : R :=
  sumf d (fun i => G (dof d i i) c) + (if hoop then G 5%nat c else 0).

Definition Qval (d ndf : nat) (hoop : bool) (Sg A : nat -> nat -> R) (k : nat) : R :=
  ((1 - INR ndf) * (let '(i, j) := (if hoop then gpairAx k else gpair d k) in Sg i j)
   + sumf d (fun m => A k (dof d m m)) + (if hoop then A k 5%nat else 0)) / INR ndf.

Lemma qmat_trace d hoop Sg A H k c : ((d = 2 \/ d = 3) /\ (hoop = true -> d = 2))%nat -> (1 <= k <= (if hoop then S (d * d) else d * d))%nat ->
  sumf (if hoop then S (d * d) else d * d) (fun l => qmat d (if hoop then 3 else d) hoop Sg A k l * H l c)
  = Qval d (if hoop then 3 else d) hoop Sg A k * divRow d hoop H c.
Proof.
  intros [[-> | ->] Hh] Hk.
  - destruct hoop; cbn in Hk; idx k; unfold qmat, Qval, divRow, gpairAx, gpair, dof; cbn; field.
  - destruct hoop; [discriminate (Hh eq_refl)|]. cbn in Hk. idx k; unfold qmat, Qval, divRow, gpair, dof; cbn; field.
Qed.

(** Where the divergence of the modified gradient operator agrees with the standard one the extra term is zero. *)
Lemma fbar_same_div d hoop Sg A G Gb p q : ((d = 2 \/ d = 3) /\ (hoop = true -> d = 2))%nat ->
  divRow d hoop G q = divRow d hoop Gb q ->
  let ng := (if hoop then S (d * d) else d * d)%nat in
  fbarTangent ng G Gb A (qmat d (if hoop then 3 else d) hoop Sg A) p q
  = matTmat ng G (fun k c => sumf ng (fun l => A k l * G l c)) p q.
Proof.
  intros Hd E ng. unfold fbarTangent. rewrite <- (Rplus_0_r (matTmat ng G (fun k c => sumf ng (fun l => A k l * G l c)) p q)) at 2. f_equal.
  unfold matTmat. apply sumf_0. intros k Hk. unfold ng in *.
  rewrite (qmat_trace d hoop Sg A (fun l c => Gb l c - G l c) k q Hd Hk).
  assert (D0 : divRow d hoop (fun l c => Gb l c - G l c) q = 0).
  { unfold divRow in *. rewrite sumf_minus. destruct hoop; lra. }
  rewrite D0. ring.
Qed.

(** Full F-bar correction: the extra term is (G^T q) (div bar - div). *)
Lemma fbar_tangent d hoop Sg A G Gb p q : ((d = 2 \/ d = 3) /\ (hoop = true -> d = 2))%nat ->
  let ng := (if hoop then S (d * d) else d * d)%nat in
  fbarTangent ng G Gb A (qmat d (if hoop then 3 else d) hoop Sg A) p q
  = matTmat ng G (fun k c => sumf ng (fun l => A k l * G l c)) p q
    + sumf ng (fun k => G k p * Qval d (if hoop then 3 else d) hoop Sg A k) * (divRow d hoop Gb q - divRow d hoop G q).
Proof.
  intros Hd ng. unfold fbarTangent. f_equal. unfold matTmat. rewrite <- sumf_scal_r. apply sumf_ext. intros k Hk. unfold ng in *.
  rewrite (qmat_trace d hoop Sg A (fun l c => Gb l c - G l c) k q Hd Hk).
  replace (divRow d hoop (fun l c => Gb l c - G l c) q) with (divRow d hoop Gb q - divRow d hoop G q); [ring|].
  unfold divRow. rewrite sumf_minus. destruct hoop; ring.
Qed.

(** The standard part is the sum of the material and the geometric stiffness (2D). *)
Lemma fbar_standard_2D C Sg G n M r N : symT 2 Sg -> gradOp 2 false r N G n = Ret M ->
  forall a b m k, (1 <= a <= n)%nat -> (1 <= b <= n)%nat -> (1 <= m <= 2)%nat -> (1 <= k <= 2)%nat ->
  matTmat 4 (el M) (fun x c => sumf 4 (fun l => amat2D C Sg x l * el M l c)) (dof 2 a m) (dof 2 b k)
  = sumf 3 (fun x => sumf 3 (fun y => bnl 2 kron G x m a * C x y * bnl 2 kron G y k b))
    + kron m k * sumf 2 (fun i => sumf 2 (fun j => G a i * Sg i j * G b j)).
Proof.
  intros HS E a b m k Ha Hb Hm Hk.
  destruct (gradOp_ok 2 false r N G n ltac:(lia)) as [M' [E' [V _]]]. rewrite E in E'. injection E' as <-.
  assert (S1 : Sg 2%nat 1%nat = Sg 1%nat 2%nat) by (apply HS; lia).
  assert (V1 : forall x c mm, (1 <= x <= 4)%nat -> (1 <= c <= n)%nat -> (1 <= mm <= 2)%nat -> el M x (dof 2 c mm) = kron (S ((x - 1) mod 2)) mm * G c (S ((x - 1) / 2))).
  { intros x c mm Hx Hc Hmm. rewrite <- (V (S ((x - 1) / 2)) (S ((x - 1) mod 2)) c mm); [f_equal; idx x; reflexivity| | |exact Hc|exact Hmm]; idx x; cbn; lia. }
  unfold matTmat. cbn [sumf]. rewrite !V1 by lia.
  idx m; idx k; unfold kron; cbn; unfold kron; cbn; rewrite ?S1; ring.
Qed.

(** Same in axisymmetric mode, with the hoop strain and the hoop stress. *)
Lemma fbar_standard_Ax C Sg G n M r N : symT 3 Sg -> gradOp 2 true r N G n = Ret M ->
  forall a b m k, (1 <= a <= n)%nat -> (1 <= b <= n)%nat -> (1 <= m <= 2)%nat -> (1 <= k <= 2)%nat ->
  matTmat 5 (el M) (fun x c => sumf 5 (fun l => amatAx C Sg x l * el M l c)) (dof 2 a m) (dof 2 b k)
  = sumf 4 (fun x => sumf 4 (fun y => strain7 true (N a / r) (G a) (fun _ => 0) x m * C x y * strain7 true (N b / r) (G b) (fun _ => 0) y k))
    + kron m k * sumf 2 (fun i => sumf 2 (fun j => G a i * Sg i j * G b j))
    + kron m 1 * kron k 1 * (N a / r * Sg 3%nat 3%nat * (N b / r)).
Proof.
  intros HS E a b m k Ha Hb Hm Hk.
  destruct (gradOp_ok 2 true r N G n ltac:(lia)) as [M' [E' [V W]]]. rewrite E in E'. injection E' as <-.
  assert (S1 : Sg 2%nat 1%nat = Sg 1%nat 2%nat) by (apply HS; lia).
  assert (V1 : forall x c mm, (1 <= x <= 4)%nat -> (1 <= c <= n)%nat -> (1 <= mm <= 2)%nat -> el M x (dof 2 c mm) = kron (S ((x - 1) mod 2)) mm * G c (S ((x - 1) / 2))).
  { intros x c mm Hx Hc Hmm. rewrite <- (V (S ((x - 1) / 2)) (S ((x - 1) mod 2)) c mm); [f_equal; idx x; reflexivity| | |exact Hc|exact Hmm]; idx x; cbn; lia. }
  assert (V5 : forall c mm, (1 <= c <= n)%nat -> (1 <= mm <= 2)%nat -> el M 5%nat (dof 2 c mm) = kron mm 1 * (N c / r)) by (intros; apply (W eq_refl); assumption).
  unfold matTmat. cbn [sumf]. rewrite !V5, !V1 by lia.
  generalize (N a / r), (N b / r). intros ra rb.
  idx m; idx k; unfold kron; cbn; unfold kron; cbn; rewrite ?S1; ring.
Qed.

(** ** Volume-modified deformation gradients *)
Lemma cpow_nonneg x y : 0 <= cpow x y.
Proof. unfold cpow. destruct (Req_EM_T x 0); [lra|]. unfold Rpower. left. apply exp_pos. Qed.

Lemma cpow_pow x n : 0 <= x -> (1 <= n)%nat -> cpow x (1 / INR n) ^ n = x.
Proof.
  intros Hx Hn. unfold cpow. destruct (Req_EM_T x 0) as [->|N]; [rewrite pow_i; [reflexivity|lia]|].
  rewrite <- Rpower_pow by apply exp_pos. rewrite Rpower_mult.
  replace (1 / INR n * INR n) with 1; [apply Rpower_1; lra|]. field. apply not_0_INR. lia.
Qed.

Lemma cpow_1 n : cpow 1 (1 / INR n) = 1.
Proof. unfold cpow. destruct (Req_EM_T 1 0); [lra|]. unfold Rpower. rewrite ln_1, Rmult_0_r. apply exp_0. Qed.

Lemma cpow_pos x y : 0 < x -> 0 < cpow x y.
Proof. intros H. unfold cpow. destruct (Req_EM_T x 0); [lra|]. apply exp_pos. Qed.

Lemma dt2_scale c F : dt2 (fun i j => F i j * c) = c ^ 2 * dt2 F.
Proof. unfold dt2. ring. Qed.
Lemma dt3_scale c F : dt3 (fun i j => F i j * c) = c ^ 3 * dt3 F.
Proof. unfold dt3. ring. Qed.

Theorem fbar_det d F Jb : (d = 2 \/ d = 3)%nat -> 0 < dt d F -> 0 < Jb ->
  dt d (fbarF d Jb (dt d F) F) = Jb /\ sameShape d F (fbarF d Jb (dt d F) F) /\
  (Jb = dt d F -> forall i j, fbarF d Jb (dt d F) F i j = F i j).
Proof.
  intros Hd HJ HB. unfold fbarF.
  assert (P : 0 < Jb / dt d F) by (apply Rdiv_lt_0_compat; assumption). rewrite Rabs_pos_eq by lra.
  split; [|split].
  - destruct Hd as [-> | ->]; unfold dt at 1; cbn [Nat.eqb]; [rewrite dt2_scale, cpow_pow by (lra || lia)|rewrite dt3_scale, cpow_pow by (lra || lia)];
      unfold dt in *; cbn [Nat.eqb] in *; field; lra.
  - exists (cpow (Jb / dt d F) (1 / INR d)). split; [apply cpow_pos; exact P|]. intros. ring.
  - intros -> i j. unfold Rdiv at 1. rewrite Rinv_r by lra. rewrite cpow_1. ring.
Qed.

(** In axisymmetric mode F is 3x3. The absolute value hides an inverted projected volume. *)
Theorem fbar_det_abs d F Jb : (d = 2 \/ d = 3)%nat -> 0 < dt d F -> dt d (fbarF d Jb (dt d F) F) = Rabs Jb.
Proof.
  intros Hd HJ. unfold fbarF.
  assert (E : Rabs (Jb / dt d F) = Rabs Jb / dt d F). { unfold Rdiv. rewrite Rabs_mult, (Rabs_pos_eq (/ _)); [reflexivity|]. left. apply Rinv_0_lt_compat. exact HJ. }
  rewrite E. assert (0 <= Rabs Jb / dt d F) by (apply Rmult_le_pos; [apply Rabs_pos|left; apply Rinv_0_lt_compat; exact HJ]).
  destruct Hd as [-> | ->]; unfold dt at 1; cbn [Nat.eqb]; [rewrite dt2_scale, cpow_pow by (lra || lia)|rewrite dt3_scale, cpow_pow by (lra || lia)];
    unfold dt in *; cbn [Nat.eqb] in *; field; lra.
Qed.

Theorem mx_det F Th : 0 < dt3 F -> 0 < Th ->
  dt3 (mxF Th (dt3 F) F) = Th /\ sameShape 3 F (mxF Th (dt3 F) F) /\ (Th = dt3 F -> forall i j, mxF Th (dt3 F) F i j = F i j).
Proof.
  intros HJ HT. destruct (fbar_det 3 F Th ltac:(auto) HJ HT) as [A [B C]]. unfold fbarF, dt in A, B, C. cbn [Nat.eqb] in A, B, C.
  unfold mxF. replace 3 with (INR 3) by (cbn; lra). exact (conj A (conj B C)).
Qed.

(** The three-field element: a plane F becomes a 3x3 tensor of determinant Theta. *)
Theorem mixed_det ndf F Th : (ndf = 2 \/ ndf = 3)%nat -> 0 < dt ndf F -> 0 < Th ->
  dt3 (mixedF ndf Th (dt ndf F) F) = Th /\ sameShape ndf F (mixedF ndf Th (dt ndf F) F) /\
  (Th = dt ndf F -> forall i j, (1 <= i <= 3)%nat -> (1 <= j <= 3)%nat ->
     mixedF ndf Th (dt ndf F) F i j = if (ndf =? 2)%nat then (if ((i =? 3) || (j =? 3))%nat%bool then kron i j else F i j) else F i j).
Proof.
  intros Hd HJ HT.
  assert (P : 0 < Th / dt ndf F) by (apply Rdiv_lt_0_compat; assumption).
  assert (C3 : cpow (Th / dt ndf F) (1 / 3) ^ 3 = Th / dt ndf F).
  { pose proof (cpow_pow (Th / dt ndf F) 3 ltac:(lra) ltac:(lia)) as Q. replace (INR 3) with 3 in Q by (cbn; lra). exact Q. }
  assert (Q : 0 < cpow (Th / dt ndf F) (1 / 3)) by (apply cpow_pos; exact P).
  assert (U : Th = dt ndf F -> cpow (Th / dt ndf F) (1 / 3) = 1).
  { intros E. rewrite <- E. unfold Rdiv at 1. rewrite Rinv_r by lra. replace 3 with (INR 3) by (cbn; lra). apply cpow_1. }
  unfold mixedF. rewrite Rabs_pos_eq by lra. set (c := cpow (Th / dt ndf F) (1 / 3)) in *. clearbody c.
  destruct Hd as [-> | ->]; cbn [Nat.eqb]; unfold dt in *; cbn [Nat.eqb] in *; (split; [|split]).
  - unfold dt3. cbn. transitivity (c ^ 3 * dt2 F); [unfold dt2; ring|]. rewrite C3. field. lra.
  - exists c. split; [exact Q|]. intros i j Hi Hj. destruct (Nat.eqb_spec i 3); [lia|]. destruct (Nat.eqb_spec j 3); [lia|]. cbn. ring.
  - intros E i j Hi Hj. rewrite (U E). idx i; idx j; cbn; unfold kron; cbn; ring.
  - transitivity (c ^ 3 * dt3 F); [unfold dt3; ring|]. rewrite C3. field. lra.
  - exists c. split; [exact Q|]. intros. ring.
  - intros E i j _ _. rewrite (U E). ring.
Qed.

(** The extrapolated volume ratio reproduces constants. *)
Lemma jbar_const vol Nbar J : length vol = length Nbar -> (forall x, In x vol -> x = J) -> sumL (fun x => x) Nbar = 1 -> jbar vol Nbar J = J.
Proof.
  intros HL Hc HS. destruct vol as [|v1 [|v2 vol]]; cbn [jbar]; [reflexivity|apply Hc; left; reflexivity|].
  change (sumL (fun p => fst p * snd p) (combine (v1 :: v2 :: vol) Nbar) = J).
  assert (G : forall vs Ns, length vs = length Ns -> (forall x, In x vs -> x = J) -> sumL (fun p => fst p * snd p) (combine vs Ns) = J * sumL (fun x => x) Ns).
  { induction vs as [|v vs IH]; intros [|N Ns] HL' Hc'; try discriminate; unfold sumL in *; cbn [combine fold_right fst snd]; [ring|].
    rewrite IH by (try (cbn in HL'; lia); intros x Hx; apply Hc'; right; exact Hx). rewrite (Hc' v (or_introl eq_refl)). ring. }
  rewrite G, HS by assumption. ring.
Qed.

(** The projection of the volume ratio: Theta has the same moments as det F against every pressure mode. *)
Theorem mx_projection nPM Hi pts :
  (forall i j, (1 <= i <= nPM)%nat -> (1 <= j <= nPM)%nat -> sumf nPM (fun k => mxH pts i k * Hi k j) = kron i j) ->
  forall i, (1 <= i <= nPM)%nat ->
    sumL (fun p => phi p i * mxTheta nPM Hi pts p * wgt p) pts = sumL (fun p => phi p i * detF p * wgt p) pts.
Proof.
  intros Hinv i Hi'. unfold mxTheta.
  transitivity (sumf nPM (fun k => mxH pts i k * sumf nPM (fun j => Hi k j * mxJ1 pts j))).
  - unfold mxH. rewrite (sumL_ext _ (fun p => sumf nPM (fun k => phi p i * (phi p k * wgt p) * sumf nPM (fun j => Hi k j * mxJ1 pts j)))).
    + rewrite sumL_sumf_swap. apply sumf_ext. intros k _. rewrite Rmult_comm, <- sumL_scal. apply sumL_ext. intros; ring.
    + intros p _. rewrite <- sumf_scal, <- sumf_scal_r. apply sumf_ext. intros k _. ring.
  - transitivity (sumf nPM (fun j => sumf nPM (fun k => mxH pts i k * Hi k j) * mxJ1 pts j)).
    + rewrite (sumf_ext nPM _ (fun k => sumf nPM (fun j => mxH pts i k * Hi k j * mxJ1 pts j))) by (intros k _; rewrite <- sumf_scal; apply sumf_ext; intros; ring).
      rewrite sumf_swap. apply sumf_ext. intros j _. rewrite <- sumf_scal_r. apply sumf_ext. intros; ring.
    + rewrite (sumf_ext nPM _ (fun j => kron j i * mxJ1 pts j)); [apply sumf_kron; exact Hi'|].
      intros j Hj. rewrite Hinv by assumption. unfold kron. rewrite Nat.eqb_sym. reflexivity.
Qed.

(** The short cut for one constant pressure mode is the general formula. *)
Theorem mx_shortcut Hi11 pts p : (forall q, In q pts -> phi q 1%nat = 1) -> phi p 1%nat = 1 ->
  mxTheta 1 (fun _ _ => Hi11) pts p = mxTheta1 Hi11 pts /\
  (Hi11 <> 0 -> sumL (fun q => detF q * wgt q) pts <> 0 -> forall a k, mxBar 1 (fun _ _ => Hi11) pts p a k = mxBar1 pts a k).
Proof.
  intros H1 Hp.
  assert (J : mxJ1 pts 1 = sumL (fun q => detF q * wgt q) pts) by (unfold mxJ1; apply sumL_ext; intros q Hq; rewrite H1 by exact Hq; ring).
  assert (T : mxTheta 1 (fun _ _ => Hi11) pts p = mxTheta1 Hi11 pts) by (unfold mxTheta, mxTheta1; cbn [sumf]; rewrite J, Hp; ring).
  split; [exact T|]. intros N0 NH a k. unfold mxBar, mxBar1. cbn [sumf]. rewrite T, Hp. unfold mxTheta1.
  assert (Gk : mxG pts 1 a k = sumL (fun q => detF q * wgt q * grd q a k) pts) by (unfold mxG; apply sumL_ext; intros q Hq; rewrite H1 by exact Hq; ring).
  rewrite Gk. field. split; assumption.
Qed.

(** ** The sampling grid *)
Lemma ceilR_spec x z : IZR z - 1 < x <= IZR z -> ceilR x = z.
Proof.
  intros H. unfold ceilR. pose proof (archimed (- x)) as [A B].
  assert (1 - IZR (up (- x)) - 1 < IZR z /\ IZR z < 1 - IZR (up (- x)) + 1) as [C D] by lra.
  rewrite <- minus_IZR in C, D. change 1 with (IZR 1) in C, D. rewrite <- minus_IZR in C. rewrite <- plus_IZR in D.
  apply lt_IZR in C, D. lia.
Qed.

Lemma pow_incr_strict x y n : (1 <= n)%nat -> 0 <= x -> x < y -> x ^ n < y ^ n.
Proof.
  intros Hn Hx L. induction n as [|n IH]; [lia|]. destruct n as [|n]; [cbn; lra|].
  cbn [pow] in *. specialize (IH ltac:(lia)). apply Rmult_le_0_lt_compat; try assumption. apply Rmult_le_pos; [exact Hx|apply pow_le; exact Hx].
Qed.
Lemma pow_inj_nonneg x y n : (1 <= n)%nat -> 0 <= x -> 0 <= y -> x ^ n = y ^ n -> x = y.
Proof.
  intros Hn Hx Hy E. destruct (Rtotal_order x y) as [L|[->|L]]; [|reflexivity|].
  - pose proof (pow_incr_strict x y n Hn Hx L). lra.
  - pose proof (pow_incr_strict y x n Hn Hy L). lra.
Qed.
