(** One integration point of the mixed element: kinematics, residual and stiffness contributions. *)
From Verif Require Import Lib.Base Lib.Sums Lib.Writes Lib.Congruence Lib.Tensor3 Model.Continuum Model.Mixed Spec.Continuum Spec.Mixed Spec.MxElement
  Proofs.Continuum Proofs.ContinuumKin Proofs.ContinuumK Proofs.ContinuumAxi Proofs.ContinuumHoop Proofs.Mixed Proofs.Mixed3 Proofs.MxPure.

(** Velocity gradient of a displacement rate in the current configuration, from the stored gradients. *)
Definition spat (k : kind) (n : nat) (x : mpt) (v : nat -> R) : t3 := fun i j =>
  if ((i <=? kdim k) && (j <=? kdim k))%nat%bool then gradient (kdim k) n (pG x) v i j
  else if (isAxi k && (i =? 3)%nat && (j =? 3)%nat)%bool then interp 2 n (pN x) v 1 else 0.

Record isPt (k : kind) (n : nat) (p : mxIn) (u : nat -> R) (x : mpt) : Prop := {
  ptIn : pIn x = p;
  ptF : eq3 (pF x) (deformation k n p u);
  ptW : pW x = volume k p;
  ptG : forall v, eq3 (spat k n x v) (mul3 (dispGrad k n p v) (inv3 (deformation k n p u))) }.

Lemma block_det k F : (k <> Solid -> F 1%nat 3%nat = 0 /\ F 2%nat 3%nat = 0 /\ F 3%nat 1%nat = 0 /\ F 3%nat 2%nat = 0) -> (k = Plane -> F 3%nat 3%nat = 1) ->
  det3 (block k F) * (if isAxi k then F 3%nat 3%nat else 1) = det3 F.
Proof.
  intros A B. destruct k; cbn [block isAxi].
  - ring.
  - destruct (A ltac:(discriminate)) as [H1 [H2 [H3 H4]]]. unfold det3, kron; cbn. rewrite H1, H2, H3, H4, (B eq_refl). ring.
  - destruct (A ltac:(discriminate)) as [H1 [H2 [H3 H4]]]. unfold det3, kron; cbn. rewrite H1, H2, H3, H4. ring.
Qed.

Lemma defGrad3_ok k n p u : (1 <= n)%nat -> (isAxi k = true -> epsR < iX p) ->
  exists F, defGrad3 k n p u = Ret F /\ eq3 F (deformation k n p u).
Proof.
  intros Hn Hx. unfold defGrad3, inElm. destruct k; cbn [kdim isAxi].
  - destruct (defgrad_ok 3 n (iN p) (iG p) (iX p) u false ltac:(lia) Hn) as [F [E [Rr [Cc e]]]]. unfold plane in E. rewrite E. cbn [bind].
    eexists. split; [reflexivity|]. intros i j Hi Hj. rewrite Rr. replace (i <=? 3)%nat with true by (symmetry; apply Nat.leb_le; lia).
    replace (j <=? 3)%nat with true by (symmetry; apply Nat.leb_le; lia). cbn [andb]. rewrite e by assumption.
    unfold deformation, dispGrad. cbn [kdim]. replace (i <=? 3)%nat with true by (symmetry; apply Nat.leb_le; lia).
    replace (j <=? 3)%nat with true by (symmetry; apply Nat.leb_le; lia). reflexivity.
  - destruct (defgrad_ok 2 n (iN p) (iG p) (iX p) u false ltac:(lia) Hn) as [F [E [Rr [Cc e]]]]. unfold plane in E. rewrite E. cbn [bind].
    eexists. split; [reflexivity|]. intros i j Hi Hj. rewrite Rr. unfold deformation, dispGrad. cbn [kdim isAxi andb].
    destruct ((i <=? 2) && (j <=? 2))%nat%bool eqn:B; [|ring]. apply andb_prop in B. destruct B as [B1 B2]. apply Nat.leb_le in B1, B2. rewrite e by lia. reflexivity.
  - destruct (axi_defgrad n (iN p) (iG p) (iX p) u Hn) as [F [E [Rr [Cc [e1 [e2 e3]]]]]]. unfold axisym in E. rewrite E. cbn [bind].
    eexists. split; [reflexivity|]. intros i j Hi Hj. rewrite Rr. replace (i <=? 3)%nat with true by (symmetry; apply Nat.leb_le; lia).
    replace (j <=? 3)%nat with true by (symmetry; apply Nat.leb_le; lia). cbn [andb].
    unfold deformation, dispGrad. cbn [kdim isAxi andb].
    destruct (Rlt_dec epsR (iX p)) as [_|C]; [|exfalso; apply C; auto].
    assert (RD : radialDisp n (iN p) u = interp 2 n (iN p) u 1) by (unfold radialDisp, interp; apply sumf_ext; intros; ring).
    idx i; idx j; cbn [Nat.leb Nat.eqb andb]; try (rewrite e1 by lia; reflexivity).
    + rewrite (proj1 (e2 1%nat ltac:(lia))). unfold kron; cbn; ring.
    + rewrite (proj1 (e2 2%nat ltac:(lia))). unfold kron; cbn; ring.
    + rewrite (proj2 (e2 1%nat ltac:(lia))). unfold kron; cbn; ring.
    + rewrite (proj2 (e2 2%nat ltac:(lia))). unfold kron; cbn; ring.
    + rewrite e3, RD. unfold kron; cbn; ring.
Qed.

Lemma deformation_off k n p u : k <> Solid -> forall i, (1 <= i <= 2)%nat -> deformation k n p u i 3%nat = 0 /\ deformation k n p u 3%nat i = 0.
Proof. intros Hk i Hi. unfold deformation, dispGrad. destruct k; [easy| |]; idx i; try lia; unfold kron; cbn; split; ring. Qed.
Lemma deformation_33 n p u : deformation Plane n p u 3%nat 3%nat = 1.
Proof. unfold deformation, dispGrad, kron. cbn. ring. Qed.

Lemma grad_mul d n G v (M : nat -> nat -> R) i j : gradient d n (fun a j => sumf d (fun m => G a m * M m j)) v i j = sumf d (fun m => gradient d n G v i m * M m j).
Proof.
  unfold gradient. transitivity (sumf n (fun a => sumf d (fun m => v (d * (a - 1) + i)%nat * G a m * M m j))).
  - apply sumf_ext. intros a _. rewrite <- sumf_scal. apply sumf_ext. intros m _. ring.
  - rewrite sumf_swap. apply sumf_ext. intros m _. rewrite sumf_scal_r. reflexivity.
Qed.

Theorem evalPt_ok k n p u : (1 <= n)%nat -> (isAxi k = true -> epsR < iX p) -> det3 (deformation k n p u) <> 0 ->
  exists x, evalPt k n p u = Ret x /\ isPt k n p u x.
Proof.
  intros Hn Hx HJ. destruct (defGrad3_ok k n p u Hn Hx) as [F [E e]]. unfold evalPt. rewrite E. cbn [bind].
  assert (Of : k <> Solid -> F 1%nat 3%nat = 0 /\ F 2%nat 3%nat = 0 /\ F 3%nat 1%nat = 0 /\ F 3%nat 2%nat = 0).
  { intros Hk. rewrite !e by lia. repeat split; apply (deformation_off k n p u Hk); lia. }
  assert (Tt : k = Plane -> F 3%nat 3%nat = 1) by (intros ->; rewrite e by lia; apply deformation_33).
  rewrite block_det by assumption. assert (dE : det3 F = det3 (deformation k n p u)) by (apply det3_ext; exact e).
  destruct (Req_EM_T (det3 F) 0) as [C|_]; [rewrite dE in C; contradiction|].
  eexists. split; [reflexivity|]. constructor; cbn [pIn pF pW].
  - reflexivity.
  - exact e.
  - unfold volume. reflexivity.
  - intros v. rewrite <- dE in HJ. destruct k.
    + intros i j Hi Hj. unfold spat. cbn [kdim pG block]. replace (i <=? 3)%nat with true by (symmetry; apply Nat.leb_le; lia).
      replace (j <=? 3)%nat with true by (symmetry; apply Nat.leb_le; lia). cbn [andb]. rewrite grad_mul. cbn [sumf]. unfold mul3, dispGrad. cbn [kdim].
      replace (i <=? 3)%nat with true by (symmetry; apply Nat.leb_le; lia). cbn [Nat.leb andb].
      assert (I0 : forall m, (1 <= m <= 3)%nat -> inv3 F m j = inv3 (deformation Solid n p u) m j).
      { intros m Hm. unfold inv3. rewrite dE. idx m; idx j; rewrite !e by lia; reflexivity. }
      rewrite !I0 by lia. ring.
    + destruct (Of ltac:(discriminate)) as [O1 [O2 [O3 O4]]]. specialize (Tt eq_refl).
      assert (Q : forall m j, (1 <= m <= 3)%nat -> (1 <= j <= 3)%nat -> inv3 (block Plane F) m j = inv3 (deformation Plane n p u) m j).
      { intros m j Hm Hj. unfold inv3. rewrite <- dE. idx m; idx j; rewrite <- !e by lia; unfold det3, block, kron; cbn; rewrite O1, O2, O3, O4, Tt; f_equal; try ring; f_equal; ring. }
      intros i j Hi Hj. unfold spat. cbn [kdim pG isAxi andb]. unfold mul3, dispGrad. cbn [kdim isAxi andb].
      assert (Z : forall m, (1 <= m <= 2)%nat -> inv3 (block Plane F) m 3%nat = 0) by (intros m Hm; unfold inv3, block, kron; idx m; try lia; cbn; unfold Rdiv; ring).
      assert (Z3 : forall m, (1 <= m <= 2)%nat -> inv3 (deformation Plane n p u) m 3%nat = 0) by (intros m Hm; rewrite <- Q by lia; apply Z; exact Hm).
      idx j.
      * destruct (Nat.leb_spec i 2); cbn [Nat.leb andb]; [|ring]. rewrite grad_mul. cbn [sumf]. rewrite !Q by lia. ring.
      * destruct (Nat.leb_spec i 2); cbn [Nat.leb andb]; [|ring]. rewrite grad_mul. cbn [sumf]. rewrite !Q by lia. ring.
      * rewrite !Z3 by lia. cbn [Nat.leb]. rewrite !Bool.andb_false_r. ring.
    + destruct (Of ltac:(discriminate)) as [O1 [O2 [O3 O4]]]. specialize (Hx eq_refl). pose proof epsR_pos as EP.
      assert (D2 : det3 F = (F 1%nat 1%nat * F 2%nat 2%nat - F 1%nat 2%nat * F 2%nat 1%nat) * F 3%nat 3%nat) by (unfold det3; rewrite O1, O2, O3, O4; ring).
      assert (N2 : F 1%nat 1%nat * F 2%nat 2%nat - F 1%nat 2%nat * F 2%nat 1%nat <> 0) by (intros C; apply HJ; rewrite D2, C; ring).
      assert (N3 : F 3%nat 3%nat <> 0) by (intros C; apply HJ; rewrite D2, C; ring).
      assert (BD : det3 (block Axi F) = F 1%nat 1%nat * F 2%nat 2%nat - F 1%nat 2%nat * F 2%nat 1%nat) by (unfold det3, block, kron; cbn; ring).
      assert (Q : forall m j, (1 <= m <= 2)%nat -> (1 <= j <= 2)%nat -> inv3 (block Axi F) m j = inv3 (deformation Axi n p u) m j).
      { intros m j Hm Hj. unfold inv3. rewrite <- dE, D2, BD. idx m; try lia; idx j; try lia; rewrite <- !e by lia; unfold block, kron; cbn; rewrite ?O1, ?O2, ?O3, ?O4; field; split; assumption. }
      assert (Z3 : forall m, (1 <= m <= 2)%nat -> inv3 (deformation Axi n p u) m 3%nat = 0 /\ inv3 (deformation Axi n p u) 3%nat m = 0).
      { intros m Hm. unfold inv3. rewrite <- dE, D2. idx m; try lia; rewrite <- !e by lia; rewrite ?O1, ?O2, ?O3, ?O4; split; field; split; assumption. }
      assert (Q3 : inv3 (deformation Axi n p u) 3%nat 3%nat = / F 3%nat 3%nat).
      { unfold inv3. rewrite <- dE, D2. rewrite <- !e by lia. field; split; assumption. }
      assert (UN : iX p + udotN (inElm Axi n p) u = iX p * F 3%nat 3%nat).
      { rewrite e by lia. unfold deformation, dispGrad, kron, interp, udotN, inElm. cbn [kdim isAxi nen nsd shp Nat.leb Nat.eqb andb].
        rewrite (sumf_ext n (fun a => u (1 + 2 * (a - 1))%nat * iN p a) (fun a => iN p a * u (2 * (a - 1) + 1)%nat)) by (intros; rewrite Rmult_comm; do 2 f_equal; lia).
        field. lra. }
      intros i j Hi Hj. unfold spat. cbn [kdim pG pN isAxi andb]. unfold mul3, dispGrad. cbn [kdim isAxi andb].
      idx j.
      * destruct (Nat.leb_spec i 2); cbn [Nat.leb Nat.eqb andb]; rewrite ?Bool.andb_false_r.
        -- rewrite grad_mul. cbn [sumf]. rewrite !Q by lia. replace (i =? 3)%nat with false by (symmetry; apply Nat.eqb_neq; lia). cbn [andb]. ring.
        -- rewrite (proj2 (Z3 1%nat ltac:(lia))). ring.
      * destruct (Nat.leb_spec i 2); cbn [Nat.leb Nat.eqb andb]; rewrite ?Bool.andb_false_r.
        -- rewrite grad_mul. cbn [sumf]. rewrite !Q by lia. replace (i =? 3)%nat with false by (symmetry; apply Nat.eqb_neq; lia). cbn [andb]. ring.
        -- rewrite (proj2 (Z3 2%nat ltac:(lia))). ring.
      * rewrite (proj1 (Z3 1%nat ltac:(lia))), (proj1 (Z3 2%nat ltac:(lia))), Q3. cbn [Nat.leb Nat.eqb]. rewrite !Bool.andb_false_r, !Bool.andb_true_r.
        destruct (i =? 3)%nat; [|ring]. rewrite UN. unfold interp. unfold Rdiv. rewrite Rmult_0_r, Rmult_0_r, !Rplus_0_l. rewrite <- !sumf_scal_r. apply sumf_ext. intros a _. field. split; [assumption|lra].
Qed.

(** Bilinear forms in terms of nodes and components. *)
Definition bil4 (d n : nat) (E : nat -> nat -> nat -> nat -> R) (u v : nat -> R) : R :=
  sumf n (fun a => sumf d (fun m => sumf n (fun b => sumf d (fun k => u (dof d a m) * E a m b k * v (dof d b k))))).
Definition lin (d n : nat) (f : nat -> nat -> R) (u : nat -> R) : R := sumf n (fun a => sumf d (fun m => f a m * u (dof d a m))).
Lemma bil_bil4 d n A u v : bil (d * n) A u v = bil4 d n (fun a m b k => A (dof d a m) (dof d b k)) u v.
Proof.
  unfold bil, bil4, mv. rewrite sumf_dof. apply sumf_ext. intros a _. apply sumf_ext. intros m _. rewrite sumf_dof, <- sumf_scal.
  apply sumf_ext. intros b _. rewrite <- sumf_scal. apply sumf_ext. intros k _. ring.
Qed.
Lemma bil4_ext d n E E' u v : (forall a m b k, (1 <= a <= n)%nat -> (1 <= b <= n)%nat -> (1 <= m <= d)%nat -> (1 <= k <= d)%nat -> E a m b k = E' a m b k) ->
  bil4 d n E u v = bil4 d n E' u v.
Proof. intros H. unfold bil4. apply sumf_ext. intros a Ha. apply sumf_ext. intros m Hm. apply sumf_ext. intros b Hb. apply sumf_ext. intros k Hk. rewrite H by assumption. reflexivity. Qed.
Lemma bil4_plus d n E E' u v : bil4 d n (fun a m b k => E a m b k + E' a m b k) u v = bil4 d n E u v + bil4 d n E' u v.
Proof.
  unfold bil4. rewrite <- sumf_plus. apply sumf_ext. intros a _. rewrite <- sumf_plus. apply sumf_ext. intros m _. rewrite <- sumf_plus. apply sumf_ext. intros b _.
  rewrite <- sumf_plus. apply sumf_ext. intros k _. ring.
Qed.
Lemma bil4_scal d n c E u v : bil4 d n (fun a m b k => c * E a m b k) u v = c * bil4 d n E u v.
Proof.
  unfold bil4. rewrite <- sumf_scal. apply sumf_ext. intros a _. rewrite <- sumf_scal. apply sumf_ext. intros m _. rewrite <- sumf_scal. apply sumf_ext. intros b _.
  rewrite <- sumf_scal. apply sumf_ext. intros k _. ring.
Qed.
Lemma bil4_zero d n u v : bil4 d n (fun _ _ _ _ => 0) u v = 0.
Proof. unfold bil4. apply sumf_0. intros a _. apply sumf_0. intros m _. apply sumf_0. intros b _. apply sumf_0. intros k _. ring. Qed.
Lemma bil4_sum d n N E u v : bil4 d n (fun a m b k => sumf N (fun t => E t a m b k)) u v = sumf N (fun t => bil4 d n (E t) u v).
Proof.
  induction N as [|N IH]; cbn [sumf].
  - apply bil4_zero.
  - rewrite bil4_plus, IH. reflexivity.
Qed.
Lemma bil4_rank d n f g u v : bil4 d n (fun a m b k => f a m * g b k) u v = lin d n f u * lin d n g v.
Proof.
  unfold bil4, lin. rewrite <- sumf_scal_r. apply sumf_ext. intros a _. rewrite <- sumf_scal_r. apply sumf_ext. intros m _.
  rewrite <- sumf_scal. apply sumf_ext. intros b _. rewrite <- sumf_scal. apply sumf_ext. intros k _. ring.
Qed.
Lemma lin_kron d n G u k i : (1 <= k <= d)%nat -> lin d n (fun a m => kron m k * G a i) u = gradient d n G u k i.
Proof.
  intros Hk. unfold lin, gradient. apply sumf_ext. intros a _.
  rewrite (sumf_ext d _ (fun m => kron m k * (G a i * u (dof d a m)))) by (intros; ring). rewrite sumf_kron by exact Hk. unfold dof. ring.
Qed.
Lemma lin_hoop n N u : lin 2 n (fun a m => kron m 1 * N a) u = interp 2 n N u 1.
Proof.
  unfold lin, interp. apply sumf_ext. intros a _.
  rewrite (sumf_ext 2 _ (fun m => kron m 1 * (N a * u (dof 2 a m)))) by (intros; ring). rewrite sumf_kron by lia. unfold dof. ring.
Qed.

(** Hoop compression: the term the geometric stiffness leaves out in axisymmetric solids. *)
Definition hoopComp (k : kind) (s Lq L : t3) : R :=
  if isAxi k then if Rlt_dec 0 (s 3%nat 3%nat) then 0 else s 3%nat 3%nat * Lq 3%nat 3%nat * L 3%nat 3%nat else 0.

Lemma formKG_dims e r sg w K K' : (forall a i, (1 <= a <= nen e)%nat -> (1 <= i <= nsd e)%nat -> (1 <= dof (nsd e) a i <= nsd e * nen e)%nat) ->
  (1 <= nsd e)%nat -> rows K = (nsd e * nen e)%nat -> cols K = (nsd e * nen e)%nat -> formKG e r sg w K = Ret K' -> rows K' = rows K /\ cols K' = cols K.
Proof.
  intros Hd H1 HR HC E. unfold formKG in E.
  match type of E with run_add ?m ?ws = _ => destruct (run_add_ok ws m) as [K2 [E2 [R2 [C2 _]]]] end.
  { intros x y v Hv. apply In_loop in Hv. destruct Hv as [a [Ha Hv]]. apply In_loop in Hv. destruct Hv as [b [Hb Hv]]. apply in_app_iff in Hv. destruct Hv as [Hv|Hv].
    - inl Hv. inw Hv. apply inb_true; [rewrite HR|rewrite HC]; apply Hd; assumption.
    - destruct (Rlt_dec 0 (kgrr e r sg)); [|destruct Hv]. inw Hv. apply inb_true; [rewrite HR|rewrite HC]; apply Hd; lia || assumption. }
  rewrite E in E2. injection E2 as <-. split; assumption.
Qed.

Theorem kg_form k n x sg w K : rows K = (kdim k * n)%nat -> cols K = (kdim k * n)%nat ->
  exists K', formKG (curElm k n x) 1 sg w K = Ret K' /\ rows K' = rows K /\ cols K' = cols K /\
    forall u v, bil (kdim k * n) (el K') u v = bil (kdim k * n) (el K) u v
      + w * (kgForm sg (spat k n x u) (spat k n x v) - hoopComp k sg (spat k n x u) (spat k n x v)).
Proof.
  intros HR HC. destruct (formKG_ok (curElm k n x) 1 sg w K ltac:(destruct k; cbn; lia) HR HC) as [K' [E e]].
  assert (D : rows K' = rows K /\ cols K' = cols K).
  { apply (formKG_dims (curElm k n x) 1 sg w K K'); try assumption; [|destruct k; cbn; lia]. intros a i Ha Hi. apply dof_range; assumption. }
  exists K'. split; [exact E|]. split; [apply D|]. split; [apply D|]. intros u v. cbn [nsd nen dN shp curElm] in e.
  rewrite !bil_bil4.
  set (d := kdim k) in *.
  transitivity (bil4 d n (fun a m b k0 => el K (dof d a m) (dof d b k0)) u v
    + (w * sumf d (fun c => sumf d (fun i => sumf d (fun j => sg i j * (gradient d n (pG x) u c i * gradient d n (pG x) v c j))))
    + (if isAxi k then if Rlt_dec 0 (sg 3%nat 3%nat) then w * (sg 3%nat 3%nat * (interp 2 n (pN x) u 1 * interp 2 n (pN x) v 1)) else 0 else 0))).
  - rewrite <- (bil4_ext d n (fun a m b k0 => el K (dof d a m) (dof d b k0)
      + (w * sumf d (fun c => sumf d (fun i => sumf d (fun j => sg i j * ((kron m c * pG x a i) * (kron k0 c * pG x b j)))))
      + (if isAxi k then if Rlt_dec 0 (sg 3%nat 3%nat) then w * (sg 3%nat 3%nat * ((kron m 1 * pN x a) * (kron k0 1 * pN x b))) else 0 else 0)))).
    + rewrite bil4_plus. f_equal. rewrite bil4_plus. f_equal.
      * rewrite bil4_scal. f_equal. rewrite bil4_sum. apply sumf_ext. intros c Hc. rewrite bil4_sum. apply sumf_ext. intros i Hi. rewrite bil4_sum. apply sumf_ext. intros j Hj.
        rewrite bil4_scal. f_equal. rewrite (bil4_rank d n (fun a m => kron m c * pG x a i) (fun b k0 => kron k0 c * pG x b j)). rewrite !lin_kron by assumption. reflexivity.
      * destruct k; cbn [isAxi]; [apply bil4_zero|apply bil4_zero|]. destruct (Rlt_dec 0 (sg 3%nat 3%nat)); [|apply bil4_zero].
        rewrite bil4_scal, bil4_scal. rewrite (bil4_rank d n (fun a m => kron m 1 * pN x a) (fun b k0 => kron k0 1 * pN x b)). rewrite <- !lin_hoop. reflexivity.
    + intros a m b k0 Ha Hb Hm Hk0. rewrite e by assumption. rewrite Rplus_assoc. f_equal. f_equal.
      * rewrite (sumf_ext d _ (fun c => kron c k0 * (kron m c * sumf d (fun i => sumf d (fun j => pG x a i * sg i j * pG x b j))))).
        -- rewrite sumf_kron by exact Hk0. ring.
        -- intros c Hc. rewrite <- !sumf_scal. apply sumf_ext. intros i Hi. rewrite <- !sumf_scal. apply sumf_ext. intros j Hj. unfold kron. rewrite (Nat.eqb_sym c k0). ring.
      * unfold kgrr, curElm. cbn [axi]. destruct k; cbn [isAxi]; [destruct (Rlt_dec 0 0); [lra|reflexivity]|destruct (Rlt_dec 0 0); [lra|reflexivity]|].
        destruct (Rlt_dec 0 1); [|lra]. replace (sg 3%nat 3%nat / (1 * 1)) with (sg 3%nat 3%nat) by field. destruct (Rlt_dec 0 (sg 3%nat 3%nat)); [ring|reflexivity].
  - f_equal. unfold hoopComp, kgForm, spat. subst d. destruct k; cbn [isAxi kdim sumf Nat.leb Nat.eqb andb]; [ring|ring|].
    destruct (Rlt_dec 0 (sg 3%nat 3%nat)); ring.
Qed.

(** The modified volume rate. *)
Definition barOf (k : kind) (n : nat) (sb : nat -> nat -> R) (u : nat -> R) : R := lin (kdim k) n sb u.

Theorem acc_form k n x sb D K : rows K = (kdim k * n)%nat -> cols K = (kdim k * n)%nat ->
  exists K', (match k with Solid => accKMx3 n (pG x) sb D K | _ => accKMx2 (isAxi k) n (pN x) (pG x) sb D K end) = Ret K' /\
    rows K' = rows K /\ cols K' = cols K /\
    forall u v, bil (kdim k * n) (el K') u v = bil (kdim k * n) (el K) u v
      + d7Form D (e7 (spat k n x u) (barOf k n sb u)) (e7 (spat k n x v) (barOf k n sb v)).
Proof.
  intros HR HC.
  assert (L : forall u r, (1 <= r <= 7)%nat ->
    lin (kdim k) n (fun a i => match k with Solid => strain7 false 0 (pG x a) (sb a) r i | _ => strain7 (isAxi k) (pN x a) (fun c => if (c <=? 2)%nat then pG x a c else 0) (sb a) r i end) u
    = e7 (spat k n x u) (barOf k n sb u) r).
  { intros u r Hr.
    assert (Z : forall g : nat -> nat -> R, (forall a m, (1 <= m <= kdim k)%nat -> g a m = 0) -> lin (kdim k) n g u = 0).
    { intros g Hg. unfold lin. apply sumf_0. intros a _. apply sumf_0. intros m Hm. rewrite Hg by exact Hm. ring. }
    assert (P : forall g g' h : nat -> nat -> R, (forall a m, (1 <= m <= kdim k)%nat -> h a m = g a m + g' a m) -> lin (kdim k) n h u = lin (kdim k) n g u + lin (kdim k) n g' u).
    { intros g g' h Hh. unfold lin. rewrite <- sumf_plus. apply sumf_ext. intros a _. rewrite <- sumf_plus. apply sumf_ext. intros m Hm. rewrite Hh by exact Hm. ring. }
    destruct k; cbn [kdim isAxi] in *.
    - unfold e7, spat. cbn [kdim isAxi]. idx r; cbn [strain7 Nat.leb andb]; try (rewrite lin_kron by lia; reflexivity); [| | |reflexivity].
      + rewrite (P (fun a m => kron m 1 * pG x a 2%nat) (fun a m => kron m 2 * pG x a 1%nat)) by (intros; reflexivity). rewrite !lin_kron by lia. reflexivity.
      + rewrite (P (fun a m => kron m 2 * pG x a 3%nat) (fun a m => kron m 3 * pG x a 2%nat)) by (intros; reflexivity). rewrite !lin_kron by lia. reflexivity.
      + rewrite (P (fun a m => kron m 1 * pG x a 3%nat) (fun a m => kron m 3 * pG x a 1%nat)) by (intros; reflexivity). rewrite !lin_kron by lia. reflexivity.
    - unfold e7, spat. cbn [kdim isAxi]. idx r; cbn [strain7 Nat.leb andb]; try (rewrite lin_kron by lia; reflexivity); [| | | |reflexivity].
      + apply Z. intros a m Hm. ring.
      + rewrite (P (fun a m => kron m 1 * pG x a 2%nat) (fun a m => kron m 2 * pG x a 1%nat)) by (intros; reflexivity). rewrite !lin_kron by lia. reflexivity.
      + rewrite Rplus_0_r. apply Z. intros a m Hm. unfold kron. destruct (Nat.eqb_spec m 3); [lia|]. ring.
      + rewrite Rplus_0_r. apply Z. intros a m Hm. unfold kron. destruct (Nat.eqb_spec m 3); [lia|]. ring.
    - unfold e7, spat. cbn [kdim isAxi]. idx r; cbn [strain7 Nat.leb Nat.eqb andb]; try (rewrite lin_kron by lia; reflexivity); try (apply lin_hoop); [| | |reflexivity].
      + rewrite (P (fun a m => kron m 1 * pG x a 2%nat) (fun a m => kron m 2 * pG x a 1%nat)) by (intros; reflexivity). rewrite !lin_kron by lia. reflexivity.
      + rewrite Rplus_0_r. apply Z. intros a m Hm. unfold kron. destruct (Nat.eqb_spec m 3); [lia|]. ring.
      + rewrite Rplus_0_r. apply Z. intros a m Hm. unfold kron. destruct (Nat.eqb_spec m 3); [lia|]. ring. }
  assert (M : exists K', (match k with Solid => accKMx3 n (pG x) sb D K | _ => accKMx2 (isAxi k) n (pN x) (pG x) sb D K end) = Ret K' /\
    rows K' = rows K /\ cols K' = cols K /\
    forall a b i j, (1 <= a <= n)%nat -> (1 <= b <= n)%nat -> (1 <= i <= kdim k)%nat -> (1 <= j <= kdim k)%nat ->
      el K' (dof (kdim k) a i) (dof (kdim k) b j) = el K (dof (kdim k) a i) (dof (kdim k) b j) + sumf 7 (fun r => sumf 7 (fun q =>
        (match k with Solid => strain7 false 0 (pG x a) (sb a) r i | _ => strain7 (isAxi k) (pN x a) (fun c => if (c <=? 2)%nat then pG x a c else 0) (sb a) r i end) * D r q *
        (match k with Solid => strain7 false 0 (pG x b) (sb b) q j | _ => strain7 (isAxi k) (pN x b) (fun c => if (c <=? 2)%nat then pG x b c else 0) (sb b) q j end)))).
  { destruct k; cbn [kdim isAxi] in *; [apply accKMx3_ok; assumption|apply accKMx2_ok; assumption|apply accKMx2_ok; assumption]. }
  destruct M as [K' [E [R1 [C1 e]]]]. exists K'. split; [exact E|]. split; [exact R1|]. split; [exact C1|]. intros u v.
  rewrite !bil_bil4. rewrite (bil4_ext (kdim k) n (fun a m b k0 => el K' (dof (kdim k) a m) (dof (kdim k) b k0))
    (fun a m b k0 => el K (dof (kdim k) a m) (dof (kdim k) b k0) + sumf 7 (fun r => sumf 7 (fun q => D r q *
        ((match k with Solid => strain7 false 0 (pG x a) (sb a) r m | _ => strain7 (isAxi k) (pN x a) (fun c => if (c <=? 2)%nat then pG x a c else 0) (sb a) r m end) *
        (match k with Solid => strain7 false 0 (pG x b) (sb b) q k0 | _ => strain7 (isAxi k) (pN x b) (fun c => if (c <=? 2)%nat then pG x b c else 0) (sb b) q k0 end)))))).
  - rewrite bil4_plus. f_equal. rewrite bil4_sum. unfold d7Form. apply sumf_ext. intros r Hr. rewrite bil4_sum. apply sumf_ext. intros q Hq. rewrite bil4_scal.
    rewrite (bil4_rank (kdim k) n (fun a m => match k with Solid => strain7 false 0 (pG x a) (sb a) r m | _ => strain7 (isAxi k) (pN x a) (fun c => if (c <=? 2)%nat then pG x a c else 0) (sb a) r m end)
       (fun a m => match k with Solid => strain7 false 0 (pG x a) (sb a) q m | _ => strain7 (isAxi k) (pN x a) (fun c => if (c <=? 2)%nat then pG x a c else 0) (sb a) q m end)).
    rewrite !L by assumption. ring.
  - intros a m b k0 Ha Hb Hm Hk. rewrite e by assumption. f_equal. apply sumf_ext. intros r _. apply sumf_ext. intros q _. ring.
Qed.

Theorem force_form k n x s c : sym3 s ->
  exists B, (if isAxi k then formBmatrixAx (curElm k n x) else formBmatrix (curElm k n x)) = Ret B /\
    forall v, sumf (kdim k * n) (fun i => sumf (nstr k) (fun r => el B r i * (stressVec k s r * c)) * v i) = c * ddot3 s (spat k n x v).
Proof.
  intros [S1 [S2 S3]].
  assert (T : forall B m, (forall v, sumf (kdim k * n) (fun i => sumf m (fun r => el B r i * (stressVec k s r * c)) * v i) = sumf m (fun r => stressVec k s r * c * mv (kdim k * n) (el B) v r))).
  { intros B m v. transitivity (sumf (kdim k * n) (fun i => sumf m (fun r => stressVec k s r * c * (el B r i * v i)))).
    - apply sumf_ext. intros i _. rewrite <- sumf_scal_r. apply sumf_ext. intros r _. ring.
    - rewrite sumf_swap. apply sumf_ext. intros r _. rewrite sumf_scal. reflexivity. }
  destruct k; cbn [isAxi kdim nstr] in *.
  - destruct (blin_ok 3 n (pN x) (pG x) 1 ltac:(auto)) as [B [E [Rr [Cc e]]]]. exists B. split; [exact E|]. intros v. rewrite T. cbn [sumf].
    assert (X : forall r, (1 <= r <= 6)%nat -> mv (3 * n) (el B) v r = _) by (intros r Hr; apply (bnl_mv 3 n (el B) kron (pG x) v r ltac:(auto)); intros; apply e; unfold nvoigt; cbn; lia).
    cbn [Nat.mul] in *. rewrite !X by lia. cbn [sumf vpair Nat.eqb stressVec tovoigt]. unfold ddot3, spat, kron. cbn [Nat.eqb Nat.leb kdim andb]. rewrite S1, S2, S3. ring.
  - destruct (blin_ok 2 n (pN x) (pG x) 1 ltac:(auto)) as [B [E [Rr [Cc e]]]]. exists B. split; [exact E|]. intros v. rewrite T. cbn [sumf].
    assert (X : forall r, (1 <= r <= 3)%nat -> mv (2 * n) (el B) v r = _) by (intros r Hr; apply (bnl_mv 2 n (el B) kron (pG x) v r ltac:(auto)); intros; apply e; unfold nvoigt; cbn; lia).
    rewrite !X by lia. cbn [sumf vpair Nat.eqb stressVec tovoigt]. unfold ddot3, spat, kron. cbn [Nat.eqb Nat.leb kdim isAxi andb]. rewrite S1. ring.
  - pose proof epsR_pos as EP. pose proof epsR_lt1 as E1. destruct (bax_strain n (pN x) (pG x) 1 ltac:(lra)) as [B [E [Rr [Cc e]]]]. exists B. split; [exact E|]. intros v. rewrite T.
    destruct (e v) as [e1 [e2 [e3 e4]]]. cbn [sumf]. rewrite e1, e2, e3, e4. unfold hoopStrain. destruct (Rle_dec 1 epsR); [lra|].
    cbn [stressVec tovoigt]. unfold ddot3, spat. cbn [Nat.eqb Nat.leb kdim isAxi andb].
    assert (RD : radialDisp n (pN x) v = interp 2 n (pN x) v 1) by (unfold radialDisp, interp; apply sumf_ext; intros; ring).
    rewrite RD, S1. field.
Qed.
