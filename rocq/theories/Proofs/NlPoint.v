(** Large-deformation elements: values of the integrands at a point. *)
From Coquelicot Require Import Coquelicot.
From Verif Require Import Lib.Base Lib.Sums Lib.Writes Lib.Congruence Lib.Tensor3 Model.Continuum Model.Mixed Model.MxElement Model.NlElement Spec.Continuum Spec.Mixed Spec.MxElement Spec.NlElement
  Proofs.Continuum Proofs.ContinuumKin Proofs.ContinuumK Proofs.ContinuumAxi Proofs.ContinuumHoop Proofs.Mixed Proofs.Mixed3 Proofs.MxPure Proofs.MxList Proofs.MxPoint Proofs.NlPure.
Open Scope R_scope.

(** ** Kinematics *)
Definition strainOf (k : kind) (F : t3) (r : nat) : R :=
  match k with Axi => if (r =? 3)%nat then 0 else greenVoigt 2 F (if (r =? 4)%nat then 3 else r) | _ => greenVoigt (kdim k) F r end.

Lemma leb_t i n : (i <= n)%nat -> (i <=? n)%nat = true. Proof. apply Nat.leb_le. Qed.
Lemma kinUL_ok k n p u : (1 <= n)%nat -> (isAxi k = true -> epsR < iX p) ->
  exists F E, kinematicsUL (inElm k n p) (kdim k * n) u = Ret (F, E) /\ eq3 (ext3 F) (deformation k n p u) /\
    forall r, (1 <= r <= nstr k)%nat -> el E r 1 = strainOf k (deformation k n p u) r.
Proof.
  intros Hn Hx. unfold kinematicsUL, inElm.
  assert (PL : forall d, (d = 2 \/ d = 3)%nat -> exists F E,
    (let* H := formDefGradient (plane d n (iN p) (iG p) (iX p)) (d * n) u true in
     let* E := greenStrain (plane d n (iN p) (iG p) (iX p)) H in
     let* F1 := run_add H (loop d (fun i => [(i, i, 1)])) in Ret (F1, E)) = Ret (F, E) /\ rows F = d /\
     (forall i j, (1 <= i <= d)%nat -> (1 <= j <= d)%nat -> el F i j = kron i j + gradient d n (iG p) u i j) /\
     forall r, (1 <= r <= nvoigt d)%nat -> el E r 1 = greenVoigt d (fun i j => kron i j + gradient d n (iG p) u i j) r).
  { intros d Hd. destruct (defgrad_ok d n (iN p) (iG p) (iX p) u true ltac:(lia) Hn) as [H [EH [RH [CH eH]]]]. rewrite EH. cbn [bind].
    destruct (green_ok d n (iN p) (iG p) (iX p) H Hd) as [E [EE eE]]. rewrite EE. cbn [bind].
    destruct (run_add_ok (loop d (fun i => [(i, i, 1)])) H) as [F [EF [RF [CF eF]]]].
    { intros i j v Hv. inl Hv. inw Hv. apply inb_true; lia. }
    rewrite EF. cbn [bind]. exists F, E. split; [reflexivity|]. split; [lia|]. split.
    - intros i j Hi Hj. rewrite eF, hitsum_unit, eH by lia. ring.
    - intros r Hr. rewrite eE by exact Hr. apply greenVoigt_ext; [exact Hd|exact Hr|]. intros i j Hi Hj. rewrite eH by assumption. ring. }
  destruct k; cbn [kdim isAxi].
  - destruct (PL 3%nat ltac:(auto)) as [F [E [e [Rr [f g]]]]]. exists F, E. unfold nDF. cbn [axi nsd]. unfold plane in e.
    split. { rewrite <- e. destruct (formDefGradient _ _ _ _); cbn [bind]; try reflexivity; destruct (greenStrain _ _); cbn [bind]; try reflexivity; destruct (run_add _ _); reflexivity. }
    split.
    + intros i j Hi Hj. unfold ext3. rewrite Rr, !leb_t by lia. cbn [andb]. rewrite f by assumption. unfold deformation, dispGrad. cbn [kdim]. rewrite !leb_t by lia. reflexivity.
    + intros r Hr. cbn [nstr] in Hr. rewrite g by (cbn; lia). unfold strainOf. cbn [kdim]. apply greenVoigt_ext; [auto|cbn; lia|]. intros i j Hi Hj. unfold deformation, dispGrad. cbn [kdim]. rewrite !leb_t by lia. reflexivity.
  - destruct (PL 2%nat ltac:(auto)) as [F [E [e [Rr [f g]]]]]. exists F, E. unfold nDF. cbn [axi nsd]. unfold plane in e.
    split. { rewrite <- e. destruct (formDefGradient _ _ _ _); cbn [bind]; try reflexivity; destruct (greenStrain _ _); cbn [bind]; try reflexivity; destruct (run_add _ _); reflexivity. }
    split.
    + intros i j Hi Hj. unfold ext3. rewrite Rr. unfold deformation, dispGrad. cbn [kdim isAxi andb].
      destruct ((i <=? 2) && (j <=? 2))%nat%bool eqn:B; [|ring]. apply andb_prop in B. destruct B as [B1 B2]. apply Nat.leb_le in B1, B2. rewrite f by lia. reflexivity.
    + intros r Hr. cbn [nstr] in Hr. rewrite g by (cbn; lia). unfold strainOf. cbn [kdim]. apply greenVoigt_ext; [auto|cbn; lia|]. intros i j Hi Hj. unfold deformation, dispGrad. cbn [kdim]. rewrite !leb_t by lia. reflexivity.
  - pose proof (Hx eq_refl) as Hr. change (mkElm 2 true n 2 (iN p) (iG p) (iX p)) with (axisym n (iN p) (iG p) (iX p)).
    destruct (axi_grad n (iN p) (iG p) (iX p) u Hn) as [H [EH [RH [CH [eH zH]]]]]. rewrite EH. cbn [bind].
    destruct (axi_green n (iN p) (iG p) (iX p) H) as [E [EE [e3 [e1 [e2 e4]]]]]. rewrite EE. cbn [bind].
    unfold nDF. cbn [axi axisym nsd rad].
    destruct (run_add_ok (loop 3 (fun i => [(i, i, 1)])) H) as [F1 [EF [RF [CF eF]]]].
    { intros i j v Hv. inl Hv. inw Hv. apply inb_true; lia. }
    rewrite EF. cbn [bind]. destruct (Rlt_dec epsR (iX p)) as [_|C]; [|contradiction].
    destruct (run_add_ok [(3%nat, 3%nat, udotN (axisym n (iN p) (iG p) (iX p)) u / iX p)] F1) as [F [EF2 [RF2 [CF2 eF2]]]].
    { intros i j v Hv. inw Hv. apply inb_true; rewrite ?RF, ?CF; lia. }
    rewrite EF2. cbn [bind]. exists F, E. split; [reflexivity|].
    assert (GH : forall r, (1 <= r <= 3)%nat -> greenVoigt 2 (fun i j => kron i j + el H i j) r = greenVoigt 2 (deformation Axi n p u) r).
    { intros r R0. apply greenVoigt_ext; [auto|exact R0|]. intros i j Hi Hj. unfold deformation, dispGrad. cbn [kdim]. rewrite !leb_t by lia. rewrite eH by assumption. reflexivity. }
    split.
    + intros i j Hi Hj. unfold ext3. rewrite RF2, RF, RH. rewrite !leb_t by lia. cbn [andb]. rewrite eF2, hitsum_one, eF, hitsum_unit by lia.
      unfold deformation, dispGrad. cbn [kdim isAxi andb].
      destruct ((i <=? 2) && (j <=? 2))%nat%bool eqn:B.
      * apply andb_prop in B. destruct B as [B1 B2]. apply Nat.leb_le in B1, B2. rewrite eH by lia. destruct (Nat.eqb_spec i 3); [lia|]. cbn [andb]. ring.
      * assert (NB : ~ ((1 <= i <= 2)%nat /\ (1 <= j <= 2)%nat)) by (intros [U1 U2]; rewrite !leb_t in B by lia; discriminate).
        assert (Z : el H i j = 0) by (apply zH; lia). rewrite Z.
        destruct ((i =? 3)%nat && (j =? 3)%nat)%bool; [|ring]. unfold udotN, interp. cbn [nen nsd shp axisym].
        rewrite (sumf_ext n (fun a => u (1 + 2 * (a - 1))%nat * iN p a) (fun a => iN p a * u (2 * (a - 1) + 1)%nat)) by (intros; rewrite Rmult_comm; do 2 f_equal; lia). ring.
    + intros r R0. cbn [nstr] in R0. unfold strainOf. idx r; cbn [Nat.eqb]; [rewrite e1|rewrite e2|exact e3|rewrite e4]; apply GH; lia.
Qed.

Lemma strain_zero k F : (forall r, (1 <= r <= nstr k)%nat -> strainOf k F r = 0) <-> isometry (kdim k) F.
Proof.
  unfold strainOf, isometry, greenVoigt. split.
  - intros H i j Hi Hj. destruct k; cbn [kdim nstr] in *.
    + pose proof (H 1%nat ltac:(lia)) as A1. pose proof (H 2%nat ltac:(lia)) as A2. pose proof (H 3%nat ltac:(lia)) as A3. pose proof (H 4%nat ltac:(lia)) as A4. pose proof (H 5%nat ltac:(lia)) as A5. pose proof (H 6%nat ltac:(lia)) as A6.
      unfold cauchyGreen in *. cbn in *. idx i; idx j; unfold kron; cbn; lra.
    + pose proof (H 1%nat ltac:(lia)) as A1. pose proof (H 2%nat ltac:(lia)) as A2. pose proof (H 3%nat ltac:(lia)) as A3.
      unfold cauchyGreen in *. cbn in *. idx i; idx j; unfold kron; cbn; lra.
    + pose proof (H 1%nat ltac:(lia)) as A1. pose proof (H 2%nat ltac:(lia)) as A2. pose proof (H 4%nat ltac:(lia)) as A3.
      unfold cauchyGreen in *. cbn in *. idx i; idx j; unfold kron; cbn; lra.
  - intros H r Hr. destruct k; cbn [kdim nstr] in *.
    + pose proof (H 1%nat 1%nat ltac:(lia) ltac:(lia)) as A11. pose proof (H 1%nat 2%nat ltac:(lia) ltac:(lia)) as A12. pose proof (H 1%nat 3%nat ltac:(lia) ltac:(lia)) as A13. pose proof (H 2%nat 2%nat ltac:(lia) ltac:(lia)) as A22. pose proof (H 2%nat 3%nat ltac:(lia) ltac:(lia)) as A23. pose proof (H 3%nat 3%nat ltac:(lia) ltac:(lia)) as A33. unfold cauchyGreen, kron in *. cbn in *. idx r; cbn; lra.
    + pose proof (H 1%nat 1%nat ltac:(lia) ltac:(lia)) as A11. pose proof (H 1%nat 2%nat ltac:(lia) ltac:(lia)) as A12. pose proof (H 2%nat 2%nat ltac:(lia) ltac:(lia)) as A22. unfold cauchyGreen, kron in *. cbn in *. idx r; cbn; lra.
    + pose proof (H 1%nat 1%nat ltac:(lia) ltac:(lia)) as A11. pose proof (H 1%nat 2%nat ltac:(lia) ltac:(lia)) as A12. pose proof (H 2%nat 2%nat ltac:(lia) ltac:(lia)) as A22. unfold cauchyGreen, kron in *. cbn in *. idx r; cbn; lra.
Qed.
Lemma deformation_kind k n p u : defOf k (deformation k n p u).
Proof.
  intros i j Hi Hj E. unfold deformation. unfold inKind in E. apply Bool.orb_false_iff in E. destruct E as [E1 E2]. unfold dispGrad. rewrite E1, E2. ring.
Qed.
Lemma dispGrad_kind k n p u : rateOf k (dispGrad k n p u).
Proof.
  intros i j Hi Hj E. unfold inKind in E. apply Bool.orb_false_iff in E. destruct E as [E1 E2]. unfold dispGrad. rewrite E1, E2. reflexivity.
Qed.

(** Point with its data replaced by those of the current configuration. *)
Definition curIn (N : nat -> R) (G : nat -> nat -> R) (r : R) : mxIn := mkIn N G r 0 (fun _ => 0).
Definition Lr (k : kind) (n : nat) (p : mxIn) (u v : nat -> R) : t3 := mul3 (dispGrad k n p v) (inv3 (deformation k n p u)).

Lemma udotN_interp k n p u : isAxi k = true -> udotN (inElm k n p) u = interp 2 n (iN p) u 1.
Proof.
  intros A. destruct k; try discriminate. unfold udotN, interp, inElm. cbn [nen nsd shp kdim].
  apply sumf_ext. intros a _. rewrite Rmult_comm. do 2 f_equal. lia.
Qed.

Theorem push_ok k n isz p u : (1 <= n)%nat -> (isAxi k = true -> epsR < iX p) -> 0 < det3 (deformation k n p u) -> soundTest k isz ->
  exists c, pushUL k n isz p u = Ret c /\ eq3 (cF c) (deformation k n p u) /\
    (if cHave c then cJ c = det3 (deformation k n p u) /\ (isAxi k = true -> cR c = iX p + interp 2 n (iN p) u 1) /\
       (isAxi k = true -> 0 < cR c \/ cR c < 0) /\
       forall v, eq3 (dispGrad k n (curIn (iN p) (cG c) (cR c)) v) (Lr k n p u v)
     else isometry (kdim k) (deformation k n p u) /\ cJ c = 1 /\ cR c = iX p /\ cG c = iG p).
Proof.
  intros Hn Hx HJ Hz. destruct (kinUL_ok k n p u Hn Hx) as [F [E [EK [eF eE]]]].
  unfold pushUL. rewrite EK. cbn [bind fst snd]. destruct (isz _) eqn:Z.
  - eexists. split; [reflexivity|]. cbn [cF cHave cJ cR cG]. split; [exact eF|]. split; [|auto].
    apply strain_zero. intros r Hr. rewrite <- eE by exact Hr. exact (Hz _ Z r Hr).
  - assert (Df : forall a b, (1 <= a <= 3)%nat -> (1 <= b <= 3)%nat -> inKind k a b = false -> ext3 F a b = kron a b).
    { intros a b Ha Hb Hab. rewrite eF by assumption. pose proof (deformation_kind k n p u a b Ha Hb Hab) as Q. cbn in Q. lra. }
    assert (BD : det3 (block k (ext3 F)) * (if isAxi k then ext3 F 3%nat 3%nat else 1) = det3 (deformation k n p u)).
    { rewrite block_det; [apply det3_ext; exact eF| |].
      - intros Hk. destruct k; [easy| |]; rewrite !Df by (lia || reflexivity); cbn; auto.
      - intros ->. rewrite Df by (lia || reflexivity). reflexivity. }
    rewrite BD. destruct (Req_EM_T (det3 (deformation k n p u)) 0) as [C|_]; [lra|].
    eexists. split; [reflexivity|]. cbn [cF cHave cJ cR cG]. split; [exact eF|]. split; [reflexivity|].
    split; [intros A; now rewrite udotN_interp|].
    assert (X33 : isAxi k = true -> ext3 F 3%nat 3%nat <> 0 /\ ext3 F 3%nat 3%nat * iX p = iX p + interp 2 n (iN p) u 1).
    { intros A. rewrite A in BD. split; [intros C; rewrite C in BD; lra|]. rewrite eF by lia. destruct k; try discriminate. pose proof (Hx eq_refl). pose proof epsR_pos.
      unfold deformation, dispGrad, kron. cbn. field. lra. }
    split.
    { intros A. rewrite udotN_interp by exact A. destruct (X33 A) as [Y1 Y2]. rewrite <- Y2. pose proof (Hx A). pose proof epsR_pos.
      assert (ext3 F 3%nat 3%nat * iX p <> 0) by (apply Rmult_integral_contrapositive; split; lra). lra. }
    intros v.
    assert (IV : forall i j, (1 <= i <= 3)%nat -> (1 <= j <= 3)%nat -> inv3 (deformation k n p u) i j = inv3 (ext3 F) i j).
    { intros i j Hi Hj. unfold inv3. rewrite (det3_ext _ _ eF). rewrite <- !eF by lia. reflexivity. }
    intros i j Hi Hj. unfold Lr. unfold mul3. rewrite !IV by lia.
    destruct k; cbn [kdim isAxi block] in *.
    + unfold dispGrad. cbn [kdim isAxi iN iG iX curIn]. rewrite !leb_t by lia. cbn [andb].
      rewrite (grad_mul 3 n (iG p) v). cbn [sumf]. ring.
    + assert (D0 : det3 (block Plane (ext3 F)) = det3 (ext3 F)).
      { unfold det3, block, kron. cbn [Nat.leb andb Nat.eqb]. rewrite !(Df 1%nat 3%nat), !(Df 2%nat 3%nat), !(Df 3%nat 1%nat), !(Df 3%nat 2%nat), !(Df 3%nat 3%nat) by (lia || reflexivity). unfold kron; cbn. ring. }
      unfold dispGrad. cbn [kdim isAxi iN iG iX curIn andb].
      assert (IB : forall a b, (1 <= a <= 2)%nat -> (1 <= b <= 2)%nat -> inv3 (block Plane (ext3 F)) a b = inv3 (ext3 F) a b).
      { intros a b Ha Hb. unfold inv3. rewrite D0. unfold block, kron. idx a; idx b; cbn; rewrite ?(Df 1%nat 3%nat), ?(Df 2%nat 3%nat), ?(Df 3%nat 1%nat), ?(Df 3%nat 2%nat), ?(Df 3%nat 3%nat) by (lia || reflexivity); unfold kron; cbn; reflexivity. }
      destruct (Nat.leb_spec i 2) as [I2|I2]; [|cbn [andb]; ring]. destruct (Nat.leb_spec j 2) as [J2|J2]; cbn [andb Nat.leb].
      * rewrite (grad_mul 2 n (iG p) v). cbn [sumf]. change (block Plane (ext3 F)) with (block Plane (ext3 F)) in IB. cbn [block] in IB. rewrite !IB by lia. ring.
      * assert (j = 3)%nat as -> by lia.
        assert (Z1 : inv3 (ext3 F) 1%nat 3%nat = 0) by (unfold inv3; rewrite !(Df 1%nat 3%nat), !(Df 2%nat 3%nat) by (lia || reflexivity); unfold kron, Rdiv; cbn; ring).
        assert (Z2 : inv3 (ext3 F) 2%nat 3%nat = 0) by (unfold inv3; rewrite !(Df 1%nat 3%nat), !(Df 2%nat 3%nat) by (lia || reflexivity); unfold kron, Rdiv; cbn; ring).
        rewrite Z1, Z2. ring.
    + destruct (X33 eq_refl) as [Y1 Y2]. pose proof (Hx eq_refl) as Y3. pose proof epsR_pos as Y4.
      assert (D0 : det3 (ext3 F) = det3 (block Axi (ext3 F)) * ext3 F 3%nat 3%nat).
      { unfold det3, block, kron. cbn [Nat.leb andb Nat.eqb]. rewrite !(Df 1%nat 3%nat), !(Df 2%nat 3%nat), !(Df 3%nat 1%nat), !(Df 3%nat 2%nat) by (lia || reflexivity). unfold kron; cbn. ring. }
      assert (D1 : det3 (block Axi (ext3 F)) <> 0) by (intros C; cbn [block] in C; rewrite C in BD; lra).
      assert (IB : forall a b, (1 <= a <= 2)%nat -> (1 <= b <= 2)%nat -> inv3 (block Axi (ext3 F)) a b = inv3 (ext3 F) a b).
      { intros a b Ha Hb. unfold inv3. rewrite D0. set (D := det3 (block Axi (ext3 F))) in *. unfold block, kron. idx a; idx b; cbn; rewrite ?(Df 1%nat 3%nat), ?(Df 2%nat 3%nat), ?(Df 3%nat 1%nat), ?(Df 3%nat 2%nat) by (lia || reflexivity); unfold kron; cbn; field; split; assumption. }
      assert (ZZ : forall a b, (1 <= a <= 3)%nat -> (1 <= b <= 3)%nat -> inKind Axi a b = false -> inv3 (ext3 F) a b = 0).
      { intros a b Ha Hb Hab. unfold inv3. idx a; idx b; cbn in Hab; try discriminate; rewrite ?(Df 1%nat 3%nat), ?(Df 2%nat 3%nat), ?(Df 3%nat 1%nat), ?(Df 3%nat 2%nat) by (lia || reflexivity); unfold kron, Rdiv; cbn; ring. }
      assert (Z3 : inv3 (ext3 F) 3%nat 3%nat = / ext3 F 3%nat 3%nat).
      { unfold inv3. rewrite D0. unfold det3 at 1, block, kron. cbn [Nat.leb andb Nat.eqb].
        unfold det3, block, kron in D1. cbn [Nat.leb andb Nat.eqb] in D1. field. split; [exact Y1|]. intros C. apply D1. eapply eq_trans; [|exact C]. ring. }
      unfold dispGrad. cbn [kdim isAxi iN iG iX curIn andb].
      destruct (Nat.leb_spec i 2) as [I2|I2].
      * destruct (Nat.leb_spec j 2) as [J2|J2]; cbn [andb Nat.leb Nat.eqb].
        -- rewrite (grad_mul 2 n (iG p) v). cbn [sumf]. cbn [block] in IB. rewrite !IB by lia. destruct (Nat.eqb_spec i 3); [lia|]. cbn [andb]. ring.
        -- assert (j = 3)%nat as -> by lia. rewrite (ZZ 1%nat 3%nat), (ZZ 2%nat 3%nat) by (lia || reflexivity). destruct (Nat.eqb_spec i 3); [lia|]. cbn [andb]. ring.
      * assert (i = 3)%nat as -> by lia. cbn [andb Nat.eqb]. destruct (Nat.eqb_spec j 3) as [->|J3]; cbn [andb].
        -- rewrite Z3. change (mkElm 2 true n 2 (iN p) (iG p) (iX p)) with (inElm Axi n p). rewrite udotN_interp by reflexivity. rewrite <- Y2. field. split; lra.
        -- rewrite (ZZ 3%nat j) by (try lia; idx j; try lia; reflexivity). ring.
Qed.

(** ** Strain-displacement matrices *)
Lemma bmat_ok k n N G r : (isAxi k = true -> epsR < r) ->
  exists B, bmat (mkElm (kdim k) (isAxi k) n (kdim k) N G r) = Ret B /\
    forall v s, (1 <= s <= nstr k)%nat -> mv (kdim k * n) (el B) v s = eng k (dispGrad k n (curIn N G r) v) s.
Proof.
  intros Hr. unfold bmat. destruct k; cbn [isAxi kdim axi] in *.
  - destruct (blin_ok 3 n N G r ltac:(auto)) as [B [E [Rr [Cc e]]]]. exists B. split; [exact E|]. intros v s Hs. cbn [nstr] in Hs.
    rewrite (bnl_mv 3 n (el B) kron G v s ltac:(auto)) by (intros; apply e; unfold nvoigt; cbn; lia).
    unfold eng, dispGrad, kron. cbn [kdim isAxi iG curIn]. idx s; cbn; ring.
  - destruct (blin_ok 2 n N G r ltac:(auto)) as [B [E [Rr [Cc e]]]]. exists B. split; [exact E|]. intros v s Hs. cbn [nstr] in Hs.
    rewrite (bnl_mv 2 n (el B) kron G v s ltac:(auto)) by (intros; apply e; unfold nvoigt; cbn; lia).
    unfold eng, dispGrad, kron. cbn [kdim isAxi iG curIn]. idx s; cbn; ring.
  - pose proof epsR_pos as EP. pose proof (Hr eq_refl) as R0. destruct (bax_strain n N G r ltac:(lra)) as [B [E [Rr [Cc e]]]]. exists B. split; [exact E|]. intros v s Hs. cbn [nstr] in Hs.
    destruct (e v) as [e1 [e2 [e3 e4]]].
    assert (RD : radialDisp n N v = interp 2 n N v 1) by (unfold radialDisp, interp; apply sumf_ext; intros; ring).
    unfold eng, dispGrad. cbn [kdim isAxi iG iN iX curIn]. idx s; cbn.
    + exact e1.
    + exact e2.
    + cbn in e3. rewrite e3. unfold hoopStrain. destruct (Rle_dec r epsR); [lra|]. rewrite RD. reflexivity.
    + exact e4.
Qed.
(** The stiffness and force terms of a strain-displacement matrix. *)
Lemma btcb_form k n B C w K q v (eq ev : nat -> R) : (forall s, (1 <= s <= nstr k)%nat -> mv (kdim k * n) (el B) q s = eq s) -> (forall s, (1 <= s <= nstr k)%nat -> mv (kdim k * n) (el B) v s = ev s) ->
  bil (kdim k * n) (el (addBtCB k B C w K)) q v = bil (kdim k * n) (el K) q v + w * sumf (nstr k) (fun r => sumf (nstr k) (fun s => eq r * C r s * ev s)).
Proof.
  intros Hq Hv. set (N := (kdim k * n)%nat) in *. unfold addBtCB. cbn [el]. unfold bil.
  set (m := nstr k) in *.
  transitivity (sumf N (fun i => q i * mv N (el K) v i + sumf m (fun r => w * (el B r i * q i * sumf m (fun s => C r s * ev s))))).
  - apply sumf_ext. intros i _. unfold mv.
    transitivity (q i * (sumf N (fun j => el K i j * v j) + sumf m (fun r => el B r i * sumf m (fun s => C r s * ev s) * w))).
    + f_equal. transitivity (sumf N (fun j => el K i j * v j + sumf m (fun r => el B r i * w * sumf m (fun s => C r s * (el B s j * v j))))).
      * apply sumf_ext. intros j _. rewrite Rmult_plus_distr_r. f_equal. rewrite <- sumf_scal_r. apply sumf_ext. intros r _.
        rewrite (sumf_ext m (fun s => C r s * (el B s j * v j)) (fun s => C r s * el B s j * v j)) by (intros; ring). rewrite sumf_scal_r. ring.
      * rewrite sumf_plus. f_equal. rewrite sumf_swap. apply sumf_ext. intros r _. rewrite sumf_scal. rewrite sumf_swap.
        rewrite (sumf_ext m (fun s => sumf N (fun j => C r s * (el B s j * v j))) (fun s => C r s * ev s)); [ring|].
        intros s Hs. rewrite sumf_scal. rewrite <- (Hv s Hs). reflexivity.
    + rewrite Rmult_plus_distr_l. f_equal. rewrite <- sumf_scal. apply sumf_ext. intros r _. ring.
  - rewrite sumf_plus. f_equal. rewrite sumf_swap. rewrite <- sumf_scal. apply sumf_ext. intros r Hr. rewrite sumf_scal. f_equal. rewrite sumf_scal_r.
    rewrite (sumf_ext m (fun s => eq r * C r s * ev s) (fun s => eq r * (C r s * ev s))) by (intros; ring). rewrite sumf_scal. f_equal. rewrite <- (Hq r Hr). reflexivity.
Qed.
Lemma bts_form k n B s w b v (ev : nat -> R) : (forall r, (1 <= r <= nstr k)%nat -> mv (kdim k * n) (el B) v r = ev r) ->
  sumf (kdim k * n) (fun i => (b i - addBts k B s w b i) * v i) = - w * sumf (nstr k) (fun r => stressVec k s r * ev r).
Proof.
  intros Hv. unfold addBts. set (N := (kdim k * n)%nat) in *.
  transitivity (sumf N (fun i => sumf (nstr k) (fun r => - w * (stressVec k s r * (el B r i * v i))))).
  - apply sumf_ext. intros i _. rewrite sumf_scal. rewrite (sumf_ext (nstr k) (fun r => stressVec k s r * (el B r i * v i)) (fun r => el B r i * stressVec k s r * v i)) by (intros; ring). rewrite sumf_scal_r.
    rewrite (sumf_ext (nstr k) (fun r => el B r i * (stressVec k s r * w)) (fun r => el B r i * stressVec k s r * w)) by (intros; ring). rewrite sumf_scal_r. ring.
  - rewrite sumf_swap. rewrite <- sumf_scal. apply sumf_ext. intros r Hr. rewrite sumf_scal. f_equal. rewrite sumf_scal. f_equal. exact (Hv r Hr).
Qed.
Lemma stress_form k s L : sym3 s -> rateOf k L -> sumf (nstr k) (fun r => stressVec k s r * eng k L r) = ddot3 s L.
Proof.
  intros [S1 [S2 S3]] HL. unfold ddot3. destruct k; cbn [nstr sumf stressVec tovoigt]; unfold eng; cbn.
  - rewrite S1, S2, S3. ring.
  - zeros HL. rewrite (HL 3%nat 3%nat) by (lia || reflexivity). rewrite S1. ring.
  - zeros HL. rewrite S1. ring.
Qed.

(** The geometric stiffness with functions and radius. *)
Theorem kg_ok k n N G r sg w K : (isAxi k = true -> 0 < r) -> rows K = (kdim k * n)%nat -> cols K = (kdim k * n)%nat ->
  exists K', formKG (mkElm (kdim k) (isAxi k) n (kdim k) N G r) r sg w K = Ret K' /\ rows K' = rows K /\ cols K' = cols K /\
    forall q v, let Lq := dispGrad k n (curIn N G r) q in let L := dispGrad k n (curIn N G r) v in
      bil (kdim k * n) (el K') q v = bil (kdim k * n) (el K) q v + w * (kgForm sg Lq L - hoopComp k sg Lq L).
Proof.
  intros Hr HR HC.
  set (x := mkMpt (curIn N G r) kron (fun a => N a / r) G 0).
  destruct (kg_form k n x sg w K HR HC) as [K1 [E1 [R1 [C1 e1]]]].
  destruct (formKG_ok (curElm k n x) 1 sg w K ltac:(destruct k; cbn; lia) HR HC) as [K2 [E2 e2]].
  rewrite E1 in E2. injection E2 as <-.
  set (e := mkElm (kdim k) (isAxi k) n (kdim k) N G r) in *.
  destruct (formKG_ok e r sg w K ltac:(destruct k; cbn; lia) HR HC) as [K' [E' e']].
  assert (D : rows K' = rows K /\ cols K' = cols K).
  { apply (formKG_dims e r sg w K K'); try assumption; [|destruct k; cbn; lia]. intros a i Ha Hi. apply dof_range; assumption. }
  exists K'. split; [exact E'|]. split; [apply D|]. split; [apply D|]. intros q v. cbn zeta.
  transitivity (bil (kdim k * n) (el K1) q v).
  - rewrite !bil_bil4. apply bil4_ext. intros a m b j Ha Hb Hm Hj. cbn [nsd nen dN shp curElm e] in e2, e'. rewrite e', e2 by assumption. f_equal.
    unfold kgrr, curElm, e. cbn [axi]. destruct k; cbn [isAxi]; [destruct (Rlt_dec 0 0); [lra|reflexivity]|destruct (Rlt_dec 0 0); [lra|reflexivity]|].
    pose proof (Hr eq_refl) as R0. destruct (Rlt_dec 0 1); [|lra]. destruct (Rlt_dec 0 r); [|lra].
    replace (sg 3%nat 3%nat / (1 * 1)) with (sg 3%nat 3%nat) by field.
    assert (RR : 0 < r * r) by (apply Rmult_lt_0_compat; lra).
    destruct (Rlt_dec 0 (sg 3%nat 3%nat)) as [A|A]; destruct (Rlt_dec 0 (sg 3%nat 3%nat / (r * r))) as [B|B].
    + unfold x. cbn [pN]. field. lra.
    + exfalso. apply B. now apply Rdiv_lt_0_compat.
    + exfalso. apply A. replace (sg 3%nat 3%nat) with (sg 3%nat 3%nat / (r * r) * (r * r)) by (field; lra). now apply Rmult_lt_0_compat.
    + reflexivity.
  - rewrite e1.
    assert (SP : forall z, eq3 (spat k n x z) (dispGrad k n (curIn N G r) z)).
    { intros z i j Hi Hj. unfold spat, dispGrad. cbn [iG iN iX curIn]. unfold x. cbn [pG pN].
      destruct ((i <=? kdim k) && (j <=? kdim k))%nat%bool; [reflexivity|]. destruct (isAxi k && (i =? 3)%nat && (j =? 3)%nat)%bool; [|reflexivity].
      unfold interp. unfold Rdiv. rewrite <- sumf_scal_r. apply sumf_ext. intros. ring. }
    unfold kgForm, hoopComp. cbn [sumf]. rewrite !SP by lia. reflexivity.
Qed.
