(** Properties C20-C23 and C75-C77: F-bar and mixed element formulations. *)
From Coquelicot Require Import Coquelicot.
From Verif Require Import Lib.Base Lib.Sums Lib.Writes Model.Continuum Model.Mixed Spec.Mixed
  Proofs.Continuum Proofs.Mixed Proofs.Mixed2 Proofs.Mixed3.

Theorem C20_tangent_plane_axi_partial : forall C Sg,
  (symT 2 Sg -> forall k l, (1 <= k <= 4)%nat -> (1 <= l <= 4)%nat ->
    amat2D C Sg k l = let '(i, j) := gpair 2 k in let '(i', j') := gpair 2 l in firstElasticity 2 C Sg i j i' j') /\
  (symT 3 Sg -> Sg 1%nat 3%nat = 0 -> Sg 2%nat 3%nat = 0 -> forall k l, (1 <= k <= 5)%nat -> (1 <= l <= 5)%nat ->
    amatAx C Sg k l = let '(i, j) := gpairAx k in let '(i', j') := gpairAx l in firstElasticity 3 C Sg i j i' j').
Proof. intros. split; [apply amat2D_ok|apply amatAx_ok]. Qed.
Print Assumptions C20_tangent_plane_axi_partial.

(** In 3D exactly one of the 81 entries is wrong: (9,3) uses sigma_12 where sigma_13 is due. *)
Theorem C20_tangent_space_partial : forall C Sg, symT 3 Sg -> forall k l, (1 <= k <= 9)%nat -> (1 <= l <= 9)%nat ->
  amat3D C Sg k l = (let '(i, j) := gpair 3 k in let '(i', j') := gpair 3 l in firstElasticity 3 C Sg i j i' j')
    + (if ((k =? 9) && (l =? 3))%nat%bool then Sg 1%nat 2%nat - Sg 1%nat 3%nat else 0).
Proof. exact amat3D_ok. Qed.
Print Assumptions C20_tangent_space_partial.

Theorem C20_symmetric_partial : forall C Sg,
  (symm 3 C -> symT 2 Sg -> symm 4 (amat2D C Sg)) /\ (symm 4 C -> symT 3 Sg -> symm 5 (amatAx C Sg)) /\
  (symm 6 C -> symT 3 Sg -> Sg 1%nat 2%nat = Sg 1%nat 3%nat -> symm 9 (amat3D C Sg)).
Proof.
  intros C Sg. split; [|split].
  - intros HC HS i j Hi Hj. pose proof (HS 1%nat 2%nat ltac:(lia) ltac:(lia)) as E.
    pose proof (HC 1%nat 2%nat ltac:(lia) ltac:(lia)). pose proof (HC 1%nat 3%nat ltac:(lia) ltac:(lia)). pose proof (HC 2%nat 3%nat ltac:(lia) ltac:(lia)).
    idx i; idx j; cbn; lra.
  - intros HC HS i j Hi Hj. pose proof (HS 1%nat 2%nat ltac:(lia) ltac:(lia)) as E.
    pose proof (HC 1%nat 2%nat ltac:(lia) ltac:(lia)). pose proof (HC 1%nat 3%nat ltac:(lia) ltac:(lia)). pose proof (HC 2%nat 3%nat ltac:(lia) ltac:(lia)).
    pose proof (HC 1%nat 4%nat ltac:(lia) ltac:(lia)). pose proof (HC 2%nat 4%nat ltac:(lia) ltac:(lia)). pose proof (HC 3%nat 4%nat ltac:(lia) ltac:(lia)).
    idx i; idx j; cbn; lra.
  - intros HC HS Q i j Hi Hj. rewrite !(amat3D_ok C Sg HS) by assumption.
    assert (Z : forall a b, (if ((a =? 9) && (b =? 3))%nat%bool then Sg 1%nat 2%nat - Sg 1%nat 3%nat else 0) = 0) by (intros a b; destruct (_ && _)%bool; lra).
    rewrite !Z. unfold gpair, firstElasticity.
    assert (V : forall p q, (1 <= p <= 3)%nat -> (1 <= q <= 3)%nat -> (1 <= vindex 3 p q <= 6)%nat) by (intros p q Hp Hq; idx p; idx q; cbn; lia).
    assert (B : forall k, (1 <= k <= 9)%nat -> (1 <= S ((k - 1) / 3) <= 3)%nat /\ (1 <= S ((k - 1) mod 3) <= 3)%nat) by (intros k Hk; idx k; cbn; lia).
    destruct (B i Hi) as [I1 I2], (B j Hj) as [J1 J2]. unfold tensor4.
    rewrite (HC _ _ (V _ _ I1 I2) (V _ _ J1 J2)), (HS _ _ I1 J1). unfold kron. rewrite (Nat.eqb_sym (S ((j - 1) mod 3))). reflexivity.
Qed.
Print Assumptions C20_symmetric_partial.

Theorem C20_space_refuted : exists C Sg, symm 6 C /\ symT 3 Sg /\
  amat3D C Sg 9 3 <> (let '(i, j) := gpair 3 9 in let '(i', j') := gpair 3 3 in firstElasticity 3 C Sg i j i' j') /\
  amat3D C Sg 9 3 <> amat3D C Sg 3 9.
Proof.
  exists (fun _ _ => 0), (fun i j => if ((i + j =? 3)%nat) then 1 else 0). repeat split.
  - intros i j _ _. rewrite (Nat.add_comm j i). reflexivity.
  - cbn. unfold firstElasticity, tensor4, kron. cbn. lra.
  - cbn. lra.
Qed.
Print Assumptions C20_space_refuted.

(** The tangent built from A: material plus geometric stiffness, plus the F-bar correction. *)
Theorem C20_element_tangent_plane : forall C Sg G n M r N, symT 2 Sg -> gradOp 2 false r N G n = Ret M ->
  forall a b m k, (1 <= a <= n)%nat -> (1 <= b <= n)%nat -> (1 <= m <= 2)%nat -> (1 <= k <= 2)%nat ->
  matTmat 4 (el M) (fun x c => sumf 4 (fun l => amat2D C Sg x l * el M l c)) (dof 2 a m) (dof 2 b k)
  = sumf 3 (fun x => sumf 3 (fun y => bnl 2 kron G x m a * C x y * bnl 2 kron G y k b))
    + kron m k * sumf 2 (fun i => sumf 2 (fun j => G a i * Sg i j * G b j)).
Proof. exact fbar_standard_2D. Qed.
Print Assumptions C20_element_tangent_plane.

Theorem C20_element_tangent_axisymmetric : forall C Sg G n M r N, symT 3 Sg -> gradOp 2 true r N G n = Ret M ->
  forall a b m k, (1 <= a <= n)%nat -> (1 <= b <= n)%nat -> (1 <= m <= 2)%nat -> (1 <= k <= 2)%nat ->
  matTmat 5 (el M) (fun x c => sumf 5 (fun l => amatAx C Sg x l * el M l c)) (dof 2 a m) (dof 2 b k)
  = sumf 4 (fun x => sumf 4 (fun y => strain7 true (N a / r) (G a) (fun _ => 0) x m * C x y * strain7 true (N b / r) (G b) (fun _ => 0) y k))
    + kron m k * sumf 2 (fun i => sumf 2 (fun j => G a i * Sg i j * G b j))
    + kron m 1 * kron k 1 * (N a / r * Sg 3%nat 3%nat * (N b / r)).
Proof. exact fbar_standard_Ax. Qed.
Print Assumptions C20_element_tangent_axisymmetric.

Theorem C20_fbar_correction : forall d hoop Sg A G Gb p q, ((d = 2 \/ d = 3) /\ (hoop = true -> d = 2))%nat ->
  let ng := (if hoop then S (d * d) else d * d)%nat in
  fbarTangent ng G Gb A (qmat d (if hoop then 3 else d) hoop Sg A) p q
  = matTmat ng G (fun k c => sumf ng (fun l => A k l * G l c)) p q
    + sumf ng (fun k => G k p * Qval d (if hoop then 3 else d) hoop Sg A k) * (divRow d hoop Gb q - divRow d hoop G q).
Proof. exact fbar_tangent. Qed.
Print Assumptions C20_fbar_correction.

Theorem C21_fbar : forall d F Jb, (d = 2 \/ d = 3)%nat -> 0 < dt d F -> 0 < Jb ->
  dt d (fbarF d Jb (dt d F) F) = Jb /\ sameShape d F (fbarF d Jb (dt d F) F) /\
  (Jb = dt d F -> forall i j, fbarF d Jb (dt d F) F i j = F i j).
Proof. exact fbar_det. Qed.
Print Assumptions C21_fbar.

Theorem C21_pressure_modes : forall F Th, 0 < dt3 F -> 0 < Th ->
  dt3 (mxF Th (dt3 F) F) = Th /\ sameShape 3 F (mxF Th (dt3 F) F) /\ (Th = dt3 F -> forall i j, mxF Th (dt3 F) F i j = F i j).
Proof. exact mx_det. Qed.
Print Assumptions C21_pressure_modes.

Theorem C21_three_field : forall ndf F Th, (ndf = 2 \/ ndf = 3)%nat -> 0 < dt ndf F -> 0 < Th ->
  dt3 (mixedF ndf Th (dt ndf F) F) = Th /\ sameShape ndf F (mixedF ndf Th (dt ndf F) F) /\
  (Th = dt ndf F -> forall i j, (1 <= i <= 3)%nat -> (1 <= j <= 3)%nat ->
     mixedF ndf Th (dt ndf F) F i j = if (ndf =? 2)%nat then (if ((i =? 3) || (j =? 3))%nat%bool then kron i j else F i j) else F i j).
Proof. exact mixed_det. Qed.
Print Assumptions C21_three_field.

(** The averaged ratio: constants are reproduced, the projection is exact against every pressure mode, and the
    short cut for a constant mode is the general formula. *)
Theorem C21_average_of_constant : forall vol Nbar J, length vol = length Nbar -> (forall x, In x vol -> x = J) ->
  sumL (fun x => x) Nbar = 1 -> jbar vol Nbar J = J.
Proof. exact jbar_const. Qed.
Print Assumptions C21_average_of_constant.

Theorem C21_projection : forall nPM Hi pts,
  (forall i j, (1 <= i <= nPM)%nat -> (1 <= j <= nPM)%nat -> sumf nPM (fun k => mxH pts i k * Hi k j) = kron i j) ->
  forall i, (1 <= i <= nPM)%nat ->
    sumL (fun p => phi p i * mxTheta nPM Hi pts p * wgt p) pts = sumL (fun p => phi p i * detF p * wgt p) pts.
Proof. exact mx_projection. Qed.
Print Assumptions C21_projection.

Theorem C21_shortcut : forall Hi11 pts p, (forall q, In q pts -> phi q 1%nat = 1) -> phi p 1%nat = 1 ->
  mxTheta 1 (fun _ _ => Hi11) pts p = mxTheta1 Hi11 pts /\
  (Hi11 <> 0 -> sumL (fun q => detF q * wgt q) pts <> 0 -> forall a k, mxBar 1 (fun _ _ => Hi11) pts p a k = mxBar1 pts a k).
Proof. exact mx_shortcut. Qed.
Print Assumptions C21_shortcut.

Example C21_case : 0 < dt 2 (fun i j => kron i j * 2) /\ 0 < 3.
Proof. unfold dt, dt2, kron. cbn. lra. Qed.
Example C21_projection_case : let pts := [mkPt (fun _ => 1) 2 3 (fun _ _ => 0); mkPt (fun _ => 1) 5 1 (fun _ _ => 0)] in
  (forall i j, (1 <= i <= 1)%nat -> (1 <= j <= 1)%nat -> sumf 1 (fun k => mxH pts i k * (/ 4)) = kron i j) /\
  mxTheta 1 (fun _ _ => / 4) pts (mkPt (fun _ => 1) 2 3 (fun _ _ => 0)) = 11 / 4.
Proof.
  cbv zeta. split.
  - intros i j Hi Hj. assert (i = 1%nat) as -> by lia. assert (j = 1%nat) as -> by lia. unfold mxH, sumL, kron. cbn. lra.
  - unfold mxTheta, mxJ1, sumL. cbn. lra.
Qed.

(** An inverted projected volume is not detected: the modified F gets the absolute value. *)
Theorem C21_sign_lost : forall d F Jb, (d = 2 \/ d = 3)%nat -> 0 < dt d F -> dt d (fbarF d Jb (dt d F) F) = Rabs Jb.
Proof. exact fbar_det_abs. Qed.
Print Assumptions C21_sign_lost.

Theorem C22_grid : forall nsd nPt x rt, (1 <= nsd)%nat -> 0 <= x -> x ^ nsd = INR nPt -> Rabs (rt - x) < / 2 ->
  (forall p s, fbarInit nsd nPt rt = Some (p, s) -> (p ^ nsd = nPt)%nat /\ s = nPt) /\
  (forall p, (p ^ nsd = nPt)%nat -> fbarInit nsd nPt rt = Some (p, nPt)).
Proof. exact fbar_grid. Qed.
Print Assumptions C22_grid.

Theorem C22_slots : forall nsd nPt rt p s, fbarInit nsd nPt rt = Some (p, s) ->
  slots nPt s 0 = Ret (seq 0 nPt) /\ NoDup (seq 0 nPt) /\ forall more, (0 < more)%nat -> slots (nPt + more) s 0 = UB.
Proof.
  intros nsd nPt rt p s H. unfold fbarInit in H. destruct (_ =? _)%Z; [|discriminate]. injection H as _ <-.
  split; [apply slots_seq; lia|]. split; [apply seq_NoDup|]. intros more Hm. apply slots_over; lia.
Qed.
Print Assumptions C22_slots.

Example C22_case : fbarInit 3 27 3 = Some (3%nat, 27%nat) /\ fbarInit 2 3 (173 / 100) = None.
Proof.
  split.
  - apply (fbar_grid 3 27 3 3); [lia|lra|cbn; lra|rewrite Rminus_diag_eq, Rabs_R0 by reflexivity; lra|reflexivity].
  - unfold fbarInit. rewrite (ceilR_spec _ 2) by lra. reflexivity.
Qed.

Theorem C23_newton_matrix : forall n m Kuu Kut Kup Ktt Ktp,
  exists N, newtonMatrix n m Kuu Kut Kup Ktt Ktp (zeros (n + 2 * m) (n + 2 * m)) = Ret N /\
    rows N = (n + 2 * m)%nat /\ cols N = (n + 2 * m)%nat /\
    (forall x y, validDof n m x -> validDof n m y -> el N (place n x) (place n y) = threeField Kuu Kut Kup Ktt Ktp x y) /\
    (symm n Kuu -> symm m Ktt -> symm (n + 2 * m) (el N)).
Proof.
  intros n m Kuu Kut Kup Ktt Ktp. destruct (newton_ok n m Kuu Kut Kup Ktt Ktp) as [N [E [R1 [C1 V]]]].
  exists N. split; [exact E|]. split; [exact R1|]. split; [exact C1|]. split; [exact V|].
  intros H1 H2 i j Hi Hj. destruct (place_surj n m i Hi) as [x [Vx <-]], (place_surj n m j Hj) as [y [Vy <-]].
  rewrite !V by assumption. apply (threeField_symm n m); assumption.
Qed.
Print Assumptions C23_newton_matrix.

Theorem C23_places : forall n m,
  (forall x, validDof n m x -> (1 <= place n x <= n + 2 * m)%nat) /\
  (forall x y, validDof n m x -> validDof n m y -> place n x = place n y -> x = y) /\
  (forall k, (1 <= k <= n + 2 * m)%nat -> exists x, validDof n m x /\ place n x = k).
Proof. intros n m. split; [apply place_range|]. split; [apply place_inj|apply place_surj]. Qed.
Print Assumptions C23_places.

Theorem C23_residual : forall n m Ru Rt Rp (R0 : mat), rows R0 = (n + 2 * m)%nat -> cols R0 = 1%nat ->
  (exists V, rhsVector true n m Ru Rt Rp R0 = Ret V /\
    forall x, validDof n m x -> el V (place n x) 1 = match x with DU i => Ru i | DT j => Rt j | DP j => Rp j end) /\
  (exists V, rhsVector false n m Ru Rt Rp R0 = Ret V /\
    forall x, validDof n m x -> el V (place n x) 1 = match x with DU i => Ru i | _ => 0 end).
Proof. intros. split; [apply rhs_ok|apply rhs_neumann]; assumption. Qed.
Print Assumptions C23_residual.

Theorem C75_volume_equation : forall d n G F Fi w N2 Th dJW b, (d = 2 \/ d = 3)%nat -> rightInv d F Fi ->
  is_derive (fun t => rpAdd true N2 Th (dt d (fun i j => F i j + t * gradient d n G w i j)) dJW b) 0
    (- sumf n (fun a => sumf d (fun i => pushed d G Fi a i * N2 b * (dt d F * dJW) * w (dof d a i)))).
Proof. exact volume_residual_derivative. Qed.
Print Assumptions C75_volume_equation.

Theorem C75_volume_equation_axisymmetric : forall n G N F Fi ur w N2 Th dJW b X, rightInv 2 F Fi -> 0 < X -> X + ur <> 0 ->
  is_derive (fun t => rpAdd true N2 Th (dt2 (fun i j => F i j + t * gradient 2 n G w i j) * (1 + (ur + t * hoopDisp n N w) / X)) dJW b) 0
    (- sumf n (fun a => sumf 2 (fun i => (pushed 2 G Fi a i + kron i 1 * (N a / (X + ur))) * N2 b * (dt2 F * (1 + ur / X) * dJW) * w (dof 2 a i)))).
Proof. exact volume_residual_derivative_axi. Qed.
Print Assumptions C75_volume_equation_axisymmetric.

Theorem C75_coupling_blocks : forall d hoop n1 n2 Nr G N2 D7 dV K, ((d = 2 \/ d = 3) /\ (hoop = true -> d = 2))%nat -> rows K = (d * n1)%nat -> cols K = n2 ->
  (exists K', run_add K (kutWrites d hoop n1 n2 Nr G N2 D7) = Ret K' /\
    forall a i b, (1 <= a <= n1)%nat -> (1 <= i <= d)%nat -> (1 <= b <= n2)%nat ->
      el K' (dof d a i) b = el K (dof d a i) b
        + (sumf 6 (fun r => strain7 hoop (Nr a) (fun j => if (j <=? d)%nat then G a j else 0) (fun _ => 0) r i * D7 r)) * N2 b) /\
  (exists K', run_add K (kupWrites d hoop n1 n2 Nr G N2 dV) = Ret K' /\
    forall a i b, (1 <= a <= n1)%nat -> (1 <= i <= d)%nat -> (1 <= b <= n2)%nat ->
      el K' (dof d a i) b = el K (dof d a i) b + (G a i + (if hoop then kron i 1 * Nr a else 0)) * N2 b * dV).
Proof.
  intros d hoop n1 n2 Nr G N2 D7 dV K Hd HR HC. split.
  - destruct (kut_ok d hoop n1 n2 Nr G N2 D7 K Hd HR HC) as [K' [E [_ [_ V]]]]. exists K'. split; assumption.
  - destruct (kup_ok d hoop n1 n2 Nr G N2 dV K ltac:(lia) HR HC) as [K' [E [_ [_ V]]]]. exists K'. split; assumption.
Qed.
Print Assumptions C75_coupling_blocks.

Theorem C75_volume_pressure_block : forall N2 Th J dJW P Bp b c s,
  rpAdd true N2 (Th + s * N2 c) J dJW b - rpAdd true N2 Th J dJW b = - (ktpAdd N2 dJW c b * s) /\
  rtAdd true N2 (P + s * N2 c) Bp dJW b - rtAdd true N2 P Bp dJW b = - (ktpAdd N2 dJW b c * s).
Proof. exact residual_derivative_theta_p. Qed.
Print Assumptions C75_volume_pressure_block.

(** With zero Green strain (for instance zero displacements) both constraint residuals are skipped, although the
    volume change or the pressure may be non-zero; the K_tp block is still assembled. *)
Theorem C75_unstrained_refuted : exists N2 Th J P Bp dJW, Th <> J /\ P <> Bp /\
  rpAdd false N2 Th J dJW 1 = 0 /\ rtAdd false N2 P Bp dJW 1 = 0 /\
  rpAdd true N2 Th J dJW 1 <> 0 /\ rtAdd true N2 P Bp dJW 1 <> 0 /\ ktpAdd N2 dJW 1 1 <> 0.
Proof. exists (fun _ => 1), 2, 1, 1, 0, 1. unfold rpAdd, rtAdd, ktpAdd. repeat split; lra. Qed.
Print Assumptions C75_unstrained_refuted.

Example C75_case : rightInv 2 (fun i j => kron i j * 2) (fun i j => kron i j / 2).
Proof. intros i j Hi Hj. idx i; idx j; cbn; unfold kron; cbn; lra. Qed.

Theorem C76_projection : forall D sg pbar p i j, (1 <= i <= 7)%nat -> (1 <= j <= 7)%nat ->
  addVolumetric D sg pbar p i j = projected D sg pbar p i j.
Proof. exact addVolumetric_ok. Qed.
Print Assumptions C76_projection.

Theorem C76_symmetric : forall D sg pbar p, symm 6 D -> symm 7 (addVolumetric D sg pbar p).
Proof. intros D sg pbar p H i j Hi Hj. rewrite !addVolumetric_ok by assumption. apply projected_symm; assumption. Qed.
Print Assumptions C76_symmetric.

Theorem C77_kernels : forall hoop n sr s sb D EK,
  (rows EK = (2 * n)%nat -> cols EK = (2 * n)%nat ->
   exists EK', accKMx2 hoop n sr s sb D EK = Ret EK' /\
    forall a b i j, (1 <= a <= n)%nat -> (1 <= b <= n)%nat -> (1 <= i <= 2)%nat -> (1 <= j <= 2)%nat ->
      el EK' (dof 2 a i) (dof 2 b j) = el EK (dof 2 a i) (dof 2 b j)
        + sumf 7 (fun r => sumf 7 (fun q => strain7 hoop (sr a) (fun k => if (k <=? 2)%nat then s a k else 0) (sb a) r i * D r q
            * strain7 hoop (sr b) (fun k => if (k <=? 2)%nat then s b k else 0) (sb b) q j))) /\
  (rows EK = (3 * n)%nat -> cols EK = (3 * n)%nat ->
   exists EK', accKMx3 n s sb D EK = Ret EK' /\
    forall a b i j, (1 <= a <= n)%nat -> (1 <= b <= n)%nat -> (1 <= i <= 3)%nat -> (1 <= j <= 3)%nat ->
      el EK' (dof 3 a i) (dof 3 b j) = el EK (dof 3 a i) (dof 3 b j)
        + sumf 7 (fun r => sumf 7 (fun q => strain7 false 0 (s a) (sb a) r i * D r q * strain7 false 0 (s b) (sb b) q j))).
Proof.
  intros hoop n sr s sb D EK. split; intros HR HC.
  - destruct (accKMx2_ok hoop n sr s sb D EK HR HC) as [K' [E [_ [_ V]]]]. exists K'. split; assumption.
  - destruct (accKMx3_ok n s sb D EK HR HC) as [K' [E [_ [_ V]]]]. exists K'. split; assumption.
Qed.
Print Assumptions C77_kernels.
