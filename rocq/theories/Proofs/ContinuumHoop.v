From Verif Require Import Lib.Base Lib.Sums Lib.Writes Lib.Congruence Model.Continuum Spec.Continuum
  Proofs.Continuum Proofs.ContinuumKin Proofs.ContinuumK Proofs.ContinuumAxi.

(** Hoop strain of the interpolated field: u_r/r, and its limit on the axis. *)
Definition hoopStrain (n : nat) (N : nat -> R) (G : nat -> nat -> R) (r : R) (u : nat -> R) : R :=
  if Rle_dec r epsR then gradient 2 n G u 1 1 else radialDisp n N u / r.

Lemma bax_rows n N G r : - epsR <= r ->
  exists B, formBmatrixAx (axisym n N G r) = Ret B /\ rows B = 4%nat /\ cols B = (2 * n)%nat /\
    forall a i v, (1 <= a <= n)%nat -> (1 <= i <= 2)%nat -> (1 <= v <= 4)%nat ->
      el B v (dof 2 a i) =
        match v, i with
        | 1%nat, 1%nat => G a 1%nat | 2%nat, 2%nat => G a 2%nat
        | 3%nat, 1%nat => if Rle_dec r epsR then G a 1%nat else N a / r
        | 4%nat, 1%nat => G a 2%nat | 4%nat, 2%nat => G a 1%nat
        | _, _ => 0 end.
Proof.
  intros Hr. unfold formBmatrixAx. cbn [ncol rad nen dN shp axisym].
  change (2 <? 2)%nat with false. cbv iota. destruct (Rlt_dec r (- epsR)) as [C|_]; [lra|].
  match goal with |- exists B, bind (run_set ?m ?ws) _ = _ /\ _ => destruct (run_set_ok ws m) as [B [E [Rr [Cc [W Nn]]]]] end.
  { intros i j v Hv. inl Hv. inw Hv; apply inb_true; cbn; unfold INDEX; lia. }
  rewrite E. cbn [bind]. eexists. split; [reflexivity|]. split; [reflexivity|]. split; [reflexivity|].
  intros a i v Ha Hi Hv. rewrite reshape_dof; try lia; [|rewrite Rr; reflexivity].
  idx i; try (exfalso; lia); idx v; try (exfalso; lia);
  first
   [ apply W; [apply In_loop; exists a; split; [exact Ha|]; cbn; tauto
             | intros w Hw; inl Hw; inw Hw; unfold INDEX in *; try reflexivity; exfalso; lia]
   | rewrite Nn; [reflexivity|]; intros w Hw; inl Hw; inw Hw; unfold INDEX in *; exfalso; lia ].
Qed.

Theorem bax_strain n N G r : - epsR <= r ->
  exists B, formBmatrixAx (axisym n N G r) = Ret B /\ rows B = 4%nat /\ cols B = (2 * n)%nat /\
    forall u, mv (2 * n) (el B) u 1 = gradient 2 n G u 1 1 /\ mv (2 * n) (el B) u 2 = gradient 2 n G u 2 2 /\
      mv (2 * n) (el B) u 3 = hoopStrain n N G r u /\
      mv (2 * n) (el B) u 4 = gradient 2 n G u 1 2 + gradient 2 n G u 2 1.
Proof.
  intros Hr. destruct (bax_rows n N G r Hr) as [B [E [Rr [Cc e]]]]. exists B. split; [exact E|]. split; [exact Rr|]. split; [exact Cc|].
  intros u.
  assert (X : forall v, (1 <= v <= 4)%nat -> mv (2 * n) (el B) u v = sumf n (fun a => el B v (dof 2 a 1) * u (dof 2 a 1) + el B v (dof 2 a 2) * u (dof 2 a 2))).
  { intros v Hv. unfold mv. rewrite sumf_dof. apply sumf_ext. intros a Ha. cbn [sumf]. unfold sumf. cbn. ring. }
  rewrite !X by lia. unfold hoopStrain, gradient, radialDisp. fold (dof 2).
  split; [|split; [|split]].
  - apply sumf_ext. intros a Ha. rewrite !e by lia. unfold dof. ring.
  - apply sumf_ext. intros a Ha. rewrite !e by lia. unfold dof. ring.
  - destruct (Rle_dec r epsR).
    + apply sumf_ext. intros a Ha. rewrite !e by lia. destruct (Rle_dec r epsR); [|contradiction]. unfold dof. ring.
    + unfold Rdiv. rewrite <- sumf_scal_r. apply sumf_ext. intros a Ha. rewrite !e by lia. destruct (Rle_dec r epsR); [contradiction|]. unfold dof, Rdiv. ring.
  - rewrite <- sumf_plus. apply sumf_ext. intros a Ha. rewrite !e by lia. unfold dof. ring.
Qed.

Lemma bax_reject n N G r : r < - epsR -> formBmatrixAx (axisym n N G r) = Rejected.
Proof. intros H. unfold formBmatrixAx. cbn [ncol rad axisym]. change (2 <? 2)%nat with false. cbv iota. destruct (Rlt_dec r (- epsR)); [reflexivity|lra]. Qed.

Theorem axi_defgrad n N G r u : (1 <= n)%nat ->
  exists F, formDefGradient (axisym n N G r) (2 * n) u false = Ret F /\ rows F = 3%nat /\ cols F = 3%nat /\
    (forall i j, (1 <= i <= 2)%nat -> (1 <= j <= 2)%nat -> el F i j = kron i j + gradient 2 n G u i j) /\
    (forall i, (1 <= i <= 2)%nat -> el F i 3 = 0 /\ el F 3 i = 0) /\
    el F 3 3 = 1 + (if Rlt_dec epsR r then radialDisp n N u / r else 0).
Proof.
  intros Hn. unfold formDefGradient, nDF. cbn [axi axisym nsd nen ncol].
  destruct (Nat.eqb_spec (2 * n) 0) as [E|_]; [exfalso; lia|]. rewrite Nat.eqb_refl, Nat.ltb_irrefl. cbn [negb orb andb].
  match goal with |- exists E0, bind (run_add ?m ?ws) _ = _ /\ _ => destruct (run_add_ok ws m) as [F [E [Er [Ec Ee]]]] end.
  { intros i j v Hv. inl Hv. inw Hv. apply inb_true; cbn; lia. }
  rewrite E. cbn [bind rad axisym].
  assert (in2 : forall i j, (1 <= i <= 2)%nat -> (1 <= j <= 2)%nat -> el F i j = kron i j + gradient 2 n G u i j).
  { intros i j Hi Hj. rewrite Ee, (hitsum_mat 2 2 (gradU (mkElm 2 true n 2 N G r) u)) by assumption. cbn [el]. unfold gradU, gradient, dof. cbn [nsd nen dN]. ring. }
  assert (ou : forall i j, (3 <= i)%nat \/ (3 <= j)%nat -> el F i j = kron i j).
  { intros i j Hij. rewrite Ee. cbn [el]. rewrite hitsum_loop, sumf_0; [ring|]. intros i' Hi'. rewrite hitsum_loop. apply sumf_0. intros j' Hj'.
    rewrite hitsum_one. destruct (Nat.eqb_spec i i'), (Nat.eqb_spec j j'); cbn [andb]; try reflexivity. subst. exfalso. lia. }
  destruct (Rlt_dec epsR r) as [L|L].
  - destruct (run_add_ok [(3%nat, 3%nat, udotN (axisym n N G r) u / r)] F) as [F' [E' [R' [C' e']]]].
    { intros i j v Hv. inw Hv. apply inb_true; rewrite ?Er, ?Ec; cbn; lia. }
    exists F'. split; [exact E'|]. split; [rewrite R', Er; reflexivity|]. split; [rewrite C', Ec; reflexivity|]. split; [|split].
    + intros i j Hi Hj. rewrite e', hitsum_one, in2 by assumption. destruct (Nat.eqb_spec i 3); [lia|]. cbn [andb]. ring.
    + intros i Hi. rewrite !e', !hitsum_one, !ou by lia. idx i; unfold kron; cbn; split; ring.
    + rewrite e', hitsum_one, ou by lia. unfold kron. cbn [Nat.eqb andb]. unfold udotN, radialDisp. cbn [nen nsd shp axisym].
      rewrite (sumf_ext n (fun a => u (1 + 2 * (a - 1))%nat * N a) (fun a => u (2 * (a - 1) + 1)%nat * N a)) by (intros; do 2 f_equal; lia). reflexivity.
  - exists F. split; [reflexivity|]. split; [exact Er|]. split; [exact Ec|]. split; [exact in2|]. split.
    + intros i Hi. rewrite !ou by lia. idx i; unfold kron; cbn; split; reflexivity.
    + rewrite ou by lia. unfold kron. cbn. ring.
Qed.

(** Geometric stiffness of a point with tensile (or no) hoop stress away from the axis. *)
Theorem kg_quad_axi n N G r sig w : 0 < r -> 0 <= sig 3%nat 3%nat ->
  exists K, formKG (axisym n N G r) r sig w (zeros (2 * n) (2 * n)) = Ret K /\
    forall u v, sumf (2 * n) (fun i => u i * mv (2 * n) (el K) v i) =
      w * (sumf 2 (fun k => sumf 2 (fun i => sumf 2 (fun j => gradient 2 n G u k i * sig i j * gradient 2 n G v k j)))
           + sig 3%nat 3%nat * (radialDisp n N u / r) * (radialDisp n N v / r)).
Proof.
  intros Hr Hs.
  destruct (kg_quad 2 n N G r sig w (zeros (2 * n) (2 * n)) ltac:(lia) eq_refl eq_refl ltac:(intros; reflexivity)) as [K0 [E0 q0]].
  destruct (formKG_ok (plane 2 n N G 0) r sig w (zeros (2 * n) (2 * n)) ltac:(cbn; lia) eq_refl eq_refl) as [K0' [E0' e0]].
  rewrite E0 in E0'. injection E0' as <-.
  destruct (formKG_ok (axisym n N G r) r sig w (zeros (2 * n) (2 * n)) ltac:(cbn; lia) eq_refl eq_refl) as [K [E e]].
  exists K. split; [exact E|]. intros u v. cbn [nsd nen dN shp axisym plane] in e, e0.
  assert (X : forall a b m k, (1 <= a <= n)%nat -> (1 <= b <= n)%nat -> (1 <= m <= 2)%nat -> (1 <= k <= 2)%nat ->
    el K (dof 2 a m) (dof 2 b k) = el K0 (dof 2 a m) (dof 2 b k) + kron m 1 * kron k 1 * (N a * (sig 3%nat 3%nat / (r * r)) * N b * w)).
  { intros a b m k Ha Hb Hm Hk. rewrite e, e0 by assumption. unfold kgrr. cbn [axi plane axisym].
    destruct (Rlt_dec 0 r); [|contradiction]. destruct (Rlt_dec 0 0) as [L|_]; [lra|]. cbn [el zeros].
    destruct (Rlt_dec 0 (sig 3%nat 3%nat / (r * r))) as [L|L]; [ring|].
    assert (Z : sig 3%nat 3%nat / (r * r) = 0).
    { apply Rnot_lt_le in L. apply Rle_antisym; [exact L|]. apply Rmult_le_pos; [exact Hs|]. left. apply Rinv_0_lt_compat. nra. }
    rewrite Z. ring. }
  rewrite Rmult_plus_distr_l, <- q0. 
  transitivity (sumf (2 * n) (fun i => u i * mv (2 * n) (el K0) v i) +
     sumf n (fun a => u (dof 2 a 1) * sumf n (fun b => N a * (sig 3%nat 3%nat / (r * r)) * N b * w * v (dof 2 b 1)))).
  - rewrite !sumf_dof, <- sumf_plus. apply sumf_ext. intros a Ha. unfold mv.
    assert (Y : forall i, (1 <= i <= 2)%nat -> sumf n (fun b => sumf 2 (fun k => el K (dof 2 a i) (dof 2 b k) * v (dof 2 b k))) =
       sumf n (fun b => sumf 2 (fun k => el K0 (dof 2 a i) (dof 2 b k) * v (dof 2 b k)))
       + kron i 1 * sumf n (fun b => N a * (sig 3%nat 3%nat / (r * r)) * N b * w * v (dof 2 b 1))).
    { intros i Hi. rewrite <- sumf_scal, <- sumf_plus. apply sumf_ext. intros b Hb. cbn [sumf]. rewrite !X by lia. unfold kron. cbn [Nat.eqb]. ring. }
    cbn [sumf]. rewrite !sumf_dof, !Y by lia. unfold kron. cbn [Nat.eqb]. ring.
  - f_equal. unfold radialDisp. fold (dof 2).
    transitivity (sumf n (fun a => (u (dof 2 a 1) * N a) * (w * sig 3%nat 3%nat / (r * r) * sumf n (fun b => v (dof 2 b 1) * N b)))).
    + apply sumf_ext. intros a _. rewrite Rmult_assoc. f_equal. rewrite <- !sumf_scal. apply sumf_ext. intros b _. unfold Rdiv. ring.
    + rewrite sumf_scal_r. unfold dof. field. lra.
Qed.
