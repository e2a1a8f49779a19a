(** Shell energy (C51, C53) and recovered results (C52). *)
From Coquelicot Require Import Coquelicot.
From Verif Require Import Lib.Base Lib.Sums Lib.Writes Lib.Congruence Lib.Vec3 Model.LinIsotropic Model.Rigid Model.Shell Spec.Shell.
From Verif Require Import Proofs.LinIsotropic Proofs.Cable Proofs.Plate Proofs.Shell Proofs.ShellVar.

Definition ofV (v : v3) : sym2 := mkS (vx v) (vy v) (vz v).
(* the local Cartesian frame of the shell is well defined *)
Definition regular (g1 g2 : v3) : Prop :=
  epsZ < vlen (vcross g1 g2) /\ epsZ < vlen g1 /\ epsZ < vlen (vscal (/ det2 (metric g1 g2)) (vsub (vscal (vdot g1 g1) g2) (vscal (vdot g1 g2) g1))).
Lemma normalize_unit v : epsZ < vlen v -> snd (normalize v) = vscal (/ vlen v) v.
Proof. intros P. unfold normalize. destruct (Rle_dec _ _); [lra|reflexivity]. Qed.
Lemma det_pos g1 g2 : epsZ < vlen (vcross g1 g2) -> 0 < det2 (metric g1 g2).
Proof.
  intros P. assert (Z := epsZ_pos). assert (Q := vlen_sq (vcross g1 g2)). assert (L := lagrange g1 g2). unfold det2, metric; cbn [a11 a22 a12]. 
  assert (0 < vlen (vcross g1 g2) * vlen (vcross g1 g2)) by (apply Rmult_lt_0_compat; lra). nra.
Qed.

(** Energy of a covariant tensor *)
Lemma power_T E nu th D g1 g2 A : 0 <= nu < 1/2 -> regular g1 g2 -> formD E nu th false = Ret D ->
  vdot (times3 (Tmat g1 g2) A) (times3 (el (fst D)) (times3 (Tmat g1 g2) A)) = th * power E nu (metric g1 g2) (ofV A) /\
  vdot (times3 (Tmat g1 g2) A) (times3 (el (snd D)) (times3 (Tmat g1 g2) A)) = th ^ 3 / 12 * power E nu (metric g1 g2) (ofV A).
Proof.
  intros Hn [R1 [R2 R3]] HD. destruct (formD_total E nu th Hn) as [D' [HD' [E1 E2]]]. rewrite HD in HD'. injection HD' as <-.
  assert (Dp := det_pos _ _ R1).
  assert (KEY : exists x y z, Tmat g1 g2 1 1 = x * x /\ Tmat g1 g2 1 2 = 0 /\ Tmat g1 g2 1 3 = 0 /\ Tmat g1 g2 2 1 = y * y /\ Tmat g1 g2 2 2 = z * z /\ Tmat g1 g2 2 3 = 2 * y * z
     /\ Tmat g1 g2 3 1 = 2 * x * y /\ Tmat g1 g2 3 2 = 0 /\ Tmat g1 g2 3 3 = 2 * (x * z)
     /\ let c := inverse (metric g1 g2) in x * x + y * y = a11 c /\ y * z = a12 c /\ z * z = a22 c).
  { unfold Tmat. cbv zeta. cbn [gabOf vx vy vz]. set (G11 := vdot g1 g1) in *. set (G22 := vdot g2 g2) in *. set (G12 := vdot g1 g2) in *.
    set (dd := G11 * G22 - G12 * G12).
    assert (DD : det2 (metric g1 g2) = dd) by (unfold det2, metric, dd; cbn [a11 a22 a12]; fold G11 G22 G12; ring). rewrite DD in *.
    set (g2c := vadd (vscal (- (1 / dd) * G12) g1) (vscal (1 / dd * G11) g2)).
    assert (GC : vscal (/ dd) (vsub (vscal G11 g2) (vscal G12 g1)) = g2c) by (unfold g2c; destruct g1, g2; unfold vadd, vsub, vscal, Rdiv; cbn; f_equal; ring).
    rewrite GC in R3. rewrite !normalize_unit by assumption. set (g1c := vadd (vscal (1 / dd * G22) g1) (vscal (- (1 / dd) * G12) g2)).
    assert (Z := epsZ_pos). set (l1 := vlen g1) in *. set (l2 := vlen g2c) in *.
    assert (L1 : l1 * l1 = G11) by apply vlen_sq. assert (L2 : l2 * l2 = vdot g2c g2c) by apply vlen_sq.
    assert (I11 : vdot g1 g1c = 1).
    { unfold g1c. rewrite vdot_add_r, !vdot_scal_r. fold G11 G12. unfold dd in *. field. lra. }
    assert (I12 : vdot g1 g2c = 0).
    { unfold g2c. rewrite vdot_add_r, !vdot_scal_r. fold G11 G12. unfold dd in *. field. lra. }
    assert (I22 : vdot g2c g2c = G11 / dd).
    { unfold g2c at 2. rewrite vdot_add_r, !vdot_scal_r, (vdot_sym g2c g1), I12. unfold g2c. rewrite vdot_add_l, !vdot_scal_l. fold G12 G22. unfold dd in *. field. lra. }
    assert (I21 : vdot g2c g1c = - G12 / dd).
    { unfold g1c. rewrite vdot_add_r, !vdot_scal_r, (vdot_sym g2c g1), I12. unfold g2c. rewrite vdot_add_l, !vdot_scal_l. fold G12 G22. unfold dd in *. field. lra. }
    rewrite !vdot_scal_l, I11, I12, I21, I22. exists (/ l1), (/ l2 * (- G12 / dd)), (/ l2 * (G11 / dd)).
    rewrite I22 in L2. assert (P1 : l1 <> 0) by lra. assert (P2 : l2 <> 0) by lra.
    assert (G11p : G11 <> 0) by (rewrite <- L1; now apply Rmult_integral_contrapositive_currified).
    repeat split; try (cbn; ring). 
    - unfold inverse; cbn [a11 a22 a12]. rewrite DD. cbn [metric a11 a22 a12]. fold G11 G22 G12.
      assert (X : / l1 * / l1 = / G11) by (rewrite <- L1; field; lra). assert (Y : / l2 * / l2 = dd / G11) by (rewrite <- Rinv_mult, L2; unfold Rdiv; rewrite Rinv_mult, Rinv_inv; ring).
      transitivity (/ l1 * / l1 + / l2 * / l2 * (- G12 / dd) * (- G12 / dd)); [ring|]. rewrite X, Y. assert (dd <> 0) by lra. unfold dd in *. field. lra.
    - unfold inverse; cbn [a11 a22 a12]. rewrite DD. cbn [metric a11 a22 a12]. fold G11 G22 G12.
      assert (Y : / l2 * / l2 = dd / G11) by (rewrite <- Rinv_mult, L2; unfold Rdiv; rewrite Rinv_mult, Rinv_inv; ring).
      transitivity (/ l2 * / l2 * (- G12 / dd) * (G11 / dd)); [ring|]. rewrite Y. assert (dd <> 0) by lra. field. lra.
    - unfold inverse; cbn [a11 a22 a12]. rewrite DD. cbn [metric a11 a22 a12]. fold G11 G22 G12.
      assert (Y : / l2 * / l2 = dd / G11) by (rewrite <- Rinv_mult, L2; unfold Rdiv; rewrite Rinv_mult, Rinv_inv; ring).
      transitivity (/ l2 * / l2 * (G11 / dd) * (G11 / dd)); [ring|]. rewrite Y. assert (dd <> 0) by lra. field. lra. }
  destruct KEY as [x [y [z [T11 [T12 [T13 [T21 [T22 [T23 [T31 [T32 [T33 [C11 [C12 C22]]]]]]]]]]]]]].
  unfold power, trace, norm2. rewrite <- C11, <- C12, <- C22. unfold times3, vdot. cbn [sumf vx vy vz vc]. rewrite !E1, !E2 by lia.
  rewrite T11, T12, T13, T21, T22, T23, T31, T32, T33. unfold closed2. destruct A as [A1 A2 A3]. cbn. assert (N1 : 1 - nu * nu <> 0) by nra. assert (N2 : 1 + nu <> 0) by lra. split; field; repeat split; nra.
Qed.

(** ** Potential energy of the nonlinear shell *)
Lemma unit_same g1 g2 : epsZ < vlen (vcross g1 g2) -> snd (normal g1 g2) = unitNormal g1 g2.
Proof. intros P. unfold normal. rewrite normalize_unit by assumption. reflexivity. Qed.
Section P.
Variables (nen : nat) (dN : nat -> nat -> R) (d2N : nat -> nat -> nat -> R) (E nu th dj : R) (G1 G2 : v3) (H0 : hess).
Notation ref := (mkSurf G1 G2 (h11 H0) (h22 H0) (h12 H0)).
Hypothesis Hn : 0 <= nu < 1/2.
Hypothesis rreg : regular G1 G2.
Definition potential (x : nat -> R) : R :=
  dj / 2 * shellPower E nu th (surfMetric ref) (membrane ref (surfaceOf nen dN d2N x)) (bendingStrain ref (surfaceOf nen dN d2N x)).
Definition Ecu x : v3 := vscal (1 / 2) (vsub (gabOf (gOf nen dN x 1) (gOf nen dN x 2)) (gabOf G1 G2)).
Definition Kcu x : v3 := vsub (vtimesH (snd (normal G1 G2)) H0) (vtimesH (snd (normal (gOf nen dN x 1) (gOf nen dN x 2))) (hessOf nen d2N x)).
Lemma membrane_model x : membrane ref (surfaceOf nen dN d2N x) = ofV (Ecu x).
Proof. reflexivity. Qed.
Lemma bending_model x : epsZ < vlen (vcross (gOf nen dN x 1) (gOf nen dN x 2)) -> bendingStrain ref (surfaceOf nen dN d2N x) = ofV (Kcu x).
Proof.
  intros P. unfold Kcu. rewrite !unit_same by (exact P || apply rreg). unfold bendingStrain, diff, surfSecond, second, ofV, vsub, vtimesH, surfaceOf, hessOf; cbn [t1 t2 s11 s22 s12 a11 a22 a12 vx vy vz h11 h22 h12].
  fold (gOf nen dN x 1) (gOf nen dN x 2). f_equal; ring_simplify; reflexivity.
Qed.
Lemma half_quad A f t d : (forall a b, vdot a (times3 A b) = vdot (times3 A a) b) -> vderive f t d ->
  is_derive (fun s => vdot (f s) (times3 A (f s)) / 2) t (vdot d (times3 A (f t))).
Proof.
  intros Sy F. assert (W := mul_derive _ _ _ _ _ (dot_derive _ _ _ _ _ F (times3_derive A _ _ _ F)) (const_derive (/ 2) t)). cbn beta in W.
  revert W. apply val_derive. rewrite (Sy (f t) d), (vdot_sym _ d). field.
Qed.
Lemma force_gradient x r : (1 <= r <= 3 * nen)%nat -> epsZ < vlen (vcross (gOf nen dN x 1) (gOf nen dN x 2)) ->
  exists F K, atPos nen dN d2N E nu th dj G1 G2 H0 x = Ret (F, K) /\ is_derive (fun t => potential (bumpF x r t)) 0 (- F r).
Proof.
  intros Hr reg. destruct (formD_total E nu th Hn) as [D [HD _]]. unfold atPos, evalKandS. rewrite HD. cbn [bind]. do 2 eexists. split; [reflexivity|]. cbv zeta.
  unfold strains. cbn [fst snd]. fold (Ecu x) (Kcu x). rewrite !(dE_var dN d2N), !dKn_var.
  set (T := Tmat G1 G2). set (Dm := el (fst D)). set (Db := el (snd D)).
  apply (is_derive_ext_loc (fun t => dj * (vdot (times3 T (Ecu (bumpF x r t))) (times3 Dm (times3 T (Ecu (bumpF x r t)))) / 2 + vdot (times3 T (Kcu (bumpF x r t))) (times3 Db (times3 T (Kcu (bumpF x r t)))) / 2))).
  { generalize (regular_near nen dN d2N x r Hr reg). apply filter_imp. intros t Ht. req. unfold potential, shellPower. rewrite membrane_model, bending_model by exact Ht.
    destruct (power_T E nu th D G1 G2 (Ecu (bumpF x r t)) Hn rreg HD) as [Q _]. destruct (power_T E nu th D G1 G2 (Kcu (bumpF x r t)) Hn rreg HD) as [_ Q'].
    fold T Dm in Q. fold T Db in Q'. rewrite Q, Q'. unfold surfMetric; cbn [t1 t2]. field. }
  assert (S1 : forall a b, vdot a (times3 Dm b) = vdot (times3 Dm a) b) by (intros; exact (proj1 (D_symm E nu th D a b Hn HD))).
  assert (S2 : forall a b, vdot a (times3 Db b) = vdot (times3 Db a) b) by (intros; exact (proj2 (D_symm E nu th D a b Hn HD))).
  assert (A1 := half_quad Dm _ _ _ S1 (times3_derive T _ _ _ (E_derive nen dN d2N x r Hr G1 G2))).
  assert (A2 := half_quad Db _ _ _ S2 (times3_derive T _ _ _ (K_derive nen dN d2N x r Hr reg (vtimesH (snd (normal G1 G2)) H0)))).
  assert (W := mul_derive _ _ _ _ _ (const_derive dj 0) (add_derive _ _ _ _ _ A1 A2)). cbn beta in W. revert W. apply val_derive.
  assert (HH : hessOf nen d2N (bumpF x r 0) = hessOf nen d2N x) by (unfold hessOf; now rewrite !(bump0h nen d2N x r Hr)). rewrite HH, !(bump0 nen dN x r Hr).
  unfold Ecu, Kcu. ring.
Qed.
End P.
(** Second derivative of the potential *)
Lemma tangent_hessian nen dN d2N E nu th dj G1 G2 H0 x r s : 0 <= nu < 1/2 -> (1 <= r <= 3 * nen)%nat -> (1 <= s <= 3 * nen)%nat ->
  epsZ < vlen (vcross (gOf nen dN x 1) (gOf nen dN x 2)) ->
  exists F K, atPos nen dN d2N E nu th dj G1 G2 H0 x = Ret (F, K) /\ K r s = K s r.
Proof.
  intros Hn Hr Hs reg. destruct (formD_total E nu th Hn) as [D [HD _]]. unfold atPos, evalKandS. rewrite HD. cbn [bind]. do 2 eexists. split; [reflexivity|]. cbv zeta.
  unfold strains. cbn [fst snd].
  assert (L : forall f : nat -> nat -> v3, (forall a b, f a b = f b a) -> (if (s <=? r)%nat then f r s else f s r) = (if (r <=? s)%nat then f s r else f r s)).
  { intros f Hf. destruct (s <=? r)%nat, (r <=? s)%nat; rewrite ?(Hf r s); reflexivity. }
  rewrite (L _ (ddE_symm dN)), (L _ (ddK_symm dN d2N _ _ _)).
  assert (S1 : forall a b, vdot (times3 (el (fst D)) a) b = vdot (times3 (el (fst D)) b) a) by (intros; rewrite <- (proj1 (D_symm E nu th D a b Hn HD)); apply vdot_sym).
  assert (S2 : forall a b, vdot (times3 (el (snd D)) a) b = vdot (times3 (el (snd D)) b) a) by (intros; rewrite <- (proj2 (D_symm E nu th D a b Hn HD)); apply vdot_sym).
  f_equal; [f_equal|].
  - f_equal. f_equal. apply S1.
  - f_equal. f_equal. apply S2.
Qed.

(** ** Energy of the linear shell *)
Section L.
Variables (nen : nat) (dN : nat -> nat -> R) (d2N : nat -> nat -> nat -> R).
Lemma linear_energy E nu th dj g1 g2 H u : 0 <= nu < 1/2 -> regular g1 g2 ->
  exists K, evalK dN d2N E nu th dj g1 g2 H (fun _ _ => 0) = Ret K /\
  quad (3 * nen) K u = dj * shellPower E nu th (metric g1 g2) (ofV (varE g1 g2 (uVar nen dN d2N u))) (ofV (varK (unitNormal g1 g2) g1 g2 H (uVar nen dN d2N u))).
Proof.
  intros Hn Rg. destruct (formD_total E nu th Hn) as [D [HD _]]. unfold evalK. rewrite HD. cbn [bind]. eexists. split; [reflexivity|].
  set (n := (3 * nen)%nat). set (Dm := el (fst D)). set (Db := el (snd D)).
  assert (Q : quad n (fun i j => 0 + dj * sumf 3 (fun k => Bm dN g1 g2 k i * sumf 3 (fun l => Dm k l * Bm dN g1 g2 l j)) + dj * sumf 3 (fun k => Bb dN d2N g1 g2 H k i * sumf 3 (fun l => Db k l * Bb dN d2N g1 g2 H l j))) u
     = dj * sumf 3 (fun k => sumf n (fun i => Bm dN g1 g2 k i * u i) * sumf 3 (fun l => Dm k l * sumf n (fun j => Bm dN g1 g2 l j * u j)))
       + dj * sumf 3 (fun k => sumf n (fun i => Bb dN d2N g1 g2 H k i * u i) * sumf 3 (fun l => Db k l * sumf n (fun j => Bb dN d2N g1 g2 H l j * u j)))).
  { unfold quad.
    assert (P : forall (B : nat -> nat -> R) (M : nat -> nat -> R), sumf n (fun i => u i * mv n (fun i j => sumf 3 (fun k => B k i * sumf 3 (fun l => M k l * B l j))) u i)
       = sumf 3 (fun k => sumf n (fun i => B k i * u i) * sumf 3 (fun l => M k l * sumf n (fun j => B l j * u j)))).
    { intros B M. transitivity (sumf n (fun i => sumf 3 (fun k => (B k i * u i) * sumf 3 (fun l => M k l * sumf n (fun j => B l j * u j))))).
      - apply sumf_ext. intros i _. unfold mv. rewrite (sumf_ext n (fun j => sumf 3 (fun k => B k i * sumf 3 (fun l => M k l * B l j)) * u j) (fun j => sumf 3 (fun k => B k i * sumf 3 (fun l => M k l * (B l j * u j))))).
        + rewrite sumf_swap, <- sumf_scal. apply sumf_ext. intros k _. rewrite sumf_scal, sumf_swap. rewrite (sumf_ext 3 _ (fun l => M k l * sumf n (fun j => B l j * u j))); [ring|]. intros l _. apply sumf_scal.
        + intros j _. rewrite <- sumf_scal_r. apply sumf_ext. intros k _. rewrite Rmult_assoc. f_equal. rewrite <- sumf_scal_r. apply sumf_ext. intros; ring.
      - rewrite sumf_swap. apply sumf_ext. intros k _. apply sumf_scal_r. }
    rewrite <- (P (Bm dN g1 g2) Dm), <- (P (Bb dN d2N g1 g2 H) Db), <- !sumf_scal, <- sumf_plus. apply sumf_ext. intros i _. unfold mv.
    rewrite (sumf_ext n _ (fun j => dj * (sumf 3 (fun k => Bm dN g1 g2 k i * sumf 3 (fun l => Dm k l * Bm dN g1 g2 l j)) * u j) + dj * (sumf 3 (fun k => Bb dN d2N g1 g2 H k i * sumf 3 (fun l => Db k l * Bb dN d2N g1 g2 H l j)) * u j))) by (intros; ring).
    rewrite sumf_plus, !sumf_scal. ring. }
  match goal with |- ?a = _ => change a with (quad n (fun i j => 0 + dj * sumf 3 (fun k => Bm dN g1 g2 k i * sumf 3 (fun l => Dm k l * Bm dN g1 g2 l j)) + dj * sumf 3 (fun k => Bb dN d2N g1 g2 H k i * sumf 3 (fun l => Db k l * Bb dN d2N g1 g2 H l j))) u) end.
  rewrite Q. clear Q. assert (P0 : 0 < vlen (vcross g1 g2)) by (assert (Z := epsZ_pos); destruct Rg; lra).
  destruct (power_T E nu th D g1 g2 (varE g1 g2 (uVar nen dN d2N u)) Hn Rg HD) as [Q1 _].
  destruct (power_T E nu th D g1 g2 (varK (unitNormal g1 g2) g1 g2 H (uVar nen dN d2N u)) Hn Rg HD) as [_ Q2].
  unfold shellPower. rewrite Rmult_plus_distr_l, <- Q1, <- Q2. fold Dm Db. cbn [sumf]. unfold n.
  rewrite !(Bm_u nen dN d2N g1 g2), !(Bb_u nen dN d2N g1 g2 H) by exact P0. rewrite (unit_same g1 g2) by apply Rg.
  unfold times3, vdot. cbn [sumf vx vy vz vc]. ring.
Qed.
End L.

(** ** Finite rotations and recovered forces *)
Definition surfOf (g1 g2 : v3) (H : hess) : surface := mkSurf g1 g2 (h11 H) (h22 H) (h12 H).
Definition toV (s : sym2) : v3 := V (a11 s) (a22 s) (a12 s).
Lemma strains_spec G1 G2 H0 g1 g2 H : epsZ < vlen (vcross G1 G2) -> epsZ < vlen (vcross g1 g2) ->
  strains G1 G2 H0 g1 g2 H = (toV (membrane (surfOf G1 G2 H0) (surfOf g1 g2 H)), toV (bendingStrain (surfOf G1 G2 H0) (surfOf g1 g2 H))).
Proof.
  intros P Q. unfold strains. rewrite !unit_same by assumption. f_equal. unfold toV, bendingStrain, diff, surfSecond, second, surfOf, vsub, vtimesH; cbn [t1 t2 s11 s22 s12 a11 a22 a12 vx vy vz]. f_equal; ring_simplify; reflexivity.
Qed.
Lemma rot_len Q v : rotation Q -> vlen (Q v) = vlen v.
Proof. intros [_ [_ [D _]]]. unfold vlen. now rewrite D. Qed.
Lemma rot_normal Q s : rotation Q -> surfNormal (rotated Q s) = Q (surfNormal s).
Proof. intros HQ. assert (HL := rot_len Q (vcross (t1 s) (t2 s)) HQ). destruct HQ as [_ [Sc [_ C]]]. unfold surfNormal, unitNormal, rotated; cbn [t1 t2]. rewrite C, HL. symmetry. apply Sc. Qed.
Lemma rot_strain Q s : rotation Q -> toV (membrane s (rotated Q s)) = vzero /\ toV (bendingStrain s (rotated Q s)) = vzero.
Proof.
  intros HQ. assert (N := rot_normal Q s HQ). destruct HQ as [_ [_ [D _]]]. unfold surfNormal in N. unfold toV, membrane, bendingStrain, diff, surfMetric, metric, surfSecond, second. cbn [a11 a22 a12].
  rewrite N. unfold rotated at 1 2 3 4 5 6 7 8 9; cbn [t1 t2 s11 s22 s12]. rewrite !D. split; unfold vzero; f_equal; unfold rotated; cbn [s11 s22 s12]; rewrite ?D; ring.
Qed.
Lemma dot_zero_r v : vdot v vzero = 0. Proof. vring. Qed.
Lemma times3_zero A : times3 A vzero = vzero.
Proof. unfold times3, vzero. cbn [sumf vc vx vy vz]. f_equal; ring. Qed.

Section F.
Variables (dN : nat -> nat -> R) (d2N : nat -> nat -> nat -> R) (E nu th dj : R) (G1 G2 : v3) (H0 : hess).
Hypothesis Hn : 0 <= nu < 1/2.
Hypothesis refreg : epsZ < vlen (vcross G1 G2).
Notation ref := (surfOf G1 G2 H0).
(** internal forces in terms of resultants N and M *)
Definition fromResultants (cur : surface) (N M : v3) (ES ES' : nat -> R) : Prop :=
  forall r, ES' r = ES r - dj * (vdot (times3 (Tmat G1 G2) (varE (t1 cur) (t2 cur) (dofVar dN d2N r))) N
    + vdot (times3 (Tmat G1 G2) (varK (surfNormal cur) (t1 cur) (t2 cur) (mkH (s11 cur) (s22 cur) (s12 cur)) (dofVar dN d2N r))) M).
Lemma forces_resultants D g1 g2 H ES EK : epsZ < vlen (vcross g1 g2) -> formD E nu th false = Ret D ->
  exists ES' EK', evalKandS dN d2N E nu th dj G1 G2 H0 (Some (g1, g2, H)) ES EK = Ret (ES', EK') /\
  fromResultants (surfOf g1 g2 H) (times3 (el (fst D)) (times3 (Tmat G1 G2) (toV (membrane ref (surfOf g1 g2 H)))))
    (times3 (el (snd D)) (times3 (Tmat G1 G2) (toV (bendingStrain ref (surfOf g1 g2 H))))) ES ES'.
Proof.
  intros P HD. unfold evalKandS. rewrite HD. cbn [bind]. rewrite (strains_spec G1 G2 H0 g1 g2 H refreg P). do 2 eexists. split; [reflexivity|].
  intros r. cbv zeta. rewrite (dE_var dN d2N), dKn_var, (unit_same g1 g2 P). unfold surfNormal, surfOf; cbn [t1 t2 s11 s22 s12]. destruct H as [ha hb hc]; cbn [h11 h22 h12]. ring.
Qed.
Lemma rotation_free Q ES EK : rotation Q -> let c := rotated Q ref in
  exists ES' EK', evalKandS dN d2N E nu th dj G1 G2 H0 (Some (t1 c, t2 c, mkH (s11 c) (s22 c) (s12 c))) ES EK = Ret (ES', EK') /\ forall r, ES' r = ES r.
Proof.
  intros HQ c. destruct (formD_total E nu th Hn) as [D [HD _]].
  assert (P : epsZ < vlen (vcross (t1 c) (t2 c))).
  { unfold c, rotated, surfOf; cbn [t1 t2]. assert (HL := rot_len Q (vcross G1 G2) HQ). destruct HQ as [_ [_ [_ Cr]]]. now rewrite Cr, HL. }
  destruct (forces_resultants D (t1 c) (t2 c) (mkH (s11 c) (s22 c) (s12 c)) ES EK P HD) as [ES' [EK' [Q1 Q2]]]. exists ES', EK'. split; [exact Q1|]. intros r. rewrite (Q2 r).
  change (surfOf (t1 c) (t2 c) (mkH (s11 c) (s22 c) (s12 c))) with (rotated Q ref).
  destruct (rot_strain Q ref HQ) as [-> ->]. rewrite !times3_zero. rewrite !dot_zero_r. ring.
Qed.
(** recovered resultants *)
Lemma recovered g1 g2 H : epsZ < vlen (vcross g1 g2) -> exists D N M,
  formD E nu th false = Ret D /\ evalSolNL E nu th G1 G2 H0 g1 g2 H = Ret (N, M) /\
  N = times3 (el (fst D)) (times3 (Tmat G1 G2) (toV (membrane ref (surfOf g1 g2 H)))) /\
  (vtimesH (unitNormal g1 g2) H0 = vtimesH (unitNormal G1 G2) H0 -> M = times3 (el (snd D)) (times3 (Tmat G1 G2) (toV (bendingStrain ref (surfOf g1 g2 H))))).
Proof.
  intros P. destruct (formD_total E nu th Hn) as [D [HD _]]. unfold evalSolNL. rewrite HD. cbn [bind]. exists D. do 2 eexists. split; [reflexivity|]. split; [reflexivity|]. split; [reflexivity|].
  intros C. do 2 f_equal. rewrite (unit_same g1 g2 P), C. unfold toV, bendingStrain, diff, surfSecond, second, surfOf, vsub, vtimesH; cbn [t1 t2 s11 s22 s12 a11 a22 a12 vx vy vz]. f_equal; ring_simplify; reflexivity.
Qed.
End F.
(** witness: half a turn about the first axis of a surface curved in that direction *)
Definition turn (v : v3) : v3 := V (vx v) (- vy v) (- vz v).
Lemma turn_rotation : rotation turn.
Proof.
  unfold rotation, turn. split; [|split; [|split]]; intros; destruct a; try destruct b; unfold vadd, vscal, vdot, vcross; cbn; try ring; f_equal; ring.
Qed.
Definition wRef : surface := mkSurf (V 1 0 0) (V 0 1 0) (V 0 0 1) vzero vzero.
Lemma epsZ_one : epsZ < 1.
Proof. unfold epsZ. rewrite <- Rinv_1. apply Rinv_lt_contravar; [rewrite Rmult_1_l; apply pow_lt; lra|]. apply Rlt_pow_R1; [lra|lia]. Qed.
Lemma vlen_unit v : vdot v v = 1 -> vlen v = 1. Proof. intros Hv. unfold vlen. rewrite Hv. apply sqrt_1. Qed.
Lemma moment_rotation : exists Q s E nu th N M, rotation Q /\ 0 <= nu < 1/2 /\ epsZ < vlen (vcross (t1 s) (t2 s)) /\
  evalSolNL E nu th (t1 s) (t2 s) (mkH (s11 s) (s22 s) (s12 s)) (t1 (rotated Q s)) (t2 (rotated Q s))
    (mkH (s11 (rotated Q s)) (s22 (rotated Q s)) (s12 (rotated Q s))) = Ret (N, M) /\ M <> vzero.
Proof.
  exists turn, wRef, 12, 0, 1. destruct (formD_total 12 0 1 ltac:(lra)) as [D [HD [_ E2]]]. unfold evalSolNL. rewrite HD. cbn [bind]. do 2 eexists. split; [exact turn_rotation|]. split; [lra|].
  assert (L1 : forall a b c, a * a + b * b + c * c = 1 -> vlen (V a b c) = 1) by (intros; apply vlen_unit; unfold vdot; cbn; lra).
  split. { unfold wRef; cbn [t1 t2]. rewrite vlen_unit; [apply epsZ_one|]. unfold vdot, vcross; cbn. ring. }
  split; [reflexivity|]. intros HM.
  assert (HX : sumf 3 (fun k => el (snd D) 1%nat k * vc (times3 (Tmat (V 1 0 0) (V 0 1 0)) (V (-2) 0 0)) k) = 0).
  { apply (f_equal vx) in HM. cbn [vx times3 vzero] in HM. etransitivity; [|exact HM]. apply sumf_ext. intros k _. do 3 f_equal.
    assert (NV : snd (normal (turn (V 1 0 0)) (turn (V 0 1 0))) = V 0 0 (-1)).
    { rewrite unit_same; unfold unitNormal; rewrite vlen_unit; try apply epsZ_one; unfold turn, vdot, vcross, vscal; cbn; try ring. f_equal; field. }
    unfold rotated, wRef; cbn [t1 t2]. rewrite NV. unfold vtimesH, vsub, vdot, turn; cbn. f_equal; ring. }
  cbn [sumf] in HX. rewrite !E2 in HX by lia. unfold closed2 in HX. unfold times3 in HX. cbn [sumf vc vx vy vz] in HX.
  assert (T11 : Tmat (V 1 0 0) (V 0 1 0) 1 1 = 1 /\ Tmat (V 1 0 0) (V 0 1 0) 2 1 = 0).
  { unfold Tmat, gabOf. cbn [vx vy vz]. unfold vdot at 1 2 3 4 5 6; cbn [vx vy vz].
    assert (e1 : snd (normalize (V 1 0 0)) = V 1 0 0) by (rewrite normalize_unit; rewrite L1 by ring; [unfold vscal; cbn; f_equal; field|apply epsZ_one]). rewrite e1.
    match goal with |- context [normalize ?v] => assert (e2 : v = V 0 1 0) by (unfold vadd, vscal, vdot; cbn; f_equal; field) end. rewrite e2.
    assert (e3 : snd (normalize (V 0 1 0)) = V 0 1 0) by (rewrite normalize_unit; rewrite L1 by ring; [unfold vscal; cbn; f_equal; field|apply epsZ_one]). rewrite e3.
    unfold vadd, vscal, vdot; cbn. split; field. }
  destruct T11 as [T1 T2]. rewrite T1, T2 in HX. lra.
Qed.

(** ** Surface stresses *)
Definition frame (g1 g2 : v3) (A : v3) : v3 := times3 (Tmat g1 g2) A.
Lemma D_stress E nu th D e k : 0 <= nu < 1/2 -> 0 < th -> formD E nu th false = Ret D -> forall i, (1 <= i <= 3)%nat -> forall sg,
  (vc (times3 (el (fst D)) e) i + sg * vc (times3 (el (snd D)) k) i * 6 / th) / th = stressAt E nu e k (sg * th / 2) i.
Proof.
  intros Hn Ht HD i Hi sg. destruct (formD_total E nu th Hn) as [D' [HD' [E1 E2]]]. rewrite HD in HD'. injection HD' as <-. assert (N1 : 1 - nu * nu <> 0) by nra.
  destruct e as [e1 e2 e3], k as [k1 k2 k3]. idx i; cbn [times3 vc vx vy vz sumf stressAt]; rewrite !E1, !E2 by lia; unfold closed2; cbn; field; repeat split; nra.
Qed.
Section Surf.
Variables (nen : nat) (dN : nat -> nat -> R) (d2N : nat -> nat -> nat -> R).
(* linear shell: labelled surface isurf is at z = isurf th/2 *)
Lemma linear_surface E nu th g1 g2 H u i isurf : 0 <= nu < 1/2 -> 0 < th -> epsZ < vlen (vcross g1 g2) -> (1 <= i <= 3)%nat ->
  exists N m, evalSol nen dN d2N E nu th g1 g2 H u = Ret (N, m) /\
  surfaceStress th N m isurf i = stressAt E nu (frame g1 g2 (varE g1 g2 (uVar nen dN d2N u))) (frame g1 g2 (varK (unitNormal g1 g2) g1 g2 H (uVar nen dN d2N u))) (isurf * th / 2) i.
Proof.
  intros Hn Ht P Hi. destruct (formD_total E nu th Hn) as [D [HD _]]. unfold evalSol. rewrite HD. cbn [bind]. do 2 eexists. split; [reflexivity|].
  rewrite <- (D_stress E nu th D _ _ Hn Ht HD i Hi isurf). unfold surfaceStress. assert (Z := epsZ_pos). assert (P0 : 0 < vlen (vcross g1 g2)) by lra. rewrite <- (unit_same g1 g2 P).
  cbn [sumf]. rewrite !(Bm_u nen dN d2N g1 g2), !(Bb_u nen dN d2N g1 g2 H) by exact P0. unfold frame. idx i; cbn [times3 vc vx vy vz sumf]; field; lra.
Qed.
(* nonlinear shell: the labels are exchanged *)
Lemma nonlinear_surface E nu th G1 G2 H0 g1 g2 H i isurf : 0 <= nu < 1/2 -> 0 < th -> epsZ < vlen (vcross G1 G2) -> epsZ < vlen (vcross g1 g2) -> (1 <= i <= 3)%nat ->
  vtimesH (unitNormal g1 g2) H0 = vtimesH (unitNormal G1 G2) H0 ->
  exists N M, evalSolNL E nu th G1 G2 H0 g1 g2 H = Ret (N, M) /\
  surfaceStress th (vc N) (vc M) isurf i = stressAt E nu (frame G1 G2 (toV (membrane (surfOf G1 G2 H0) (surfOf g1 g2 H)))) (frame G1 G2 (toV (bendingStrain (surfOf G1 G2 H0) (surfOf g1 g2 H)))) (- isurf * th / 2) i.
Proof.
  intros Hn Ht P Q Hi C. destruct (recovered E nu th G1 G2 H0 Hn g1 g2 H Q) as [D [N [M [HD [HE [EN EM]]]]]]. specialize (EM C). exists N, M. split; [exact HE|].
  rewrite <- (D_stress E nu th D _ _ Hn Ht HD i Hi (- isurf)). unfold surfaceStress, frame. rewrite <- EN, <- EM. field. lra.
Qed.
End Surf.
(** witness: a flat surface bent in its first direction *)
Lemma labels_exchanged : exists E nu th G1 G2 H0 g1 g2 H N M, 0 <= nu < 1/2 /\ 0 < th /\ epsZ < vlen (vcross G1 G2) /\ epsZ < vlen (vcross g1 g2) /\
  evalSolNL E nu th G1 G2 H0 g1 g2 H = Ret (N, M) /\ exists i, (1 <= i <= 3)%nat /\
  surfaceStress th (vc N) (vc M) 1 i <> stressAt E nu (frame G1 G2 (toV (membrane (surfOf G1 G2 H0) (surfOf g1 g2 H)))) (frame G1 G2 (toV (bendingStrain (surfOf G1 G2 H0) (surfOf g1 g2 H)))) (1 * th / 2) i.
Proof.
  set (e1 := V 1 0 0). set (e2 := V 0 1 0). set (Z := mkH vzero vzero vzero). set (H := mkH (V 0 0 1) vzero vzero).
  assert (P : epsZ < vlen (vcross e1 e2)) by (rewrite vlen_unit; [apply epsZ_one|]; unfold vdot, vcross; cbn; ring).
  destruct (nonlinear_surface 1 0 1 e1 e2 Z e1 e2 H 1 1 ltac:(lra) ltac:(lra) P P ltac:(lia) eq_refl) as [N [M [HE HS]]].
  exists 1, 0, 1, e1, e2, Z, e1, e2, H, N, M. split; [lra|]. split; [lra|]. split; [exact P|]. split; [exact P|]. split; [exact HE|]. exists 1%nat. split; [lia|].
  rewrite HS. assert (T : forall A, vx (frame e1 e2 A) = vx A).
  { intros A. unfold frame, times3, Tmat, gabOf. cbn [vx vy vz sumf vc]. 
    assert (L1 : forall a b c, a * a + b * b + c * c = 1 -> vlen (V a b c) = 1) by (intros; apply vlen_unit; unfold vdot; cbn; lra).
    assert (q1 : snd (normalize e1) = V 1 0 0) by (unfold e1; rewrite normalize_unit; rewrite L1 by ring; [unfold vscal; cbn; f_equal; field|apply epsZ_one]). rewrite q1.
    unfold e1, e2, vadd, vscal, vdot; cbn. field. }
  unfold stressAt. cbn [vadd vscal vx vy vz]. rewrite !T.
  assert (B : toV (bendingStrain (surfOf e1 e2 Z) (surfOf e1 e2 H)) = V (-1) 0 0).
  { unfold bendingStrain, diff, surfSecond, second, surfOf, toV; cbn [t1 t2 s11 s22 s12 a11 a22 a12]. unfold unitNormal. rewrite vlen_unit by (unfold vdot, vcross; cbn; ring).
    unfold Z, H, e1, e2, vcross, vscal, vdot; cbn. f_equal; field. }
  rewrite B. cbn [vx]. unfold membrane, diff, toV, surfMetric, metric; cbn. lra.
Qed.
Definition shapeEx (a al : nat) : R := match a, al with 1%nat, _ => -1 | 2%nat, 1%nat => 1 | 3%nat, 2%nat => 1 | _, _ => 0 end.
Definition posEx (r : nat) : R := match r with 4%nat => 1 | 8%nat => 1 | _ => 0 end.
Lemma ex_regular : epsZ < vlen (vcross (gOf 3 shapeEx posEx 1) (gOf 3 shapeEx posEx 2)).
Proof. rewrite vlen_unit; [apply epsZ_one|]. unfold gOf, vcross, vdot; cbn. ring. Qed.
Lemma unit_regular : regular (V 1 0 0) (V 0 1 0).
Proof.
  unfold regular. assert (Z := epsZ_one). split; [|split]; (rewrite vlen_unit; [exact Z|]); unfold vdot, vcross, vscal, vsub, det2, metric, vdot; cbn; field.
Qed.
(** First and second variations of the unit normal *)
Lemma vc_derive f t d i : (1 <= i <= 3)%nat -> vderive f t d -> is_derive (fun s => vc (f s) i) t (vc d i).
Proof. intros Hi [A [B C]]. idx i; assumption. Qed.
Lemma normal_variations nen dN (d2N : nat -> nat -> nat -> R) x s : (1 <= s <= 3 * nen)%nat -> epsZ < vlen (vcross (gOf nen dN x 1) (gOf nen dN x 2)) ->
  forall r i, (1 <= i <= 3)%nat ->
  is_derive (fun t => vc (unitNormal (gOf nen dN (bumpF x s t) 1) (gOf nen dN (bumpF x s t) 2)) i) 0 (vc (dncol dN (gOf nen dN x 1) (gOf nen dN x 2) s) i) /\
  is_derive (fun t => vc (dncol dN (gOf nen dN (bumpF x s t) 1) (gOf nen dN (bumpF x s t) 2) r) i) 0 (vc (ddn dN (gOf nen dN x 1) (gOf nen dN x 2) r s) i).
Proof.
  intros Hs reg r i Hi. split.
  - apply (vc_derive (fun t => unitNormal (gOf nen dN (bumpF x s t) 1) (gOf nen dN (bumpF x s t) 2))); [assumption|]. rewrite (dn_var dN d2N).
    eapply vderive_ext_loc; [|exact (N_derive nen dN d2N x s Hs reg)]. generalize (regular_near nen dN d2N x s Hs reg). apply filter_imp. intros t Ht. now apply unit_same.
  - apply (vc_derive (fun t => dncol dN (gOf nen dN (bumpF x s t) 1) (gOf nen dN (bumpF x s t) 2) r)); [assumption|].
    eapply vderive_ext; [|exact (dn_derive nen dN d2N x s Hs reg r)]. intros u. symmetry. apply dn_var.
Qed.
(** Linear shell and nonlinear shell at the undeformed state *)
Lemma linear_tangent nen dN d2N E nu th dj X r s : 0 <= nu < 1/2 -> (1 <= r <= 3 * nen)%nat -> (1 <= s <= 3 * nen)%nat ->
  let g1 := gOf nen dN X 1 in let g2 := gOf nen dN X 2 in let H := hessOf nen d2N X in epsZ < vlen (vcross g1 g2) ->
  exists K F Kn, evalK dN d2N E nu th dj g1 g2 H (fun _ _ => 0) = Ret K /\ atPos nen dN d2N E nu th dj g1 g2 H X = Ret (F, Kn) /\ F r = 0 /\ K r s = Kn r s.
Proof.
  intros Hn Hr Hs g1 g2 H reg. assert (P0 : 0 < vlen (vcross g1 g2)) by (assert (Z := epsZ_pos); lra).
  destruct (formD_total E nu th Hn) as [D [HD [E1 E2]]]. unfold evalK, atPos, evalKandS. rewrite HD. cbn [bind]. fold g1 g2 H. do 3 eexists. split; [reflexivity|]. split; [reflexivity|]. cbv zeta.
  unfold strains.
  assert (Z1 : vscal (1 / 2) (vsub (gabOf g1 g2) (gabOf g1 g2)) = vzero) by (generalize (gabOf g1 g2); intros []; unfold vscal, vsub, vzero; cbn; f_equal; ring).
  assert (Z2 : vsub (vtimesH (snd (normal g1 g2)) H) (vtimesH (snd (normal g1 g2)) H) = vzero) by (generalize (vtimesH (snd (normal g1 g2)) H); intros []; unfold vsub, vzero; cbn; f_equal; ring).
  rewrite Z1, Z2, !times3_zero. split; [rewrite !dot_zero_r; ring|].
  rewrite !(vdot_sym vzero), !dot_zero_r. unfold Bm, Bb. rewrite !(dE_var dN d2N), !(dK_var dN d2N), !dKn_var by exact P0.
  generalize (varE g1 g2 (dofVar dN d2N r)) (varE g1 g2 (dofVar dN d2N s)) (varK (snd (normal g1 g2)) g1 g2 H (dofVar dN d2N r)) (varK (snd (normal g1 g2)) g1 g2 H (dofVar dN d2N s)).
  generalize (Tmat g1 g2). intros T a b c d. unfold vdot, times3. cbn [sumf vx vy vz]. rewrite !E1, !E2 by lia. unfold closed2. cbn [vc vx vy vz]. ring.
Qed.
(** Flat shell and plate *)
Lemma flat_T : forall i j, (1 <= i <= 3)%nat -> (1 <= j <= 3)%nat -> Tmat (V 1 0 0) (V 0 1 0) i j = if (i =? j)%nat then (if (i =? 3)%nat then 2 else 1) else 0.
Proof.
  assert (L1 : forall a b c, a * a + b * b + c * c = 1 -> vlen (V a b c) = 1) by (intros; apply vlen_unit; unfold vdot; cbn; lra).
  assert (q : forall v, (v = V 1 0 0 \/ v = V 0 1 0) -> snd (normalize v) = v).
  { intros v [-> | ->]; rewrite normalize_unit; rewrite L1 by ring; try apply epsZ_one; unfold vscal; cbn; f_equal; field. }
  intros i j Hi Hj. unfold Tmat, gabOf. cbn [vx vy vz]. rewrite (q (V 1 0 0)) by now left.
  match goal with |- context [normalize ?v] => assert (e : v = V 0 1 0) by (unfold vadd, vscal, vdot; cbn; f_equal; field); rewrite e end.
  rewrite (q (V 0 1 0)) by now right. idx i; idx j; unfold vadd, vscal, vdot; cbn; field.
Qed.
Lemma flat_moments nen dN d2N E nu th u w i : 0 <= nu < 1/2 -> (1 <= i <= 3)%nat -> (forall a, (1 <= a <= nen)%nat -> u (dof 3 a 3) = w a) ->
  exists N m mp, evalSol nen dN d2N E nu th (V 1 0 0) (V 0 1 0) (mkH vzero vzero vzero) u = Ret (N, m) /\ Model.Plate.moments 2 nen E nu th d2N w = Ret mp /\ m i = - mp i.
Proof.
  intros Hn Hi Hu. destruct (formD_total E nu th Hn) as [D [HD [_ E2]]]. unfold evalSol. rewrite HD. cbn [bind].
  destruct (moments_closed nen E nu th d2N w Hn) as [mp [HM [M1 [M2 M3]]]]. rewrite HM. do 3 eexists. split; [reflexivity|]. split; [reflexivity|].
  set (e1 := V 1 0 0). set (e2 := V 0 1 0). set (Z := mkH vzero vzero vzero).
  assert (U : vdot (vcross e1 e2) (vcross e1 e2) = 1) by (unfold vdot, vcross, e1, e2; cbn; ring).
  assert (P : epsZ < vlen (vcross e1 e2)) by (rewrite vlen_unit by exact U; apply epsZ_one).
  assert (P0 : 0 < vlen (vcross e1 e2)) by (rewrite vlen_unit by exact U; lra).
  assert (W : forall c, sumf nen (fun a => u (3 * (a - 1) + 3)%nat * c a) = sumf nen (fun a => c a * w a)).
  { intros c. apply sumf_ext. intros a Ha. change (3 * (a - 1) + 3)%nat with (dof 3 a 3). rewrite Hu by assumption. ring. }
  assert (K : varK (snd (normal e1 e2)) e1 e2 Z (uVar nen dN d2N u) = V (- Spec.Plate.wxx (curvOf nen d2N w)) (- Spec.Plate.wyy (curvOf nen d2N w)) (- Spec.Plate.wxy (curvOf nen d2N w))).
  { rewrite unit_same by exact P. unfold varK, uVar, Z; cbn [q11 q22 q12 h11 h22 h12]. rewrite !dot_zero_r. unfold unitNormal. rewrite vlen_unit by exact U.
    unfold hcol. rewrite !W. unfold curvOf; cbn [Spec.Plate.wxx Spec.Plate.wyy Spec.Plate.wxy]. unfold e1, e2, vdot, vscal, vcross; cbn [vx vy vz]. f_equal; field. }
  cbn [sumf]. rewrite !(Bb_u nen dN d2N e1 e2 Z) by exact P0. rewrite K. cbn [sumf]. unfold e1, e2. rewrite !flat_T by lia. cbn [Nat.eqb vc vx vy vz].
  assert (N1 : 1 - nu * nu <> 0) by nra. assert (N2 : 1 + nu <> 0) by lra.
  idx i; rewrite !E2 by lia; rewrite ?M1, ?M2, ?M3; unfold closed2, Spec.Plate.rigidity; field; repeat split; nra.
Qed.
Lemma flat_refuted : exists nen dN d2N E nu th u w N m mp, 0 <= nu < 1/2 /\ (forall a, (1 <= a <= nen)%nat -> u (dof 3 a 3) = w a) /\
  evalSol nen dN d2N E nu th (V 1 0 0) (V 0 1 0) (mkH vzero vzero vzero) u = Ret (N, m) /\ Model.Plate.moments 2 nen E nu th d2N w = Ret mp /\ m 1%nat <> mp 1%nat.
Proof.
  set (d2 := fun _ i j : nat => if (i =? j)%nat then 1 else 0).
  destruct (flat_moments 1 (fun _ _ => 0) d2 12 0 1 (fun _ => 1) (fun _ => 1) 1 ltac:(lra) ltac:(lia) ltac:(reflexivity)) as [N [m [mp [A [B C]]]]].
  exists 1%nat, (fun _ _ => 0), d2, 12, 0, 1, (fun _ => 1), (fun _ => 1), N, m, mp. split; [lra|]. split; [reflexivity|]. split; [exact A|]. split; [exact B|].
  destruct (moments_closed 1 12 0 1 d2 (fun _ => 1) ltac:(lra)) as [mp' [B' [M1 _]]]. rewrite B in B'. injection B' as <-. rewrite C, M1. unfold Spec.Plate.rigidity, curvOf, d2; cbn. lra.
Qed.
