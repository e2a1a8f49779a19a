(** F-bar elements: forces as virtual work, stiffness as force derivative. *)
From Coquelicot Require Import Coquelicot.
From Coq Require Import FunctionalExtensionality.
From Verif Require Import Lib.Base Lib.Sums Lib.Writes Lib.Congruence Lib.Tensor3 Model.Continuum Model.Mixed Model.MxElement Model.NlElement Spec.Continuum Spec.Mixed Spec.MxElement Spec.NlElement
  Proofs.Continuum Proofs.ContinuumKin Proofs.ContinuumK Proofs.ContinuumAxi Proofs.ContinuumHoop Proofs.Mixed Proofs.Mixed3 Proofs.MxPure Proofs.MxList Proofs.MxPoint Proofs.MxElement Proofs.NlPure Proofs.NlPoint Proofs.NlElement.
Open Scope R_scope.

(** ** Gradient rows *)
Definition rowsOf (k : kind) (L : t3) (x : nat) : R :=
  match k with Axi => if (x =? 5)%nat then L 3%nat 3%nat else L (S ((x - 1) mod 2)) (S ((x - 1) / 2))
  | _ => L (S ((x - 1) mod kdim k)) (S ((x - 1) / kdim k)) end.

Lemma grad_rows k n r N G M : gradOp (kdim k) (isAxi k) r N G n = Ret M ->
  forall v x, (1 <= x <= ngr k)%nat -> mv (kdim k * n) (el M) v x = rowsOf k (dispGrad k n (curIn N G r) v) x.
Proof.
  intros E v x Hx. destruct (gradOp_ok (kdim k) (isAxi k) r N G n ltac:(destruct k; cbn; lia)) as [M' [E' [V W]]]. rewrite E in E'. injection E' as <-.
  unfold mv. rewrite sumf_dof.
  assert (GR : forall i j, (1 <= i <= kdim k)%nat -> (1 <= j <= kdim k)%nat -> sumf n (fun a => sumf (kdim k) (fun m => el M (dof (kdim k) i j) (dof (kdim k) a m) * v (dof (kdim k) a m))) = dispGrad k n (curIn N G r) v j i).
  { intros i j Hi Hj. unfold dispGrad. rewrite (leb_t j (kdim k)), (leb_t i (kdim k)) by lia. cbn [andb]. unfold gradient. cbn [iG curIn]. apply sumf_ext. intros a Ha.
    rewrite (sumf_ext (kdim k) _ (fun m => kron m j * (G a i * v (dof (kdim k) a m)))) by (intros m Hm; rewrite V by assumption; unfold kron; rewrite (Nat.eqb_sym j m); ring).
    rewrite sumf_kron by exact Hj. unfold dof. ring. }
  destruct k; cbn [kdim isAxi ngr rowsOf] in *.
  - idx x; [exact (GR 1%nat 1%nat ltac:(lia) ltac:(lia))|exact (GR 1%nat 2%nat ltac:(lia) ltac:(lia))|exact (GR 1%nat 3%nat ltac:(lia) ltac:(lia))|exact (GR 2%nat 1%nat ltac:(lia) ltac:(lia))|exact (GR 2%nat 2%nat ltac:(lia) ltac:(lia))|exact (GR 2%nat 3%nat ltac:(lia) ltac:(lia))|exact (GR 3%nat 1%nat ltac:(lia) ltac:(lia))|exact (GR 3%nat 2%nat ltac:(lia) ltac:(lia))|exact (GR 3%nat 3%nat ltac:(lia) ltac:(lia))].
  - idx x; [exact (GR 1%nat 1%nat ltac:(lia) ltac:(lia))|exact (GR 1%nat 2%nat ltac:(lia) ltac:(lia))|exact (GR 2%nat 1%nat ltac:(lia) ltac:(lia))|exact (GR 2%nat 2%nat ltac:(lia) ltac:(lia))].
  - assert (HO : sumf n (fun a => sumf 2 (fun m => el M 5%nat (dof 2 a m) * v (dof 2 a m))) = dispGrad Axi n (curIn N G r) v 3%nat 3%nat).
    { unfold dispGrad. cbn [kdim isAxi Nat.leb Nat.eqb andb iN iX curIn]. unfold interp, Rdiv. rewrite <- sumf_scal_r. apply sumf_ext. intros a Ha.
      cbn [sumf]. rewrite !(W eq_refl a) by lia. unfold kron. cbn [Nat.eqb]. unfold dof, Rdiv. ring. }
    idx x; [exact (GR 1%nat 1%nat ltac:(lia) ltac:(lia))|exact (GR 1%nat 2%nat ltac:(lia) ltac:(lia))|exact (GR 2%nat 1%nat ltac:(lia) ltac:(lia))|exact (GR 2%nat 2%nat ltac:(lia) ltac:(lia))|exact HO].
Qed.

Lemma bil_tmat N m (G H A : nat -> nat -> R) q v :
  bil N (fun p c => sumf m (fun k => G k p * sumf m (fun l => A k l * H l c))) q v = sumf m (fun k => mv N G q k * sumf m (fun l => A k l * mv N H v l)).
Proof.
  unfold bil. transitivity (sumf N (fun i => sumf m (fun k => G k i * q i * sumf m (fun l => A k l * mv N H v l)))).
  - apply sumf_ext. intros i _. unfold mv at 1.
    rewrite (sumf_ext N _ (fun j => sumf m (fun k => G k i * (sumf m (fun l => A k l * H l j) * v j)))) by (intros j _; rewrite <- sumf_scal_r; apply sumf_ext; intros; ring).
    rewrite sumf_swap, <- sumf_scal. apply sumf_ext. intros k _.
    rewrite sumf_scal. replace (sumf N (fun j => sumf m (fun l => A k l * H l j) * v j)) with (sumf m (fun l => A k l * mv N H v l)); [ring|].
    rewrite (sumf_ext N _ (fun j => sumf m (fun l => A k l * (H l j * v j)))) by (intros j _; rewrite <- sumf_scal_r; apply sumf_ext; intros; ring).
    rewrite sumf_swap. apply sumf_ext. intros l _. unfold mv. rewrite sumf_scal. reflexivity.
  - rewrite sumf_swap. apply sumf_ext. intros k _. rewrite sumf_scal_r. unfold mv. reflexivity.
Qed.
Lemma ngr_eq k : ngr k = (if isAxi k then S (kdim k * kdim k) else kdim k * kdim k)%nat. Proof. destruct k; reflexivity. Qed.
Lemma ndf_eq k : ndf k = (if isAxi k then 3 else kdim k)%nat. Proof. destruct k; reflexivity. Qed.

Theorem bil_fbar k N G Gb A Sg q v :
  bil N (fbarTangent (ngr k) G Gb A (qmat (kdim k) (ndf k) (isAxi k) Sg A)) q v =
    sumf (ngr k) (fun x => mv N G q x * sumf (ngr k) (fun y => A x y * mv N G v y))
    + sumf (ngr k) (fun x => mv N G q x * Qval (kdim k) (ndf k) (isAxi k) Sg A x)
      * (divRow (kdim k) (isAxi k) (fun y _ => mv N Gb v y) 1 - divRow (kdim k) (isAxi k) (fun y _ => mv N G v y) 1).
Proof.
  unfold fbarTangent, matTmat.
  assert (B : forall X Y, bil N (fun p c => X p c + Y p c) q v = bil N X q v + bil N Y q v).
  { intros X Y. unfold bil, mv. rewrite <- sumf_plus. apply sumf_ext. intros i _. rewrite <- Rmult_plus_distr_l, <- sumf_plus. f_equal. apply sumf_ext. intros. ring. }
  rewrite B. rewrite bil_tmat. f_equal. rewrite (bil_tmat N (ngr k) G (fun l c => Gb l c - G l c)). rewrite <- sumf_scal_r. apply sumf_ext. intros x Hx. rewrite Rmult_assoc. f_equal.
  rewrite ngr_eq, ndf_eq in *. rewrite (qmat_trace (kdim k) (isAxi k) Sg A (fun y _ => mv N (fun l c => Gb l c - G l c) v y) x 1%nat); [|destruct k; cbn; split; auto; discriminate|exact Hx].
  f_equal. unfold divRow.
  assert (ML : forall y, mv N (fun l c => Gb l c - G l c) v y = mv N Gb v y - mv N G v y).
  { intros y. unfold mv. unfold Rminus at 2. replace (- sumf N (fun j => G y j * v j)) with (-1 * sumf N (fun j => G y j * v j)) by ring. rewrite <- sumf_scal, <- sumf_plus. apply sumf_ext. intros. ring. }
  rewrite (sumf_ext (kdim k) _ (fun i => mv N Gb v (dof (kdim k) i i) + -1 * mv N G v (dof (kdim k) i i))) by (intros; rewrite ML; ring).
  rewrite sumf_plus, sumf_scal. destruct (isAxi k); rewrite ?ML; ring.
Qed.

(** ** Pure algebra *)
(** The entry of the 3D tangent that uses the wrong stress component. *)
Definition fbDefect (k : kind) (Sg Lq L : t3) : R := match k with Solid => (Sg 1%nat 2%nat - Sg 1%nat 3%nat) * Lq 3%nat 3%nat * L 3%nat 1%nat | _ => 0 end.
Lemma rows_trace k L : rateOf k L -> divRow (kdim k) (isAxi k) (fun y _ => rowsOf k L y) 1 = tr3 L.
Proof.
  intros H. unfold divRow, tr3, dof. destruct k; cbn; try ring. rewrite (H 3%nat 3%nat) by (lia || reflexivity). ring.
Qed.
Lemma amat_form k C Sg Lq L : sym3 Sg -> rateOf k L -> rateOf k Lq ->
  sumf (ngr k) (fun x => rowsOf k Lq x * sumf (ngr k) (fun y => amat k C Sg x y * rowsOf k L y)) = cForm k C Lq L + kgForm Sg Lq L + fbDefect k Sg Lq L.
Proof.
  intros [S1 [S2 S3]] HL HQ. unfold cForm, kgForm, fbDefect. destruct k; cbn [ngr nstr amat].
  - cbn [sumf]. unfold rowsOf, eng. cbn. rewrite <- S1, <- S2, <- S3. ring.
  - cbn [sumf]. unfold rowsOf, eng. cbn. zeros HL; zeros HQ. rewrite (HL 3%nat 3%nat), (HQ 3%nat 3%nat) by (lia || reflexivity). rewrite <- S1. ring.
  - cbn [sumf]. unfold rowsOf, eng. cbn. zeros HL; zeros HQ. rewrite <- S1. ring.
Qed.
Lemma qval_form k C Sg Lq : sym3 Sg -> rateOf k Lq ->
  sumf (ngr k) (fun x => rowsOf k Lq x * Qval (kdim k) (ndf k) (isAxi k) Sg (amat k C Sg) x) = volForm k C Sg Lq.
Proof.
  intros [S1 [S2 S3]] HQ. unfold volForm, cForm, ddot3, Qval, gpairAx, gpair, dof, unitK, inKind. destruct k; cbn [ngr nstr amat ndf].
  - cbn [sumf]. unfold rowsOf, eng, kron. cbn. rewrite <- S1, <- S2, <- S3. field.
  - cbn [sumf]. unfold rowsOf, eng, kron. cbn. zeros HQ. rewrite (HQ 3%nat 3%nat) by (lia || reflexivity). rewrite <- S1. field.
  - cbn [sumf]. unfold rowsOf, eng, kron. cbn. zeros HQ. rewrite <- S1. field.
Qed.

(** ** Paths of the modified deformation *)
Lemma path_ext F L L' c c' : (forall i j, (1 <= i <= 3)%nat -> (1 <= j <= 3)%nat -> forall t, c t i j = c' t i j) -> eq3 L L' -> path F L c -> path F L' c'.
Proof.
  intros Ec EL [P0 P1]. split; [intros i j Hi Hj; rewrite <- Ec by assumption; now apply P0|]. intros i j Hi Hj.
  apply (dext (fun t => c t i j)); [intros; now apply Ec|]. eapply dv; [|apply P1; assumption]. unfold mul3. rewrite !EL by lia. reflexivity.
Qed.
Lemma rpow2_derive (f : R -> R) a : 0 < f 0 -> is_derive f 0 a -> is_derive (fun t => Rpower (f t) (1 / 2)) 0 (Rpower (f 0) (1 / 2) * (a / (2 * f 0))).
Proof.
  intros P D. unfold Rpower.
  assert (L : is_derive (fun t => ln (f t)) 0 (a / f 0)).
  { eapply dv; [|apply (is_derive_comp ln f 0 (/ f 0) a); [|exact D]]; [unfold scal; cbn; unfold mult; cbn; field; lra|].
    apply is_derive_Reals. apply derivable_pt_lim_ln. exact P. }
  eapply dv; [|apply (is_derive_comp exp (fun t => 1 / 2 * ln (f t)) 0 (exp (1 / 2 * ln (f 0))) (1 / 2 * (a / f 0)))].
  - unfold scal; cbn; unfold mult; cbn. field. lra.
  - apply is_derive_Reals. apply derivable_pt_lim_exp.
  - apply dscal. exact L.
Qed.
Lemma modified_path k F L c (th : R -> R) rb : path F L c -> 0 < det3 F -> 0 < th 0 -> is_derive th 0 (th 0 * rb) -> rateOf k L -> defOf k F ->
  c 0 = F -> path (modified k (th 0) F) (fun i j => L i j + unitK k i j * (rb - tr3 L)) (fun t => modified k (th t) (c t)).
Proof.
  intros P N T D HL HF C0. destruct (match k with Plane => true | _ => false end) eqn:KP.
  - destruct k; try discriminate. pose proof (proj1 P) as E0. pose proof (proj2 P) as D0.
    assert (Q : is_derive (fun t => th t / det3 (c t)) 0 (th 0 / det3 F * (rb - tr3 L))).
    { eapply dv; cycle 1.
      - apply (dmult th (fun t => / det3 (c t))); [exact D|]. apply (is_derive_inv (fun t => det3 (c t))); [apply (det3_path F L c P)|]. rewrite C0. lra.
      - cbv beta. rewrite C0. cbn. field. lra. }
    assert (R0 : is_derive (fun t => Rpower (th t / det3 (c t)) (1 / 2)) 0 (Rpower (th 0 / det3 F) (1 / 2) * ((rb - tr3 L) / 2))).
    { eapply dv; cycle 1.
      - apply (rpow2_derive (fun t => th t / det3 (c t))); [rewrite C0; now apply Rdiv_lt_0_compat|exact Q].
      - cbv beta. rewrite C0. field. split; lra. }
    assert (Z : forall a b, (1 <= a <= 3)%nat -> (1 <= b <= 3)%nat -> inKind Plane a b = false -> F a b = kron a b) by (intros a b Ha Hb Hab; pose proof (HF a b Ha Hb Hab) as Q0; cbn in Q0; lra).
    split; [intros i j Hi Hj; rewrite C0; reflexivity|].
    intros i j Hi Hj. unfold modified. destruct ((i <=? 2) && (j <=? 2))%nat%bool eqn:B.
    + eapply dv; cycle 1.
      * apply (dmult (fun t => c t i j) (fun t => Rpower (th t / det3 (c t)) (1 / 2))); [apply D0; assumption|exact R0].
      * cbv beta. rewrite C0. unfold mul3, unitK, inKind, kron. cbn [ndf INR].
        idx i; idx j; cbn in B; try discriminate; cbn; zeros HL; rewrite ?(Z 3%nat 1%nat), ?(Z 3%nat 2%nat) by (lia || reflexivity); unfold kron; cbn; field.
    + apply (is_derive_ext (fun t => c t i j)); [reflexivity|]. eapply dv; [|apply D0; assumption].
      unfold mul3, unitK, inKind, kron. cbn [ndf INR].
      idx i; idx j; cbn in B; try discriminate; cbn; zeros HL; rewrite ?(HL 3%nat 3%nat), ?(Z 1%nat 3%nat), ?(Z 2%nat 3%nat), ?(Z 3%nat 1%nat), ?(Z 3%nat 2%nat), ?(Z 3%nat 3%nat) by (lia || reflexivity); unfold kron; cbn; field.
  - assert (M : forall x X, modified k x X = withVolume x X) by (intros; destruct k; reflexivity || discriminate).
    rewrite M. apply (path_ext _ (fun i j => L i j + kron i j * ((th 0 * rb / th 0 - tr3 L) / 3)) _ (fun t => withVolume (th t) (c t))).
    + intros. rewrite M. reflexivity.
    + intros i j Hi Hj. unfold unitK, inKind, kron. replace (th 0 * rb / th 0) with rb by (field; lra). destruct k; try discriminate; cbn [kdim isAxi ndf andb orb]; idx i; idx j; cbn; field.
    + apply (scaled_path F L c th (th 0 * rb)); assumption.
Qed.
Lemma rpow_half x : 0 < x -> Rpower x (1 / 2) * Rpower x (1 / 2) = x.
Proof. intros H. rewrite <- Rpower_plus. replace (1 / 2 + 1 / 2) with 1 by field. now apply Rpower_1. Qed.
Lemma det_modified k th F : defOf k F -> 0 < det3 F -> 0 < th -> det3 (modified k th F) = th.
Proof.
  intros HF N T. destruct (match k with Plane => true | _ => false end) eqn:KP.
  - destruct k; try discriminate. pose proof (rpow_half (th / det3 F) ltac:(now apply Rdiv_lt_0_compat)) as Q.
    assert (Z : forall a b, (1 <= a <= 3)%nat -> (1 <= b <= 3)%nat -> inKind Plane a b = false -> F a b = kron a b) by (intros a b Ha Hb Hab; pose proof (HF a b Ha Hb Hab) as Q0; cbn in Q0; lra).
    set (x := Rpower (th / det3 F) (1 / 2)) in *.
    assert (E : det3 (modified Plane th F) = det3 F * (x * x)).
    { unfold modified. fold x. clearbody x. unfold det3. cbn. rewrite (Z 1%nat 3%nat), (Z 2%nat 3%nat), (Z 3%nat 1%nat), (Z 3%nat 2%nat), (Z 3%nat 3%nat) by (lia || reflexivity). unfold kron. cbn. ring. }
    rewrite E, Q. field. lra.
  - assert (M : modified k th F = withVolume th F) by (destruct k; reflexivity || discriminate). rewrite M. now apply det_withVolume.
Qed.
Lemma modified_kind k th F : defOf k F -> defOf k (modified k th F).
Proof.
  intros HF i j Hi Hj E. pose proof (HF i j Hi Hj E) as Q. cbn in Q. unfold modified. destruct k; unfold inKind in E; cbn [kdim isAxi andb orb] in E.
  - exfalso. idx i; idx j; discriminate.
  - rewrite Bool.orb_false_r in E. rewrite E. exact Q.
  - unfold kron in *. idx i; idx j; cbn in *; try discriminate; rewrite Rminus_0_r in *; rewrite Q; ring.
Qed.
Lemma modified_ext k th X Y : eq3 X Y -> eq3 (modified k th X) (modified k th Y).
Proof. intros E i j Hi Hj. unfold modified. rewrite (det3_ext _ _ E), !E by lia. reflexivity. Qed.
Lemma modified_one k F : det3 F = 1 -> eq3 (modified k 1 F) F.
Proof.
  intros D i j Hi Hj. assert (P1 : forall y, Rpower (1 / 1) y = 1) by (intros; unfold Rpower; replace (1 / 1) with 1 by field; rewrite ln_1, Rmult_0_r; apply exp_0).
  unfold modified. rewrite D, !P1. destruct k; try ring. destruct (_ && _)%bool; ring.
Qed.
Lemma iso3_det F : isometry 3 F -> 0 < det3 F -> det3 F = 1.
Proof.
  intros H P. assert (E : det3 (cauchyGreen 3 F) = det3 F * det3 F) by (unfold det3, cauchyGreen; cbn [sumf]; ring).
  assert (E1 : det3 (cauchyGreen 3 F) = 1) by (rewrite <- det3_kron; apply det3_ext; intros i j Hi Hj; now apply H). nra.
Qed.
Lemma scaleF_ok k Jb J F X : eq3 F X -> defOf k X -> J = det3 X -> 0 < J -> 0 < Jb -> eq3 (scaleF k Jb J F) (modified k Jb X).
Proof.
  intros E HX -> PJ PB i j Hi Hj. assert (PQ : 0 < Jb / det3 X) by now apply Rdiv_lt_0_compat.
  assert (CP : forall y, cpow (Rabs (Jb / det3 X)) y = Rpower (Jb / det3 X) y) by (intros y; rewrite Rabs_pos_eq by lra; unfold cpow; destruct (Req_EM_T (Jb / det3 X) 0); [lra|reflexivity]).
  unfold scaleF, fbarF, modified. rewrite CP. destruct k; cbn [ndf INR].
  - rewrite (leb_t i 3), (leb_t j 3) by lia. cbn [andb]. rewrite E by lia. replace (1 + 1 + 1) with 3 by ring. reflexivity.
  - destruct ((i <=? 2) && (j <=? 2))%nat%bool eqn:B; [rewrite E by lia; replace (1 + 1) with 2 by ring; reflexivity|].
    pose proof (HX i j Hi Hj) as Z. unfold inKind in Z. cbn [kdim isAxi andb] in Z. rewrite B in Z. specialize (Z eq_refl). cbn in Z. lra.
  - rewrite (leb_t i 3), (leb_t j 3) by lia. cbn [andb]. rewrite E by lia. replace (1 + 1 + 1) with 3 by ring. reflexivity.
Qed.

(** ** Sampling points *)
Definition gAll (k : kind) (G : nat -> nat -> R) (N : nat -> R) : nat -> nat -> R := fun a m => G a m + (if (isAxi k && (m =? 1)%nat)%bool then N a else 0).
Lemma trace_lin k n N G r v : lin (kdim k) n (gAll k G (fun a => N a * (1 / r))) v = tr3 (dispGrad k n (curIn N G r) v).
Proof.
  unfold gAll, tr3, dispGrad. cbn [iG iN iX curIn]. destruct k; cbn [kdim isAxi andb Nat.leb Nat.eqb].
  - unfold lin, gradient. rewrite <- !sumf_plus. apply sumf_ext. intros a _. cbn [sumf]. unfold dof. ring.
  - unfold lin, gradient. rewrite <- !sumf_plus. rewrite Rplus_0_r. apply sumf_ext. intros a _. cbn [sumf]. unfold dof. ring.
  - unfold lin, gradient, interp, Rdiv. rewrite <- sumf_scal_r, <- !sumf_plus. apply sumf_ext. intros a _. cbn [sumf Nat.eqb]. unfold dof. ring.
Qed.
Section Fbar.
Variables (k : kind) (n : nat) (stress : mxIn -> t3 -> t3) (tangent : mxIn -> t3 -> nat -> nat -> R) (isz : (nat -> R) -> bool).
Hypothesis (Hz : soundTest k isz).
(** What a sampling point contributes. *)
Definition sampled (u : nat -> R) (q : mxIn) (x : vpt) : Prop :=
  vJ x = det3 (deformation k n q u) /\ ((isometry (kdim k) (deformation k n q u) -> undeformed k n q u) -> forall v, lin (kdim k) n (gAll k (vG x) (vN x)) v = tr3 (Lr k n q u v)).
Definition rigid3 (u : nat -> R) (q : mxIn) : Prop := isometry (kdim k) (deformation k n q u) -> isometry 3 (deformation k n q u).
Lemma sample_ok u q : (1 <= n)%nat -> (isAxi k = true -> epsR < iX q) -> 0 < det3 (deformation k n q u) -> rigid3 u q ->
  exists x, samplePt k n isz q u = Ret x /\ sampled u q x.
Proof.
  intros Hn Hx HJ HR. destruct (push_ok k n isz q u Hn Hx HJ Hz) as [c [E [eF Hc]]]. unfold samplePt. rewrite E. cbn [bind]. eexists. split; [reflexivity|].
  unfold sampled. cbn [vJ vG vN]. destruct (cHave c).
  - destruct Hc as [cj [_ [_ cg]]]. split; [exact cj|]. intros _ v. rewrite trace_lin. apply tr3_ext. apply cg.
  - destruct Hc as [iso [cj [cr cg]]]. split; [rewrite cj; symmetry; apply iso3_det; auto|]. intros HU v. rewrite trace_lin. rewrite cg, cr. apply tr3_ext.
    intros i j Hi Hj. rewrite Lr_undeformed by (auto || assumption). apply dispGrad_cur; auto.
Qed.
Lemma samples_ok u qs : (1 <= n)%nat -> (forall q, In q qs -> (isAxi k = true -> epsR < iX q) /\ 0 < det3 (deformation k n q u) /\ rigid3 u q) ->
  exists vs, samplePts k n isz qs u = Ret vs /\ Forall2 (sampled u) qs vs.
Proof.
  intros Hn. induction qs as [|q qs IH]; intros H; [exists []; split; [reflexivity|constructor]|].
  destruct (H q (or_introl eq_refl)) as [H1 [H2 H3]]. destruct (sample_ok u q Hn H1 H2 H3) as [x [E S0]].
  destruct (IH (fun q0 I0 => H q0 (or_intror I0))) as [vs [E1 F1]]. exists (x :: vs). cbn [samplePts]. rewrite E. cbn [bind]. rewrite E1. cbn [bind]. split; [reflexivity|now constructor].
Qed.
Lemma ext_sum (f : vpt -> R) (g : mxIn -> R) (P : mxIn -> vpt -> Prop) Nb qs vs s : Forall2 P qs vs -> (forall q x, In q qs -> P q x -> f x = g q) ->
  sumL (fun x => f (snd x) * Nb (fst x)) (combine (seq s (length vs)) vs) = sumL (fun x => Nb (fst x) * g (snd x)) (combine (seq s (length qs)) qs).
Proof.
  intros F. revert s. induction F as [|q x qs vs H F IH]; intros s E; [reflexivity|].
  cbn [length seq combine]. unfold sumL in *. cbn [fold_right fst snd]. rewrite (E q x (or_introl eq_refl) H), (IH (S s)); [ring|]. intros q0 x0 I0. apply E. now right.
Qed.
Lemma barJ_ok u qs vs p J : Forall2 (sampled u) qs vs -> J = det3 (deformation k n p u) -> barJ (iPhi p) vs J = fbarVolume k n qs p u.
Proof.
  intros F HJ. pose proof (ext_sum vJ (fun q => det3 (deformation k n q u)) (sampled u) (iPhi p) qs vs 1 F (fun q x _ H => proj1 H)) as S0.
  destruct F as [|q x qs vs H F]; [exact HJ|]. destruct F as [|q1 x1 qs vs H1 F]; [exact (proj1 H)|]. exact S0.
Qed.
Definition barRate (qs : list mxIn) (p : mxIn) (u v : nat -> R) : R :=
  match qs with
  | [] => tr3 (Lr k n p u v)
  | [q] => tr3 (Lr k n q u v)
  | _ => sumL (fun x => iPhi p (fst x) * (det3 (deformation k n (snd x) u) * tr3 (Lr k n (snd x) u v))) (combine (seq 1 (length qs)) qs) / fbarVolume k n qs p u
  end.
Lemma barRate_ok u qs vs p G Nr v : Forall2 (sampled u) qs vs -> (forall q, In q qs -> isometry (kdim k) (deformation k n q u) -> undeformed k n q u) ->
  lin (kdim k) n (gAll k G Nr) v = tr3 (Lr k n p u v) ->
  lin (kdim k) n (gAll k (barG (iPhi p) vs G) (fun a => barN (iPhi p) vs Nr a * (1 / 1))) v = barRate qs p u v.
Proof.
  intros F HU HP.
  assert (ON : forall vs', lin (kdim k) n (gAll k (barG (iPhi p) vs' G) (fun a => barN (iPhi p) vs' Nr a * (1 / 1))) v = lin (kdim k) n (gAll k (barG (iPhi p) vs' G) (barN (iPhi p) vs' Nr)) v).
  { intros. apply lin_ext. intros a m. unfold gAll. destruct (_ && _)%bool; field. }
  rewrite ON. pose proof (ext_sum vJ (fun q => det3 (deformation k n q u)) (sampled u) (iPhi p) qs vs 1 F (fun q x _ H => proj1 H)) as SJ.
  pose proof (ext_sum (fun x => vJ x * lin (kdim k) n (gAll k (vG x) (vN x)) v) (fun q => det3 (deformation k n q u) * tr3 (Lr k n q u v)) (sampled u) (iPhi p) qs vs 1 F
    (fun q x I0 H => f_equal2 Rmult (proj1 H) (proj2 H (HU q I0) v))) as SR.
  destruct F as [|q x qs vs H F]; [exact HP|]. destruct F as [|q1 x1 qs vs H1 F]; [exact (proj2 H (HU q (or_introl eq_refl)) v)|].
  cbn [barRate]. unfold fbarVolume. fold (fbarVolume k n). set (Q := q :: q1 :: qs) in *. set (V := x :: x1 :: vs) in *. 
  transitivity (lin (kdim k) n (fun a m => / extrap (iPhi p) vJ V * sumL (fun y => vJ (snd y) * iPhi p (fst y) * gAll k (vG (snd y)) (vN (snd y)) a m) (combine (seq 1 (length V)) V)) v).
  - apply lin_ext. intros a m. unfold gAll, barG, barN, V. fold V. unfold extrap. set (l := combine (seq 1 (length V)) V). set (X := sumL (fun x2 : nat * vpt => vJ (snd x2) * iPhi p (fst x2)) l).
    destruct (isAxi k && (m =? 1)%nat)%bool.
    + replace (sumL (fun y => vJ (snd y) * iPhi p (fst y) * (vG (snd y) a m + vN (snd y) a)) l) with (sumL (fun y => vG (snd y) a m * vJ (snd y) * iPhi p (fst y)) l + sumL (fun y => vN (snd y) a * vJ (snd y) * iPhi p (fst y)) l); [unfold Rdiv; ring|].
      rewrite <- sumL_plus. apply sumL_ext. intros. ring.
    + rewrite (sumL_ext (fun y => vJ (snd y) * iPhi p (fst y) * (vG (snd y) a m + 0)) (fun y => vG (snd y) a m * vJ (snd y) * iPhi p (fst y))) by (intros; ring). unfold Rdiv. ring.
  - rewrite lin_scal, (lin_sumL (kdim k) n (fun y a m => vJ (snd y) * iPhi p (fst y) * gAll k (vG (snd y)) (vN (snd y)) a m)).
    rewrite (sumL_ext (fun y => lin (kdim k) n (fun a m => vJ (snd y) * iPhi p (fst y) * gAll k (vG (snd y)) (vN (snd y)) a m) v) (fun y => vJ (snd y) * lin (kdim k) n (gAll k (vG (snd y)) (vN (snd y))) v * iPhi p (fst y))) by (intros y _; rewrite lin_scal; ring).
    rewrite SR. unfold extrap. rewrite SJ. unfold Rdiv. ring.
Qed.
Lemma barVolume_derive qs p u v : 0 < det3 (deformation k n p u) -> (forall q, In q qs -> 0 < det3 (deformation k n q u)) -> 0 < fbarVolume k n qs p u ->
  is_derive (fun t => fbarVolume k n qs p (moved u v t)) 0 (fbarVolume k n qs p u * barRate qs p u v).
Proof.
  intros HP HQ HB.
  assert (DD : forall q, 0 < det3 (deformation k n q u) -> is_derive (fun t => det3 (deformation k n q (moved u v t))) 0 (det3 (deformation k n q u) * tr3 (Lr k n q u v))) by (intros q Pq; apply det3_path; apply def_path; lra).
  destruct qs as [|q [|q1 qs]]; [now apply DD|apply DD; apply HQ; now left|].
  set (Q := q :: q1 :: qs) in *.
  apply (dext (fun t => sumL (fun x => iPhi p (fst x) * det3 (deformation k n (snd x) (moved u v t))) (combine (seq 1 (length Q)) Q))); [reflexivity|].
  eapply dv; cycle 1.
  - apply (sumL_derive (combine (seq 1 (length Q)) Q) (fun x t => iPhi p (fst x) * det3 (deformation k n (snd x) (moved u v t))) (fun x => iPhi p (fst x) * (det3 (deformation k n (snd x) u) * tr3 (Lr k n (snd x) u v)))).
    intros [i x] I0. apply in_combine_r in I0. apply dscal. apply DD. apply HQ. exact I0.
  - change (barRate Q p u v) with (sumL (fun x => iPhi p (fst x) * (det3 (deformation k n (snd x) u) * tr3 (Lr k n (snd x) u v))) (combine (seq 1 (length Q)) Q) / fbarVolume k n Q p u). field. lra.
Qed.
End Fbar.

(** ** Forces of a point *)
Lemma dof_div d a i : (1 <= i <= d)%nat -> (1 <= a)%nat -> (S ((dof d a i - 1) / d) = a /\ S ((dof d a i - 1) mod d) = i)%nat.
Proof.
  intros Hi Ha. unfold dof. replace (d * (a - 1) + i - 1)%nat with ((i - 1) + (a - 1) * d)%nat by nia.
  rewrite Nat.div_add, Nat.mod_add, Nat.div_small, Nat.mod_small by lia. lia.
Qed.
Lemma force_form k n N G r s v : (isAxi k = true -> 0 < r) -> sym3 s ->
  sumf (kdim k * n) (fun x => fbForce k N G r s (S ((x - 1) / kdim k)) (S ((x - 1) mod kdim k)) * v x) = ddot3 s (dispGrad k n (curIn N G r) v).
Proof.
  intros Hr [S1 [S2 S3]]. rewrite sumf_dof.
  rewrite (sumf_ext n _ (fun a => sumf (kdim k) (fun i => fbForce k N G r s a i * v (dof (kdim k) a i)))) by (intros a Ha; apply sumf_ext; intros i Hi; destruct (dof_div (kdim k) a i Hi ltac:(lia)) as [E1 E2]; rewrite E1, E2; reflexivity).
  unfold ddot3, dispGrad, fbForce. cbn [iN iG iX curIn]. destruct k; cbn [kdim isAxi Nat.leb Nat.eqb andb].
  - unfold gradient. rewrite <- !sumf_scal, <- !sumf_plus. apply sumf_ext. intros a Ha. cbn [sumf]. unfold dof. ring.
  - unfold gradient. rewrite !Rmult_0_r, !Rplus_0_r. rewrite <- !sumf_scal, <- !sumf_plus. apply sumf_ext. intros a Ha. cbn [sumf]. unfold dof. ring.
  - specialize (Hr eq_refl). destruct (Rlt_dec 0 r) as [_|C]; [|contradiction]. unfold gradient, interp, Rdiv. rewrite !Rmult_0_r, !Rplus_0_r. rewrite <- sumf_scal_r, <- !sumf_scal, <- !sumf_plus. apply sumf_ext. intros a Ha. cbn [sumf Nat.eqb]. unfold dof. ring.
Qed.
Lemma cForm_sc k C w A B : cForm k (fun i j => C i j * w) A B = w * cForm k C A B.
Proof. unfold cForm. rewrite <- sumf_scal. apply sumf_ext. intros r _. rewrite <- sumf_scal. apply sumf_ext. intros. ring. Qed.
Lemma cur_radius k n N G r r' v : (isAxi k = true -> r = r') -> eq3 (dispGrad k n (curIn N G r) v) (dispGrad k n (curIn N G r') v).
Proof. intros H i j _ _. unfold dispGrad. cbn [iG iN iX curIn]. destruct (isAxi k); [rewrite H by reflexivity|]; reflexivity. Qed.
Lemma rowsOf_ext k A B x : (1 <= x <= ngr k)%nat -> eq3 A B -> rowsOf k A x = rowsOf k B x.
Proof. intros Hx E. unfold rowsOf. destruct k; cbn [ngr kdim] in *; idx x; cbn; apply E; lia. Qed.
Lemma volForm_ext k C s s' A A' : eq3 A A' -> ddot3 s A = ddot3 s' A' -> volForm k C s A = volForm k C s' A'.
Proof. intros E H. unfold volForm. rewrite H. rewrite (cForm_ext k C A A' (unitK k) (unitK k) E (fun _ _ _ _ => eq_refl)). reflexivity. Qed.

Section FbarPt.
Variables (k : kind) (n : nat) (stress : mxIn -> t3 -> t3) (tangent : mxIn -> t3 -> nat -> nat -> R) (isz : (nat -> R) -> bool) (qs ps : list mxIn).
Hypothesis (HM : solidMaterial k ps stress) (Hz : soundTest k isz).
Definition seenFb (vs : list vpt) (p : mxIn) (u : nat -> R) : t3 :=
  match pushUL k n isz p u with Ret c => scaleF k (barJ (iPhi p) vs (cJ c)) (cJ c) (if cHave c then cF c else kron) | _ => kron end.
Definition Sb (u : nat -> R) (p : mxIn) : t3 := stress p (modified k (fbarVolume k n qs p u) (deformation k n p u)).
Definition fbWork (u : nat -> R) (p : mxIn) (v : nat -> R) : R := volume k p * det3 (deformation k n p u) * ddot3 (Sb u p) (Lr k n p u v).
Definition fbStiff (vs : list vpt) (u : nat -> R) (p : mxIn) (q v : nat -> R) : R :=
  volume k p * det3 (deformation k n p u) * (cForm k (tangent p (seenFb vs p u)) (Lr k n p u q) (Lr k n p u v) + kgForm (Sb u p) (Lr k n p u q) (Lr k n p u v)
    + fbDefect k (Sb u p) (Lr k n p u q) (Lr k n p u v)
    + (barRate k n qs p u v - tr3 (Lr k n p u v)) * volForm k (tangent p (seenFb vs p u)) (Sb u p) (Lr k n p u q)).
Definition fbFree (u : nat -> R) (p : mxIn) : Prop := isometry (kdim k) (deformation k n p u) -> isometry 3 (deformation k n p u) /\ fbarVolume k n qs p u = 1.
Definition freshAt (u : nat -> R) (p : mxIn) : Prop := isometry (kdim k) (deformation k n p u) -> undeformed k n p u.

Theorem fbarPt_ok vs u p st : In p ps -> (1 <= n)%nat -> (isAxi k = true -> epsR < iX p /\ epsR < iX p + interp 2 n (iN p) u 1) -> 0 < det3 (deformation k n p u) ->
  Forall2 (sampled k n u) qs vs -> 0 < fbarVolume k n qs p u -> fbFree u p -> dims k n st ->
  exists st', fbarPt k n stress tangent isz vs p u st = Ret st' /\ dims k n st' /\
    (forall v, work (kdim k * n) (snd st) (snd st') v = fbWork u p v) /\
    (((forall p, In p ps -> freshAt u p) /\ (forall q, In q qs -> freshAt u q)) ->
      forall q v, bil (kdim k * n) (el (fst st')) q v = bil (kdim k * n) (el (fst st)) q v + fbStiff vs u p q v).
Proof.
  intros Ip Hn Hx HJ HS HB HF [DR DC]. destruct (push_ok k n isz p u Hn (fun A => proj1 (Hx A)) HJ Hz) as [c [E [eF Hc]]].
  assert (JC : cJ c = det3 (deformation k n p u)) by (destruct (cHave c); [apply Hc|destruct Hc as [iso [-> _]]; symmetry; apply iso3_det; [apply HF; exact iso|exact HJ]]).
  assert (EB : barJ (iPhi p) vs (cJ c) = fbarVolume k n qs p u) by (apply barJ_ok; assumption).
  set (r := iX p + udotN (inElm k n p) u).
  assert (ER : isAxi k = true -> r = iX p + interp 2 n (iN p) u 1) by (intros A; unfold r; rewrite udotN_interp by exact A; reflexivity).
  assert (R0 : isAxi k = true -> 0 < r) by (intros A; rewrite ER by exact A; pose proof (proj2 (Hx A)); pose proof epsR_pos; lra).
  set (Fb := scaleF k (barJ (iPhi p) vs (cJ c)) (cJ c) (if cHave c then cF c else kron)).
  assert (S1F : seenFb vs p u = Fb) by (unfold seenFb; rewrite E; reflexivity).
  assert (ONE : cHave c = false -> fbarVolume k n qs p u = 1 /\ isometry 3 (deformation k n p u) /\ forall i j, (1 <= i <= 3)%nat -> (1 <= j <= 3)%nat -> inKind k i j = true -> Sb u p i j = 0).
  { intros CH. rewrite CH in Hc. destruct Hc as [iso _]. destruct (HF iso) as [I3 V1]. split; [exact V1|]. split; [exact I3|].
    intros i j Hi Hj IK. assert (MO : eq3 (modified k 1 (deformation k n p u)) (deformation k n p u)) by (intros a b Ha Hb; apply modified_one; [now apply iso3_det|assumption|assumption]).
    apply (smFree _ _ _ HM); try assumption; rewrite V1; [intros a b Ha Hb B; rewrite MO by assumption; now apply deformation_kind|]. apply (iso_ext 3 (deformation k n p u)); [lia| |exact I3].
    intros a b Ha Hb. symmetry. apply modified_one; [now apply iso3_det|assumption|assumption]. }
  set (dV := wgt0 k p * cJ c).
  assert (EV : dV = volume k p * det3 (deformation k n p u)) by (unfold dV; rewrite JC; reflexivity).
  set (s := (fun i j => if cHave c then stress p Fb i j * dV else 0) : t3).
  assert (ES : cHave c = true -> eq3 (stress p Fb) (Sb u p)).
  { intros CH. unfold Sb. apply (smExt _ _ _ HM); [exact Ip|]. unfold Fb. rewrite EB, CH. apply scaleF_ok; [exact eF|apply deformation_kind|exact JC|rewrite JC; exact HJ|exact HB]. }
  assert (Ss : sym3 s).
  { destruct (ssym k stress ps HM p Fb Ip) as [Y1 [Y2 Y3]]. unfold s. repeat split; destruct (cHave c); rewrite ?Y1, ?Y2, ?Y3; reflexivity. }
  assert (SD : forall w, ddot3 s (Lr k n p u w) = dV * ddot3 (Sb u p) (Lr k n p u w)).
  { intros w. destruct (cHave c) eqn:CH.
    - rewrite (ddot3_ext s (fun i j => Sb u p i j * dV) _ (Lr k n p u w)); [unfold ddot3; ring| |intros ? ? _ _; reflexivity].
      intros i j Hi Hj. unfold s. rewrite (ES eq_refl) by assumption. reflexivity.
    - rewrite (ddot3_zero k (Sb u p) _ (Lr_kind k n p u w)) by (apply ONE; reflexivity). unfold s, ddot3. ring. }
  assert (SK : forall q v, kgForm s (Lr k n p u q) (Lr k n p u v) = dV * kgForm (Sb u p) (Lr k n p u q) (Lr k n p u v) /\ fbDefect k s (Lr k n p u q) (Lr k n p u v) = dV * fbDefect k (Sb u p) (Lr k n p u q) (Lr k n p u v)).
  { intros q v. destruct (cHave c) eqn:CH.
    - assert (EQ : eq3 s (fun i j => Sb u p i j * dV)) by (intros i j Hi Hj; unfold s; rewrite (ES eq_refl) by assumption; reflexivity).
      split.
      + rewrite (kgForm_ext s _ _ (Lr k n p u q) _ (Lr k n p u v) EQ (fun _ _ _ _ => eq_refl) (fun _ _ _ _ => eq_refl)). unfold kgForm. cbn [sumf]. ring.
      + unfold fbDefect. destruct k; try ring. rewrite !EQ by lia. ring.
    - destruct (ONE eq_refl) as [_ [_ Z]]. split.
      + rewrite (kgForm_zero k (Sb u p) _ _ (Lr_kind k n p u q) (Lr_kind k n p u v) Z). unfold s, kgForm. cbn [sumf]. ring.
      + unfold fbDefect, s. destruct k; try ring. rewrite !(Z 1%nat) by (lia || reflexivity). ring. }
  destruct (gradOp_ok (kdim k) (isAxi k) r (iN p) (cG c) n ltac:(destruct k; cbn; lia)) as [Gm [EG _]].
  destruct (gradOp_ok (kdim k) (isAxi k) 1 (barN (iPhi p) vs (fun a => iN p a * (1 / r))) (barG (iPhi p) vs (cG c)) n ltac:(destruct k; cbn; lia)) as [Gb [EGb _]].
  unfold fbarPt. rewrite E. cbn [bind]. fold r. rewrite EG. cbn [bind]. rewrite EGb. cbn [bind]. fold Fb. fold dV. fold s.
  eexists. split; [reflexivity|]. split; [split; cbn [fst rows cols]; assumption|]. cbn [fst snd el].
  split.
  - intros v. unfold fbWork. rewrite <- EV. destruct (cHave c) eqn:CH.
    + destruct Hc as [_ [cr [_ cg]]]. unfold work.
      rewrite (sumf_ext (kdim k * n) _ (fun x => fbForce k (iN p) (cG c) r s (S ((x - 1) / kdim k)) (S ((x - 1) mod kdim k)) * v x)) by (intros; ring).
      rewrite (force_form k n (iN p) (cG c) r s v R0 Ss). rewrite <- SD. apply ddot3_ext; [intros ? ? _ _; reflexivity|].
      intros i j Hi Hj. rewrite <- (cg v i j Hi Hj). apply cur_radius; [|assumption|assumption]. intros A. rewrite ER, cr by exact A. reflexivity.
    + rewrite (ddot3_zero k (Sb u p) _ (Lr_kind k n p u v)) by (apply ONE; reflexivity). unfold work. rewrite Rmult_0_r. apply sumf_0. intros. ring.
  - intros [HU HQ] q v.
    assert (CG : forall w, eq3 (dispGrad k n (curIn (iN p) (cG c) r) w) (Lr k n p u w)).
    { intros w i j Hi Hj. destruct (cHave c) eqn:CH.
      - destruct Hc as [_ [cr [_ cg]]]. rewrite <- (cg w i j Hi Hj). apply cur_radius; [|assumption|assumption]. intros A. rewrite ER, cr by exact A. reflexivity.
      - destruct Hc as [iso [_ [cr cg]]]. pose proof (HU p Ip iso) as U0. rewrite Lr_undeformed by assumption. apply dispGrad_cur; [|exact cg|exact Hi|exact Hj].
        intros A. rewrite ER by exact A. pose proof (U0 3%nat 3%nat ltac:(lia) ltac:(lia)) as Q. unfold deformation, dispGrad in Q. rewrite A in Q. destruct k; try discriminate. cbn in Q.
        pose proof (proj1 (Hx eq_refl)) as X0. pose proof epsR_pos as EPS.
        assert (Q1 : interp 2 n (iN p) u 1 / iX p = 0) by lra. assert (Q2 : interp 2 n (iN p) u 1 = 0). { replace (interp 2 n (iN p) u 1) with (interp 2 n (iN p) u 1 / iX p * iX p) by (field; lra). rewrite Q1. ring. } lra. }
    assert (RW : forall w x, (1 <= x <= ngr k)%nat -> mv (kdim k * n) (el Gm) w x = rowsOf k (Lr k n p u w) x).
    { intros w x Hx0. rewrite (grad_rows k n r (iN p) (cG c) Gm EG w x Hx0). apply rowsOf_ext; [exact Hx0|apply CG]. }
    assert (B0 : forall X Y, bil (kdim k * n) (fun i j => X i j + Y i j) q v = bil (kdim k * n) X q v + bil (kdim k * n) Y q v).
    { intros X Y. unfold bil, mv. rewrite <- sumf_plus. apply sumf_ext. intros i _. rewrite <- Rmult_plus_distr_l, <- sumf_plus. f_equal. apply sumf_ext. intros. ring. }
    rewrite B0. f_equal. rewrite bil_fbar.
    set (C := fun i j => tangent p Fb i j * dV).
    assert (T1 : sumf (ngr k) (fun x => mv (kdim k * n) (el Gm) q x * sumf (ngr k) (fun y => amat k C s x y * mv (kdim k * n) (el Gm) v y))
      = dV * (cForm k (tangent p Fb) (Lr k n p u q) (Lr k n p u v) + kgForm (Sb u p) (Lr k n p u q) (Lr k n p u v) + fbDefect k (Sb u p) (Lr k n p u q) (Lr k n p u v))).
    { rewrite (sumf_ext (ngr k) _ (fun x => rowsOf k (Lr k n p u q) x * sumf (ngr k) (fun y => amat k C s x y * rowsOf k (Lr k n p u v) y))).
      2: { intros x Hx0. rewrite RW by exact Hx0. f_equal. apply sumf_ext. intros y Hy. rewrite RW by exact Hy. reflexivity. }
      rewrite amat_form by (exact Ss || apply Lr_kind). unfold C. rewrite cForm_sc. rewrite (proj1 (SK q v)), (proj2 (SK q v)). ring. }
    assert (T2 : sumf (ngr k) (fun x => mv (kdim k * n) (el Gm) q x * Qval (kdim k) (ndf k) (isAxi k) s (amat k C s) x) = dV * volForm k (tangent p Fb) (Sb u p) (Lr k n p u q)).
    { rewrite (sumf_ext (ngr k) _ (fun x => rowsOf k (Lr k n p u q) x * Qval (kdim k) (ndf k) (isAxi k) s (amat k C s) x)) by (intros x Hx0; rewrite RW by exact Hx0; reflexivity).
      rewrite qval_form by (exact Ss || apply Lr_kind). unfold volForm, C. rewrite cForm_sc, SD. ring. }
    assert (T3 : divRow (kdim k) (isAxi k) (fun y _ => mv (kdim k * n) (el Gm) v y) 1 = tr3 (Lr k n p u v)).
    { rewrite <- (rows_trace k (Lr k n p u v) (Lr_kind k n p u v)). unfold divRow. f_equal; [apply sumf_ext; intros i Hi; apply RW; unfold dof; destruct k; cbn in *; lia|]. destruct k; cbn; try reflexivity. apply (RW v 5%nat). cbn. lia. }
    assert (T4 : divRow (kdim k) (isAxi k) (fun y _ => mv (kdim k * n) (el Gb) v y) 1 = barRate k n qs p u v).
    { rewrite <- (barRate_ok k n u qs vs p (cG c) (fun a => iN p a * (1 / r)) v HS HQ) by (rewrite trace_lin; apply tr3_ext; apply CG).
      rewrite trace_lin. rewrite <- (rows_trace k _ (dispGrad_kind k n _ v)). unfold divRow.
      f_equal; [apply sumf_ext; intros i Hi; apply (grad_rows k n 1 _ _ Gb EGb); unfold dof; destruct k; cbn in *; lia|]. destruct k; cbn [isAxi]; try reflexivity. apply (grad_rows Axi n 1 _ _ Gb EGb v 5%nat). cbn. lia. }
    rewrite T1, T2, T3, T4. unfold fbStiff. rewrite S1F, <- EV. ring.
Qed.
Lemma seen_ok vs u p : In p ps -> (1 <= n)%nat -> (isAxi k = true -> epsR < iX p) -> 0 < det3 (deformation k n p u) ->
  Forall2 (sampled k n u) qs vs -> 0 < fbarVolume k n qs p u -> freshAt u p ->
  eq3 (seenFb vs p u) (modified k (fbarVolume k n qs p u) (deformation k n p u)).
Proof.
  intros Ip Hn Hx HJ HS HB HF. destruct (push_ok k n isz p u Hn Hx HJ Hz) as [c [E [eF Hc]]]. unfold seenFb. rewrite E.
  assert (JC : cJ c = det3 (deformation k n p u)) by (destruct (cHave c); [apply Hc|destruct Hc as [iso [-> _]]; rewrite (det3_ext _ _ (HF iso)); symmetry; apply det3_kron]).
  rewrite (barJ_ok k n u qs vs p (cJ c) HS JC). apply scaleF_ok; [|apply deformation_kind|exact JC|rewrite JC; exact HJ|exact HB].
  destruct (cHave c); [exact eF|]. destruct Hc as [iso _]. intros i j Hi Hj. symmetry. now apply (HF iso).
Qed.
End FbarPt.
Section FbarElement.
Variables (k : kind) (n : nat) (stress : mxIn -> t3 -> t3) (tangent : mxIn -> t3 -> nat -> nat -> R) (isz : (nat -> R) -> bool) (qs ps : list mxIn).
Hypothesis (HM : solidMaterial k ps stress) (Hz : soundTest k isz).
Theorem fbarElement_ok u st : fbarState k n qs ps u -> (forall q, In q qs -> rigid3 k n u q) -> (forall p, In p ps -> fbFree k n qs u p) -> dims k n st ->
  exists vs st', fbarElement k n stress tangent isz qs ps u st = Ret st' /\ dims k n st' /\ Forall2 (sampled k n u) qs vs /\
    (forall v, work (kdim k * n) (snd st) (snd st') v = sumL (fun p => fbWork k n stress qs u p v) ps) /\
    (((forall p, In p ps -> freshAt k n u p) /\ (forall q, In q qs -> freshAt k n u q)) ->
      forall q v, bil (kdim k * n) (el (fst st')) q v = bil (kdim k * n) (el (fst st)) q v + sumL (fun p => fbStiff k n stress tangent isz qs vs u p q v) ps).
Proof.
  intros [Vq [Vp VB]] HR HF D.
  destruct (samples_ok k n isz Hz u qs (vsNodes _ _ _ _ Vp)) as [vs [E HS]].
  { intros q Iq. split; [intros A; apply (vsAxis _ _ _ _ Vq q Iq A)|]. split; [apply (vsVolume _ _ _ _ Vq q Iq)|now apply HR]. }
  unfold fbarElement. rewrite E. cbn [bind].
  destruct (over_ok k n (fbarPt k n stress tangent isz vs) ps u ((forall p, In p ps -> freshAt k n u p) /\ (forall q, In q qs -> freshAt k n u q)) (fbWork k n stress qs u) (fbStiff k n stress tangent isz qs vs u)) with (st := st) as [st' [E1 [D1 [W1 K1]]]].
  - intros p s Ip Ds. apply (fbarPt_ok k n stress tangent isz qs ps HM Hz vs u p s Ip (vsNodes _ _ _ _ Vp) (vsAxis _ _ _ _ Vp p Ip) (vsVolume _ _ _ _ Vp p Ip) HS (VB p Ip) (HF p Ip) Ds).
  - exact D.
  - exists vs, st'. repeat split; try assumption; apply D1.
Qed.
Lemma fbw_virtual u v : sumL (fun p => fbWork k n stress qs u p v) ps = virtualWork k n ps (fun p => stress p (modified k (fbarVolume k n qs p u) (deformation k n p u))) u v.
Proof. reflexivity. Qed.

Theorem fbar_tangent_ok u v st : fbarState k n qs ps u -> dims k n st ->
  (forall q, In q qs -> regularAt k n u v q) -> (forall p, In p ps -> fbarRegular k n qs u v p) ->
  (forall p X, In p ps -> 0 < det3 X -> tangentIn k (stress p) X (tangent p X)) ->
  exists st', fbarElement k n stress tangent isz qs ps u st = Ret st' /\
    forall q, exists f, locally 0 (fun t => exists b1, forcesOf (fbarElement k n stress tangent isz qs ps (moved u v t) st) = Some b1 /\ work (kdim k * n) (snd st) b1 q = f t) /\
      is_derive f 0 (stiffWork (kdim k * n) (fun i j => el (fst st') i j - el (fst st) i j) q v
        - shearSwap k n ps (fun p => stress p (modified k (fbarVolume k n qs p u) (deformation k n p u))) u q v).
Proof.
  intros V D HQ HP HT. pose proof V as [Vq [Vp VB]].
  assert (DB : forall p, In p ps -> is_derive (fun t => fbarVolume k n qs p (moved u v t)) 0 (fbarVolume k n qs p u * barRate k n qs p u v)).
  { intros p Ip. apply barVolume_derive; [apply (vsVolume _ _ _ _ Vp p Ip)|apply (vsVolume _ _ _ _ Vq)|now apply VB]. }
  assert (VN : locally 0 (fun t => fbarState k n qs ps (moved u v t))).
  { assert (L : locally 0 (fun t => forall p, In p ps -> 0 < fbarVolume k n qs p (moved u v t))).
    { apply locally_all. intros p Ip. apply (locally_pos (fun t => fbarVolume k n qs p (moved u v t)) _ (DB p Ip)). rewrite moved_0. now apply VB. }
    generalize (filter_and _ _ (valid_near k n qs u v Vq) (filter_and _ _ (valid_near k n ps u v Vp) L)). apply filter_imp. intros t [A [B C]]. split; [exact A|]. split; [exact B|exact C]. }
  assert (NQ : locally 0 (fun t => forall q, In q qs -> rigid3 k n (moved u v t) q)) by (apply locally_all; intros q Iq; apply near_iso; auto).
  assert (NP : locally 0 (fun t => forall p, In p ps -> fbFree k n qs (moved u v t) p)).
  { apply locally_all. intros p Ip. destruct (HP p Ip) as [H|[U [B1 H]]].
    - generalize (strained_near k n p u v H). apply filter_imp. intros t S0 I0. contradiction.
    - generalize (near_zero k n p u v U H). apply filter_imp. intros t Z I0. rewrite (Z I0), moved_0. split; [|exact B1]. apply (iso_ext 3 kron); [lia| |apply iso3_kron]. intros a b Ha Hb. symmetry. now apply U. }
  assert (FP : forall p, In p ps -> freshAt k n u p) by (intros p Ip I0; destruct (HP p Ip) as [H|[H _]]; [contradiction|exact H]).
  assert (FQ : forall q, In q qs -> freshAt k n u q) by (intros q Iq I0; destruct (HQ q Iq) as [H|[H _]]; [contradiction|exact H]).
  pose proof (locally_singleton _ _ NQ) as NQ0. pose proof (locally_singleton _ _ NP) as NP0. cbv beta in NQ0, NP0. rewrite moved_0 in NQ0, NP0.
  destruct (fbarElement_ok u st V NQ0 NP0 D) as [vs [st' [E [_ [HS [_ Kf]]]]]].
  exists st'. split; [exact E|]. intros q. exists (fun t => sumL (fun p => fbWork k n stress qs (moved u v t) p q) ps). split.
  - generalize (filter_and _ _ VN (filter_and _ _ NQ NP)). apply filter_imp. intros t [A [B C]].
    destruct (fbarElement_ok (moved u v t) st A B C D) as [vs1 [s1 [E1 [_ [_ [W1 _]]]]]]. exists (snd s1). rewrite E1. split; [reflexivity|apply W1].
  - eapply dv; cycle 1.
    { apply (sumL_derive ps (fun p t => fbWork k n stress qs (moved u v t) p q) (fun p => volume k p * (det3 (deformation k n p u) * (cForm k (tangent p (seenFb k n isz vs p u)) (Lr k n p u q) (Lr k n p u v)
        + kgForm (Sb k n stress qs u p) (Lr k n p u q) (Lr k n p u v) + (barRate k n qs p u v - tr3 (Lr k n p u v)) * volForm k (tangent p (seenFb k n isz vs p u)) (Sb k n stress qs u p) (Lr k n p u q))))).
      intros p Ip. pose proof (vsVolume _ _ _ _ Vp p Ip) as JP.
      set (cb := fun t => modified k (fbarVolume k n qs p (moved u v t)) (deformation k n p (moved u v t))).
      apply (dext (fun t => volume k p * (det3 (deformation k n p (moved u v t)) * ddot3 (stress p (cb t)) (mul3 (dispGrad k n p q) (inv3 (deformation k n p (moved u v t))))))); [intros t; unfold fbWork, Sb, cb, Lr; ring|].
      apply dscal.
      assert (CB0 : cb 0 = modified k (fbarVolume k n qs p u) (deformation k n p u)) by (unfold cb; rewrite moved_0; reflexivity).
      pose proof (fbar_work k (deformation k n p u) (Lr k n p u v) (fun t => deformation k n p (moved u v t)) cb (dispGrad k n p q) (stress p) (tangent p (seenFb k n isz vs p u))
        (fun t => fbarVolume k n qs p (moved u v t)) (barRate k n qs p u v) JP) as W. cbv beta in W. rewrite moved_0, CB0 in W. unfold Sb. apply W; clear W.
      - now apply VB.
      - reflexivity.
      - apply def_path. lra.
      - apply Lr_kind.
      - apply dispGrad_kind.
      - intros; apply deformation_kind.
      - intros; apply modified_kind; apply deformation_kind.
      - now apply DB.
      - pose proof (modified_path k (deformation k n p u) (Lr k n p u v) (fun t => deformation k n p (moved u v t)) (fun t => fbarVolume k n qs p (moved u v t)) (barRate k n qs p u v)) as M. cbv beta in M. rewrite moved_0 in M.
        apply M; [apply def_path; lra|exact JP|now apply VB|now apply DB|apply Lr_kind|apply deformation_kind|reflexivity].
      - revert VN. apply filter_imp. intros t [_ [V1 V2]]. apply det_modified; [apply deformation_kind|apply (vsVolume _ _ _ _ V1 p Ip)|now apply V2].
      - pose proof (seen_ok k n isz qs ps Hz vs u p Ip (vsNodes _ _ _ _ Vp) (fun A => proj1 (vsAxis _ _ _ _ Vp p Ip A)) JP HS (VB p Ip) (FP p Ip)) as EF.
        apply (tangentIn_ext k (stress p) (seenFb k n isz vs p u)); [intros; now apply (smExt _ _ _ HM)|exact EF|]. apply HT; [exact Ip|]. rewrite (det3_ext _ _ EF). rewrite det_modified; [now apply VB|apply deformation_kind|exact JP|now apply VB].
      - apply ssym with (k := k) (ps := ps); assumption. }
    rewrite bil_diff, Kf by (split; assumption).
    replace (bil (kdim k * n) (el (fst st)) q v + sumL (fun p => fbStiff k n stress tangent isz qs vs u p q v) ps - bil (kdim k * n) (el (fst st)) q v) with (sumL (fun p => fbStiff k n stress tangent isz qs vs u p q v) ps) by ring.
    set (H := fun p => volume k p * (det3 (deformation k n p u) * (cForm k (tangent p (seenFb k n isz vs p u)) (Lr k n p u q) (Lr k n p u v)
        + kgForm (Sb k n stress qs u p) (Lr k n p u q) (Lr k n p u v) + (barRate k n qs p u v - tr3 (Lr k n p u v)) * volForm k (tangent p (seenFb k n isz vs p u)) (Sb k n stress qs u p) (Lr k n p u q)))).
    rewrite (sumL_ext (fun p => fbStiff k n stress tangent isz qs vs u p q v) (fun p => H p + volume k p * det3 (deformation k n p u) * fbDefect k (Sb k n stress qs u p) (Lr k n p u q) (Lr k n p u v))) by (intros p Ip; unfold fbStiff, H; ring).
    rewrite sumL_plus. assert (EX : sumL (fun p => volume k p * det3 (deformation k n p u) * fbDefect k (Sb k n stress qs u p) (Lr k n p u q) (Lr k n p u v)) ps = shearSwap k n ps (fun p => stress p (modified k (fbarVolume k n qs p u) (deformation k n p u))) u q v); [|rewrite EX; ring].
    unfold fbDefect, shearSwap, Sb, Lr. destruct k; [apply sumL_ext; intros; ring| |]; rewrite (sumL_ext _ (fun _ => 0 * 0)) by (intros; ring); rewrite sumL_scal; ring.
Qed.
End FbarElement.
