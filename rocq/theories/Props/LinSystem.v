(** C146: balance, energy and reciprocity of linear static analyses of any mesh.
    C147: states of constant strain are reproduced exactly. *)
From Verif Require Import Lib.Base Lib.Sums Lib.Writes Lib.Tensor3 Spec.Hooke Spec.Continuum Model.Continuum Model.LinIsotropic
  Proofs.Continuum Proofs.ContinuumAxi Proofs.ContinuumK Model.LinElement Spec.LinElement Proofs.LinElement Model.LinSystem Spec.LinSystem Proofs.LinSystem Props.LinElement.
Import ListNotations.

Definition psOf (k : solid) : bool := match k with PlaneStress => true | _ => false end.
Definition emptySys (N : nat) : lsys := mkSys (zeros N N) (zeros N 1) (zeros N 1).
(** The assembly of a mesh from an empty system. *)
Definition systemOf (k : solid) (nnod : nat) (tmp dual : bool) (els : list elt) : res lsys :=
  assembleLin (sdim k) (isAx k) (psOf k) tmp dual els (emptySys (sdim k * nnod)).
Definition sizedSys (N : nat) (S : lsys) : Prop :=
  rows (sK S) = N /\ cols (sK S) = N /\ rows (sF S) = N /\ cols (sF S) = 1%nat /\ rows (sQ S) = N /\ cols (sQ S) = 1%nat.
Lemma linStatic_kind k n tmp dual : isKind k n (linStatic (sdim k) (isAx k) (psOf k) tmp dual n).
Proof. destruct k; repeat split. Qed.
Lemma work_lwork N b v : work N (fun i => el b i 1%nat) v = lwork N b v.
Proof. unfold work, lwork. apply sumf_ext. intros. ring. Qed.
Lemma assembled k nnod tmp dual els : (forall e, In e els -> wfElt k nnod e) -> forall S, sizedSys (sdim k * nnod) S ->
  exists S', assembleLin (sdim k) (isAx k) (psOf k) tmp dual els S = Ret S' /\ sizedSys (sdim k * nnod) S' /\
    (forall v w, bilin (sdim k * nnod) (el (sK S')) v w = bilin (sdim k * nnod) (el (sK S)) v w + aMesh k els v w) /\
    (forall v, lwork (sdim k * nnod) (sF S') v = lwork (sdim k * nnod) (sF S) v + (fMesh k els v + if tmp then tMesh k els v else 0)) /\
    (forall v, lwork (sdim k * nnod) (sQ S') v = lwork (sdim k * nnod) (sQ S) v + (if dual then qMesh k els v else 0)).
Proof.
  induction els as [|e els IH]; intros H S HS.
  - exists S. split; [reflexivity|]. split; [exact HS|]. unfold aMesh, fMesh, tMesh, qMesh. cbn [sumL fold_right]. repeat split; intros; [ring|destruct tmp; ring|destruct dual; ring].
  - cbn [assembleLin]. set (s := linStatic _ _ _ _ _ _). set (N := (sdim k * nnod)%nat) in *.
    assert (We := H e (or_introl eq_refl)). pose proof (wfN _ _ _ We) as Hn. pose proof (wfC _ _ _ We) as HC. pose proof (wfP _ _ _ We) as HP. pose proof (wfX _ _ _ We) as HX.
    destruct (C144_element k (enen e) s (epts e) (statVecs dual e) (freshElm (sdim k * enen e))) as [st [E [_ [GA GB]]]]; try assumption; [apply linStatic_kind|right; cbn; lia| | |].
    { unfold statVecs. destruct dual; cbn [nth length]; (split; [exact I|]); split; try exact HX; try exact I; intros; reflexivity. }
    { split; intros; cbn; split; reflexivity. }
    rewrite E. cbn [bind].
    destruct HS as [S1 [S2 [S3 [S4 [S5 S6]]]]].
    assert (KW : exists K, run_add (sK S) (asmMat (sdim k) e (lA st 1)) = Ret K /\ rows K = N /\ cols K = N /\
      forall v w, bilin N (el K) v w = bilin N (el (sK S)) v w + aForm k (enen e) (epts e) (restrict (sdim k) e v) (restrict (sdim k) e w)).
    { destruct (run_form N (asmMat (sdim k) e (lA st 1)) (sK S) (fun _ => 0) (fun _ => 0) S1 S2 (asmMat_range _ nnod e _ HC)) as [K [EK [R1 [R2 _]]]].
      exists K. split; [exact EK|]. split; [exact R1|]. split; [exact R2|]. intros v w.
      destruct (run_form N (asmMat (sdim k) e (lA st 1)) (sK S) v w S1 S2 (asmMat_range _ nnod e _ HC)) as [K' [EK' [_ [_ [_ B]]]]].
      rewrite EK in EK'. injection EK' as <-. rewrite B, asmMat_form, (GA 1%nat) by lia. f_equal.
      unfold atZ. cbn [s linStatic eKm eKg eM Z.of_nat Pos.of_succ_nat Z.eqb Pos.eqb].
      assert (Z : bilin (sdim k * enen e) (el (lA (freshElm (sdim k * enen e)) 1)) (restrict (sdim k) e v) (restrict (sdim k) e w) = 0).
      { unfold bilin, mv, freshElm. apply sumf_0. intros i _. cbn [lA zeros el]. rewrite sumf_0; [ring|intros; ring]. }
      rewrite Z. ring. }
    destruct KW as [K [EK [K1 [K2 BK]]]]. rewrite EK. cbn [bind].
    assert (ZB : forall a v, lwork (sdim k * enen e) (bvec (lB (freshElm (sdim k * enen e))) a) v = 0).
    { intros a v. unfold lwork, freshElm. apply sumf_0. intros i _. cbn [lB bvec zeros el]. ring. }
    destruct (run_vec N (asmVec (sdim k) e (bvec (lB st) 1)) (sF S) S3 S4 (asmVec_range _ nnod e _ HC)) as [F [EF [F1 [F2 BF]]]]. rewrite EF. cbn [bind].
    assert (QW : exists Q, (if dual then run_add (sQ S) (asmVec (sdim k) e (bvec (lB st) 2)) else Ret (sQ S)) = Ret Q /\ rows Q = N /\ cols Q = 1%nat /\
      forall v, lwork N Q v = lwork N (sQ S) v + (if dual then aForm k (enen e) (epts e) (field (extr e)) (restrict (sdim k) e v) else 0)).
    { destruct dual.
      - destruct (run_vec N (asmVec (sdim k) e (bvec (lB st) 2)) (sQ S) S5 S6 (asmVec_range _ nnod e _ HC)) as [Q [EQ [Q1 [Q2 BQ]]]].
        exists Q. split; [exact EQ|]. split; [exact Q1|]. split; [exact Q2|]. intros v. rewrite <- !work_lwork, BQ, asmVec_form, (GB 2%nat), ZB by lia. f_equal.
        unfold atN, s, statVecs. cbn [linStatic iS eS dS Nat.eqb Nat.leb nth]. ring.
      - exists (sQ S). repeat split; try assumption. intros. ring. }
    destruct QW as [Q [EQ [Q1 [Q2 BQ]]]]. rewrite EQ. cbn [bind].
    destruct (IH (fun x Hx => H x (or_intror Hx)) (mkSys K F Q)) as [S' [E' [HS' [A [B C]]]]]; [repeat split; assumption|].
    exists S'. split; [exact E'|]. split; [exact HS'|]. split; [|split].
    + intros v w. rewrite A. cbn [sK]. rewrite BK. unfold aMesh. rewrite sumL_cons. ring.
    + intros v. rewrite B. cbn [sF]. rewrite <- (work_lwork N F), BF, asmVec_form, (GB 1%nat), ZB, work_lwork by lia.
      unfold atN, s. cbn [linStatic iS eS dS hasT Nat.eqb]. unfold fMesh, tMesh. rewrite !sumL_cons. destruct dual, tmp; cbn [Nat.eqb]; ring.
    + intros v. rewrite C. cbn [sQ]. rewrite BQ. unfold qMesh. rewrite sumL_cons. destruct dual; ring.
Qed.

(** The assembled system is the sum of the energies and loads of the elements. *)
Theorem C146_system : forall k nnod tmp dual els, (forall e, In e els -> wfElt k nnod e) ->
  exists S, systemOf k nnod tmp dual els = Ret S /\
    (forall v w, bilin (sdim k * nnod) (el (sK S)) v w = aMesh k els v w) /\
    (forall v, work (sdim k * nnod) (fun i => el (sF S) i 1%nat) v = fMesh k els v + if tmp then tMesh k els v else 0) /\
    (forall v, work (sdim k * nnod) (fun i => el (sQ S) i 1%nat) v = if dual then qMesh k els v else 0).
Proof.
  intros k nnod tmp dual els H. set (N := (sdim k * nnod)%nat).
  destruct (assembled k nnod tmp dual els H (emptySys N)) as [S [E [_ [A [B C]]]]]; [repeat split|]. fold N in A, B, C.
  exists S. split; [exact E|]. split; [|split].
  - intros v w. rewrite A. unfold bilin at 1, mv, emptySys. rewrite sumf_0; [ring|]. intros i _. cbn [sK zeros el]. rewrite sumf_0; [ring|intros; ring].
  - intros v. rewrite work_lwork, B. unfold lwork at 1, emptySys. rewrite sumf_0; [ring|]. intros. cbn [sF zeros el]. ring.
  - intros v. rewrite work_lwork, C. unfold lwork at 1, emptySys. rewrite sumf_0; [ring|]. intros. cbn [sQ zeros el]. ring.
Qed.

Lemma aMesh_sym k els u v : aMesh k els u v = aMesh k els v u.
Proof. unfold aMesh. apply sumL_ext. intros. apply aForm_sym. Qed.
Section Solved.
Variables (k : solid) (nnod : nat) (tmp dual : bool) (els : list elt) (S : lsys).
Hypothesis HW : forall e, In e els -> wfElt k nnod e.
Hypothesis HS : systemOf k nnod tmp dual els = Ret S.
Notation N := (sdim k * nnod)%nat.
Lemma sys_a v w : bilin N (el (sK S)) v w = aMesh k els v w.
Proof using HW HS. destruct (C146_system k nnod tmp dual els HW) as [S' [E [A _]]]. rewrite HS in E. injection E as <-. apply A. Qed.
Lemma sys_f v : work N (fun i => el (sF S) i 1%nat) v = fMesh k els v + if tmp then tMesh k els v else 0.
Proof using HW HS. destruct (C146_system k nnod tmp dual els HW) as [S' [E [_ [A _]]]]. rewrite HS in E. injection E as <-. apply A. Qed.
Lemma sys_q v : work N (fun i => el (sQ S) i 1%nat) v = if dual then qMesh k els v else 0.
Proof using HW HS. destruct (C146_system k nnod tmp dual els HW) as [S' [E [_ [_ A]]]]. rewrite HS in E. injection E as <-. apply A. Qed.
Lemma eq_work f R u fx v : equilibrium N (el (sK S)) f R u fx -> aMesh k els v u = work N f v + work N R v.
Proof using HW HS.
  intros [E _]. rewrite <- sys_a. unfold bilin, work. rewrite <- sumf_plus. apply sumf_ext. intros i Hi. rewrite E by exact Hi. ring.
Qed.
End Solved.
Lemma work_plus N f g v : work N (fun i => f i + g i) v = work N f v + work N g v.
Proof. unfold work. rewrite <- sumf_plus. apply sumf_ext. intros. ring. Qed.
Lemma work_0 N f v : (forall i, (1 <= i <= N)%nat -> f i = 0 \/ v i = 0) -> work N f v = 0.
Proof. intros H. unfold work. apply sumf_0. intros i Hi. destruct (H i Hi) as [-> | ->]; ring. Qed.

(** Rigid motions of the mesh restricted to an element. *)
Lemma affine_restrict d X c W u e : (forall a, (1 <= a <= enen e)%nat -> (1 <= conn e a)%nat) -> affine d X c W u ->
  forall a i, (1 <= a <= enen e)%nat -> (1 <= i <= d)%nat -> restrict d e u (d * (a - 1) + i)%nat = c i + sumf d (fun j => W i j * X (conn e a) j).
Proof. intros Hc H a i Ha Hi. change (d * (a - 1) + i)%nat with (dof d a i). rewrite restrict_dof by lia. apply H; auto. Qed.
Lemma affine_gradient d n X p c W u : complete d n X p ->
  (forall a i, (1 <= a <= n)%nat -> (1 <= i <= d)%nat -> u (d * (a - 1) + i)%nat = c i + sumf d (fun j => W i j * X a j)) ->
  forall i j, (1 <= i <= d)%nat -> (1 <= j <= d)%nat -> gradient d n (pG p) u i j = W i j.
Proof.
  intros [C0 C1] Hu i j Hi Hj. unfold gradient.
  rewrite (sumf_ext n _ (fun a => c i * pG p a j + sumf d (fun m => W i m * (X a m * pG p a j)))).
  - rewrite sumf_plus, sumf_scal, C0, sumf_swap by assumption.
    rewrite (sumf_pick d j _ (W i j)); [ring|exact Hj| |].
    + intros m Hm Nm. rewrite sumf_scal, C1 by assumption. unfold kron. destruct (Nat.eqb_spec m j); [congruence|]. ring.
    + rewrite sumf_scal, C1 by assumption. unfold kron. rewrite Nat.eqb_refl. ring.
  - intros a Ha. rewrite Hu by assumption. rewrite Rmult_plus_distr_r. f_equal. rewrite <- sumf_scal_r. apply sumf_ext. intros m _. ring.
Qed.
Lemma affine_strain k n X p c W u : k <> AxiSolid -> complete (sdim k) n X p ->
  (forall a i, (1 <= a <= n)%nat -> (1 <= i <= sdim k)%nat -> u (sdim k * (a - 1) + i)%nat = c i + sumf (sdim k) (fun j => W i j * X a j)) ->
  eq3 (strainOf k n p u) (fun i j => if ((i <=? sdim k) && (j <=? sdim k))%nat%bool then (W i j + W j i) / 2 else 0).
Proof.
  intros Ka HC Hu i j Hi Hj. unfold strainOf. assert (A : isAx k = false) by (destruct k; try reflexivity; congruence). rewrite A. cbn [andb].
  destruct (Nat.leb_spec i (sdim k)), (Nat.leb_spec j (sdim k)); cbn [andb]; try reflexivity. rewrite !(affine_gradient _ _ X p c W u HC Hu) by lia. reflexivity.
Qed.
Lemma rigid_mesh k nnod X els r : k <> AxiSolid -> (forall e, In e els -> wfElt k nnod e) -> rigidMotion (sdim k) X r -> completeMesh (sdim k) X els ->
  forall e p, In e els -> In p (epts e) -> eq3 (strainOf k (enen e) p (restrict (sdim k) e r)) (fun _ _ => 0).
Proof.
  intros Ka HW [c [W [HA HR]]] HC e p He Hp.
  assert (G := affine_strain k (enen e) (fun a => X (conn e a)) p c W (restrict (sdim k) e r) Ka (HC e p He Hp)
    (affine_restrict (sdim k) X c W r e (fun a Ha => proj1 (wfC _ _ _ (HW e He) a Ha)) HR)).
  intros i j Hi Hj. rewrite (G i j Hi Hj). destruct (Nat.leb_spec i (sdim k)), (Nat.leb_spec j (sdim k)); cbn [andb]; try reflexivity. rewrite (HA i j) by lia. lra.
Qed.

(** Reactions balance the loads: for every rigid motion their work is opposite; [g] are further nodal loads. *)
Theorem C146_balance : forall k nnod X tmp dual els S g R u fx r, k <> AxiSolid -> (forall e, In e els -> wfElt k nnod e) -> systemOf k nnod tmp dual els = Ret S ->
  completeMesh (sdim k) X els -> rigidMotion (sdim k) X r -> equilibrium (sdim k * nnod) (el (sK S)) (fun i => el (sF S) i 1%nat + g i) R u fx ->
  work (sdim k * nnod) R r = - (fMesh k els r + work (sdim k * nnod) g r).
Proof.
  intros k nnod X tmp dual els S g R u fx r Ka HW HS HC HR HE.
  assert (Z := rigid_mesh k nnod X els r Ka HW HR HC).
  pose proof (eq_work k nnod tmp dual els S HW HS _ _ _ _ r HE) as Q. rewrite work_plus, (sys_f k nnod tmp dual els S HW HS) in Q.
  assert (A : aMesh k els r u = 0).
  { unfold aMesh. rewrite (sumL_ext _ (fun _ => 0)); [apply sumL_zero|]. intros e He. apply aForm_zero. intros p Hp. apply Z; assumption. }
  assert (T : tMesh k els r = 0).
  { unfold tMesh. rewrite (sumL_ext _ (fun _ => 0)); [apply sumL_zero|]. intros e He. unfold tForm. rewrite (sumL_ext _ (fun _ => 0)); [apply sumL_zero|].
    intros p Hp. rewrite density_sym, density_zero by (apply Z; assumption). ring. }
  rewrite A, T in Q. destruct tmp; lra.
Qed.
(** In each direction the sum of the reactions is minus the total load; thermal loads have none. *)
Theorem C146_resultant : forall k nnod X tmp dual els S g R u fx i, k <> AxiSolid -> (forall e, In e els -> wfElt k nnod e) -> systemOf k nnod tmp dual els = Ret S ->
  completeMesh (sdim k) X els -> unityMesh els -> equilibrium (sdim k * nnod) (el (sK S)) (fun i => el (sF S) i 1%nat + g i) R u fx -> (1 <= i <= sdim k)%nat ->
  sumf nnod (fun a => R (dof (sdim k) a i)) = - (totalLoad k els i + sumf nnod (fun a => g (dof (sdim k) a i))).
Proof.
  intros k nnod X tmp dual els S g R u fx i Ka HW HS HC HU HE Hi. set (d := sdim k) in *. assert (Hd : (1 <= d)%nat) by lia.
  set (r := fun q => kron ((q - 1) mod d + 1) i).
  assert (Rd : forall a j, (1 <= a)%nat -> (1 <= j <= d)%nat -> r (dof d a j) = kron j i).
  { intros a j Ha Hj. unfold r, dof. replace (d * (a - 1) + j - 1)%nat with (j - 1 + (a - 1) * d)%nat by nia. rewrite Nat.mod_add, Nat.mod_small by lia. f_equal. lia. }
  assert (HR : rigidMotion d X r).
  { exists (fun j => kron j i), (fun _ _ => 0). split; [intros; ring|]. intros a j Ha Hj. rewrite Rd by assumption. rewrite sumf_0; [ring|intros; ring]. }
  pose proof (C146_balance k nnod X tmp dual els S g R u fx r Ka HW HS HC HR HE) as Q. fold d in Q.
  assert (WD : forall f, work (d * nnod) f r = sumf nnod (fun a => f (dof d a i))).
  { intros f. unfold work. rewrite sumf_dof. apply sumf_ext. intros a Ha. apply (sumf_pick d i); [exact Hi| |].
    - intros j Hj Nj. rewrite Rd by lia. unfold kron. destruct (Nat.eqb_spec j i); [congruence|]. ring.
    - rewrite Rd by lia. unfold kron. rewrite Nat.eqb_refl. ring. }
  rewrite !WD in Q. rewrite Q. do 2 f_equal. unfold fMesh, totalLoad. apply sumL_ext. intros e He. unfold fForm. fold d. apply sumL_ext. intros p Hp. f_equal.
  assert (Nt : forall j, (1 <= j <= d)%nat -> interp d (enen e) (pN p) (restrict d e r) j = kron j i).
  { intros j Hj. unfold interp. rewrite (sumf_ext _ _ (fun a => kron j i * pN p a)).
    - rewrite sumf_scal, (HU e p He Hp). ring.
    - intros a Ha. change (d * (a - 1) + j)%nat with (dof d a j). rewrite restrict_dof, Rd by (try lia; apply (wfC _ _ _ (HW e He)); assumption). ring. }
  apply (sumf_pick d i); [exact Hi| |].
  - intros j Hj Nj. rewrite Nt by exact Hj. unfold kron. destruct (Nat.eqb_spec j i); [congruence|]. ring.
  - rewrite Nt by exact Hi. unfold kron. rewrite Nat.eqb_refl. ring.
Qed.

(** Twice the strain energy is the work of the loads and reactions; with supports at rest, of the loads alone. *)
Theorem C146_energy : forall k nnod tmp dual els S f R u fx, (forall e, In e els -> wfElt k nnod e) -> systemOf k nnod tmp dual els = Ret S ->
  equilibrium (sdim k * nnod) (el (sK S)) f R u fx ->
  aMesh k els u u = work (sdim k * nnod) f u + work (sdim k * nnod) R u /\
  ((forall i, (1 <= i <= sdim k * nnod)%nat -> fx i -> u i = 0) -> aMesh k els u u = work (sdim k * nnod) f u).
Proof.
  intros k nnod tmp dual els S f R u fx HW HS HE. pose proof (eq_work k nnod tmp dual els S HW HS _ _ _ _ u HE) as Q. split; [exact Q|].
  intros H0. rewrite Q. rewrite (work_0 _ R u); [ring|]. intros i Hi. destruct (Classical_Prop.classic (fx i)) as [F|F]; [right; auto|left; apply (eqFree _ _ _ _ _ _ HE); assumption].
Qed.
(** Axisymmetric bodies: the axial reactions balance the axial loads. *)
Theorem C146_axial : forall nnod tmp dual els S g R u fx, (forall e, In e els -> wfElt AxiSolid nnod e) -> systemOf AxiSolid nnod tmp dual els = Ret S ->
  (forall e p, In e els -> In p (epts e) -> forall j, (1 <= j <= 2)%nat -> sumf (enen e) (fun a => pG p a j) = 0) -> unityMesh els ->
  equilibrium (2 * nnod) (el (sK S)) (fun i => el (sF S) i 1%nat + g i) R u fx ->
  sumf nnod (fun a => R (dof 2 a 2)) = - (totalLoad AxiSolid els 2 + sumf nnod (fun a => g (dof 2 a 2))).
Proof.
  intros nnod tmp dual els S g R u fx HW HS HC HU HE. set (r := fun q : nat => if Nat.even q then 1 else 0).
  assert (U1 : forall a, (1 <= a)%nat -> r (dof 2 a 1) = 0) by (intros a _; unfold r, dof; rewrite Nat.add_1_r, Nat.even_succ, Nat.odd_mul; reflexivity).
  assert (U2 : forall a, (1 <= a)%nat -> r (dof 2 a 2) = 1) by (intros a _; unfold r, dof; rewrite Nat.even_add, Nat.even_mul; reflexivity).
  assert (RR : forall e a i, In e els -> (1 <= a <= enen e)%nat -> (1 <= i <= 2)%nat -> restrict 2 e r (dof 2 a i) = if (i =? 2)%nat then 1 else 0).
  { intros e a i He Ha Hi. pose proof (wfC _ _ _ (HW e He) a Ha). rewrite restrict_dof by lia. assert (Q : i = 1%nat \/ i = 2%nat) by lia. destruct Q as [-> | ->]; cbn [Nat.eqb]; [apply U1|apply U2]; lia. }
  assert (Z : forall e p, In e els -> In p (epts e) -> eq3 (strainOf AxiSolid (enen e) p (restrict 2 e r)) (fun _ _ => 0)).
  { intros e p He Hp.
    assert (G : forall i j, (1 <= i <= 2)%nat -> (1 <= j <= 2)%nat -> gradient 2 (enen e) (pG p) (restrict 2 e r) i j = 0).
    { intros i j Hi Hj. unfold gradient. rewrite (sumf_ext _ _ (fun a => (if (i =? 2)%nat then 1 else 0) * pG p a j)).
      - rewrite sumf_scal, (HC e p He Hp) by exact Hj. ring.
      - intros a Ha. change (2 * (a - 1) + i)%nat with (dof 2 a i). rewrite (RR e) by assumption. reflexivity. }
    intros i j Hi Hj. unfold strainOf. cbn [sdim isAx]. destruct (Nat.leb_spec i 2), (Nat.leb_spec j 2); cbn [andb]; try (rewrite !G by lia; lra);
      destruct (i =? 3)%nat, (j =? 3)%nat; cbn [andb]; try reflexivity;
      (unfold interp; rewrite sumf_0; [unfold Rdiv; ring|]; intros a Ha; change (2 * (a - 1) + 1)%nat with (dof 2 a 1); rewrite (RR e) by (assumption || lia); cbn; ring). }
  pose proof (eq_work AxiSolid nnod tmp dual els S HW HS _ _ _ _ r HE) as Q. rewrite work_plus, (sys_f AxiSolid nnod tmp dual els S HW HS) in Q.
  assert (A : aMesh AxiSolid els r u = 0).
  { unfold aMesh. rewrite (sumL_ext _ (fun _ => 0)); [apply sumL_zero|]. intros e He. apply aForm_zero. intros p Hp. apply Z; assumption. }
  assert (T : tMesh AxiSolid els r = 0).
  { unfold tMesh. rewrite (sumL_ext _ (fun _ => 0)); [apply sumL_zero|]. intros e He. unfold tForm. rewrite (sumL_ext _ (fun _ => 0)); [apply sumL_zero|].
    intros p Hp. rewrite density_sym, density_zero by (apply Z; assumption). ring. }
  assert (WD : forall f, work (2 * nnod) f r = sumf nnod (fun a => f (dof 2 a 2))).
  { intros f. unfold work. rewrite sumf_dof. apply sumf_ext. intros a Ha. apply (sumf_pick 2 2); [lia| |].
    - intros j Hj Nj. replace j with 1%nat by lia. rewrite U1 by lia. ring.
    - rewrite U2 by lia. ring. }
  assert (F : fMesh AxiSolid els r = totalLoad AxiSolid els 2).
  { unfold fMesh, totalLoad. apply sumL_ext. intros e He. unfold fForm. apply sumL_ext. intros p Hp. f_equal. cbn [sdim].
    assert (Nt : forall j, (1 <= j <= 2)%nat -> interp 2 (enen e) (pN p) (restrict 2 e r) j = if (j =? 2)%nat then 1 else 0).
    { intros j Hj. unfold interp. rewrite (sumf_ext _ _ (fun a => (if (j =? 2)%nat then 1 else 0) * pN p a)).
      - rewrite sumf_scal, (HU e p He Hp). ring.
      - intros a Ha. change (2 * (a - 1) + j)%nat with (dof 2 a j). rewrite (RR e) by assumption. ring. }
    apply (sumf_pick 2 2); [lia| |].
    - intros j Hj Nj. rewrite Nt by exact Hj. replace j with 1%nat by lia. cbn. ring.
    - rewrite Nt by lia. cbn. ring. }
  cbn [sdim] in Q. rewrite A, T, F, !WD in Q. destruct tmp; lra.
Qed.

(** Reciprocity of two load cases. *)
Theorem C146_reciprocity : forall k nnod tmp dual els S f1 R1 u1 fx1 f2 R2 u2 fx2, (forall e, In e els -> wfElt k nnod e) -> systemOf k nnod tmp dual els = Ret S ->
  equilibrium (sdim k * nnod) (el (sK S)) f1 R1 u1 fx1 -> equilibrium (sdim k * nnod) (el (sK S)) f2 R2 u2 fx2 ->
  work (sdim k * nnod) f1 u2 + work (sdim k * nnod) R1 u2 = work (sdim k * nnod) f2 u1 + work (sdim k * nnod) R2 u1.
Proof.
  intros k nnod tmp dual els S f1 R1 u1 fx1 f2 R2 u2 fx2 HW HS H1 H2.
  rewrite <- (eq_work k nnod tmp dual els S HW HS _ _ _ _ u2 H1), <- (eq_work k nnod tmp dual els S HW HS _ _ _ _ u1 H2). apply aMesh_sym.
Qed.
Lemma work_rest N f R u fx K v : equilibrium N K f R u fx -> (forall i, (1 <= i <= N)%nat -> fx i -> v i = 0) -> work N R v = 0.
Proof. intros HE H0. apply work_0. intros i Hi. destruct (Classical_Prop.classic (fx i)) as [F|F]; [right; auto|left; apply (eqFree _ _ _ _ _ _ HE); assumption]. Qed.
(** The extracted quantity of the solution is the work of the loads on the solution of the dual problem. *)
Theorem C146_dual : forall k nnod tmp els S f R u R' z fx, (forall e, In e els -> wfElt k nnod e) -> systemOf k nnod tmp true els = Ret S ->
  equilibrium (sdim k * nnod) (el (sK S)) f R u fx -> equilibrium (sdim k * nnod) (el (sK S)) (fun i => el (sQ S) i 1%nat) R' z fx ->
  (forall i, (1 <= i <= sdim k * nnod)%nat -> fx i -> u i = 0 /\ z i = 0) -> qMesh k els u = work (sdim k * nnod) f z.
Proof.
  intros k nnod tmp els S f R u R' z fx HW HS H1 H2 H0.
  pose proof (C146_reciprocity k nnod tmp true els S _ _ _ _ _ _ _ _ HW HS H1 H2) as Q. rewrite (sys_q k nnod tmp true els S HW HS) in Q.
  rewrite (work_rest _ _ _ _ _ _ z H1), (work_rest _ _ _ _ _ _ u H2) in Q by (intros i Hi Fi; apply H0; assumption). lra.
Qed.

(** Uniqueness and minimum of the potential energy. *)
Definition stable (k : solid) (els : list elt) : Prop := forall e p, In e els -> In p (epts e) -> 0 < pE p /\ 0 < pW p.
Definition strainFree (k : solid) (els : list elt) (v : nat -> R) : Prop :=
  forall e p, In e els -> In p (epts e) -> eq3 (strainOf k (enen e) p (restrict (sdim k) e v)) (fun _ _ => 0).
Lemma aMesh_positive k nnod els v : (forall e, In e els -> wfElt k nnod e) -> stable k els -> 0 <= aMesh k els v v /\ (aMesh k els v v = 0 -> strainFree k els v).
Proof.
  intros HW HP. assert (P : forall e, In e els -> 0 <= aForm k (enen e) (epts e) (restrict (sdim k) e v) (restrict (sdim k) e v) /\
    (aForm k (enen e) (epts e) (restrict (sdim k) e v) (restrict (sdim k) e v) = 0 -> forall p, In p (epts e) -> eq3 (strainOf k (enen e) p (restrict (sdim k) e v)) (fun _ _ => 0))).
  { intros e He. destruct (C144_positive k (enen e) (epts e) (restrict (sdim k) e v)) as [A B]; [|split; [exact A|apply B]].
    intros p Hp. split; [apply (wfP _ _ _ (HW e He)); exact Hp|apply (HP e p He Hp)]. }
  unfold aMesh, strainFree. clear HW HP. induction els as [|e els IH]; [split; [cbn; lra|intros _ e p []]|].
  destruct IH as [I1 I2]; [intros; apply P; right; assumption|]. destruct (P e (or_introl eq_refl)) as [P1 P2]. rewrite sumL_cons. split; [lra|].
  intros H0 e' p [<-|He'] Hp; [apply P2; [lra|exact Hp]|apply I2; [lra|exact He'|exact Hp]].
Qed.
Lemma bilin_diff N A u v w : bilin N A w (fun i => u i - v i) = bilin N A w u - bilin N A w v.
Proof.
  unfold bilin, mv. rewrite <- sumf_minus. apply sumf_ext. intros i _. rewrite <- Rmult_minus_distr_l, <- sumf_minus. f_equal. apply sumf_ext. intros. ring.
Qed.
Theorem C146_unique : forall k nnod tmp dual els S f R1 u1 R2 u2 fx, (forall e, In e els -> wfElt k nnod e) -> stable k els -> systemOf k nnod tmp dual els = Ret S ->
  equilibrium (sdim k * nnod) (el (sK S)) f R1 u1 fx -> equilibrium (sdim k * nnod) (el (sK S)) f R2 u2 fx ->
  (forall i, (1 <= i <= sdim k * nnod)%nat -> fx i -> u1 i = u2 i) ->
  strainFree k els (fun i => u1 i - u2 i) /\
  ((forall v, strainFree k els v -> (forall i, (1 <= i <= sdim k * nnod)%nat -> fx i -> v i = 0) -> forall i, (1 <= i <= sdim k * nnod)%nat -> v i = 0) ->
   forall i, (1 <= i <= sdim k * nnod)%nat -> u1 i = u2 i /\ R1 i = R2 i).
Proof.
  intros k nnod tmp dual els S f R1 u1 R2 u2 fx HW HP HS H1 H2 H0. set (w := fun i => u1 i - u2 i). set (N := (sdim k * nnod)%nat) in *.
  assert (W0 : forall i, (1 <= i <= N)%nat -> fx i -> w i = 0) by (intros i Hi Fi; unfold w; rewrite (H0 i Hi Fi); ring).
  assert (Z : aMesh k els w w = 0).
  { rewrite <- (sys_a k nnod tmp dual els S HW HS). unfold w at 2. rewrite bilin_diff, !(sys_a k nnod tmp dual els S HW HS).
    rewrite (eq_work k nnod tmp dual els S HW HS _ _ _ _ w H1), (eq_work k nnod tmp dual els S HW HS _ _ _ _ w H2).
    fold N. rewrite (work_rest _ _ _ _ _ _ w H1), (work_rest _ _ _ _ _ _ w H2) by exact W0. ring. }
  assert (SF : strainFree k els w) by (apply (aMesh_positive k nnod); assumption).
  split; [exact SF|]. intros HU i Hi. assert (E : forall i, (1 <= i <= N)%nat -> u1 i = u2 i).
  { intros j Hj. pose proof (HU w SF W0 j Hj) as Q. unfold w in Q. lra. }
  split; [apply E; exact Hi|]. pose proof (eqForce _ _ _ _ _ _ H1 i Hi) as A1. pose proof (eqForce _ _ _ _ _ _ H2 i Hi) as A2.
  assert (M : mv N (el (sK S)) u1 i = mv N (el (sK S)) u2 i) by (unfold mv; apply sumf_ext; intros j Hj; rewrite E by exact Hj; reflexivity). lra.
Qed.
Theorem C146_minimum : forall k nnod tmp dual els S f R u fx v, (forall e, In e els -> wfElt k nnod e) -> stable k els -> systemOf k nnod tmp dual els = Ret S ->
  equilibrium (sdim k * nnod) (el (sK S)) f R u fx -> (forall i, (1 <= i <= sdim k * nnod)%nat -> fx i -> v i = u i) ->
  potential k els (sdim k * nnod) f u <= potential k els (sdim k * nnod) f v /\
  (potential k els (sdim k * nnod) f u = potential k els (sdim k * nnod) f v -> strainFree k els (fun i => v i - u i)).
Proof.
  intros k nnod tmp dual els S f R u fx v HW HP HS H1 H0. set (w := fun i => v i - u i). set (N := (sdim k * nnod)%nat) in *.
  assert (W0 : forall i, (1 <= i <= N)%nat -> fx i -> w i = 0) by (intros i Hi Fi; unfold w; rewrite (H0 i Hi Fi); ring).
  pose proof (eq_work k nnod tmp dual els S HW HS _ _ _ _ w H1) as Q. fold N in Q. rewrite (work_rest _ _ _ _ _ _ w H1) in Q by exact W0.
  assert (A : aMesh k els w u = aMesh k els u v - aMesh k els u u).
  { rewrite aMesh_sym, <- !(sys_a k nnod tmp dual els S HW HS). unfold w. apply bilin_diff. }
  assert (B : aMesh k els w w = aMesh k els v v - 2 * aMesh k els u v + aMesh k els u u).
  { rewrite <- (sys_a k nnod tmp dual els S HW HS). unfold w at 2. rewrite bilin_diff, !(sys_a k nnod tmp dual els S HW HS), A.
    rewrite aMesh_sym, <- !(sys_a k nnod tmp dual els S HW HS). unfold w. rewrite bilin_diff, !(sys_a k nnod tmp dual els S HW HS), (aMesh_sym k els v u). ring. }
  assert (C : work N f w = work N f v - work N f u) by (unfold work; rewrite <- sumf_minus; apply sumf_ext; intros; unfold w; ring).
  destruct (aMesh_positive k nnod els w HW HP) as [P1 P2]. unfold potential. split; [lra|]. intros E. apply P2. lra.
Qed.

(** The work of a stress on the strain of a field. *)
Lemma density_grad k n p T v : k <> AxiSolid -> (forall i j, T i j = T j i) ->
  density k p T (strainOf k n p v) = sumf (sdim k) (fun i => sumf (sdim k) (fun j => hookeOf k p T i j * gradient (sdim k) n (pG p) v i j)).
Proof.
  intros Ka HT. unfold density, hookeOf, hooke, strainOf, tr3, ddot3, trace. generalize (gradient (sdim k) n (pG p) v). intros g. generalize (lamOf k (pE p) (pNu p)) (lame2 (pE p) (pNu p)). intros la mu.
  destruct k; [| |congruence|]; unfold sumf, kron; cbn [sdim isAx Nat.leb Nat.eqb andb seq map fold_right Nat.add]; rewrite ?(HT 2%nat 1%nat), ?(HT 3%nat 1%nat), ?(HT 3%nat 2%nat); field.
Qed.
(** A state of constant strain of a body with the same material everywhere: the nodal forces are those of its constant stress. *)
Definition affineStrain (d : nat) (W : nat -> nat -> R) : t3 := fun a b => if ((a <=? d) && (b <=? d))%nat%bool then (W a b + W b a) / 2 else 0.
Definition affineStress (k : solid) (E nu : R) (W : nat -> nat -> R) : t3 := hooke (lamOf k E nu) (lame2 E nu) (affineStrain (sdim k) W).
Theorem C147_forces : forall k nnod X tmp dual els S c W u E nu m i, k <> AxiSolid -> (forall e, In e els -> wfElt k nnod e) -> systemOf k nnod tmp dual els = Ret S ->
  completeMesh (sdim k) X els -> affine (sdim k) X c W u -> (forall e p, In e els -> In p (epts e) -> pE p = E /\ pNu p = nu) ->
  (1 <= m <= nnod)%nat -> (1 <= i <= sdim k)%nat ->
  mv (sdim k * nnod) (el (sK S)) u (dof (sdim k) m i) = sumf (sdim k) (fun j => affineStress k E nu W i j * gradTotal k els m j).
Proof.
  intros k nnod X tmp dual els S c W u E nu m i Ka HW HS HC HA HM Hm Hi. set (d := sdim k) in *. set (N := (d * nnod)%nat).
  set (q := dof d m i). assert (Hq : (1 <= q <= N)%nat) by (unfold q, N, dof; nia).
  assert (U : mv N (el (sK S)) u q = bilin N (el (sK S)) (unit q) u).
  { unfold bilin. symmetry. apply (sumf_pick N q); [exact Hq| |].
    - intros j _ Nj. unfold unit, kron. destruct (Nat.eqb_spec q j); [congruence|]. ring.
    - unfold unit, kron. rewrite Nat.eqb_refl. ring. }
  rewrite U. unfold N, d. rewrite (sys_a k nnod tmp dual els S HW HS), aMesh_sym.
  set (T := affineStrain d W).
  assert (TS : forall a b, T a b = T b a) by (intros a b; unfold T, affineStrain; rewrite andb_comm; destruct (_ && _)%bool; lra).
  set (sg := affineStress k E nu W).
  assert (RU : forall e a b, In e els -> (1 <= a <= enen e)%nat -> (1 <= b <= d)%nat -> restrict d e (unit q) (dof d a b) = if ((conn e a =? m) && (b =? i))%nat%bool then 1 else 0).
  { intros e a b He Ha Hb. pose proof (wfC _ _ _ (HW e He) a Ha) as Hc. rewrite restrict_dof by lia. unfold unit, kron, q.
    destruct (Nat.eqb_spec (dof d m i) (dof d (conn e a) b)) as [Q|NQ].
    - apply dof_inj in Q; try lia. destruct Q as [<- <-]. rewrite !Nat.eqb_refl. reflexivity.
    - destruct (Nat.eqb_spec (conn e a) m), (Nat.eqb_spec b i); cbn [andb]; try reflexivity. congruence. }
  assert (EE : aMesh k els u (unit q) = sumf d (fun j => sg i j * gradTotal k els m j)).
  { unfold aMesh, gradTotal.
    transitivity (sumL (fun e => sumL (fun p => sumf d (fun j => sg i j * (vol k p * sumf (enen e) (fun a => if (conn e a =? m)%nat then pG p a j else 0)))) (epts e)) els).
    - apply sumL_ext. intros e He. unfold aForm. apply sumL_ext. intros p Hp.
      rewrite (density_ext k p _ T _ _ (affine_strain k (enen e) (fun a => X (conn e a)) p c W (restrict d e u) Ka (HC e p He Hp)
        (affine_restrict d X c W u e (fun a Ha => proj1 (wfC _ _ _ (HW e He) a Ha)) HA)) (fun _ _ _ _ => eq_refl)).
      rewrite density_grad by assumption. fold d. unfold hookeOf. destruct (HM e p He Hp) as [-> ->]. change (hooke (lamOf k E nu) (lame2 E nu) T) with sg.
      rewrite <- sumf_scal. rewrite (sumf_pick d i _ (vol k p * sumf d (fun j => sg i j * sumf (enen e) (fun a => if (conn e a =? m)%nat then pG p a j else 0)))); [|exact Hi| |].
      + rewrite <- sumf_scal. apply sumf_ext. intros j _. ring.
      + intros b Hb Nb. rewrite sumf_0; [ring|]. intros j Hj. unfold gradient. rewrite sumf_0; [ring|]. intros a Ha.
        change (d * (a - 1) + b)%nat with (dof d a b). rewrite (RU e) by assumption. destruct (Nat.eqb_spec b i); [congruence|]. rewrite andb_false_r. ring.
      + f_equal. apply sumf_ext. intros j Hj. f_equal. unfold gradient. apply sumf_ext. intros a Ha.
        change (d * (a - 1) + i)%nat with (dof d a i). rewrite (RU e) by assumption. rewrite Nat.eqb_refl, andb_true_r. destruct (_ =? _)%nat; ring.
    - clear. induction els as [|e els IH]; [cbn; symmetry; apply sumf_0; intros; ring|]. rewrite sumL_cons, IH.
      rewrite (sumf_ext d (fun j => sg i j * sumL _ (e :: els)) (fun j => sg i j * sumL (fun p => vol k p * sumf (enen e) (fun a => if (conn e a =? m)%nat then pG p a j else 0)) (epts e)
        + sg i j * sumL (fun e => sumL (fun p => vol k p * sumf (enen e) (fun a => if (conn e a =? m)%nat then pG p a j else 0)) (epts e)) els)) by (intros; rewrite sumL_cons; ring).
      rewrite sumf_plus. f_equal. induction (epts e) as [|p ps IP]; [cbn; symmetry; apply sumf_0; intros; ring|]. rewrite sumL_cons, IP, <- sumf_plus.
      apply sumf_ext. intros j _. rewrite sumL_cons. ring. }
  exact EE.
Qed.
(** Inside, where the shape function of a node vanishes on the boundary, there are none. *)
Theorem C147_interior : forall k nnod X tmp dual els S c W u E nu m i, k <> AxiSolid -> (forall e, In e els -> wfElt k nnod e) -> systemOf k nnod tmp dual els = Ret S ->
  completeMesh (sdim k) X els -> affine (sdim k) X c W u -> (forall e p, In e els -> In p (epts e) -> pE p = E /\ pNu p = nu) ->
  (1 <= m <= nnod)%nat -> (1 <= i <= sdim k)%nat -> (forall j, (1 <= j <= sdim k)%nat -> gradTotal k els m j = 0) ->
  mv (sdim k * nnod) (el (sK S)) u (dof (sdim k) m i) = 0.
Proof.
  intros k nnod X tmp dual els S c W u E nu m i Ka HW HS HC HA HM Hm Hi HG. rewrite (C147_forces k nnod X tmp dual els S c W u E nu) by assumption.
  apply sumf_0. intros j Hj. rewrite HG by exact Hj. ring.
Qed.
Lemma dof_split d n q : (1 <= d)%nat -> (1 <= q <= d * n)%nat -> exists a i, q = dof d a i /\ (1 <= a <= n)%nat /\ (1 <= i <= d)%nat.
Proof.
  intros Hd Hq. exists ((q - 1) / d + 1)%nat, ((q - 1) mod d + 1)%nat. pose proof (Nat.div_mod (q - 1) d ltac:(lia)) as D. pose proof (Nat.mod_upper_bound (q - 1) d ltac:(lia)).
  split; [unfold dof; rewrite Nat.add_sub; lia|]. split; [|lia]. split; [lia|]. assert (((q - 1) / d < n)%nat) by (apply Nat.div_lt_upper_bound; lia). lia.
Qed.
Lemma work_unit N f q : (1 <= q <= N)%nat -> work N f (unit q) = f q.
Proof.
  intros Hq. unfold work. apply (sumf_pick N q); [exact Hq| |].
  - intros j _ Nj. unfold unit, kron. destruct (Nat.eqb_spec q j); [congruence|]. ring.
  - unfold unit, kron. rewrite Nat.eqb_refl. ring.
Qed.
Definition unloaded (k : solid) (els : list elt) : Prop := forall e p, In e els -> In p (epts e) -> forall i, (1 <= i <= sdim k)%nat -> pF p i = 0.
Lemma fMesh_0 k els v : unloaded k els -> fMesh k els v = 0.
Proof.
  intros H. unfold fMesh. rewrite (sumL_ext _ (fun _ => 0)); [apply sumL_zero|]. intros e He. unfold fForm. rewrite (sumL_ext _ (fun _ => 0)); [apply sumL_zero|].
  intros p Hp. rewrite sumf_0; [ring|]. intros i Hi. rewrite (H e p He Hp i Hi). ring.
Qed.
(** Patch test: without body forces, with the affine values prescribed at some unknowns and the forces of the constant stress applied at the others,
    the computed displacements are the affine field, whatever the mesh. *)
Theorem C147_patch : forall k nnod X dual els S c W ua E nu g R u fx, k <> AxiSolid -> (forall e, In e els -> wfElt k nnod e) -> stable k els ->
  systemOf k nnod false dual els = Ret S -> completeMesh (sdim k) X els -> affine (sdim k) X c W ua -> unloaded k els ->
  (forall e p, In e els -> In p (epts e) -> pE p = E /\ pNu p = nu) ->
  (forall m i, (1 <= m <= nnod)%nat -> (1 <= i <= sdim k)%nat -> ~ fx (dof (sdim k) m i) ->
     g (dof (sdim k) m i) = sumf (sdim k) (fun j => affineStress k E nu W i j * gradTotal k els m j)) ->
  (forall v, strainFree k els v -> (forall i, (1 <= i <= sdim k * nnod)%nat -> fx i -> v i = 0) -> forall i, (1 <= i <= sdim k * nnod)%nat -> v i = 0) ->
  equilibrium (sdim k * nnod) (el (sK S)) (fun i => el (sF S) i 1%nat + g i) R u fx -> (forall i, (1 <= i <= sdim k * nnod)%nat -> fx i -> u i = ua i) ->
  (forall i, (1 <= i <= sdim k * nnod)%nat -> u i = ua i) /\
  (forall e p, In e els -> In p (epts e) -> eq3 (strainOf k (enen e) p (restrict (sdim k) e u)) (affineStrain (sdim k) W)).
Proof.
  intros k nnod X dual els S c W ua E nu g R u fx Ka HW HP HS HC HA HF HM Hg HU HE H0. set (N := (sdim k * nnod)%nat) in *.
  assert (Hd : (1 <= sdim k)%nat) by (destruct k; cbn; lia).
  assert (F0 : forall i, (1 <= i <= N)%nat -> el (sF S) i 1%nat = 0).
  { intros i Hi. rewrite <- (work_unit N (fun i => el (sF S) i 1%nat) i Hi). unfold N. rewrite (sys_f k nnod false dual els S HW HS), fMesh_0 by exact HF. ring. }
  assert (EA : equilibrium N (el (sK S)) (fun i => el (sF S) i 1%nat + g i) (fun i => mv N (el (sK S)) ua i - (el (sF S) i 1%nat + g i)) ua fx).
  { split; [intros; ring|]. intros i Hi Fi. destruct (dof_split (sdim k) nnod i Hd Hi) as [m [q [-> [Hm Hq]]]].
    unfold N. rewrite (C147_forces k nnod X false dual els S c W ua E nu) by assumption. rewrite (Hg m q Hm Hq Fi), F0 by exact Hi. ring. }
  destruct (C146_unique k nnod false dual els S _ _ _ _ _ _ HW HP HS HE EA H0) as [_ Q].
  assert (D : forall i, (1 <= i <= N)%nat -> u i = ua i) by (intros i Hi; apply (Q HU i Hi)).
  split; [exact D|]. intros e p He Hp.
  apply (affine_strain k (enen e) (fun a => X (conn e a)) p c W (restrict (sdim k) e u) Ka (HC e p He Hp)).
  intros a i Ha Hi. change (sdim k * (a - 1) + i)%nat with (dof (sdim k) a i). pose proof (wfC _ _ _ (HW e He) a Ha) as Hc. rewrite restrict_dof by lia.
  rewrite D by (unfold N, dof; nia). apply HA; lia.
Qed.

(** Free expansion: under a uniform temperature strain [t] the field t X is in equilibrium with the thermal loads, whatever the stiffness of the parts. *)
Theorem C147_expansion : forall k nnod X dual els S c t u, (forall e, In e els -> wfElt k nnod e) -> systemOf k nnod true dual els = Ret S ->
  completeMesh (sdim k) X els -> unloaded k els -> (forall e p, In e els -> In p (epts e) -> pT p = t) ->
  (isAx k = true -> c 1%nat = 0 /\ forall e p, In e els -> In p (epts e) -> sumf (enen e) (fun a => pN p a * X (conn e a) 1%nat) = pX p) ->
  affine (sdim k) X c (fun i j => t * kron i j) u ->
  forall i, (1 <= i <= sdim k * nnod)%nat -> mv (sdim k * nnod) (el (sK S)) u i = el (sF S) i 1%nat.
Proof.
  intros k nnod X dual els S c t u HW HS HC HF HT HX HA i Hi. set (N := (sdim k * nnod)%nat) in *.
  assert (U : mv N (el (sK S)) u i = bilin N (el (sK S)) (unit i) u).
  { unfold bilin. symmetry. apply (sumf_pick N i); [exact Hi| |].
    - intros j _ Nj. unfold unit, kron. destruct (Nat.eqb_spec i j); [congruence|]. ring.
    - unfold unit, kron. rewrite Nat.eqb_refl. ring. }
  rewrite U, <- (work_unit N (fun i => el (sF S) i 1%nat) i Hi). unfold N. rewrite (sys_a k nnod true dual els S HW HS), (sys_f k nnod true dual els S HW HS), fMesh_0, Rplus_0_l, aMesh_sym by exact HF.
  unfold aMesh, tMesh. apply sumL_ext. intros e He. unfold aForm, tForm. apply sumL_ext. intros p Hp. f_equal. apply density_ext; [|intros ? ? _ _; reflexivity].
  assert (RU : forall a i, (1 <= a <= enen e)%nat -> (1 <= i <= sdim k)%nat -> restrict (sdim k) e u (sdim k * (a - 1) + i)%nat = c i + sumf (sdim k) (fun j => t * kron i j * X (conn e a) j)).
  { apply affine_restrict; [|exact HA]. intros a Ha. apply (wfC _ _ _ (HW e He) a Ha). }
  intros a b Ha Hb. unfold strainOf, expansion. rewrite (HT e p He Hp).
  destruct (Nat.leb_spec a (sdim k)) as [La|La], (Nat.leb_spec b (sdim k)) as [Lb|Lb]; cbn [andb orb].
  - rewrite !(affine_gradient (sdim k) (enen e) (fun a => X (conn e a)) p c _ _ (HC e p He Hp) RU) by lia.
    unfold kron. rewrite (Nat.eqb_sym b a). destruct (a =? b)%nat; cbn [andb]; lra.
  - destruct (isAx k) eqn:Ax; cbn [andb]; destruct (Nat.eqb_spec a b); try lia; cbn [andb]; destruct (Nat.eqb_spec a 3); cbn [andb]; try reflexivity. destruct k; cbn in *; try discriminate; lia.
  - destruct (isAx k) eqn:Ax; cbn [andb]; destruct (Nat.eqb_spec a b); try lia; cbn [andb]; destruct (Nat.eqb_spec a 3), (Nat.eqb_spec b 3); cbn [andb]; try reflexivity; destruct k; cbn in *; try discriminate; lia.
  - destruct (isAx k) eqn:Ax; cbn [andb orb]; [|rewrite andb_false_r; reflexivity].
    assert (Ka : k = AxiSolid) by (destruct k; try discriminate; reflexivity). subst k. cbn [sdim] in *. assert (a = 3%nat) by lia. assert (b = 3%nat) by lia. subst a b. cbn [Nat.eqb andb].
    destruct (HX eq_refl) as [Hc0 HN]. pose proof (vpAx _ _ (wfP _ _ _ (HW e He) p Hp) eq_refl) as Px. pose proof epsR_pos.
    unfold interp. rewrite (sumf_ext _ _ (fun a => t * (pN p a * X (conn e a) 1%nat))).
    + rewrite sumf_scal, (HN e p He Hp). field. lra.
    + intros a Hq. rewrite RU by lia. rewrite Hc0. unfold sumf, kron. cbn [seq map fold_right Nat.eqb Nat.add]. ring.
Qed.

(** A square of two triangles, stretched. *)
Definition tri' : lpt := mkLpt (fun _ => 1 / 3) (fun a j => - triG a j) 1 (1 / 2) 1 0 0 (fun _ => 0) true 0.
Definition square : list elt := [mkElt 3 (fun a => a) [tri] None; mkElt 3 (fun a => 5 - a)%nat [tri'] None].
Definition sqX (a j : nat) : R := match a, j with 2%nat, 1%nat => 1 | 3%nat, 2%nat => 1 | 4%nat, 1%nat => 1 | 4%nat, 2%nat => 1 | _, _ => 0 end.
Definition sqHeld (i : nat) : Prop := i = 1%nat \/ i = 2%nat \/ i = 5%nat \/ i = 6%nat.
Definition sqU (i : nat) : R := sqX ((i - 1) / 2 + 1) 1 * kron ((i - 1) mod 2) 0.
Definition sqG (i : nat) : R := match i with 3%nat | 7%nat => 1 / 2 | _ => 0 end.
Definition sqR (i : nat) : R := match i with 1%nat | 5%nat => - (1 / 2) | _ => 0 end.
Lemma square_ok : (forall e, In e square -> wfElt PlaneStress 4 e) /\ stable PlaneStress square /\ completeMesh 2 sqX square /\ unityMesh square /\ unloaded PlaneStress square.
Proof.
  split; [|split; [|split; [|split]]].
  - intros e [<-|[<-|[]]]; (split; [cbn; lia|cbn [enen conn]; intros; lia| |exact I]); intros p [<-|[]]; (split; [cbn; lra|discriminate|intros; reflexivity]).
  - intros e p [<-|[<-|[]]] [<-|[]]; cbn; lra.
  - intros e p [<-|[<-|[]]] [<-|[]]; (split; [intros j Hj|intros i j Hi Hj; idx i]; idx j; unfold sumf, kron; cbn; lra).
  - intros e p [<-|[<-|[]]] [<-|[]]; unfold sumf; cbn; lra.
  - intros e p [<-|[<-|[]]] [<-|[]]; reflexivity.
Qed.
Lemma sq_affine : affine 2 sqX (fun _ => 0) (fun i j => kron i 1 * kron j 1) sqU.
Proof.
  intros a i Ha Hi. unfold sqU, dof. replace (2 * (a - 1) + i - 1)%nat with (i - 1 + (a - 1) * 2)%nat by lia. rewrite Nat.div_add, Nat.mod_add by lia.
  idx i; cbn [Nat.sub Nat.div Nat.modulo Nat.divmod fst snd Nat.add]; unfold sumf, kron; cbn [seq map fold_right Nat.eqb Nat.add]; [replace (a - 1 + 1)%nat with a by lia|]; ring.
Qed.
Lemma sq_free v : strainFree PlaneStress square v -> (forall i, (1 <= i <= 8)%nat -> sqHeld i -> v i = 0) -> forall i, (1 <= i <= 8)%nat -> v i = 0.
Proof.
  intros H H0. pose proof (H _ tri (or_introl eq_refl) (or_introl eq_refl)) as A. pose proof (H _ tri' (or_intror (or_introl eq_refl)) (or_introl eq_refl)) as B.
  assert (Z1 : v 1%nat = 0) by (apply H0; unfold sqHeld; lia). assert (Z2 : v 2%nat = 0) by (apply H0; unfold sqHeld; lia).
  assert (Z5 : v 5%nat = 0) by (apply H0; unfold sqHeld; lia). assert (Z6 : v 6%nat = 0) by (apply H0; unfold sqHeld; lia).
  pose proof (A 1%nat 1%nat ltac:(lia) ltac:(lia)) as A1. pose proof (A 1%nat 2%nat ltac:(lia) ltac:(lia)) as A2.
  pose proof (B 1%nat 1%nat ltac:(lia) ltac:(lia)) as B1. pose proof (B 2%nat 2%nat ltac:(lia) ltac:(lia)) as B2.
  unfold strainOf, gradient, restrict, sumf in A1, A2, B1, B2. cbn in A1, A2, B1, B2.
  assert (Z3 : v 3%nat = 0) by lra. assert (Z4 : v 4%nat = 0) by lra. assert (Z7 : v 7%nat = 0) by lra. assert (Z8 : v 8%nat = 0) by lra.
  intros i Hi. idx i; assumption.
Qed.
(** It meets the hypotheses of C146 and C147, with forces at one side and reactions at the other. *)
Example C146_case : exists S, systemOf PlaneStress 4 false false square = Ret S /\
  equilibrium 8 (el (sK S)) (fun i => el (sF S) i 1%nat + sqG i) sqR sqU sqHeld /\ sqU 3 = 1 /\ sumf 4 (fun a => sqR (dof 2 a 1)) = - 1 /\
  (forall m i, (1 <= m <= 4)%nat -> (1 <= i <= 2)%nat -> ~ sqHeld (dof 2 m i) ->
     sqG (dof 2 m i) = sumf 2 (fun j => affineStress PlaneStress 1 0 (fun i j => kron i 1 * kron j 1) i j * gradTotal PlaneStress square m j)) /\
  (forall e p, In e square -> In p (epts e) -> pE p = 1 /\ pNu p = 0).
Proof.
  destruct square_ok as [HW [HP [HC [HU HF]]]]. destruct (C146_system PlaneStress 4 false false square HW) as [S [E [_ [SF _]]]].
  assert (HM : forall e p, In e square -> In p (epts e) -> pE p = 1 /\ pNu p = 0) by (intros e p [<-|[<-|[]]] [<-|[]]; split; reflexivity).
  assert (FG : forall m i, (1 <= m <= 4)%nat -> (1 <= i <= 2)%nat ->
    sumf 2 (fun j => affineStress PlaneStress 1 0 (fun i j => kron i 1 * kron j 1) i j * gradTotal PlaneStress square m j) = sqG (dof 2 m i) + sqR (dof 2 m i)).
  { intros m i Hm Hi. unfold affineStress, hooke, trace, affineStrain, lamOf, lame1, lame2, gradTotal, sumf, dof, vol, kron. idx m; idx i; cbn; field. }
  exists S. split; [exact E|]. split; [|split; [|split; [|split]]].
  - split.
    + intros q Hq. assert (F0 : el (sF S) q 1%nat = 0).
      { rewrite <- (work_unit 8 (fun i => el (sF S) i 1%nat) q Hq). change 8%nat with (sdim PlaneStress * 4)%nat. rewrite SF, fMesh_0 by exact HF. ring. }
      destruct (dof_split 2 4 q ltac:(lia) Hq) as [m [i [-> [Hm Hi]]]].
      assert (Q : mv 8 (el (sK S)) sqU (dof 2 m i) = sumf 2 (fun j => affineStress PlaneStress 1 0 (fun i j => kron i 1 * kron j 1) i j * gradTotal PlaneStress square m j)).
      { apply (C147_forces PlaneStress 4 sqX false false square S (fun _ => 0) (fun i j => kron i 1 * kron j 1) sqU 1 0 m i); try assumption; [discriminate|exact sq_affine]. }
      rewrite Q, FG by assumption. rewrite F0. ring.
    + intros i Hi Nh. unfold sqHeld in Nh. unfold sqR. idx i; try reflexivity; exfalso; lia.
  - unfold sqU, kron. cbn. lra.
  - unfold sumf. cbn. lra.
  - intros m i Hm Hi Nh. rewrite FG by assumption. unfold sqHeld, dof in Nh. unfold sqR, dof. clear - Hm Hi Nh. idx m; idx i; cbn in Nh |- *; try lra; exfalso; lia.
  - exact HM.
Qed.
Example C147_case : forall S R u, systemOf PlaneStress 4 false false square = Ret S -> equilibrium 8 (el (sK S)) (fun i => el (sF S) i 1%nat + sqG i) R u sqHeld ->
  (forall i, (1 <= i <= 8)%nat -> sqHeld i -> u i = 0) -> forall i, (1 <= i <= 8)%nat -> u i = sqU i.
Proof.
  intros S R u E HE H0. destruct square_ok as [HW [HP [HC [HU HF]]]]. destruct C146_case as [S' [E' [_ [_ [_ [HG HM]]]]]].
  destruct (C147_patch PlaneStress 4 sqX false square S (fun _ => 0) (fun i j => kron i 1 * kron j 1) sqU 1 0 sqG R u sqHeld) as [Q _]; try assumption; [discriminate|exact sq_affine|exact sq_free|].
  intros i Hi Hh. rewrite (H0 i Hi Hh). unfold sqHeld in Hh. destruct Hh as [-> | [-> | [-> | ->]]]; unfold sqU, kron; cbn; lra.
Qed.
Print Assumptions C146_system.
Print Assumptions C146_balance.
Print Assumptions C146_resultant.
Print Assumptions C146_axial.
Print Assumptions C146_energy.
Print Assumptions C146_reciprocity.
Print Assumptions C146_dual.
Print Assumptions C146_unique.
Print Assumptions C146_minimum.
Print Assumptions C147_forces.
Print Assumptions C147_interior.
Print Assumptions C147_patch.
Print Assumptions C147_expansion.
