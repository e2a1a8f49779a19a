(** C148: the energy norms of linear analyses. *)
From Verif Require Import Lib.Base Lib.Sums Lib.Writes Lib.Tensor3 Spec.Hooke Spec.Continuum Model.Continuum Model.LinIsotropic Model.Thermal
  Proofs.Continuum Proofs.ContinuumAxi Proofs.ContinuumK Model.LinElement Spec.LinElement Proofs.LinElement Model.LinSystem Spec.LinSystem Proofs.LinSystem
  Props.LinElement Props.LinSystem Model.LinNorms Spec.LinNorms Proofs.LinNorms.
From Verif Require Model.Norms.
Import ListNotations.

(** The norms of a mesh, from zero. *)
Definition normsOf (k : solid) (tmp h strain anasol four : bool) (u : nat -> R) (els : list nelt) : res (nat -> R) :=
  normMesh (sdim k) (isAx k) (psOf k) tmp h strain anasol four u els (fun _ => 0).

Lemma overMesh_ext els f g : (forall x p sg, In x els -> In p (epts (ne x)) -> In sg (nsig x) -> f x p sg = g x p sg) -> overMesh els f = overMesh els g.
Proof.
  intros H. unfold overMesh. apply sumL_ext. intros x Hx. apply sumL_ext. intros [p sg] Hq. cbn [fst snd]. apply H; [exact Hx|eapply in_combine_l; exact Hq|eapply in_combine_r; exact Hq].
Qed.
Lemma sumL_fst {A B} (f : A -> R) (l : list A) (l' : list B) : length l' = length l -> sumL (fun q => f (fst q)) (combine l l') = sumL f l.
Proof.
  revert l'. induction l as [|a l IH]; intros [|b l'] H; try discriminate; [reflexivity|]. cbn [combine]. rewrite !sumL_cons, IH by (cbn in H; lia). reflexivity.
Qed.
Lemma overMesh_pts els (f : elt -> lpt -> R) : (forall x, In x els -> length (nsig x) = length (epts (ne x))) ->
  overMesh els (fun x p _ => f (ne x) p) = sumL (fun e => sumL (f e) (epts e)) (meshOf els).
Proof.
  intros H. unfold overMesh, meshOf. induction els as [|x els IH]; [reflexivity|]. cbn [map]. rewrite !sumL_cons, IH by (intros; apply H; right; assumption).
  f_equal. apply (sumL_fst (f (ne x))). apply H. left. reflexivity.
Qed.
Lemma overMesh_plus els f g : overMesh els (fun x p s => f x p s + g x p s) = overMesh els f + overMesh els g.
Proof. unfold overMesh. rewrite <- sumL_plus. apply sumL_ext. intros. apply sumL_plus. Qed.
Lemma overMesh_scal els c f : overMesh els (fun x p s => c * f x p s) = c * overMesh els f.
Proof. unfold overMesh. rewrite <- sumL_scal. apply sumL_ext. intros. apply sumL_scal. Qed.

(** Every entry is the sum of what the points add; the norms are always computed. *)
Theorem C148_entries : forall k nnod tmp h anasol four u els, (forall x, In x els -> wfNelt k nnod x) -> k <> AxiSolid \/ tmp = false ->
  (anasol = true -> k = AxiSolid -> four = true) ->
  exists a, normsOf k tmp h false anasol four u els = Ret a /\
    forall i, a i = overMesh els (fun x p sg => nth i (pointNorms k (enen (ne x)) tmp h anasol p sg (restrict (sdim k) (ne x) u) (nz x)) 0).
Proof.
  intros k nnod tmp h anasol four u els HW Hax Hf.
  assert (P : forall x, In x els -> forall l acc, incl l (combine (epts (ne x)) (nsig x)) ->
    exists a, normPts (linStatic (sdim k) (isAx k) (psOf k) tmp false (enen (ne x))) h false anasol four (gatherU (sdim k) (ne x) u) (nz x) l acc = Ret a /\
      forall i, a i = acc i + sumL (fun q => nth i (pointNorms k (enen (ne x)) tmp h anasol (fst q) (snd q) (restrict (sdim k) (ne x) u) (nz x)) 0) l).
  { intros x Hx. destruct (HW x Hx) as [W [_ [WS WE]]]. induction l as [|[p sg] l IH]; intros acc Hl; [exists acc; split; [reflexivity|intros; cbn; ring]|].
    assert (Hq : In (p, sg) (combine (epts (ne x)) (nsig x))) by (apply Hl; left; reflexivity).
    pose proof (in_combine_l _ _ _ _ Hq) as Hp. pose proof (in_combine_r _ _ _ _ Hq) as Hs.
    destruct (point_norms k (enen (ne x)) (linStatic (sdim k) (isAx k) (psOf k) tmp false (enen (ne x))) h p (gatherU (sdim k) (ne x) u) (nz x) anasol four sg) as [d [Ed Vd]].
    { apply linStatic_kind. } { apply (wfP _ _ _ W). exact Hp. } { apply WE. exact Hp. }
    { destruct Hax as [Hk | ->]; [left; exact Hk|right; reflexivity]. } { exact Hf. } { intros _. intros i j. apply WS. exact Hs. }
    cbn [normPts]. rewrite Ed. cbn [bind]. destruct (IH (Norms.accum acc (Norms.evalInt d))) as [a [Ea Va]]; [intros q Q; apply Hl; right; exact Q|].
    exists a. split; [exact Ea|]. intros i. rewrite Va, sumL_cons. unfold Norms.accum. rewrite Vd. cbn [fst snd]. cbn [linStatic hasT].
    change (gatherU (sdim k) (ne x) u) with (restrict (sdim k) (ne x) u). ring. }
  unfold normsOf. enough (Q : forall els', incl els' els -> forall acc, exists a, normMesh (sdim k) (isAx k) (psOf k) tmp h false anasol four u els' acc = Ret a /\
    forall i, a i = acc i + overMesh els' (fun x p sg => nth i (pointNorms k (enen (ne x)) tmp h anasol p sg (restrict (sdim k) (ne x) u) (nz x)) 0)).
  { destruct (Q els (incl_refl _) (fun _ => 0)) as [a [Ea Va]]. exists a. split; [exact Ea|]. intros i. rewrite Va. ring. }
  induction els' as [|x r IH]; intros Hi acc; [exists acc; split; [reflexivity|intros; cbn; ring]|].
  destruct (P x (Hi x (or_introl eq_refl)) (combine (epts (ne x)) (nsig x)) acc (incl_refl _)) as [a1 [E1 V1]].
  destruct (IH (fun y Y => Hi y (or_intror Y)) a1) as [a [Ea Va]]. exists a. cbn [normMesh]. rewrite E1. cbn [bind]. split; [exact Ea|].
  intros i. rewrite Va, V1. unfold overMesh. rewrite sumL_cons. ring.
Qed.

Lemma nth_duals {A} (f g : A -> R) (both : bool) zs j (d : A) : (j < length zs)%nat ->
  nth (if both then 2 * j else j) (flat_map (fun z => f z :: if both then [g z] else []) zs) 0 = f (nth j zs d) /\
  (both = true -> nth (2 * j + 1) (flat_map (fun z => f z :: if both then [g z] else []) zs) 0 = g (nth j zs d)).
Proof.
  revert j. induction zs as [|z zs IH]; intros j Hj; [cbn in Hj; lia|]. destruct j as [|j].
  - destruct both; cbn; (split; [reflexivity|]); intros; [reflexivity|discriminate].
  - destruct (IH j) as [I1 I2]; [cbn in Hj; lia|]. destruct both.
    + replace (2 * S j)%nat with (S (S (2 * j))) by lia. replace (S (S (2 * j)) + 1)%nat with (S (S (2 * j + 1))) by lia. cbn [flat_map nth app]. split; [exact I1|intros; apply I2; reflexivity].
    + cbn [flat_map nth app]. split; [exact I1|discriminate].
Qed.
Lemma elastic_cold k n p u i j : elasticOf k n false p u i j = strainOf k n p u i j.
Proof. unfold elasticOf. ring. Qed.
Lemma hooke_ext k p e e' : (forall i j, e i j = e' i j) -> forall i j, hookeOf k p e i j = hookeOf k p e' i j.
Proof. intros H i j. unfold hookeOf, hooke, trace. rewrite !H. reflexivity. Qed.
Lemma compl_ext k p S S' T T' : (forall i j, S i j = S' i j) -> (forall i j, T i j = T' i j) -> compliance k p S T = compliance k p S' T'.
Proof. intros H1 H2. unfold compliance, ddot3, tr3, complete3. destruct k; cbn; rewrite ?H1, ?H2; reflexivity. Qed.

(** Without temperature: strain energy, work of the body forces, energies of the analytical stress and of the error, volume, and
    the work on the dual fields. *)
Theorem C148_norms : forall k nnod h anasol four u els nExt, (forall x, In x els -> wfNelt k nnod x /\ length (nz x) = nExt) ->
  (anasol = true -> k = AxiSolid -> four = true) ->
  exists a, normsOf k false h false anasol four u els = Ret a /\
    a 0%nat = aMesh k (meshOf els) u u /\ a 1%nat = (if h then fMesh k (meshOf els) u else 0) /\
    (anasol = true -> a 2%nat = exactEnergy k els /\ a 3%nat = errorEnergy k els u) /\
    a (if anasol then 4 else 2)%nat = volMesh k els /\
    (forall j, (j < nExt)%nat ->
       a (if anasol then 5 + 2 * j else 3 + j)%nat = overMesh els (fun x p _ => vol k p * match nth j (nz x) None with
         Some w => density k p (strainOf k (enen (ne x)) p (restrict (sdim k) (ne x) u)) (strainOf k (enen (ne x)) p w) | None => 0 end) /\
       (anasol = true -> a (6 + 2 * j)%nat = overMesh els (fun x p sg => vol k p * match nth j (nz x) None with Some w => ddot3 sg (strainOf k (enen (ne x)) p w) | None => 0 end))).
Proof.
  intros k nnod h anasol four u els nExt HW Hf.
  destruct (C148_entries k nnod false h anasol four u els (fun x Hx => proj1 (HW x Hx)) (or_intror eq_refl) Hf) as [a [Ea Va]].
  exists a. split; [exact Ea|]. rewrite !Va.
  assert (HL : forall x, In x els -> length (nsig x) = length (epts (ne x))) by (intros x Hx; apply (HW x Hx)).
  split; [|split; [|split; [|split]]].
  - rewrite (overMesh_ext _ _ (fun x p _ => vol k p * density k p (strainOf k (enen (ne x)) p (restrict (sdim k) (ne x) u)) (strainOf k (enen (ne x)) p (restrict (sdim k) (ne x) u)))).
    + exact (overMesh_pts els (fun e p => vol k p * density k p (strainOf k (enen e) p (restrict (sdim k) e u)) (strainOf k (enen e) p (restrict (sdim k) e u))) HL).
    + intros. cbn [pointNorms app nth]. f_equal. apply density_ext; intros i j _ _; apply elastic_cold.
  - destruct h.
    + rewrite (overMesh_ext _ _ (fun x p _ => vol k p * sumf (sdim k) (fun i => pF p i * interp (sdim k) (enen (ne x)) (pN p) (restrict (sdim k) (ne x) u) i))) by reflexivity.
      exact (overMesh_pts els (fun e p => vol k p * sumf (sdim k) (fun i => pF p i * interp (sdim k) (enen e) (pN p) (restrict (sdim k) e u) i)) HL).
    + rewrite (overMesh_ext _ _ (fun _ _ _ => 0 * 0)) by (intros; cbn; ring). rewrite overMesh_scal. ring.
  - intros ->. split; [apply overMesh_ext; reflexivity|]. apply overMesh_ext. intros x p sg _ _ _. cbn [pointNorms app nth]. f_equal.
    assert (Q : forall i j, minus3 sg (hookeOf k p (elasticOf k (enen (ne x)) false p (restrict (sdim k) (ne x) u))) i j =
      minus3 sg (hookeOf k p (strainOf k (enen (ne x)) p (restrict (sdim k) (ne x) u))) i j)
      by (intros; unfold minus3; f_equal; apply hooke_ext; intros; apply elastic_cold). apply compl_ext; exact Q.
  - destruct anasol; apply overMesh_ext; reflexivity.
  - intros j Hj. rewrite !Va.
    assert (D : forall x p sg, In x els ->
      nth (if anasol then 5 + 2 * j else 3 + j) (pointNorms k (enen (ne x)) false h anasol p sg (restrict (sdim k) (ne x) u) (nz x)) 0 =
        vol k p * dualWork k (enen (ne x)) p (hookeOf k p (elasticOf k (enen (ne x)) false p (restrict (sdim k) (ne x) u))) (nth j (nz x) None) /\
      (anasol = true -> nth (6 + 2 * j) (pointNorms k (enen (ne x)) false h anasol p sg (restrict (sdim k) (ne x) u) (nz x)) 0 =
        vol k p * dualWork k (enen (ne x)) p sg (nth j (nz x) None))).
    { intros x p sg Hx. destruct (HW x Hx) as [_ L].
      destruct (nth_duals (fun z => vol k p * dualWork k (enen (ne x)) p (hookeOf k p (elasticOf k (enen (ne x)) false p (restrict (sdim k) (ne x) u))) z)
        (fun z => vol k p * dualWork k (enen (ne x)) p sg z) anasol (nz x) j None) as [D1 D2]; [lia|].
      unfold pointNorms. destruct anasol; cbn [app]; (split; [exact D1|]); [|discriminate].
      intros _. replace (6 + 2 * j)%nat with (5 + (2 * j + 1))%nat by lia. apply D2. reflexivity. }
    split; [|intros Ha]; apply overMesh_ext; intros x p sg Hx _ _; [rewrite (proj1 (D x p sg Hx))|rewrite (proj2 (D x p sg Hx) Ha); unfold dualWork; reflexivity].
    f_equal. unfold dualWork. destruct (nth j (nz x) None) as [w|]; [|reflexivity]. rewrite hooke_work by (apply elastic_kind || apply strain_kind).
    apply density_ext; intros i l _ _; [apply elastic_cold|reflexivity].
Qed.

(** A dual field given by its values in all elements: a(u,w). *)
Theorem C148_dual : forall k nnod h anasol four u els nExt j w a, (forall x, In x els -> wfNelt k nnod x /\ length (nz x) = nExt) ->
  (anasol = true -> k = AxiSolid -> four = true) -> (j < nExt)%nat -> (forall x, In x els -> nth j (nz x) None = Some (restrict (sdim k) (ne x) w)) ->
  normsOf k false h false anasol four u els = Ret a ->
  a (if anasol then 5 + 2 * j else 3 + j)%nat = aMesh k (meshOf els) u w /\ (anasol = true -> a (6 + 2 * j)%nat = stressWork k els w).
Proof.
  intros k nnod h anasol four u els nExt j w a HW Hf Hj Hz HA. destruct (C148_norms k nnod h anasol four u els nExt HW Hf) as [a' [Ea [_ [_ [_ [_ HD]]]]]].
  rewrite HA in Ea. injection Ea as <-. destruct (HD j Hj) as [D1 D2]. split.
  - rewrite D1. rewrite (overMesh_ext _ _ (fun x p _ => vol k p * density k p (strainOf k (enen (ne x)) p (restrict (sdim k) (ne x) u)) (strainOf k (enen (ne x)) p (restrict (sdim k) (ne x) w)))).
    + exact (overMesh_pts els (fun e p => vol k p * density k p (strainOf k (enen e) p (restrict (sdim k) e u)) (strainOf k (enen e) p (restrict (sdim k) e w))) (fun x Hx => proj1 (proj2 (proj1 (HW x Hx))))).
    + intros x p sg Hx _ _. rewrite (Hz x Hx). reflexivity.
  - intros Ha. rewrite (D2 Ha). apply overMesh_ext. intros x p sg Hx _ _. rewrite (Hz x Hx). reflexivity.
Qed.

(** In equilibrium with supports at rest the energy norm is the external energy, with the work of the loads that are not body
    forces ([g]: tractions and nodal loads). *)
Theorem C148_balance : forall k nnod anasol four els S g R u fx a, (forall x, In x els -> wfNelt k nnod x) -> (anasol = true -> k = AxiSolid -> four = true) ->
  systemOf k nnod false false (meshOf els) = Ret S -> equilibrium (sdim k * nnod) (el (sK S)) (fun i => el (sF S) i 1%nat + g i) R u fx ->
  (forall i, (1 <= i <= sdim k * nnod)%nat -> fx i -> u i = 0) -> normsOf k false true false anasol four u els = Ret a ->
  a 0%nat = a 1%nat + work (sdim k * nnod) g u.
Proof.
  intros k nnod anasol four els S g R u fx a HW Hf HS HE H0 HA.
  assert (HW' : forall e, In e (meshOf els) -> wfElt k nnod e) by (intros e He; apply in_map_iff in He; destruct He as [x [<- Hx]]; apply (HW x Hx)).
  destruct (C148_entries k nnod false true anasol four u els HW (or_intror eq_refl) Hf) as [a' [Ea Va]]. rewrite HA in Ea. injection Ea as <-.
  assert (HL : forall x, In x els -> length (nsig x) = length (epts (ne x))) by (intros x Hx; apply (HW x Hx)).
  assert (A0 : a 0%nat = aMesh k (meshOf els) u u).
  { rewrite Va. rewrite (overMesh_ext _ _ (fun x p _ => vol k p * density k p (strainOf k (enen (ne x)) p (restrict (sdim k) (ne x) u)) (strainOf k (enen (ne x)) p (restrict (sdim k) (ne x) u)))).
    - exact (overMesh_pts els (fun e p => vol k p * density k p (strainOf k (enen e) p (restrict (sdim k) e u)) (strainOf k (enen e) p (restrict (sdim k) e u))) HL).
    - intros. cbn [pointNorms app nth]. f_equal. apply density_ext; intros i j _ _; apply elastic_cold. }
  assert (A1 : a 1%nat = fMesh k (meshOf els) u).
  { rewrite Va. rewrite (overMesh_ext _ _ (fun x p _ => vol k p * sumf (sdim k) (fun i => pF p i * interp (sdim k) (enen (ne x)) (pN p) (restrict (sdim k) (ne x) u) i))) by reflexivity.
    exact (overMesh_pts els (fun e p => vol k p * sumf (sdim k) (fun i => pF p i * interp (sdim k) (enen e) (pN p) (restrict (sdim k) e u) i)) HL). }
  rewrite A0, A1. destruct (C146_energy k nnod false false (meshOf els) S _ _ _ _ HW' HS HE) as [_ Q]. rewrite (Q H0), work_plus, (sys_f k nnod false false (meshOf els) S HW' HS). ring.
Qed.

(** The error energy as a function of the displacements. *)
Lemma error_expand k nnod els u : (forall x, In x els -> wfNelt k nnod x) ->
  errorEnergy k els u = exactEnergy k els - 2 * stressWork k els u + aMesh k (meshOf els) u u.
Proof.
  intros HW. unfold errorEnergy, exactEnergy, stressWork.
  assert (AM : aMesh k (meshOf els) u u = overMesh els (fun x p _ => vol k p * density k p (strainOf k (enen (ne x)) p (restrict (sdim k) (ne x) u)) (strainOf k (enen (ne x)) p (restrict (sdim k) (ne x) u)))).
  { symmetry. exact (overMesh_pts els (fun e p => vol k p * density k p (strainOf k (enen e) p (restrict (sdim k) e u)) (strainOf k (enen e) p (restrict (sdim k) e u))) (fun x Hx => proj1 (proj2 (HW x Hx)))). }
  rewrite AM.
  match goal with |- _ = ?A - 2 * ?B + ?C => replace (A - 2 * B + C) with (A + (-2) * B + C) by ring end.
  rewrite <- overMesh_scal, <- !overMesh_plus. apply overMesh_ext. intros x p sg Hx Hp Hs. destruct (HW x Hx) as [W [_ [WS WE]]].
  pose proof (wfP _ _ _ W p Hp) as V. pose proof (WE p Hp) as E. set (e := strainOf k (enen (ne x)) p (restrict (sdim k) (ne x) u)).
  assert (K : ofKind k e) by apply strain_kind. assert (SS : symm3 sg) by (intros i j; apply WS; exact Hs).
  assert (SH : symm3 (hookeOf k p e)) by (apply hooke_symm; intros; apply strain_symm).
  rewrite compl_minus, (compl_sym k p sg), (compl_sym k p (hookeOf k p e)), !compl_minus, (compl_sym k p (hookeOf k p e) sg), !compl_hooke, hooke_work by assumption. ring.
Qed.
Lemma stressWork_diff k els u v : stressWork k els (fun i => u i - v i) = stressWork k els u - stressWork k els v.
Proof.
  unfold stressWork. match goal with |- _ = ?A - ?B => replace (A - B) with (A + (-1) * B) by ring end. rewrite <- overMesh_scal, <- overMesh_plus.
  apply overMesh_ext. intros x p sg _ _ _.
  assert (Q : forall i j, strainOf k (enen (ne x)) p (restrict (sdim k) (ne x) (fun i => u i - v i)) i j =
    strainOf k (enen (ne x)) p (restrict (sdim k) (ne x) u) i j - strainOf k (enen (ne x)) p (restrict (sdim k) (ne x) v) i j).
  { intros i j. unfold strainOf.
    assert (G : forall i j, gradient (sdim k) (enen (ne x)) (pG p) (restrict (sdim k) (ne x) (fun i => u i - v i)) i j =
      gradient (sdim k) (enen (ne x)) (pG p) (restrict (sdim k) (ne x) u) i j - gradient (sdim k) (enen (ne x)) (pG p) (restrict (sdim k) (ne x) v) i j).
    { intros. unfold gradient. rewrite <- sumf_minus. apply sumf_ext. intros. unfold restrict. ring. }
    rewrite !G. destruct ((i <=? sdim k)%nat && (j <=? sdim k)%nat)%bool; [lra|]. destruct (isAx k && (i =? 3)%nat && (j =? 3)%nat)%bool; [|ring].
    unfold interp, Rdiv. rewrite <- Rmult_minus_distr_r, <- sumf_minus. f_equal. apply sumf_ext. intros. unfold restrict. ring. }
  unfold ddot3. rewrite !Q. ring.
Qed.

(** The analytical stress is in equilibrium with the loads: its virtual work on every field that respects the supports. *)
Definition weakEquilibrium (k : solid) (nnod : nat) (els : list nelt) (f : nat -> R) (fx : nat -> Prop) : Prop :=
  forall v, (forall i, (1 <= i <= sdim k * nnod)%nat -> fx i -> v i = 0) -> stressWork k els v = work (sdim k * nnod) f v.

(** The squared error is the difference of the exact and the computed energies. *)
Theorem C148_pythagoras : forall k nnod h four els S f R u fx a, (forall x, In x els -> wfNelt k nnod x) -> (k = AxiSolid -> four = true) ->
  systemOf k nnod false false (meshOf els) = Ret S -> equilibrium (sdim k * nnod) (el (sK S)) f R u fx ->
  (forall i, (1 <= i <= sdim k * nnod)%nat -> fx i -> u i = 0) -> weakEquilibrium k nnod els f fx ->
  normsOf k false h false true four u els = Ret a -> a 3%nat = a 2%nat - a 0%nat.
Proof.
  intros k nnod h four els S f R u fx a HW Hf HS HE H0 HQ HA.
  assert (HW' : forall e, In e (meshOf els) -> wfElt k nnod e) by (intros e He; apply in_map_iff in He; destruct He as [x [<- Hx]]; apply (HW x Hx)).
  destruct (C148_norms k nnod h true four u (map (fun x => mkNelt (ne x) (nsig x) []) els) 0) as [b [Eb [B0 [_ [B2 _]]]]].
  { intros x Hx. apply in_map_iff in Hx. destruct Hx as [y [<- Hy]]. split; [exact (HW y Hy)|reflexivity]. } { intros _. exact Hf. }
  destruct (C148_entries k nnod false h true four u els HW (or_intror eq_refl) (fun _ => Hf)) as [a' [Ea Va]]. rewrite HA in Ea. injection Ea as <-.
  destruct (C148_entries k nnod false h true four u (map (fun x => mkNelt (ne x) (nsig x) []) els)) as [b' [Eb' Vb]]; [|right; reflexivity|intros _; exact Hf|].
  { intros x Hx. apply in_map_iff in Hx. destruct Hx as [y [<- Hy]]. exact (HW y Hy). } rewrite Eb in Eb'. injection Eb' as <-.
  assert (OM : forall f, overMesh (map (fun x => mkNelt (ne x) (nsig x) []) els) f = overMesh els (fun x => f (mkNelt (ne x) (nsig x) []))).
  { intros f0. unfold overMesh. clear. induction els as [|x r IH]; [reflexivity|]. cbn [map]. rewrite !sumL_cons, IH. reflexivity. }
  assert (AB : forall i, (i <= 3)%nat -> a i = b i).
  { intros i Hi. rewrite Va, Vb, OM. apply overMesh_ext. intros x p sg _ _ _. cbn [ne nz]. unfold pointNorms. do 4 (destruct i as [|i]; [reflexivity|]). lia. }
  rewrite !AB by lia. destruct (B2 eq_refl) as [-> ->]. rewrite B0.
  assert (M : meshOf (map (fun x => mkNelt (ne x) (nsig x) []) els) = meshOf els) by (unfold meshOf; rewrite map_map; reflexivity). rewrite M.
  unfold exactEnergy, errorEnergy. rewrite !OM. cbn [ne]. fold (exactEnergy k els). fold (errorEnergy k els u).
  rewrite (error_expand k nnod els u HW), (HQ u H0). destruct (C146_energy k nnod false false (meshOf els) S _ _ _ _ HW' HS HE) as [_ Q]. rewrite (Q H0). ring.
Qed.

(** The computed displacements have the smallest error energy among all fields with the same prescribed values. *)
Theorem C148_best : forall k nnod els S f R u fx w, (forall x, In x els -> wfNelt k nnod x) -> stable k (meshOf els) ->
  systemOf k nnod false false (meshOf els) = Ret S -> equilibrium (sdim k * nnod) (el (sK S)) f R u fx -> weakEquilibrium k nnod els f fx ->
  (forall i, (1 <= i <= sdim k * nnod)%nat -> fx i -> w i = u i) ->
  errorEnergy k els w = errorEnergy k els u + aMesh k (meshOf els) (fun i => w i - u i) (fun i => w i - u i) /\ errorEnergy k els u <= errorEnergy k els w.
Proof.
  intros k nnod els S f R u fx w HW HP HS HE HQ H0.
  assert (HW' : forall e, In e (meshOf els) -> wfElt k nnod e) by (intros e He; apply in_map_iff in He; destruct He as [x [<- Hx]]; apply (HW x Hx)).
  set (d := fun i => w i - u i). set (N := (sdim k * nnod)%nat) in *.
  assert (D0 : forall i, (1 <= i <= N)%nat -> fx i -> d i = 0) by (intros i Hi Fi; unfold d; rewrite (H0 i Hi Fi); ring).
  pose proof (HQ d D0) as Q. unfold d in Q at 1. rewrite stressWork_diff in Q.
  pose proof (eq_work k nnod false false (meshOf els) S HW' HS _ _ _ _ d HE) as A. fold N in A, Q. rewrite (work_rest _ _ _ _ _ _ d HE D0), Rplus_0_r in A.
  assert (X1 : aMesh k (meshOf els) d u = aMesh k (meshOf els) u w - aMesh k (meshOf els) u u).
  { rewrite aMesh_sym, <- !(sys_a k nnod false false (meshOf els) S HW' HS). unfold d. apply bilin_diff. }
  assert (X2 : aMesh k (meshOf els) d d = aMesh k (meshOf els) w w - 2 * aMesh k (meshOf els) u w + aMesh k (meshOf els) u u).
  { rewrite <- (sys_a k nnod false false (meshOf els) S HW' HS). unfold d at 2. rewrite bilin_diff, !(sys_a k nnod false false (meshOf els) S HW' HS), X1.
    rewrite aMesh_sym, <- !(sys_a k nnod false false (meshOf els) S HW' HS). unfold d. rewrite bilin_diff, !(sys_a k nnod false false (meshOf els) S HW' HS), (aMesh_sym k (meshOf els) w u). ring. }
  destruct (aMesh_positive k nnod (meshOf els) d HW' HP) as [P _]. rewrite !(error_expand k nnod els _ HW). split; lra.
Qed.

(** The external energy counts the body forces, if the density is not zero at the origin. *)
Theorem C148_loads : forall k nnod trac flux body grav rho0 anasol four els u a, (forall x, In x els -> wfNelt k nnod x) ->
  (anasol = true -> k = AxiSolid -> four = true) ->
  (forall x p i, In x els -> In p (epts (ne x)) -> (1 <= i <= sdim k)%nat -> exists b, pF p i = bodyForce grav (pRho p) b i /\ (body = false -> b = None)) ->
  (rho0 = 0 -> (forall i, (1 <= i <= sdim k)%nat -> grav i = 0) \/ forall x p, In x els -> In p (epts (ne x)) -> pRho p = 0) ->
  normsOf k false (haveLoads trac flux body (sdim k) grav rho0) false anasol four u els = Ret a -> a 1%nat = fMesh k (meshOf els) u.
Proof.
  intros k nnod trac flux body grav rho0 anasol four els u a HW Hf HF HR HA.
  destruct (C148_entries k nnod false (haveLoads trac flux body (sdim k) grav rho0) anasol four u els HW (or_intror eq_refl) Hf) as [a' [Ea Va]]. rewrite HA in Ea. injection Ea as <-.
  assert (HL : forall x, In x els -> length (nsig x) = length (epts (ne x))) by (intros x Hx; apply (HW x Hx)).
  assert (G : overMesh els (fun x p _ => vol k p * sumf (sdim k) (fun i => pF p i * interp (sdim k) (enen (ne x)) (pN p) (restrict (sdim k) (ne x) u) i)) = fMesh k (meshOf els) u).
  { exact (overMesh_pts els (fun e p => vol k p * sumf (sdim k) (fun i => pF p i * interp (sdim k) (enen e) (pN p) (restrict (sdim k) e u) i)) HL). }
  rewrite Va, <- G. destruct (haveLoads trac flux body (sdim k) grav rho0) eqn:Eh; [apply overMesh_ext; reflexivity|].
  unfold haveLoads in Eh. apply orb_false_iff in Eh. destruct Eh as [E1 E2]. apply orb_false_iff in E1. destruct E1 as [_ Eb].
  apply overMesh_ext. intros x p sg Hx Hp _. cbn [pointNorms app nth]. rewrite sumf_0; [ring|]. intros i Hi.
  destruct (HF x p i Hx Hp Hi) as [b [-> Hb]]. rewrite (Hb Eb). unfold bodyForce.
  assert (Z : grav i = 0 \/ pRho p = 0).
  { apply andb_false_iff in E2. destruct E2 as [E2|E2].
    - left. destruct (Req_EM_T (grav i) 0) as [Z|Z]; [exact Z|]. exfalso. assert (T : existsb (fun i => if Req_EM_T (grav i) 0 then false else true) (seq 1 (sdim k)) = true).
      { apply existsb_exists. exists i. split; [apply in_seq; lia|]. destruct (Req_EM_T (grav i) 0); [contradiction|reflexivity]. } congruence.
    - destruct (Req_EM_T rho0 0) as [Z|Z]; [|discriminate]. destruct (HR Z) as [H|H]; [left; apply H; exact Hi|right; apply (H x); assumption]. }
  destruct Z as [-> | ->]; ring.
Qed.

(** With strains as secondary solution the energies are unchanged. *)
Theorem C148_strain : forall k n s h p u, isKind k n s -> validPt k p -> 0 < pE p -> k <> AxiSolid \/ thermT s p = 0 ->
  exists d d', normPt s h true p u [] None [] 0 = Ret d /\ normPt s h false p u [] None [] 0 = Ret d' /\ Norms.evalInt d = Norms.evalInt d'.
Proof.
  intros k n s h p u K V E Ha. destruct (point_strain k n s h p u [] K V) as [d [E1 V1]]. rewrite app_nil_r in V1.
  destruct (point_norms k n s h p u [] false false (fun _ _ => 0) K V E Ha) as [d' [E2 V2]]; try discriminate. exists d, d'. rewrite V1, V2. repeat split; assumption.
Qed.

(** ** What does not hold *)
(** A triangle of modulus 2. *)
Definition tri2 : lpt := mkLpt (fun _ => 1 / 3) triG 1 (1 / 2) 2 0 1 (fun i => if (i =? 1)%nat then 1 else 0) false 0.
Definition one2 (zs : list (option (nat -> R))) : list nelt := [mkNelt (mkElt 3 (fun a => a) [tri2] None) [fun i j => if ((i =? 1) && (j =? 1))%nat%bool then 2 else 0] zs].
Lemma one2_ok zs : forall x, In x (one2 zs) -> wfNelt PlaneStress 3 x.
Proof.
  intros x [<-|[]]. split; [|split; [reflexivity|split]].
  - split; [cbn; lia|cbn [conn enen ne]; intros; lia| |exact I]. intros p [<-|[]]. split; [cbn; lra|discriminate|discriminate].
  - intros T [<-|[]] i j. rewrite andb_comm. reflexivity.
  - intros p [<-|[]]. cbn. lra.
Qed.
Lemma tri2_strain x : eq3 (strainOf PlaneStress 3 tri2 (pull x)) (fun i j => if ((i =? 1) && (j =? 1))%nat%bool then x else 0).
Proof. intros i j Hi Hj. unfold strainOf, gradient, tri2, pull. cbn [sdim isAx pG pN pX]. idx i; idx j; cbn; lra. Qed.

(** With strains as secondary solution, a(u,w) is the product of the strains. *)
Theorem C148_strain_refuted : exists k nnod u w els a a', (forall x, In x els -> wfNelt k nnod x) /\ (forall x, In x els -> nz x = [Some (restrict (sdim k) (ne x) w)]) /\
  normsOf k false false false false false u els = Ret a /\ normsOf k false false true false false u els = Ret a' /\
  a 3%nat = aMesh k (meshOf els) u w /\ a' 3%nat <> a 3%nat.
Proof.
  set (els := one2 [Some (restrict 2 (mkElt 3 (fun a => a) [tri2] None) (pull 1))]).
  assert (HW : forall x, In x els -> wfNelt PlaneStress 3 x) by apply one2_ok.
  destruct (C148_entries PlaneStress 3 false false false false (pull 1) els HW (or_intror eq_refl) ltac:(discriminate)) as [a [Ea _]].
  assert (S : exists a', normsOf PlaneStress false false true false false (pull 1) els = Ret a' /\ a' 3%nat = 1 / 2).
  { set (e := mkElt 3 (fun a => a) [tri2] None) in *.
    destruct (point_strain PlaneStress 3 (linStatic 2 false true false false 3) false tri2 (restrict 2 e (pull 1)) [Some (restrict 2 e (pull 1))]) as [d [Ed Vd]].
    { repeat split. } { split; [cbn; lra|discriminate|discriminate]. }
    eexists. unfold normsOf, els, one2. fold e. cbn [sdim isAx psOf normMesh normPts combine ne nsig nz epts]. change (epts e) with [tri2]. change (enen e) with 3%nat. cbn [combine normPts].
    change (gatherU 2 e (pull 1)) with (restrict 2 e (pull 1)). rewrite Ed. cbn [bind]. split; [reflexivity|]. unfold Norms.accum. rewrite Vd.
    unfold strainWork, engv, engineering, elasticOf, strainOf, gradient, vol, tri2, sumf. cbn. unfold restrict, pull. cbn. lra. }
  destruct S as [a' [Ea' V']].
  assert (D : a 3%nat = aMesh PlaneStress (meshOf els) (pull 1) (pull 1)).
  { apply (C148_dual PlaneStress 3 false false false (pull 1) els 1 0 (pull 1) a); try assumption; try discriminate; try lia.
    - intros x Hx. split; [apply HW; exact Hx|]. destruct Hx as [<-|[]]. reflexivity.
    - intros x [<-|[]]. reflexivity. }
  exists PlaneStress, 3%nat, (pull 1), (pull 1), els, a, a'. split; [exact HW|]. split; [intros x [<-|[]]; reflexivity|]. split; [exact Ea|]. split; [exact Ea'|]. split; [exact D|].
  rewrite D, V'. unfold els, one2, meshOf, aMesh, aForm, sumL, density, vol, tri2, strainOf, gradient, restrict, pull, lamOf, lame1, lame2, tr3, ddot3, sumf. cbn. lra.
Qed.

(** Gravity is left out of the external energy when the density is zero at the origin. *)
Theorem C148_gravity_refuted : exists k nnod grav els u a, (forall x, In x els -> wfNelt k nnod x) /\
  (forall x p i, In x els -> In p (epts (ne x)) -> pF p i = bodyForce grav (pRho p) None i) /\
  normsOf k false (haveLoads false false false (sdim k) grav 0) false false false u els = Ret a /\ a 1%nat = 0 /\ 0 < fMesh k (meshOf els) u.
Proof.
  exists PlaneStress, 3%nat, (fun i => if (i =? 1)%nat then 1 else 0), (one2 []), (pull 1).
  assert (H : haveLoads false false false 2 (fun i => if (i =? 1)%nat then 1 else 0) 0 = false).
  { unfold haveLoads. cbn [orb]. destruct (Req_EM_T 0 0) as [_|Z]; [apply andb_false_r|congruence]. }
  destruct (C148_entries PlaneStress 3 false false false false (pull 1) (one2 []) (one2_ok []) (or_intror eq_refl) ltac:(discriminate)) as [a [Ea Va]].
  exists a. split; [apply one2_ok|]. split; [|split; [|split]].
  - intros x p i [<-|[]] [<-|[]]. unfold bodyForce, tri2. cbn. destruct (i =? 1)%nat; ring.
  - cbn [sdim]. rewrite H. exact Ea.
  - rewrite Va. unfold one2, overMesh, sumL. cbn. ring.
  - unfold one2, meshOf, fMesh, fForm, vol, sumL, interp, tri2, sumf. cbn. unfold restrict, pull. cbn. lra.
Qed.

(** One triangle pulled by a force, with an analytical stress that has a further component: the error is not zero. *)
Definition caseN : list nelt := [mkNelt (mkElt 3 (fun a => a) [tri2] None) [fun i j => if ((i =? 1) && (j =? 1))%nat%bool then 2 else if ((i =? 2) && (j =? 2))%nat%bool then 5 else 0] [Some (pull 1); None]].
Definition pushed (i : nat) : R := if (i =? 3)%nat then 1 else 0.
Lemma caseN_ok x : In x caseN -> wfNelt PlaneStress 3 x.
Proof.
  intros [<-|[]]. split; [|split; [reflexivity|split]].
  - split; [cbn; lia|cbn [conn enen ne]; intros; lia| |exact I]. intros p [<-|[]]. split; [cbn; lra|discriminate|discriminate].
  - intros T [<-|[]] i j. rewrite !(andb_comm (i =? _)%nat). reflexivity.
  - intros p [<-|[]]. cbn. lra.
Qed.
Example C148_case : exists S R a, systemOf PlaneStress 3 false false (meshOf caseN) = Ret S /\
  equilibrium 6 (el (sK S)) (fun i => el (sF S) i 1%nat + (pushed i - el (sF S) i 1%nat)) R (pull 1) (fun i => i <> 3%nat) /\
  (forall i, (1 <= i <= 6)%nat -> i <> 3%nat -> pull 1 i = 0) /\ stable PlaneStress (meshOf caseN) /\
  weakEquilibrium PlaneStress 3 caseN (fun i => el (sF S) i 1%nat + (pushed i - el (sF S) i 1%nat)) (fun i => i <> 3%nat) /\
  normsOf PlaneStress false true false true false (pull 1) caseN = Ret a /\ a 0%nat = 1 /\ a 1%nat = 1 / 6 /\ a 2%nat = 29 / 4 /\ a 3%nat = 25 / 4 /\ a 5%nat = 1 /\ a 7%nat = 0.
Proof.
  assert (HW : forall e, In e (meshOf caseN) -> wfElt PlaneStress 3 e) by (intros e He; apply in_map_iff in He; destruct He as [x [<- Hx]]; apply (caseN_ok x Hx)).
  destruct (C146_system PlaneStress 3 false false (meshOf caseN) HW) as [S [ES [HK _]]].
  destruct (C148_entries PlaneStress 3 false true true false (pull 1) caseN caseN_ok (or_intror eq_refl) ltac:(discriminate)) as [a [Ea Va]].
  exists S, (fun i => if (i =? 3)%nat then 0 else mv 6 (el (sK S)) (pull 1) i - pushed i), a. split; [exact ES|]. split; [|split; [|split; [|split; [|split; [exact Ea|]]]]].
  - split; intros i Hi.
    + destruct (Nat.eqb_spec i 3) as [->|_]; [|ring].
      rewrite <- (work_unit 6 (fun i => mv 6 (el (sK S)) (pull 1) i) 3) by lia.
      assert (Q : work 6 (fun i => mv 6 (el (sK S)) (pull 1) i) (unit 3) = aMesh PlaneStress (meshOf caseN) (unit 3) (pull 1)).
      { rewrite <- HK. unfold work, bilin. change (sdim PlaneStress * 3)%nat with 6%nat. apply sumf_ext. intros. ring. }
      rewrite Q. unfold caseN, meshOf, aMesh, aForm, sumL, density, vol, tri2, strainOf, gradient, lamOf, lame1, lame2, tr3, ddot3, sumf. cbn. unfold restrict, unit, pull, pushed. cbn. lra.
    + intros Nf. destruct (Nat.eqb_spec i 3); [reflexivity|]. exfalso. apply Nf. assumption.
  - intros i Hi N3. unfold pull. destruct (Nat.eqb_spec i 3); [contradiction|reflexivity].
  - intros e p [<-|[]] [<-|[]]; cbn; lra.
  - intros v Hv. assert (E : forall j, (1 <= j <= 6)%nat -> j <> 3%nat -> v j = 0) by (intros; apply Hv; assumption).
    unfold stressWork, overMesh, caseN, sumL, work, sumf, vol, strainOf, gradient, ddot3, tri2. cbn. unfold restrict, pushed. cbn. unfold sumf. cbn. rewrite !(E 1%nat), !(E 2%nat), !(E 4%nat), !(E 5%nat), !(E 6%nat) by lia. lra.
  - rewrite !Va. unfold overMesh, caseN, sumL, pointNorms, vol, density, compliance, complete3, minus3, elasticOf, dualWork, hookeOf, hooke, trace, strainOf, gradient, lamOf, lame1, lame2, tr3, ddot3, tri2, sumf, kron, interp.
    cbn. unfold restrict, pull. cbn. repeat split; lra.
Qed.
Print Assumptions C148_entries.
Print Assumptions C148_norms.
Print Assumptions C148_dual.
Print Assumptions C148_balance.
Print Assumptions C148_pythagoras.
Print Assumptions C148_best.
Print Assumptions C148_loads.
Print Assumptions C148_strain.
Print Assumptions C148_strain_refuted.
Print Assumptions C148_gravity_refuted.
