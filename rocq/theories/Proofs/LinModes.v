(** Lemmas for Props/LinModes.v. *)
From Verif Require Import Lib.Base Lib.Sums Lib.Writes Spec.LinModes Proofs.LinElement Proofs.LinSystem Props.LinElement Props.LinSystem.
From Verif Require Model.Modes.
Import ListNotations.

Definition second (m : Modes.mode) (k : solid) (els : list elt) (u v w : nat -> R) : R :=
  match m with Modes.VIBRATION => mMesh k els v w | _ => gMesh k els u v w end.
Definition okMode (k : solid) (m : Modes.mode) : Prop := m = Modes.VIBRATION \/ m = Modes.BUCKLING /\ k <> AxiSolid.
Lemma fresh_bl N a v w : bilin N (el (lA (freshElm N) a)) v w = 0.
Proof. unfold bilin, mv, freshElm. apply sumf_0. intros i _. cbn [lA zeros el]. rewrite sumf_0; [ring|intros; ring]. Qed.
Lemma second_cons k m e els u v w : okMode k m -> second m k (e :: els) u v w = second m k [e] u v w + second m k els u v w.
Proof. intros [->|[-> _]]; unfold second, mMesh, gMesh; rewrite !sumL_cons; change (sumL ?f []) with 0; ring. Qed.
Lemma eigSet_vib c d ax ps tmp n : eigSet c Modes.VIBRATION d ax ps tmp n = mkLset d ax ps n 1 0 2 0 0 0 tmp.
Proof. unfold eigSet, Modes.slotsLin. cbn [Modes.mode_eqb]. rewrite !andb_false_r. reflexivity. Qed.
Lemma eigSet_buck c d ax ps tmp n : eigSet c Modes.BUCKLING d ax ps tmp n = mkLset d ax ps n 1 2 0 0 0 0 tmp.
Proof. unfold eigSet, Modes.slotsLin. cbn [Modes.mode_eqb]. rewrite !andb_false_r. reflexivity. Qed.
Lemma assembledE c k m tmp u nnod els : okMode k m -> (forall e, In e els -> wfElt k nnod e) -> given u (seenMesh k els) -> forall S,
  let N := (sdim k * nnod)%nat in rows (eA S) = N -> cols (eA S) = N -> rows (eB S) = N -> cols (eB S) = N ->
  exists S', assembleEig c m (sdim k) (isAx k) (psOf k) tmp u els S = Ret S' /\
    (forall v w, bilin N (el (eA S')) v w = bilin N (el (eA S)) v w + aMesh k els v w) /\
    (forall v w, bilin N (el (eB S')) v w = bilin N (el (eB S)) v w + second m k els (field u) v w).
Proof.
  intros HM. induction els as [|e els IH]; intros H HU S N R1 R2 R3 R4.
  - exists S. split; [reflexivity|]. split; intros v w; [unfold aMesh; cbn; ring|]. destruct HM as [->|[-> _]]; unfold second, mMesh, gMesh; cbn; ring.
  - cbn [assembleEig]. set (s := eigSet _ _ _ _ _ _ _). pose proof (H e (or_introl eq_refl)) as We. pose proof (wfC _ _ _ We) as HC.
    destruct (C144_element k (enen e) s (epts e) [option_map (gatherE (sdim k) e) u] (freshElm (sdim k * enen e))) as [st [E [_ [GA _]]]].
    { destruct k; repeat split. }
    { exact (wfP _ _ _ We). }
    { exact (wfN _ _ _ We). }
    { unfold s; destruct HM as [->|[-> HK]]; [right; rewrite eigSet_vib; cbn; lia|left; exact HK]. }
    { split; [|split; [exact I|intros X; cbn in X; lia]]. destruct u as [u|]; [|exact I]. cbn. exact (HU e (or_introl eq_refl)). }
    { split; intros; cbn; split; reflexivity. }
    rewrite E. cbn [bind].
    destruct (run_form N (asmMat (sdim k) e (lA st 1)) (eA S) (fun _ => 0) (fun _ => 0) R1 R2 (asmMat_range _ nnod e _ HC)) as [K [EK [K1 [K2 _]]]].
    destruct (run_form N (asmMat (sdim k) e (lA st 2)) (eB S) (fun _ => 0) (fun _ => 0) R3 R4 (asmMat_range _ nnod e _ HC)) as [M [EM [M1 [M2 _]]]].
    rewrite EK. cbn [bind]. rewrite EM. cbn [bind].
    destruct (IH (fun x Hx => H x (or_intror Hx))) with (S := mkEsys K M) as [S' [ES [A B]]]; try assumption.
    { destruct u as [u|]; [|exact I]. intros x Hx. apply HU. right. exact Hx. }
    exists S'. split; [exact ES|]. split; intros v w.
    + rewrite A. cbn [eA]. destruct (run_form N (asmMat (sdim k) e (lA st 1)) (eA S) v w R1 R2 (asmMat_range _ nnod e _ HC)) as [K' [EK' [_ [_ [_ BL]]]]]. rewrite EK in EK'. injection EK' as <-.
      fold N. rewrite BL, asmMat_form, (GA 1%nat), fresh_bl by lia. unfold aMesh. rewrite sumL_cons. destruct HM as [->|[-> _]]; unfold s, atZ; rewrite ?eigSet_vib, ?eigSet_buck; cbn; ring.
    + rewrite B. cbn [eB]. destruct (run_form N (asmMat (sdim k) e (lA st 2)) (eB S) v w R3 R4 (asmMat_range _ nnod e _ HC)) as [M' [EM' [_ [_ [_ BL]]]]]. rewrite EM in EM'. injection EM' as <-.
      fold N. rewrite BL, asmMat_form, (GA 2%nat), fresh_bl, (second_cons k m e els) by (exact HM || lia).
      assert (X : forall x, x = second m k [e] (field u) v w -> bilin N (el (eB S)) v w + (0 + x) + second m k els (field u) v w = bilin N (el (eB S)) v w + (second m k [e] (field u) v w + second m k els (field u) v w)) by (intros x ->; ring).
      apply X. clear X. destruct HM as [->|[-> _]]; unfold s, atZ; rewrite ?eigSet_vib, ?eigSet_buck; cbn [eKm eKg eM Z.of_nat Pos.of_succ_nat Pos.succ Z.eqb Pos.eqb]; unfold second, mMesh, gMesh; rewrite sumL_cons; change (sumL ?f []) with 0.
      * ring.
      * cbn [nth]. destruct u as [u|]; cbn [option_map field]; [change (gatherE (sdim k) e u) with (restrict (sdim k) e u)|change (restrict (sdim k) e (fun _ => 0)) with (fun _ : nat => 0)]; ring.
Qed.
