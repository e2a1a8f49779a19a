(** Lemmas for Props/Truss.v: the assembled system of a truss. *)
From Coquelicot Require Import Coquelicot.
From Verif Require Import Lib.Base Lib.Sums Lib.Writes Lib.Vec3 Model.Bar Spec.Bar Proofs.Bar Model.BeamElm Model.Truss Spec.Truss.
From Verif Require Model.Modes Model.LinSystem Spec.LinElement Spec.LinSystem Proofs.LinSystem.
Import ListNotations.

Ltac veq := repeat (let x := fresh in intros x; first [destruct x as [? ? ?] | idtac]); unfold vadd, vsub, vscal, vdot, vcross, vzero; cbn [vx vy vz]; first [f_equal; field | field].
Lemma slot_cases c : trussSlot c = if Modes.isPos (Modes.prm c 3%nat) then Nowhere else Same.
Proof. unfold trussSlot, beamSlots, slotsOf. cbn. destruct (Modes.isPos (Modes.prm c 3%nat)); reflexivity. Qed.

Lemma twork_sum d nnod f v : dims d -> twork d nnod f v = sumf (d * nnod) (fun i => f i * v i).
Proof.
  intros D. unfold twork. rewrite sumf_dof. apply sumf_ext. intros n Hn. unfold vdot, disp. cbn [vx vy vz].
  destruct D as [-> | [-> | ->]]; cbn [sumf Nat.leb]; ring.
Qed.

Definition ends (d : nat) (v : nat -> R) (b : rod) : nat -> R := six (disp d v (rod1 b)) (disp d v (rod2 b)).
Lemma red_vec d X b v : dims d ->
  Spec.LinElement.lwork (d * 2) (mkMat (d * 2) 1 (fun i _ => reduceVec d X i)) (Spec.LinSystem.restrict d (rElt b) v) = sumf 6 (fun i => X i * ends d v b i).
Proof.
  intros D. unfold Spec.LinElement.lwork. rewrite sumf_dof. cbn [sumf el].
  transitivity (sumf d (fun i => reduceVec d X (dof d 1 i) * v (dof d (rod1 b) i)) + sumf d (fun i => reduceVec d X (dof d 2 i) * v (dof d (rod2 b) i))).
  - rewrite Rplus_0_l. f_equal; apply sumf_ext; intros i Hi; rewrite Proofs.LinSystem.restrict_dof by lia; cbn; ring.
  - destruct D as [-> | [-> | ->]]; unfold ends, six, disp, reduceVec, shrinkVec; cbn; ring.
Qed.
Notation bl := Spec.LinElement.bilin.
Lemma red_mat d A b v w : dims d ->
  bl (d * 2) (el (mkMat (d * 2) (d * 2) (reduceMat d A))) (Spec.LinSystem.restrict d (rElt b) v) (Spec.LinSystem.restrict d (rElt b) w)
  = bl 6 A (ends d v b) (ends d w b).
Proof.
  intros D. unfold bl, mv. cbn [el]. rewrite sumf_dof.
  transitivity (sumf 2 (fun a => sumf d (fun i => v (dof d (if (a =? 1)%nat then rod1 b else rod2 b) i) *
    sumf 2 (fun a' => sumf d (fun j => reduceMat d A (dof d a i) (dof d a' j) * w (dof d (if (a' =? 1)%nat then rod1 b else rod2 b) j)))))).
  - apply sumf_ext. intros a Ha. apply sumf_ext. intros i Hi. rewrite Proofs.LinSystem.restrict_dof by lia. cbn [LinSystem.conn rElt]. f_equal. rewrite sumf_dof.
    apply sumf_ext. intros a' Ha'. apply sumf_ext. intros j Hj. rewrite Proofs.LinSystem.restrict_dof by lia. reflexivity.
  - unfold ends, six, disp, reduceMat, shrinkMat. destruct D as [-> | [-> | ->]]; cbn; ring.
Qed.

Section Assembled.
Variables (c : Modes.config) (T : truss) (P : nat -> v3).
Let d := tD T.
Definition len0 (b : rod) : R := vlen (vsub (P (rod2 b)) (P (rod1 b))).
Definition span (u : nat -> R) (b : rod) : v3 := vsub (place d P u (rod2 b)) (place d P u (rod1 b)).
Definition longEnough (u : nat -> R) (b : rod) : Prop := 1 / 10 ^ 8 < len0 b /\ 1 / 10 ^ 8 < vlen (span u b).
Definition kmOf (u : nat -> R) (b : rod) : nat -> nat -> R := matKm (tM T) (tK T) (trussSlot c) (len0 b) (vlen (span u b)) (unit (span u b)).
Definition forceOf (u : nat -> R) (b : rod) : nat -> R := barForce (tM T) (tK T) (len0 b) (vlen (span u b)) (unit (span u b)).
Lemma rodOut_long u b : longEnough u b -> exists o, rodOut c T P u b = Ret o /\ oKm o = kmOf u b /\ oS o = forceOf u b.
Proof.
  intros [H1 H2]. unfold rodOut, evalBar. fold d. fold (len0 b). change (vsub (vadd (P (rod2 b)) (disp d u (rod2 b))) (vadd (P (rod1 b)) (disp d u (rod1 b)))) with (span u b).
  destruct (Rle_dec (len0 b) _) as [|_]; [lra|]. destruct (Rle_dec (vlen (span u b)) _) as [|_]; [lra|]. eexists. repeat split; reflexivity.
Qed.
Lemma rodOut_ret u b o : rodOut c T P u b = Ret o -> longEnough u b.
Proof.
  unfold rodOut, evalBar. fold d. fold (len0 b). change (vsub (vadd (P (rod2 b)) (disp d u (rod2 b))) (vadd (P (rod1 b)) (disp d u (rod1 b)))) with (span u b).
  destruct (Rle_dec (len0 b) _) as [|A]; [discriminate|]. destruct (Rle_dec (vlen (span u b)) _) as [|B]; [discriminate|]. intros _. split; lra.
Qed.
Lemma rElt_conn nnod b : inTruss nnod b -> forall a, (1 <= a <= LinSystem.enen (rElt b))%nat -> (1 <= LinSystem.conn (rElt b) a <= nnod)%nat.
Proof. intros [H1 H2] a Ha. cbn. destruct (a =? 1)%nat; assumption. Qed.

Definition kTruss (u : nat -> R) (bs : list rod) (v w : nat -> R) : R := sumL (fun b => bl 6 (kmOf u b) (ends d v b) (ends d w b)) bs.
Definition fTruss (u : nat -> R) (bs : list rod) (v : nat -> R) : R := sumL (fun b => sumf 6 (fun i => rodVec T (len0 b) (forceOf u b) i * ends d v b i)) bs.
Lemma assembled nnod bs u : dims d -> let N := (d * nnod)%nat in
  (forall b, In b bs -> inTruss nnod b) -> (forall b, In b bs -> longEnough u b) -> forall S,
  rows (sK S) = N -> cols (sK S) = N -> rows (sB S) = N -> cols (sB S) = 1%nat -> exists S', assembleTruss c T P u bs S = Ret S' /\
  (forall v w, bl N (el (sK S')) v w = bl N (el (sK S)) v w + kTruss u bs v w) /\
  (forall v, Spec.LinSystem.work N (fun i => el (sB S') i 1%nat) v = Spec.LinSystem.work N (fun i => el (sB S) i 1%nat) v + fTruss u bs v).
Proof.
  intros D N H HL. induction bs as [|b bs IH]; intros S R1 R2 R3 R4.
  - exists S. split; [reflexivity|]. split; intros; unfold kTruss, fTruss, sumL; cbn [fold_right]; ring.
  - destruct (rodOut_long u b (HL b (or_introl eq_refl))) as [o [EO [OK OS]]]. pose proof (H b (or_introl eq_refl)) as HI.
    cbn [assembleTruss]. rewrite EO. cbn [bind]. rewrite OK, OS. fold d.
    set (Kw := LinSystem.asmMat d (rElt b) _). set (Bw := LinSystem.asmVec d (rElt b) _).
    assert (KB : forall i j x, In (i, j, x) Kw -> (1 <= i <= N)%nat /\ (1 <= j <= N)%nat) by (apply Proofs.LinSystem.asmMat_range, rElt_conn, HI).
    assert (BB : forall i j x, In (i, j, x) Bw -> (1 <= i <= N)%nat /\ j = 1%nat) by (apply Proofs.LinSystem.asmVec_range, rElt_conn, HI).
    destruct (Proofs.LinSystem.run_form N Kw (sK S) (fun _ => 0) (fun _ => 0) R1 R2 KB) as [K [EK [K1 [K2 _]]]].
    destruct (Proofs.LinSystem.run_vec N Bw (sB S) R3 R4 BB) as [B [EB [B1 [B2 BV]]]].
    rewrite EK. cbn [bind]. rewrite EB. cbn [bind].
    destruct (IH (fun x Hx => H x (or_intror Hx)) (fun x Hx => HL x (or_intror Hx)) (mkTsys K B) K1 K2 B1 B2) as [S' [ES [A1 A2]]].
    exists S'. split; [exact ES|]. split.
    + intros v w. rewrite A1. cbn [sK].
      destruct (Proofs.LinSystem.run_form N Kw (sK S) v w R1 R2 KB) as [K' [EK' [_ [_ [_ BL]]]]]. rewrite EK in EK'. injection EK' as <-.
      rewrite BL. unfold Kw. rewrite Proofs.LinSystem.asmMat_form. change (LinSystem.enen (rElt b)) with 2%nat. rewrite red_mat by exact D.
      unfold kTruss, sumL. cbn [fold_right]. ring.
    + intros v. rewrite A2. cbn [sB]. rewrite BV. unfold Bw. rewrite Proofs.LinSystem.asmVec_form. change (LinSystem.enen (rElt b)) with 2%nat. rewrite red_vec by exact D.
      unfold fTruss, sumL. cbn [fold_right]. unfold len0 at 2. ring.
Qed.
Lemma accepted_long bs u : forall S S', assembleTruss c T P u bs S = Ret S' -> forall b, In b bs -> longEnough u b.
Proof.
  induction bs as [|b0 bs IH]; intros S S' E b Hb; [destruct Hb|]. cbn [assembleTruss] in E.
  destruct (rodOut c T P u b0) as [| |o] eqn:EO; try discriminate E. cbn [bind] in E.
  destruct (run_add (sK S) _) as [| |K]; try discriminate E. cbn [bind] in E. destruct (run_add (sB S) _) as [| |B]; try discriminate E. cbn [bind] in E.
  destruct Hb as [<-|Hb]; [exact (rodOut_ret u b0 o EO)|exact (IH _ _ E b Hb)].
Qed.
Lemma zeros_bl N v w : bl N (el (zeros N N)) v w = 0.
Proof. unfold bl. apply sumf_0. intros i Hi. unfold mv. rewrite sumf_0; [ring|]. intros j Hj. cbn. ring. Qed.
Lemma system_long nnod bs u : good T nnod bs -> (forall b, In b bs -> longEnough u b) -> exists S, trussSystem c T nnod P bs u = Ret S /\
  (forall v w, bl (d * nnod) (el (sK S)) v w = kTruss u bs v w) /\ (forall v, twork d nnod (fun i => el (sB S) i 1%nat) v = fTruss u bs v).
Proof.
  intros [D H] HL. destruct (assembled nnod bs u D H HL (emptyTruss d nnod) eq_refl eq_refl eq_refl eq_refl) as [S [E [A B]]].
  exists S. split; [exact E|]. split; intros.
  - rewrite A. cbn [emptyTruss sK]. rewrite zeros_bl. ring.
  - rewrite twork_sum by exact D. etransitivity; [exact (B v)|]. cbn [emptyTruss sB]. unfold Spec.LinSystem.work. rewrite sumf_0; [ring|]. intros i Hi. cbn. ring.
Qed.
Lemma system_ret nnod bs u S : good T nnod bs -> trussSystem c T nnod P bs u = Ret S ->
  (forall b, In b bs -> longEnough u b) /\
  (forall v w, bl (d * nnod) (el (sK S)) v w = kTruss u bs v w) /\ (forall v, twork d nnod (fun i => el (sB S) i 1%nat) v = fTruss u bs v).
Proof.
  intros G E. pose proof (accepted_long bs u _ _ E) as HL. destruct (system_long nnod bs u G HL) as [S' [E' A]]. rewrite E in E'. injection E' as <-. auto.
Qed.
End Assembled.

(** Derivatives along a direction. *)
Section Derivatives.
Variables (c : Modes.config) (T : truss) (P : nat -> v3).
Let d := tD T.
Lemma disp_moved u v t n : disp d (moved u v t) n = vadd (disp d u n) (vscal t (disp d v n)).
Proof. unfold disp, moved, vadd, vscal; cbn [vx vy vz]. f_equal; [destruct (2 <=? d)%nat|destruct (3 <=? d)%nat]; ring. Qed.
Lemma place_moved u v t n : place d P (moved u v t) n = path (place d P u n) (disp d v n) t.
Proof. unfold place, path. rewrite disp_moved. generalize (P n) (disp d u n) (disp d v n). veq. Qed.
Lemma span_moved u v t b : span T P (moved u v t) b = path (span T P u b) (vsub (disp d v (rod2 b)) (disp d v (rod1 b))) t.
Proof. unfold span. fold d. rewrite !place_moved. unfold path. generalize (place d P u (rod2 b)) (place d P u (rod1 b)) (disp d v (rod2 b)) (disp d v (rod1 b)). veq. Qed.

Lemma sumL_derive {A} (f : A -> R -> R) (g : A -> R) (l : list A) : (forall a, In a l -> is_derive (f a) 0 (g a)) -> is_derive (fun t => sumL (fun a => f a t) l) 0 (sumL g l).
Proof.
  induction l as [|a l IH]; intros H.
  - unfold sumL; cbn [fold_right]. apply (is_derive_const (V := R_NormedModule) 0 0).
  - unfold sumL; cbn [fold_right]. apply (is_derive_plus (V := R_NormedModule) (f a) (fun t => sumL (fun a => f a t) l)); [apply H; left; reflexivity|]. apply IH. intros x Hx. apply H. right; exact Hx.
Qed.
Definition gravWork (v : nat -> R) (b : rod) : R := vdot (rodWeight T P b) (vscal (1 / 2) (vadd (disp d v (rod1 b)) (disp d v (rod2 b)))).
Lemma rodVec_split L0 F v b : sumf 6 (fun i => rodVec T L0 F i * ends d v b i) =
  (if isZero (tTol T) (tGrav T) then 0 else vdot (vscal (tMass T * L0) (tGrav T)) (vscal (1 / 2) (vadd (disp d v (rod1 b)) (disp d v (rod2 b))))) + sumf 6 (fun i => F i * ends d v b i).
Proof.
  unfold rodVec, ends. generalize (disp d v (rod1 b)) (disp d v (rod2 b)). intros [a1 a2 a3] [b1 b2 b3]. destruct (tGrav T) as [g1 g2 g3]. destruct (isZero _ _).
  - cbn [sumf]. ring.
  - unfold barGravity, six, vdot, vscal, vadd, vc. cbn. field.
Qed.
Lemma fTruss_split u bs v : fTruss T P u bs v = sumL (gravWork v) bs + sumL (fun b => sumf 6 (fun i => forceOf T P u b i * ends d v b i)) bs.
Proof.
  unfold fTruss. rewrite <- sumL_plus. apply sumL_ext. intros b Hb. etransitivity; [exact (rodVec_split (len0 P b) (forceOf T P u b) v b)|]. f_equal.
  unfold gravWork, rodWeight, len0. destruct (isZero _ _); [|reflexivity]. unfold vdot, vzero; cbn [vx vy vz]. ring.
Qed.
Lemma stored_derive u v bs : (forall b, In b bs -> longEnough T P u b) ->
  is_derive (fun t => stored T P (place d P (moved u v t)) bs) 0 (sumL (fun b => - sumf 6 (fun i => forceOf T P u b i * ends d v b i)) bs).
Proof.
  intros H. unfold stored. apply (sumL_derive (fun b t => barEnergy (kindOf (tM T)) (tK T) (len0 P b) (vsub (place d P (moved u v t) (rod2 b)) (place d P (moved u v t) (rod1 b))))).
  intros b Hb. destruct (H b Hb) as [H1 H2]. assert (0 < 1 / 10 ^ 8) by lra.
  apply (is_derive_ext (fun t => barEnergy (kindOf (tM T)) (tK T) (len0 P b) (vsub (path (place d P u (rod2 b)) (disp d v (rod2 b)) t) (path (place d P u (rod1 b)) (disp d v (rod1 b)) t)))).
  - intros t. rewrite !place_moved. reflexivity.
  - apply (bar_energy (tM T) (tK T) (len0 P b) (place d P u (rod1 b)) (place d P u (rod2 b))); [lra|]. change (0 < vlen (span T P u b)). lra.
Qed.
Lemma mid_linear (t : R) w p q x y : vdot w (vscal (1 / 2) (vadd p q)) + t * vdot w (vscal (1 / 2) (vadd x y)) = vdot w (vscal (1 / 2) (vadd (path p x t) (path q y t))).
Proof. unfold path. revert w p q x y. veq. Qed.
Lemma lift_derive u v bs : is_derive (fun t => lift T P (place d P (moved u v t)) bs) 0 (- sumL (gravWork v) bs).
Proof.
  unfold lift. apply (is_derive_opp (V := R_NormedModule) (fun t => sumL (fun b => vdot (rodWeight T P b) (middle (place d P (moved u v t)) b)) bs)).
  apply (sumL_derive (fun b t => vdot (rodWeight T P b) (middle (place d P (moved u v t)) b))).
  intros b Hb. apply (is_derive_ext (fun t => vdot (rodWeight T P b) (middle (place d P u) b) + t * gravWork v b)).
  - intros t. unfold middle. rewrite !place_moved. apply mid_linear.
  - auto_derive; [exact I|ring].
Qed.
Lemma potential_derive nnod u v bs S : good T nnod bs -> trussSystem c T nnod P bs u = Ret S ->
  is_derive (fun t => stored T P (place d P (moved u v t)) bs + lift T P (place d P (moved u v t)) bs) 0 (- twork d nnod (fun i => el (sB S) i 1%nat) v).
Proof.
  intros G E. destruct (system_ret c T P nnod bs u S G E) as [HL [_ HB]].
  replace (- twork d nnod (fun i => el (sB S) i 1%nat) v) with (sumL (fun b => - sumf 6 (fun i => forceOf T P u b i * ends d v b i)) bs + - sumL (gravWork v) bs).
  - apply (is_derive_plus (V := R_NormedModule) (fun t => stored T P (place d P (moved u v t)) bs)); [apply stored_derive, HL|apply lift_derive].
  - unfold d. rewrite HB, fTruss_split. fold d. assert (N : forall l, sumL (fun b => - sumf 6 (fun i => forceOf T P u b i * ends d v b i)) l = - sumL (fun b => sumf 6 (fun i => forceOf T P u b i * ends d v b i)) l).
    { unfold sumL. induction l as [|x l IH]; cbn [fold_right]; [ring|]. rewrite IH. ring. } rewrite N. ring.
Qed.

(** Accepted displacements stay accepted in a neighbourhood. *)
Lemma long_locally u v bs : (forall b, In b bs -> longEnough T P u b) -> locally 0 (fun t => forall b, In b bs -> longEnough T P (moved u v t) b).
Proof.
  induction bs as [|b bs IH]; intros H; [exists (mkposreal 1 ltac:(lra)); intros ? _ ? []|].
  assert (L : locally 0 (fun t => longEnough T P (moved u v t) b)).
  { destruct (H b (or_introl eq_refl)) as [H1 H2]. assert (0 < 1 / 10 ^ 8) by lra.
    pose proof (len_derive (span T P u b) (vsub (disp d v (rod2 b)) (disp d v (rod1 b))) ltac:(lra)) as D.
    assert (C : continuous (fun t => vlen (path (span T P u b) (vsub (disp d v (rod2 b)) (disp d v (rod1 b))) t)) 0) by (apply (ex_derive_continuous (K := R_AbsRing) (V := R_NormedModule)); eexists; exact D).
    assert (O : locally (vlen (path (span T P u b) (vsub (disp d v (rod2 b)) (disp d v (rod1 b))) 0)) (fun l => 1 / 10 ^ 8 < l)).
    { rewrite path0. apply (open_gt (1 / 10 ^ 8)). exact H2. }
    specialize (C _ O). unfold filtermap in C. revert C. apply filter_imp. intros t Ht. split; [exact H1|]. rewrite span_moved. exact Ht. }
  generalize (filter_and _ _ L (IH (fun x Hx => H x (or_intror Hx)))). apply filter_imp. intros t [A B] x [<-|Hx]; [exact A|exact (B x Hx)].
Qed.
Lemma force_derive u v w bs : trussSlot c = Same -> (forall b, In b bs -> longEnough T P u b) ->
  is_derive (fun t => fTruss T P (moved u v t) bs w) 0 (- kTruss c T P u bs w v).
Proof.
  intros HS H. apply (is_derive_ext (fun t => sumL (gravWork w) bs + sumL (fun b => sumf 6 (fun i => forceOf T P (moved u v t) b i * ends d w b i)) bs)); [intros t; rewrite fTruss_split; reflexivity|].
  replace (- kTruss c T P u bs w v) with (0 + sumL (fun b => - bl 6 (kmOf c T P u b) (ends d w b) (ends d v b)) bs).
  2:{ rewrite Rplus_0_l. unfold kTruss, sumL. fold d. induction bs as [|x l IH]; cbn [fold_right]; [ring|]. rewrite IH by (intros y Hy; apply H; right; exact Hy). ring. }
  apply (is_derive_plus (V := R_NormedModule) (fun _ => sumL (gravWork w) bs)); [apply (is_derive_const (V := R_NormedModule))|].
  apply (sumL_derive (fun b t => sumf 6 (fun i => forceOf T P (moved u v t) b i * ends d w b i))). intros b Hb. destruct (H b Hb) as [H1 H2]. assert (0 < 1 / 10 ^ 8) by lra.
  assert (F : forall i, (1 <= i <= 6)%nat -> is_derive (fun t => forceOf T P (moved u v t) b i * ends d w b i) 0 (- mv 6 (kmOf c T P u b) (ends d v b) i * ends d w b i)).
  { intros i Hi. apply (is_derive_ext (fun t => scal (forceOf T P (moved u v t) b i) (ends d w b i))); [reflexivity|].
    apply (is_derive_scal_l (V := R_NormedModule) (fun t => forceOf T P (moved u v t) b i)).
    apply (is_derive_ext (fun t => barForce (tM T) (tK T) (len0 P b) (vlen (vsub (path (place d P u (rod2 b)) (disp d v (rod2 b)) t) (path (place d P u (rod1 b)) (disp d v (rod1 b)) t)))
      (unit (vsub (path (place d P u (rod2 b)) (disp d v (rod2 b)) t) (path (place d P u (rod1 b)) (disp d v (rod1 b)) t))) i)).
    - intros t. unfold forceOf, span. fold d. rewrite !place_moved. reflexivity.
    - unfold kmOf. rewrite HS. apply (bar_tangent (tM T) (tK T) (len0 P b) (place d P u (rod1 b)) (place d P u (rod2 b)) (disp d v (rod1 b)) (disp d v (rod2 b)) i); [lra| |exact Hi].
      change (0 < vlen (span T P u b)). lra. }
  replace (- bl 6 (kmOf c T P u b) (ends d w b) (ends d v b)) with (sumf 6 (fun i => - mv 6 (kmOf c T P u b) (ends d v b) i * ends d w b i)).
  2:{ unfold bl. generalize (mv 6 (kmOf c T P u b) (ends d v b)) (ends d w b). intros p q. cbn [sumf]. ring. }
  clear - F. set (g := fun i => - mv 6 (kmOf c T P u b) (ends d v b) i * ends d w b i) in *.
  assert (S : forall n, (n <= 6)%nat -> is_derive (fun t => sumf n (fun i => forceOf T P (moved u v t) b i * ends d w b i)) 0 (sumf n g)).
  { induction n as [|n IH]; intros Hn; cbn [sumf]; [apply (is_derive_const (V := R_NormedModule))|].
    apply (is_derive_plus (V := R_NormedModule) (fun t => sumf n (fun i => forceOf T P (moved u v t) b i * ends d w b i))); [apply IH; lia|apply F; lia]. }
  apply S. lia.
Qed.
End Derivatives.

Definition unitAt (i j : nat) : R := if (i =? j)%nat then 1 else 0.
Lemma sum_unitAt N (f : nat -> R) i : (1 <= i <= N)%nat -> sumf N (fun j => f j * unitAt i j) = f i.
Proof.
  induction N as [|N IH]; intros Hi; [lia|]. cbn [sumf]. unfold unitAt at 2. destruct (Nat.eqb_spec i (S N)) as [->|Ne].
  - rewrite sumf_0; [ring|]. intros j Hj. unfold unitAt. destruct (Nat.eqb_spec (S N) j); [lia|ring].
  - rewrite IH by lia. ring.
Qed.
Lemma bl_unitAt N A v i : (1 <= i <= N)%nat -> bl N A (unitAt i) v = mv N A v i.
Proof. intros Hi. unfold bl. rewrite <- (sum_unitAt N (mv N A v) i Hi). apply sumf_ext. intros j Hj. ring. Qed.

Definition spin (d : nat) (Q : nat -> v3) (a om : v3) (i : nat) : R := vc (vadd a (vcross om (Q (S ((i - 1) / d))))) (S ((i - 1) mod d)).
Lemma dof_at d n k : (1 <= n)%nat -> (1 <= k <= d)%nat -> S ((dof d n k - 1) / d) = n /\ S ((dof d n k - 1) mod d) = k.
Proof.
  intros Hn Hk. unfold dof. replace (d * (n - 1) + k - 1)%nat with ((k - 1) + (n - 1) * d)%nat by nia.
  rewrite Nat.div_add, Nat.mod_add, Nat.div_small, Nat.mod_small by lia. lia.
Qed.

Section System.
Variables (c : Modes.config) (T : truss) (P : nat -> v3).
Let d := tD T.
Lemma comp_force nnod bs u i : good T nnod bs -> (forall b, In b bs -> longEnough T P u b) -> (1 <= i <= d * nnod)%nat ->
  residual (trussSystem c T nnod P bs u) i = fTruss T P u bs (unitAt i).
Proof.
  intros G H Hi. destruct (system_long c T P nnod bs u G H) as [St [-> [_ HB]]]. cbn [residual]. rewrite <- HB, twork_sum by apply G.
  rewrite (sum_unitAt (tD T * nnod) (fun i => el (sB St) i 1%nat) i Hi). reflexivity.
Qed.
Lemma system_tangent nnod bs u v S i : good T nnod bs -> trussSlot c = Same -> trussSystem c T nnod P bs u = Ret S -> (1 <= i <= d * nnod)%nat ->
  is_derive (fun t => residual (trussSystem c T nnod P bs (moved u v t)) i) 0 (- mv (d * nnod) (el (sK S)) v i).
Proof.
  intros G HS E Hi. destruct (system_ret c T P nnod bs u S G E) as [HL [HK _]].
  apply (is_derive_ext_loc (fun t => fTruss T P (moved u v t) bs (unitAt i))).
  - generalize (long_locally T P u v bs HL). apply filter_imp. intros t Ht. symmetry. now apply comp_force.
  - rewrite <- bl_unitAt by exact Hi. unfold d. rewrite HK. now apply force_derive.
Qed.

(** Small displacements from rest. *)
Lemma dims_pos : dims d -> (1 <= d)%nat. Proof. unfold dims. lia. Qed.
Lemma span_rest u b : (forall i, u i = 0) -> span T P u b = vsub (P (rod2 b)) (P (rod1 b)).
Proof.
  intros Z. unfold span, place, disp. fold d. rewrite !Z. destruct (2 <=? d)%nat, (3 <=? d)%nat; rewrite ?Z; generalize (P (rod2 b)) (P (rod1 b)); veq.
Qed.
Lemma strain_rest m : getStrain m 1 = 0.
Proof. destruct m; unfold getStrain; rewrite ?ln_1; lra. Qed.
Lemma form_rest m k w L0 X h1 h2 g1 g2 : 0 < L0 ->
  bl 6 (matKm m k w L0 L0 X) (six h1 h2) (six g1 g2) = k / L0 * vdot X (vsub h2 h1) * vdot X (vsub g2 g1).
Proof.
  intros HL. assert (E1 : L0 / L0 = 1) by (field; lra).
  assert (K : forall i j, km11 m k w L0 L0 X i j = k / L0 * vc X i * vc X j).
  { intros i j. assert (N : kmNom m k L0 L0 = k / L0) by (destruct m; unfold kmNom; rewrite ?E1; field; lra).
    assert (G : kgNom m k true L0 L0 = 0) by (unfold kgNom; rewrite E1, strain_rest; destruct m; unfold Rdiv; ring).
    unfold km11. rewrite N, G. destruct w; try reflexivity. destruct (Req_EM_T 0 0); [reflexivity|contradiction]. }
  unfold bl. transitivity (sumf 6 (fun i => six h1 h2 i * ((if (i <=? 3)%nat then -1 else 1) * sumf 3 (fun j => k / L0 * vc X (third3 i) * vc X j * vc (vsub g2 g1) j)))).
  - apply sumf_ext. intros i Hi. rewrite mat_mv by exact Hi. f_equal. f_equal. apply sumf_ext. intros j Hj. rewrite K. reflexivity.
  - generalize (k / L0). intros q. destruct h1, h2, g1, g2, X. unfold six, third3, vdot, vsub, vc. cbn. ring.
Qed.
Lemma kTruss_rest u bs v w : (forall i, u i = 0) -> (forall b, In b bs -> longEnough T P u b) ->
  kTruss c T P u bs v w = sumL (fun b => tK T / len0 P b * elongation d P v b * elongation d P w b) bs.
Proof.
  intros Z H. unfold kTruss. apply sumL_ext. intros b Hb. destruct (H b Hb) as [H1 _]. assert (0 < 1 / 10 ^ 8) by lra.
  unfold kmOf. rewrite span_rest by exact Z. fold (len0 P b). unfold ends. rewrite form_rest by lra. unfold elongation, unit. fold (len0 P b). fold d.
  rewrite !vdot_scal_l. field. lra.
Qed.
Lemma kTruss_symm u bs v w : kTruss c T P u bs v w = kTruss c T P u bs w v.
Proof.
  unfold kTruss. apply sumL_ext. intros b Hb. unfold kmOf. set (A := matKm _ _ _ _ _ _). assert (SA : symm 6 A) by apply km_symm.
  generalize (ends (tD T) v b) (ends (tD T) w b). intros p q. unfold bl, mv. transitivity (sumf 6 (fun i => sumf 6 (fun j => A i j * p i * q j))).
  - apply sumf_ext. intros i Hi. rewrite <- sumf_scal. apply sumf_ext. intros j Hj. ring.
  - rewrite sumf_swap. apply sumf_ext. intros i Hi. rewrite <- sumf_scal. apply sumf_ext. intros j Hj. rewrite (SA i j) by lia. ring.
Qed.

(** Rigid motions of the current configuration do no work against the bars. *)
Lemma bar_work m k L0 L X h1 h2 : sumf 6 (fun i => barForce m k L0 L X i * six h1 h2 i) = - axialForce m k L0 L * vdot X (vsub h2 h1).
Proof. destruct h1, h2, X. unfold barForce, six, third3, vdot, vsub, vc. generalize (axialForce m k L0 L). intros q. cbn. ring. Qed.
Lemma disp_spin d0 Q a om n : dims d0 -> (1 <= n)%nat -> disp d0 (spin d0 Q a om) n = keep d0 (vadd a (vcross om (Q n))).
Proof.
  intros D Hn. unfold disp, spin, keep. destruct (dof_at d0 n 1 Hn) as [-> ->]; [destruct D; lia|].
  destruct D as [-> | [-> | ->]]; cbn [Nat.leb].
  - reflexivity.
  - destruct (dof_at 2 n 2 Hn ltac:(lia)) as [-> ->]. reflexivity.
  - destruct (dof_at 3 n 2 Hn ltac:(lia)) as [-> ->]. destruct (dof_at 3 n 3 Hn ltac:(lia)) as [-> ->]. reflexivity.
Qed.
Definition stays (a om : v3) : Prop := forall q, keep d (vadd a (vcross om q)) = vadd a (vcross om q).
Lemma rigid_work nnod bs u a om : good T nnod bs -> stays a om ->
  fTruss T P u bs (spin d (place d P u) a om) = sumL (fun b => vdot (rodWeight T P b) (vadd a (vcross om (middle (place d P u) b)))) bs.
Proof.
  intros [D H] SY. fold d in D. rewrite fTruss_split. fold d.
  assert (Z : sumL (fun b => sumf 6 (fun i => forceOf T P u b i * ends d (spin d (place d P u) a om) b i)) bs = 0).
  { rewrite <- (Proofs.LinSystem.sumL_zero bs). apply sumL_ext. intros b Hb. destruct (H b Hb) as [[B1 _] [B2 _]]. unfold forceOf, ends. rewrite bar_work, !disp_spin, !SY by assumption.
    unfold unit. rewrite vdot_scal_l. unfold span. fold d. generalize (place d P u (rod2 b)) (place d P u (rod1 b)). intros x y.
    replace (vdot (vsub x y) (vsub (vadd a (vcross om x)) (vadd a (vcross om y)))) with 0; [ring|]. revert x y. generalize a om. veq. }
  rewrite Z, Rplus_0_r. apply sumL_ext. intros b Hb. destruct (H b Hb) as [[B1 _] [B2 _]]. unfold gravWork. fold d. rewrite !disp_spin, !SY by assumption. f_equal.
  unfold middle. generalize (place d P u (rod1 b)) (place d P u (rod2 b)) a om. veq.
Qed.
Lemma spin_work nnod f u a om : dims d -> stays a om -> twork d nnod f (spin d (place d P u) a om) = sumf nnod (fun n => vdot (disp d f n) (vadd a (vcross om (place d P u n)))).
Proof. intros D SY. unfold twork. apply sumf_ext. intros n Hn. rewrite disp_spin, SY by (assumption || lia). reflexivity. Qed.
Lemma rigid_balance nnod bs u S g R fixed a om : good T nnod bs -> stays a om -> trussSystem c T nnod P bs u = Ret S ->
  inBalance (d * nnod) (fun i => el (sB S) i 1%nat) g R fixed ->
  sumf nnod (fun n => vdot (disp d R n) (vadd a (vcross om (place d P u n)))) + sumf nnod (fun n => vdot (disp d g n) (vadd a (vcross om (place d P u n)))) +
  sumL (fun b => vdot (rodWeight T P b) (vadd a (vcross om (middle (place d P u) b)))) bs = 0.
Proof.
  intros G SY E HB. destruct (system_ret c T P nnod bs u S G E) as [_ [_ HF]]. pose proof (proj1 G) as D. fold d in D, HF.
  rewrite <- (rigid_work nnod bs u a om G SY), <- HF, <- !(spin_work nnod _ u a om D SY), !twork_sum, <- !sumf_plus by exact D.
  apply sumf_0. intros i Hi. destruct (HB i Hi) as [B _]. transitivity ((el (sB S) i 1%nat + g i + R i) * spin d (place d P u) a om i); [ring|rewrite B; ring].
Qed.
End System.
