(** Properties of plates: C153. *)
From Coquelicot Require Import Coquelicot.
From Verif Require Import Lib.Base Lib.Sums Lib.Writes Lib.Vec3 Spec.Plate Proofs.Plate Model.PlateSys Spec.PlateSys Proofs.PlateSys.
From Verif Require Proofs.Truss.
Import ListNotations.

(** ** C153: the linear system of a plate is that of its bending problem *)
Theorem C153_accepted : forall ver small g nnod es, small vzero = true -> goodPlate nnod es -> exists S, plateSystem ver small g nnod es = Ret S.
Proof. intros ver small g nnod es Z G. destruct (plate_system ver small g Z nnod es G) as [S [E _]]. exists S. exact E. Qed.
(** Matrix and loads are the virtual works of moments and loads; the reported total is the load on the plate. *)
Theorem C153_works : forall ver small g nnod es S v w, small vzero = true -> goodPlate nnod es -> plateSystem ver small g nnod es = Ret S ->
  sumf nnod (fun i => v i * mv nnod (el (gK S)) w i) = innerWork ver es v w /\
  nodeWork nnod (fun i => el (gS S) i 1%nat) v = loadWork small g es v /\ gC S = totalLoad small g es.
Proof. intros ver small g nnod es S v w Z G E. destruct (plate_ret ver small g Z nnod es S G E) as [A [B C]]. split; [exact (A v w)|]. split; [exact (B v)|exact C]. Qed.
(** First formulation: the matrix gives the energy of the layers of the plate. *)
Theorem C153_bending : forall small g nnod es S w (U : pelt -> ppt -> R), small vzero = true -> goodPlate nnod es -> plateSystem 1 small g nnod es = Ret S ->
  (forall e p, In e es -> In p (qPts e) -> bending (qE p) (qNu p) (qT p) (bend e p w) (U e p)) ->
  sumf nnod (fun i => w i * mv nnod (el (gK S)) w i) = overPlate es U.
Proof.
  intros small g nnod es S w U Z G E H. destruct (plate_ret 1 small g Z nnod es S G E) as [A _]. etransitivity; [exact (A w w)|].
  apply overPlate_ext. intros e p He Hp. symmetry. apply bending_work; [exact (proj2 (G e He) p Hp)|exact (H e p He Hp)].
Qed.
Theorem C153_symmetric : forall ver small g nnod es S i j, small vzero = true -> goodPlate nnod es -> plateSystem ver small g nnod es = Ret S ->
  (1 <= i <= nnod)%nat -> (1 <= j <= nnod)%nat -> el (gK S) i j = el (gK S) j i.
Proof.
  intros ver small g nnod es S i j Z G E Hi Hj. destruct (plate_ret ver small g Z nnod es S G E) as [A _].
  assert (X : forall a b, (1 <= a <= nnod)%nat -> (1 <= b <= nnod)%nat -> el (gK S) a b = innerWork ver es (Truss.unitAt a) (Truss.unitAt b)).
  { intros a b Ha Hb. rewrite <- A, Truss.bl_unitAt by exact Ha. unfold mv. rewrite (Truss.sum_unitAt nnod (fun j => el (gK S) a j) b Hb). reflexivity. }
  rewrite !X by assumption. apply innerWork_sym.
Qed.
(** Reactions, nodal loads and the loads on the area are in equilibrium: forces (b = c = 0) and moments about both axes. *)
Theorem C153_balance : forall ver small g nnod es S p R w fixed X Y x y, small vzero = true -> goodPlate nnod es -> plateSystem ver small g nnod es = Ret S ->
  held nnod (el (gK S)) (fun i => el (gS S) i 1%nat) p R w fixed -> flatBasis es X Y x y ->
  (forall a b c, sumf nnod (fun i => (p i + R i) * (a + b * X i + c * Y i)) + overPlate es (fun _ q => areaLoad small g q * (a + b * x q + c * y q)) = 0) /\
  sumf nnod p + sumf nnod R + gC S = 0.
Proof.
  intros ver small g nnod es S p R w fixed X Y x y Z G E H F.
  assert (M : forall a b c, sumf nnod (fun i => (p i + R i) * (a + b * X i + c * Y i)) + overPlate es (fun _ q => areaLoad small g q * (a + b * x q + c * y q)) = 0).
  { intros a b c. pose proof (held_work ver small g Z nnod es S G E p R w fixed H (flat X Y a b c)) as V.
    assert (I0 : innerWork ver es (flat X Y a b c) w = 0).
    { unfold innerWork. rewrite (overPlate_ext es _ (fun _ _ => 0 * 0 + 0 * 0)); [rewrite (overPlate_lin es (fun _ _ => 0) (fun _ _ => 0)); ring|].
      intros e q He Hq. rewrite (proj2 (F e q a b c He Hq)). unfold momentWork; cbn [wxx wyy wxy]. destruct ver as [|[|[|ver]]]; ring. }
    assert (L : loadWork small g es (flat X Y a b c) = overPlate es (fun _ q => areaLoad small g q * (a + b * x q + c * y q))).
    { apply overPlate_ext. intros e q He Hq. rewrite (proj1 (F e q a b c He Hq)). reflexivity. }
    rewrite I0, L in V. rewrite V. unfold nodeWork. rewrite Rplus_assoc, <- sumf_plus. rewrite Rplus_comm. f_equal. apply sumf_ext. intros i Hi. unfold flat. ring. }
  split; [exact M|]. destruct (plate_ret ver small g Z nnod es S G E) as [_ [_ C]]. rewrite C. rewrite <- (M 1 0 0), <- sumf_plus. f_equal.
  - apply sumf_ext. intros; ring.
  - apply overPlate_ext. intros; ring.
Qed.
(** The work of all forces is twice the energy of the plate, and two load cases do the same work in each other's deflections. *)
Theorem C153_clapeyron : forall ver small g nnod es S p R w fixed, small vzero = true -> goodPlate nnod es -> plateSystem ver small g nnod es = Ret S ->
  held nnod (el (gK S)) (fun i => el (gS S) i 1%nat) p R w fixed -> innerWork ver es w w = loadWork small g es w + nodeWork nnod p w + nodeWork nnod R w.
Proof. intros ver small g nnod es S p R w fixed Z G E H. exact (held_work ver small g Z nnod es S G E p R w fixed H w). Qed.
Theorem C153_reciprocal : forall ver small g nnod es S p R w p' R' w' fixed fixed', small vzero = true -> goodPlate nnod es -> plateSystem ver small g nnod es = Ret S ->
  held nnod (el (gK S)) (fun i => el (gS S) i 1%nat) p R w fixed -> held nnod (el (gK S)) (fun i => el (gS S) i 1%nat) p' R' w' fixed' ->
  loadWork small g es w' + nodeWork nnod p w' + nodeWork nnod R w' = loadWork small g es w + nodeWork nnod p' w + nodeWork nnod R' w.
Proof.
  intros ver small g nnod es S p R w p' R' w' fixed fixed' Z G E H H'. rewrite <- (held_work ver small g Z nnod es S G E p R w fixed H w').
  rewrite <- (held_work ver small g Z nnod es S G E p' R' w' fixed' H' w). apply innerWork_sym.
Qed.
(** Deflections balance the loads exactly if no deflection with the same prescribed values has a smaller potential energy. *)
Lemma inner_nonneg ver nnod es v : goodPlate nnod es -> solidPlate es -> 0 <= innerWork ver es v v.
Proof.
  intros G H. apply overPlate_pos. intros e p He Hp. destruct (H e p He Hp) as [HE [HT HW]]. apply Rmult_le_pos; [exact HW|].
  apply momentWork_pos; [exact HE|exact HT|exact (proj2 (G e He) p Hp)].
Qed.
Lemma nodeWork_free nnod (R : nat -> R) (fixed : nat -> bool) v w : (forall i, (1 <= i <= nnod)%nat -> fixed i = false -> R i = 0) ->
  (forall i, (1 <= i <= nnod)%nat -> fixed i = true -> v i = w i) -> nodeWork nnod R v = nodeWork nnod R w.
Proof. intros A B. unfold nodeWork. apply sumf_ext. intros i Hi. destruct (fixed i) eqn:F; [rewrite (B i Hi F); reflexivity|rewrite (A i Hi F); ring]. Qed.
Theorem C153_minimum : forall ver small g nnod es S p w (fixed : nat -> bool), small vzero = true -> goodPlate nnod es -> solidPlate es -> plateSystem ver small g nnod es = Ret S ->
  ((exists R, held nnod (el (gK S)) (fun i => el (gS S) i 1%nat) p R w (fun i => fixed i = true)) <->
   (forall w', (forall i, (1 <= i <= nnod)%nat -> fixed i = true -> w' i = w i) -> plateEnergy ver small g nnod es p w <= plateEnergy ver small g nnod es p w')).
Proof.
  intros ver small g nnod es S p w fixed Z G SP E. split.
  - intros [R H] w' HW. pose proof (held_work ver small g Z nnod es S G E p R w _ H) as V.
    assert (RF : nodeWork nnod R w' = nodeWork nnod R w).
    { apply (nodeWork_free nnod R fixed); [|exact HW]. intros i Hi F. apply (proj2 (H i Hi)). congruence. }
    pose proof (inner_nonneg ver nnod es (fun i => w' i - w i) G SP) as N. rewrite innerWork_sub in N. pose proof (V w) as V1. pose proof (V w') as V2. unfold plateEnergy. lra.
  - intros H. destruct (plate_ret ver small g Z nnod es S G E) as [A [B _]].
    exists (fun i => mv nnod (el (gK S)) w i - el (gS S) i 1%nat - p i). intros i Hi. split; [ring|]. intros F.
    set (r := mv nnod (el (gK S)) w i - el (gS S) i 1%nat - p i). set (k := innerWork ver es (Truss.unitAt i) (Truss.unitAt i)).
    assert (K0 : 0 <= k) by (apply (inner_nonneg ver nnod); assumption).
    assert (Q : forall t, 0 <= t * r + t * t * k / 2).
    { intros t. assert (L : forall i', (1 <= i' <= nnod)%nat -> fixed i' = true -> w i' - - t * Truss.unitAt i i' = w i').
      { intros i' _ F'. unfold Truss.unitAt. destruct (Nat.eqb_spec i i') as [->|]; [congruence|ring]. }
      specialize (H (fun i' => w i' - - t * Truss.unitAt i i') L). unfold plateEnergy in H. rewrite innerWork_sub, loadWork_sub, nodeWork_sub in H.
      rewrite <- !A, <- !B in H.
      assert (X1 : Spec.LinElement.bilin nnod (el (gK S)) (fun i' => - t * Truss.unitAt i i') (fun i' => - t * Truss.unitAt i i') = t * t * k).
      { unfold k. rewrite <- A. unfold Spec.LinElement.bilin. rewrite <- sumf_scal. apply sumf_ext. intros a Ha.
        assert (Y : mv nnod (el (gK S)) (fun i' => - t * Truss.unitAt i i') a = - t * mv nnod (el (gK S)) (Truss.unitAt i) a); [|rewrite Y; ring].
        unfold mv. rewrite <- sumf_scal. apply sumf_ext. intros; ring. }
      assert (X2 : Spec.LinElement.bilin nnod (el (gK S)) w (fun i' => - t * Truss.unitAt i i') = - t * mv nnod (el (gK S)) w i).
      { rewrite A, innerWork_sym, <- A. unfold Spec.LinElement.bilin. rewrite <- (Truss.sum_unitAt nnod (mv nnod (el (gK S)) w) i Hi), <- sumf_scal. apply sumf_ext. intros; ring. }
      assert (X3 : forall f, nodeWork nnod f (fun i' => - t * Truss.unitAt i i') = - t * f i).
      { intros f. unfold nodeWork. rewrite <- (Truss.sum_unitAt nnod f i Hi), <- sumf_scal. apply sumf_ext. intros; ring. }
      rewrite X1, X2, !X3 in H. unfold r. lra. }
    assert (P1 : 0 < k + 1) by lra. specialize (Q (- r / (k + 1))).
    assert (Q2 : - r / (k + 1) * r + - r / (k + 1) * (- r / (k + 1)) * k / 2 = - (r * r) * ((k + 2) / (2 * (k + 1) * (k + 1)))) by (field; lra). rewrite Q2 in Q.
    assert (P2 : 0 < (k + 2) / (2 * (k + 1) * (k + 1))) by (apply Rdiv_lt_0_compat; nra). apply Rsqr_0_uniq. unfold Rsqr. nra.
Qed.
(** First and second formulation: the curvatures of a plate are determined by loads and prescribed deflections; the deflections are if the supports
    admit no deflection without curvature. *)
Theorem C153_unique : forall ver small g nnod es S p R w R' w' (fixed : nat -> bool), ver = 1%nat \/ ver = 2%nat -> small vzero = true -> goodPlate nnod es -> solidPlate es ->
  plateSystem ver small g nnod es = Ret S ->
  held nnod (el (gK S)) (fun i => el (gS S) i 1%nat) p R w (fun i => fixed i = true) -> held nnod (el (gK S)) (fun i => el (gS S) i 1%nat) p R' w' (fun i => fixed i = true) ->
  (forall i, (1 <= i <= nnod)%nat -> fixed i = true -> w i = w' i) ->
  (forall e q, In e es -> In q (qPts e) -> 0 < qW q -> bend e q w = bend e q w') /\
  ((forall v, (forall i, (1 <= i <= nnod)%nat -> fixed i = true -> v i = 0) -> (forall e q, In e es -> In q (qPts e) -> 0 < qW q -> bend e q v = mkCurv 0 0 0) ->
     forall i, (1 <= i <= nnod)%nat -> v i = 0) -> forall i, (1 <= i <= nnod)%nat -> w i = w' i /\ R i = R' i).
Proof.
  intros ver small g nnod es S p R w R' w' fixed HV Z G SP E H H' HF.
  assert (I0 : innerWork ver es (fun i => w i - w' i) (fun i => w i - w' i) = 0).
  { rewrite innerWork_sub. pose proof (held_work ver small g Z nnod es S G E p R w _ H) as V. pose proof (held_work ver small g Z nnod es S G E p R' w' _ H') as V'.
    assert (R1 : nodeWork nnod R w = nodeWork nnod R w') by (apply (nodeWork_free nnod R fixed); [intros i Hi F; apply (proj2 (H i Hi)); congruence|exact HF]).
    assert (R2 : nodeWork nnod R' w = nodeWork nnod R' w') by (apply (nodeWork_free nnod R' fixed); [intros i Hi F; apply (proj2 (H' i Hi)); congruence|exact HF]).
    pose proof (V w). pose proof (V w'). pose proof (V' w). pose proof (V' w'). pose proof (innerWork_sym ver es w w'). lra. }
  assert (Z0 : forall e q, In e es -> In q (qPts e) -> 0 < qW q -> bend e q (fun i => w i - w' i) = mkCurv 0 0 0).
  { intros e q He Hq HW. assert (X : qW q * momentWork ver q (bend e q (fun i => w i - w' i)) (bend e q (fun i => w i - w' i)) = 0).
    { refine (proj2 (overPlate_pos es (fun e q => momentWork ver q (bend e q (fun i => w i - w' i)) (bend e q (fun i => w i - w' i))) _) I0 e q He Hq).
      intros e0 q0 He0 Hq0. destruct (SP e0 q0 He0 Hq0) as [HE [HT HW0]]. apply Rmult_le_pos; [exact HW0|]. apply momentWork_pos; [exact HE|exact HT|exact (proj2 (G e0 He0) q0 Hq0)]. }
    destruct (SP e q He Hq) as [HE [HT _]]. apply (proj2 (momentWork_pos ver q _ HE HT (proj2 (G e He) q Hq))); [exact HV|]. destruct (Rmult_integral _ _ X); [lra|assumption]. }
  split.
  - intros e q He Hq HW. pose proof (Z0 e q He Hq HW) as X. rewrite bend_sub in X. destruct (bend e q w) as [a1 a2 a3], (bend e q w') as [b1 b2 b3]. unfold subc in X; cbn [wxx wyy wxy] in X.
    injection X as X1 X2 X3. f_equal; lra.
  - intros U. assert (W : forall i, (1 <= i <= nnod)%nat -> w i = w' i).
    { intros i Hi. assert (X : w i - w' i = 0); [|lra]. apply (U (fun i => w i - w' i)); [|exact Z0|exact Hi]. intros j Hj Fj. rewrite (HF j Hj Fj). ring. }
    intros i Hi. split; [apply W; exact Hi|]. destruct (H i Hi) as [A _]. destruct (H' i Hi) as [A' _].
    assert (M : mv nnod (el (gK S)) w i = mv nnod (el (gK S)) w' i) by (unfold mv; apply sumf_ext; intros j Hj; rewrite (W j Hj); reflexivity). lra.
Qed.
(** Third formulation: a saddle costs no energy, so the curvatures are not determined. *)
Definition saddle : ppt := mkPpt (fun _ => 0) (fun _ i j => if (i =? j)%nat then if (i =? 1)%nat then 1 else -1 else 0) 1 12 0 1 0 [].
Theorem C153_laplace_refuted : exists small g nnod es S w, small vzero = true /\ goodPlate nnod es /\ solidPlate es /\ plateSystem 3 small g nnod es = Ret S /\
  held nnod (el (gK S)) (fun i => el (gS S) i 1%nat) (fun _ => 0) (fun _ => 0) (fun _ => 0) (fun _ => False) /\
  held nnod (el (gK S)) (fun i => el (gS S) i 1%nat) (fun _ => 0) (fun _ => 0) w (fun _ => False) /\
  (exists e q, In e es /\ In q (qPts e) /\ 0 < qW q /\ bend e q w <> bend e q (fun _ => 0)) /\ 0 < innerWork 1 es w w /\ 0 < innerWork 2 es w w.
Proof.
  assert (G : goodPlate 1 [mkPelt 1 (fun a => a) [saddle]]). { intros e [<-|[]]. split; [intros a Ha; exact Ha|]. intros p [<-|[]]. cbn. lra. }
  destruct (plate_system 3 (fun _ => true) 0 eq_refl 1 _ G) as [S [E [A [B C]]]].
  assert (H : forall w, held 1 (el (gK S)) (fun i => el (gS S) i 1%nat) (fun _ => 0) (fun _ => 0) w (fun _ => False)).
  { intros w i Hi. split; [|reflexivity]. rewrite <- Truss.bl_unitAt by exact Hi. rewrite A.
    rewrite <- (Truss.sum_unitAt 1 (fun i => el (gS S) i 1%nat) i Hi). change (sumf 1 (fun j => el (gS S) j 1%nat * Truss.unitAt i j)) with (nodeWork 1 (fun j => el (gS S) j 1%nat) (Truss.unitAt i)). rewrite B.
    unfold innerWork, loadWork, overPlate, areaLoad, momentWork, sumL, bend. cbn. ring. }
  exists (fun _ => true), 0, 1%nat, [mkPelt 1 (fun a => a) [saddle]], S, (fun _ => 1). split; [reflexivity|]. split; [exact G|]. split; [|split; [exact E|split; [apply H|split; [apply H|split]]]].
  - intros e p [<-|[]] [<-|[]]. cbn. lra.
  - exists (mkPelt 1 (fun a => a) [saddle]), saddle. split; [left; reflexivity|]. split; [left; reflexivity|]. split; [cbn; lra|]. unfold bend. cbn. intros X. injection X as X1 _ _. lra.
  - unfold innerWork, overPlate, momentWork, sumL, rigidity, bend. cbn. split; lra.
Qed.

(** A cantilever strip of one quadratic element under a pressure of 8. *)
Definition nil0 (v : v3) : bool := if Req_EM_T (vz v) 0 then true else false.
Definition strip : ppt := mkPpt (fun a => nth a [0; / 4; / 2; / 4] 0) (fun a i j => if ((i =? 1) && (j =? 1))%nat then nth a [0; 2; -4; 2] 0 else 0) 1 12 0 1 0 [8].
Definition cantilever : list pelt := [mkPelt 3 (fun a => a) [strip]].
Definition bent (i : nat) : R := if (i =? 3)%nat then / 2 else 0.
Definition clamp (i : nat) : R := if (i =? 2)%nat then -8 else 0.
Example C153_case : exists S, plateSystem 1 nil0 0 3 cantilever = Ret S /\ goodPlate 3 cantilever /\ solidPlate cantilever /\ nil0 vzero = true /\
  held 3 (el (gK S)) (fun i => el (gS S) i 1%nat) (fun _ => 0) clamp bent (fun i => (i <=? 2)%nat = true) /\
  flatBasis cantilever (fun i => (INR i - 1) / 2) (fun _ => 0) (fun _ => / 2) (fun _ => 0) /\ totalLoad nil0 0 cantilever = 8.
Proof.
  assert (G : goodPlate 3 cantilever). { intros e [<-|[]]. split; [intros a Ha; exact Ha|]. intros p [<-|[]]. cbn. lra. }
  assert (Z : nil0 vzero = true). { unfold nil0, vzero; cbn [vz]. destruct (Req_EM_T 0 0); [reflexivity|congruence]. }
  assert (Q : areaLoad nil0 0 strip = 8). { unfold areaLoad, nil0, sumL. cbn. destruct (Req_EM_T _ 0); lra. }
  destruct (plate_system 1 nil0 0 Z 3 cantilever G) as [S [E [A [B C]]]]. exists S. split; [exact E|]. split; [exact G|]. split; [|split; [exact Z|]].
  { intros e p [<-|[]] [<-|[]]. cbn. lra. }
  split; [|split].
  - intros i Hi. split.
    + rewrite <- Truss.bl_unitAt by exact Hi. rewrite A. rewrite <- (Truss.sum_unitAt 3 (fun i => el (gS S) i 1%nat) i Hi). change (sumf 3 (fun j => el (gS S) j 1%nat * Truss.unitAt i j)) with (nodeWork 3 (fun j => el (gS S) j 1%nat) (Truss.unitAt i)). rewrite B.
      unfold innerWork, loadWork, overPlate, cantilever, sumL. cbn [fold_right qPts]. rewrite Q. unfold momentWork, rigidity, bend, deflection, bent, clamp, Truss.unitAt.
      assert (D : i = 1%nat \/ i = 2%nat \/ i = 3%nat) by lia. destruct D as [->|[->| ->]]; cbn; field.
    + intros F. unfold clamp. destruct (Nat.eqb_spec i 2) as [->|]; [exfalso; apply F; reflexivity|reflexivity].
  - intros e p a b c [<-|[]] [<-|[]]. unfold deflection, bend, flat. cbn. split; [field|f_equal; field].
  - unfold totalLoad, overPlate, cantilever, sumL. cbn [fold_right qPts]. rewrite Q. cbn. ring.
Qed.

Print Assumptions C153_accepted.
Print Assumptions C153_works.
Print Assumptions C153_bending.
Print Assumptions C153_symmetric.
Print Assumptions C153_balance.
Print Assumptions C153_clapeyron.
Print Assumptions C153_reciprocal.
Print Assumptions C153_minimum.
Print Assumptions C153_unique.
Print Assumptions C153_laplace_refuted.
