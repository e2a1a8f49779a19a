(** Properties of trusses: C151. *)
From Coquelicot Require Import Coquelicot.
From Verif Require Import Lib.Base Lib.Sums Lib.Writes Lib.Vec3 Model.Bar Spec.Bar Proofs.Bar Model.BeamElm Model.Truss Spec.Truss Proofs.Truss.
From Verif Require Model.Modes.
Import ListNotations.

(** ** C151: the system of a truss is that of its potential energy *)
(** Exactly the trusses with bars longer than 1e-8, before and after the displacements, are accepted. *)
Theorem C151_accepted : forall c T nnod P bs u, good T nnod bs ->
  ((exists S, trussSystem c T nnod P bs u = Ret S) <->
   forall b, In b bs -> 1 / 10 ^ 8 < vlen (vsub (P (rod2 b)) (P (rod1 b))) /\
     1 / 10 ^ 8 < vlen (vsub (place (tD T) P u (rod2 b)) (place (tD T) P u (rod1 b)))).
Proof.
  intros c T nnod P bs u G. split.
  - intros [S E]. exact (proj1 (system_ret c T P nnod bs u S G E)).
  - intros H. destruct (system_long c T P nnod bs u G H) as [S [E _]]. exists S. exact E.
Qed.
(** The forces are minus the gradient of the energy stored in the bars and the potential of the weights. *)
Theorem C151_potential : forall c T nnod P bs u v S, good T nnod bs -> trussSystem c T nnod P bs u = Ret S -> let Q t := place (tD T) P (moved u v t) in
  is_derive (fun t => stored T P (Q t) bs + lift T P (Q t) bs) 0 (- twork (tD T) nnod (fun i => el (sB S) i 1%nat) v).
Proof. intros c T nnod P bs u v S G E. exact (potential_derive c T P nnod u v bs S G E). Qed.
(** Displacements balance the nodal loads [g] exactly if they are a stationary point of the potential energy. *)
Theorem C151_stationary : forall c T nnod P bs u S g (fixed : nat -> bool), good T nnod bs -> trussSystem c T nnod P bs u = Ret S ->
  let d := tD T in let Q v t := place d P (moved u v t) in
  ((forall i, (1 <= i <= d * nnod)%nat -> fixed i = false -> el (sB S) i 1%nat + g i = 0) <->
   (forall v, (forall i, fixed i = true -> v i = 0) ->
    is_derive (fun t => stored T P (Q v t) bs + lift T P (Q v t) bs - twork d nnod g (moved u v t)) 0 0)).
Proof.
  intros c T nnod P bs u S g fixed G E d Q. pose proof (proj1 G) as D. fold d in D.
  assert (DG : forall v, is_derive (fun t => stored T P (Q v t) bs + lift T P (Q v t) bs - twork d nnod g (moved u v t)) 0
     (- twork d nnod (fun i => el (sB S) i 1%nat) v - twork d nnod g v)).
  { intros v. apply (is_derive_minus (V := R_NormedModule) (fun t => stored T P (Q v t) bs + lift T P (Q v t) bs)); [exact (potential_derive c T P nnod u v bs S G E)|].
    apply (is_derive_ext (fun t => twork d nnod g u + t * twork d nnod g v)).
    - intros t. rewrite !twork_sum by exact D. unfold moved. rewrite <- sumf_scal, <- sumf_plus. apply sumf_ext. intros i _. ring.
    - auto_derive; [exact I|ring]. }
  assert (W : forall v, - twork d nnod (fun i => el (sB S) i 1%nat) v - twork d nnod g v = - sumf (d * nnod) (fun i => (el (sB S) i 1%nat + g i) * v i)).
  { intros v. rewrite !twork_sum by exact D. transitivity (- (sumf (d * nnod) (fun i => el (sB S) i 1%nat * v i) + sumf (d * nnod) (fun i => g i * v i))); [ring|]. rewrite <- sumf_plus. f_equal. apply sumf_ext. intros i _. ring. }
  split.
  - intros H v Hv. pose proof (DG v) as X. rewrite W in X. rewrite sumf_0 in X; [rewrite Ropp_0 in X; exact X|].
    intros i Hi. destruct (fixed i) eqn:F; [rewrite (Hv i F); ring|rewrite (H i Hi F); ring].
  - intros H i Hi F. assert (Z : forall j, fixed j = true -> unitAt i j = 0). { intros j Hj. unfold unitAt. destruct (Nat.eqb_spec i j) as [->|]; [congruence|reflexivity]. }
    pose proof (is_derive_unique _ _ _ (H _ Z)) as A. rewrite (is_derive_unique _ _ _ (DG (unitAt i))), W in A.
    rewrite (sum_unitAt (d * nnod) (fun i => el (sB S) i 1%nat + g i) i Hi) in A. lra.
Qed.
(** With geometric stiffness the matrix is minus the derivative of the forces. *)
Theorem C151_tangent : forall c T nnod P bs u v S i, good T nnod bs -> Modes.isPos (Modes.prm c 3) = false -> trussSystem c T nnod P bs u = Ret S ->
  (1 <= i <= tD T * nnod)%nat -> is_derive (fun t => residual (trussSystem c T nnod P bs (moved u v t)) i) 0 (- mv (tD T * nnod) (el (sK S)) v i).
Proof. intros c T nnod P bs u v S i G HM E Hi. apply (system_tangent c T P nnod bs u v S i G); [|exact E|exact Hi]. rewrite slot_cases, HM. reflexivity. Qed.
(** Small changes of accepted displacements are accepted. *)
Theorem C151_nearby : forall c T nnod P bs u v S, good T nnod bs -> trussSystem c T nnod P bs u = Ret S ->
  exists eps, 0 < eps /\ forall t, Rabs t < eps -> exists S', trussSystem c T nnod P bs (moved u v t) = Ret S'.
Proof.
  intros c T nnod P bs u v S G E. destruct (long_locally T P u v bs (proj1 (system_ret c T P nnod bs u S G E))) as [eps H]. exists eps. split; [apply cond_pos|].
  intros t Ht. destruct (system_long c T P nnod bs (moved u v t) G) as [S' [ES _]]; [|exists S'; exact ES].
  apply H. unfold ball; cbn. unfold AbsRing_ball, abs, minus, plus, opp; cbn. rewrite Ropp_0, Rplus_0_r. exact Ht.
Qed.
Theorem C151_symmetric : forall c T nnod P bs u S i j, good T nnod bs -> trussSystem c T nnod P bs u = Ret S ->
  (1 <= i <= tD T * nnod)%nat -> (1 <= j <= tD T * nnod)%nat -> el (sK S) i j = el (sK S) j i.
Proof.
  intros c T nnod P bs u S i j G E Hi Hj. destruct (system_ret c T P nnod bs u S G E) as [_ [HK _]].
  assert (X : forall a b, (1 <= a <= tD T * nnod)%nat -> (1 <= b <= tD T * nnod)%nat -> el (sK S) a b = kTruss c T P u bs (unitAt a) (unitAt b)).
  { intros a b Ha Hb. rewrite <- HK, bl_unitAt by exact Ha. unfold mv. rewrite (sum_unitAt (tD T * nnod) (fun j => el (sK S) a j) b Hb). reflexivity. }
  rewrite !X by assumption. apply kTruss_symm.
Qed.
(** At rest, with or without geometric stiffness, every bar is a spring of stiffness EA/L against its elongation. *)
Theorem C151_rest : forall c T nnod P bs u v w S, good T nnod bs -> (forall i, u i = 0) -> trussSystem c T nnod P bs u = Ret S ->
  sumf (tD T * nnod) (fun i => v i * mv (tD T * nnod) (el (sK S)) w i) =
  sumL (fun b => tK T / vlen (vsub (P (rod2 b)) (P (rod1 b))) * elongation (tD T) P v b * elongation (tD T) P w b) bs.
Proof.
  intros c T nnod P bs u v w S G Z E. destruct (system_ret c T P nnod bs u S G E) as [HL [HK _]]. etransitivity; [exact (HK v w)|]. exact (kTruss_rest c T P u bs v w Z HL).
Qed.
(** Reactions, loads and weights of the bars are in equilibrium. *)
Lemma sumN_dot n f a : vdot (sumN n f) a = sumf n (fun k => vdot (f k) a).
Proof. unfold sumN, vdot; cbn [vx vy vz]. induction n as [|n IH]; cbn [sumf]; [ring|]. rewrite <- IH. ring. Qed.
Lemma sumB_dot f l a : vdot (sumB f l) a = sumL (fun m => vdot (f m) a) l.
Proof. unfold sumB, vdot, sumL; cbn [vx vy vz]. induction l as [|m l IH]; cbn [fold_right]; [ring|]. rewrite <- IH. ring. Qed.
Lemma vdot_nil X : (forall a, vdot X a = 0) -> X = vzero.
Proof. intros H. assert (A := H (V 1 0 0)). assert (B := H (V 0 1 0)). assert (C := H (V 0 0 1)). destruct X. unfold vdot, vzero in *; cbn in *. f_equal; lra. Qed.
Lemma vdot_plus x y a : vdot (vadd x y) a = vdot x a + vdot y a. Proof. revert x y a. vring. Qed.
Theorem C151_force : forall c T nnod P bs u S g R fixed, good T nnod bs -> trussSystem c T nnod P bs u = Ret S ->
  inBalance (tD T * nnod) (fun i => el (sB S) i 1%nat) g R fixed -> allForces (tD T) nnod T P bs g R = vzero.
Proof.
  intros c T nnod P bs u S g R fixed G E HB. apply vdot_nil. intros a.
  assert (K : forall x y, vdot (keep (tD T) x) y = vdot x (keep (tD T) y)). { intros [x1 x2 x3] [y1 y2 y3]. unfold vdot, keep; cbn [vx vy vz]. destruct (2 <=? tD T)%nat, (3 <=? tD T)%nat; ring. }
  assert (KD : forall f n, keep (tD T) (disp (tD T) f n) = disp (tD T) f n). { intros f n. unfold keep, disp; cbn [vx vy vz]. destruct (2 <=? tD T)%nat, (3 <=? tD T)%nat; reflexivity. }
  pose proof (rigid_balance c T P nnod bs u S g R fixed (keep (tD T) a) vzero G) as X.
  unfold allForces. rewrite !vdot_plus, K, !sumN_dot, sumB_dot. rewrite <- X; [|intros q; destruct a as [a1 a2 a3], q as [q1 q2 q3]; unfold keep, vadd, vcross, vzero; cbn [vx vy vz]; destruct (2 <=? tD T)%nat, (3 <=? tD T)%nat; f_equal; ring|exact E|exact HB].
  rewrite <- Rplus_assoc. assert (ZZ : forall q, vadd (keep (tD T) a) (vcross vzero q) = keep (tD T) a) by (intros q; generalize (keep (tD T) a); revert q; veq).
  f_equal; [f_equal|]; [| |apply sumL_ext; intros b _; rewrite ZZ; reflexivity]; apply sumf_ext; intros n _; rewrite ZZ, <- K, KD; reflexivity.
Qed.
Lemma moment_dot c T nnod P bs u S g R fixed om : good T nnod bs -> trussSystem c T nnod P bs u = Ret S ->
  inBalance (tD T * nnod) (fun i => el (sB S) i 1%nat) g R fixed -> stays T vzero om ->
  vdot (allMoments (tD T) nnod T P (place (tD T) P u) bs g R) om = 0.
Proof.
  intros G E HB HS. rewrite <- (rigid_balance c T P nnod bs u S g R fixed vzero om G HS E HB). unfold allMoments. rewrite !vdot_plus, !sumN_dot, sumB_dot, <- Rplus_assoc.
  assert (X : forall q f, vdot (vcross q f) om = vdot f (vadd vzero (vcross om q))) by (generalize om; vring).
  f_equal; [f_equal|]; [| |apply sumL_ext; intros b _; apply X]; apply sumf_ext; intros n _; apply X.
Qed.
Theorem C151_moment : forall c T nnod P bs u S g R fixed, good T nnod bs -> trussSystem c T nnod P bs u = Ret S ->
  inBalance (tD T * nnod) (fun i => el (sB S) i 1%nat) g R fixed ->
  (tD T = 3%nat -> allMoments 3 nnod T P (place 3 P u) bs g R = vzero) /\
  (tD T = 2%nat -> vz (allMoments 2 nnod T P (place 2 P u) bs g R) = 0).
Proof.
  intros c T nnod P bs u S g R fixed G E HB. pose proof (fun om => moment_dot c T nnod P bs u S g R fixed om G E HB) as X. unfold stays in X. split; intros D; rewrite D in X.
  - apply vdot_nil. intros a. apply X. intros q. destruct a as [a1 a2 a3], q as [q1 q2 q3]. reflexivity.
  - specialize (X (V 0 0 1)). assert (Y : forall v, vdot v (V 0 0 1) = vz v) by (intros [x y z]; unfold vdot; cbn; ring). rewrite Y in X. apply X.
    intros q. destruct q as [q1 q2 q3]. unfold keep, vadd, vcross, vzero; cbn. f_equal; ring.
Qed.
(** Two bars from (0,0) and (6,0) to (3,4): the stiffness of the loaded node against sideways motion. *)
Definition roofPos (n : nat) : v3 := match n with 1%nat => V 0 0 0 | 2%nat => V 3 4 0 | _ => V 6 0 0 end.
Definition roof : list rod := [mkRod 1 2; mkRod 2 3].
Definition roofData : truss := mkTruss 2 Green 50 1 (V 0 (-10) 0) (1 / 1000).
Lemma roof_good : good roofData 3 roof.
Proof. split; [right; left; reflexivity|]. intros b [<-|[<-|[]]]; unfold inTruss; cbn; lia. Qed.
Lemma five x y : x * x + y * y = 25 -> vlen (V x y 0) = 5.
Proof. intros H. unfold vlen, vdot; cbn. replace (x * x + y * y + 0 * 0) with (5 * 5) by lra. apply sqrt_square. lra. Qed.
Lemma roof_len b : In b roof -> vlen (vsub (roofPos (rod2 b)) (roofPos (rod1 b))) = 5.
Proof. intros [<-|[<-|[]]]; unfold vsub; cbn [rod1 rod2 roofPos vx vy vz]; replace (0 - 0) with 0 by ring; apply five; lra. Qed.
Example C151_case : forall c, exists S, trussSystem c roofData 3 roofPos roof (fun _ => 0) = Ret S /\ el (sK S) 3 3 = 36 / 5.
Proof.
  intros c. destruct (proj2 (C151_accepted c roofData 3 roofPos roof (fun _ => 0) roof_good)) as [S E].
  - intros b Hb. split; [rewrite roof_len by exact Hb; lra|].
    replace (vsub (place (tD roofData) roofPos (fun _ => 0) (rod2 b)) (place (tD roofData) roofPos (fun _ => 0) (rod1 b))) with (vsub (roofPos (rod2 b)) (roofPos (rod1 b))).
    + rewrite roof_len by exact Hb. lra.
    + unfold place, disp. cbn [tD roofData Nat.leb]. generalize (roofPos (rod2 b)) (roofPos (rod1 b)). veq.
  - exists S. split; [exact E|]. pose proof (C151_rest c roofData 3 roofPos roof (fun _ => 0) (unitAt 3) (unitAt 3) S roof_good (fun _ => eq_refl) E) as X.
    change (tD roofData) with 2%nat in X.
    assert (Y : sumf (2 * 3) (fun i => unitAt 3 i * mv (2 * 3) (el (sK S)) (unitAt 3) i) = el (sK S) 3 3).
    { fold (bl (2 * 3) (el (sK S)) (unitAt 3) (unitAt 3)). rewrite bl_unitAt by lia. unfold mv. apply (sum_unitAt (2 * 3) (fun j => el (sK S) 3 j) 3). lia. }
    rewrite Y in X. rewrite X. unfold roof, sumL. cbn [fold_right]. unfold elongation.
    rewrite (roof_len (mkRod 1 2)) by (left; reflexivity). rewrite (roof_len (mkRod 2 3)) by (right; left; reflexivity).
    unfold disp, vdot, vsub, unitAt, dof, roofPos, roofData. cbn. field.
Qed.

Print Assumptions C151_accepted.
Print Assumptions C151_potential.
Print Assumptions C151_stationary.
Print Assumptions C151_tangent.
Print Assumptions C151_nearby.
Print Assumptions C151_symmetric.
Print Assumptions C151_rest.
Print Assumptions C151_force.
Print Assumptions C151_moment.
