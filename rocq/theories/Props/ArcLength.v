(** Arc-length control (C37). *)
From Coq Require Import List ZArith Arith Bool SpecFloat Reals Lra Lia.
From Verif Require Import Lib.Base Lib.Sums Model.Driver Model.ArcLength Spec.ArcLength Proofs.ArcLength.
Import ListNotations.

(** A step is accepted only with a finite residual norm below tolerance, or when the very
    first linear solve returned a zero correction; never after more than [maxit] iterations. *)
Theorem C37_accepted_below_tolerance_partial : forall c s x0 l, iterate c s 0 (x0 :: l) = Some CONVERGED ->
  exists k x, nth_error (x0 :: l) k = Some x /\ (k <= maxit c)%nat /\ normsOk x = true /\
    ((k = 0%nat /\ SFeqb (lin x) fzero = true) \/ finite (nrm x) /\ accurate c (refNorm s) (nrm x0) (nrm x)).
Proof. exact step_converged. Qed.

Theorem C37_terminates : forall c s l, (maxit c < length l)%nat -> iterate c s 0 l <> None.
Proof. exact step_ends. Qed.

(* double precision 1e-3, 1e-6, 1e2 and 5 *)
Definition e3 := binary_normalize 53 1024 4611686018427388 (-62) false.
Definition e6 := binary_normalize 53 1024 4722366482869645 (-72) false.
Definition hundred := binary_normalize 53 1024 100 0 false.
Definition five := binary_normalize 53 1024 5 0 false.
Definition ctl0 := mkCtl e3 e6 hundred 2 10 true.
Definition chk0 := mkChk fzero fzero 0 fzero.
Definition pass0 x l := mkPass x l true true true true false.

(** The claim does not hold as stated.  A zero first correction is accepted whatever the residual is ... *)
Theorem C37_nan_residual_refuted : exists c s x, iterate c s 0 [x] = Some CONVERGED /\ nrm x = S754_nan.
Proof. exists ctl0, chk0, (pass0 S754_nan fzero). vm_compute. auto. Qed.

(** ... and an infinite first norm becomes the reference, after which every finite norm passes. *)
Theorem C37_infinite_reference_refuted : exists c s x0 x, iterate c s 0 [x0; x] = Some CONVERGED /\
  nrm x0 = S754_infinity false /\ lin x0 = fone /\ nrm x = five /\ SFltb (SFabs (nrm x)) (aTol c) = false.
Proof. exists ctl0, chk0, (pass0 (S754_infinity false) fone), (pass0 five fone). vm_compute. auto. Qed.

(** Ordinary history: 5, then 1e-3 below the relative tolerance. *)
Example C37_converging : iterate ctl0 chk0 0 [pass0 five fone; pass0 fone fone; pass0 e3 fone] = Some CONVERGED /\
  iterate ctl0 chk0 0 [pass0 five fone; pass0 S754_nan S754_nan] = Some DIVERGED.
Proof. vm_compute. auto. Qed.

Section Path.
Variable n : nat.
Open Scope R_scope.
Notation dot := (dot n).

(** The predictor has exactly the requested length in the chosen norm: load factor weight 1,
    beta |g|^2 or 0. *)
Theorem C37_predictor_length : forall arclen beta lg res tan old t u,
  let p := predictor n arclen beta lg res tan old t u in
  let w := if Rlt_dec beta 0 then 1 else if Rlt_dec 0 beta then beta * lg * lg else 0 in
  0 < w + dot tan tan -> dlam p * dlam p * (w + dot tan tan) = arclen * arclen.
Proof. exact (predictor_length n). Qed.

Theorem C37_predictor_keeps_direction : forall arclen beta lg res tan old t u,
  let w := if Rlt_dec beta 0 then 1 else if Rlt_dec 0 beta then beta * lg * lg else 0 in
  0 < w + dot tan tan -> 0 <= arclen ->
  0 <= dlam (predictor n arclen beta lg res tan (Some old) t u) * dot old tan.
Proof. exact (predictor_forward n). Qed.

(** Corrections stay in the plane normal to the current increment ... *)
Theorem C37_corrector_normal_plane : forall beta s res tan, beta < 0 -> dot (inc s) tan + dlam s <> 0 ->
  let s' := corrector n beta s res tan in
  dot (inc s) (axpy (inc s') (inc s) (-1)) + dlam s * (dlam s' - dlam s) = 0.
Proof. exact (corrector_plane n). Qed.
(** ... or normal to the tangent. *)
Theorem C37_corrector_tangent_plane : forall beta s res tan, 0 <= beta ->
  let s' := corrector n beta s res tan in
  dot tan (axpy (inc s') (inc s) (-1)) + (dlam s' - dlam s) = 0.
Proof. exact (corrector_tangent n). Qed.

(** After any number of corrections the increments account for the whole change. *)
Theorem C37_increments_add_up : forall beta h arclen lg res tan old t u,
  let s := correct n beta (predictor n arclen beta lg res tan old t u) h in
  lam s = t + dlam s /\ forall i, sol s i = u i + inc s i.
Proof. exact (totals n). Qed.

(** From an equilibrium state the step is never shorter than the arc length. *)
Theorem C37_arc_length_kept : forall arclen beta lg tan old t u h, beta < 0 ->
  let p := predictor n arclen beta lg (fun _ => 0) tan old t u in
  arc2 n p = arclen * arclen /\ (regular n beta p h -> arclen * arclen <= arc2 n (correct n beta p h)).
Proof. exact (arc_at_least n). Qed.
End Path.

(** One equation with tangent 3/4: arc length 5/4 gives a load increment of 1, and one
    correction by a residual displacement of 1/2. *)
Example C37_example : let tan := fun _ : nat => (3/4)%R in
  let p := predictor 1 (5/4) (-1) 0 (fun _ => 0%R) tan None 0 (fun _ => 0%R) in
  (dlam p = 1 /\ inc p 1%nat = 3/4 /\ regular 1 (-1) p [((fun _ => 1/2), tan)] /\
   dlam (corrector 1 (-1) p (fun _ => 1/2) tan) = 1 - 6/25)%R.
Proof.
  intros tan p.
  assert (D : dlam p = 1%R).
  { unfold p, predictor, predictorSize. cbn [dlam]. destruct (Rlt_dec (-1) 0); [|lra].
    rewrite norm2_sq. unfold dot, tan. cbn. replace (1 + (0 + 3 / 4 * (3 / 4)))%R with ((5/4) * (5/4))%R by field.
    rewrite sqrt_square by lra. field. }
  assert (I : forall i, inc p i = (3/4)%R).
  { intros i. change (inc p i) with (0 + dlam p * tan i)%R. rewrite D. unfold tan. lra. }
  repeat split; auto.
  - unfold dot. cbn [sumf]. rewrite I, D. unfold tan. lra.
  - unfold corrector, correctorSize. cbn [dlam]. destruct (Rlt_dec (-1) 0); [|lra]. unfold dot. cbn [sumf]. rewrite I, D. unfold tan. field.
Qed.

Print Assumptions C37_accepted_below_tolerance_partial.
Print Assumptions C37_terminates.
Print Assumptions C37_nan_residual_refuted.
Print Assumptions C37_infinite_reference_refuted.
Print Assumptions C37_predictor_length.
Print Assumptions C37_predictor_keeps_direction.
Print Assumptions C37_corrector_normal_plane.
Print Assumptions C37_corrector_tangent_plane.
Print Assumptions C37_increments_add_up.
Print Assumptions C37_arc_length_kept.
