(** Local coordinate systems (C58). *)
From Verif Require Import Lib.Base Lib.Vec3 Lib.Tensor3 Model.Analytic Model.LocalSys Proofs.LocalSys.

(** The full claim fails on the axis: both cylinder systems divide by the distance from it. *)
Theorem C58_axis_refuted : forall h z, cylinder (V 0 0 z) = UB /\ cylinderSphere h 1 (V 0 0 z) = UB.
Proof.
  intros h z. unfold cylinder, cylinderSphere. cbn [vx vy vz Z.eqb Pos.eqb].
  assert (E : hypot 0 0 = 0) by (apply hypot_zero; split; reflexivity).
  cbv zeta. rewrite E. destruct (Req_EM_T 0 0); [split; reflexivity|congruence].
Qed.
(** Off the axis both give a right-handed orthonormal frame ... *)
Theorem C58_cylinder_partial : forall X h, vx X <> 0 \/ vy X <> 0 ->
  (exists T, cylinder X = Ret T /\ orth3 T /\ det3 T = 1) /\ (exists T, cylinderSphere h 1 X = Ret T /\ orth3 T /\ det3 T = 1).
Proof. intros X h N. split; [exact (cylinder_frame X N)|exact (capCyl_frame h X N)]. Qed.
(** ... and the spherical one at every point but the centre, in particular at the poles. *)
Theorem C58_sphere_partial : forall X h p, p <> 1%Z -> X <> V 0 0 h -> exists T, cylinderSphere h p X = Ret T /\ orth3 T /\ det3 T = 1.
Proof. intros X h p P N. apply (sphere_frame h p X); [now apply Z.eqb_neq|exact N]. Qed.
(** The axes are the documented ones: the image of the radial and the circumferential direction. *)
Theorem C58_axes_partial : forall X h p T,
  (cylinder X = Ret T -> forall z,
     tv T (V (vx X) (vy X) z) = V (hypot (vx X) (vy X)) 0 z /\ tv T (V (- vy X) (vx X) z) = V 0 (hypot (vx X) (vy X)) z) /\
  (cylinderSphere h 1 X = Ret T -> forall z,
     tv T (V (vx X) (vy X) z) = V (- z) 0 (hypot (vx X) (vy X)) /\ tv T (V (- vy X) (vx X) z) = V (- z) (hypot (vx X) (vy X)) 0) /\
  (p <> 1%Z -> cylinderSphere h p X = Ret T ->
     tv T (V (vx X) (vy X) (vz X - h)) = V 0 0 (vlen (V (vx X) (vy X) (vz X - h))) /\
     (vx X <> 0 \/ vy X <> 0 -> tv T (V (- vy X) (vx X) 0) = V 0 (hypot (vx X) (vy X)) 0)).
Proof.
  intros X h p T. split; [|split].
  - intros E z. destruct (cylinder_axes X T E) as [A B]. split; [apply A|apply B].
  - intros E z. destruct (capCyl_axes h X T E) as [A B]. split; [apply A|apply B].
  - intros P E. apply (sphere_axes h p); [now apply Z.eqb_neq|exact E].
Qed.
(** A pole and a point off the axis meet the hypotheses. *)
Example C58_ex : V 0 0 3 <> V 0 0 1 /\ (vx (V 3 4 7) <> 0 \/ vy (V 3 4 7) <> 0) /\ hypot 3 4 = 5.
Proof.
  split; [intros [= H]; lra|]. split; [left; cbn; lra|]. unfold hypot. replace (3 * 3 + 4 * 4) with (5 * 5) by ring. apply sqrt_square. lra.
Qed.

Print Assumptions C58_axis_refuted.
Print Assumptions C58_cylinder_partial.
Print Assumptions C58_sphere_partial.
Print Assumptions C58_axes_partial.
