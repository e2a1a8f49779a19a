(** Statics of a frame, independent of matrices and of the assembly. *)
From Verif Require Import Lib.Base Lib.Writes Lib.Vec3 Model.Beam Model.Section Model.BeamElm Model.Frame Spec.Beam.

(** The motion of a node: translation and rotation. *)
Definition nodeDisp (u : nat -> R) (n : nat) : v3 := V (u (dof 6 n 1)) (u (dof 6 n 2)) (u (dof 6 n 3)).
Definition nodeRot (u : nat -> R) (n : nat) : v3 := V (u (dof 6 n 4)) (u (dof 6 n 5)) (u (dof 6 n 6)).
(** Work of nodal forces and moments: the scalar products added over the nodes. *)
Definition fwork (nnod : nat) (f v : nat -> R) : R :=
  sumf nnod (fun n => vdot (nodeDisp f n) (nodeDisp v n) + vdot (nodeRot f n) (nodeRot v n)).
(** Small rigid motion of nodes at the points [P]. *)
Definition rigidField (P : nat -> v3) (a om : v3) (v : nat -> R) : Prop :=
  forall n, (1 <= n)%nat -> nodeDisp v n = vadd a (vcross om (P n)) /\ nodeRot v n = om.
(** The members refer to nodes of the frame. *)
Definition inFrame (nnod : nat) (mb : member) : Prop := (1 <= node1 mb <= nnod)%nat /\ (1 <= node2 mb <= nnod)%nat.
(** Forces [f] (element forces), loads [g] and reactions [R] cancel; reactions act at prescribed unknowns only. *)
Definition balanced (nnod : nat) (f g R : nat -> R) (fixed : nat -> Prop) : Prop :=
  forall i, (1 <= i <= 6 * nnod)%nat -> f i + g i + R i = 0 /\ (~ fixed i -> R i = 0).
(** Total force and total moment about the origin of nodal forces and moments [f] at nodes [P]. *)
Definition sumV (n : nat) (f : nat -> v3) : v3 := V (sumf n (fun k => vx (f k))) (sumf n (fun k => vy (f k))) (sumf n (fun k => vz (f k))).
Definition totalForce (nnod : nat) (f : nat -> R) : v3 := sumV nnod (nodeDisp f).
Definition totalMoment (nnod : nat) (P : nat -> v3) (f : nat -> R) : v3 :=
  sumV nnod (fun n => vadd (nodeRot f n) (vcross (P n) (nodeDisp f n))).

(** The nodes of a member are at the ends of an axis of its length along the first local direction. *)
Definition spans (P : nat -> v3) (mb : member) : Prop :=
  frame (bT (mBeam mb)) /\ P (node2 mb) = vadd (P (node1 mb)) (vscal (bL (mBeam mb)) (col (bT (mBeam mb)) 1)).
(** Weight of a member; gravity below the tolerance is neglected. *)
Definition weightOf (mb : member) : v3 :=
  if isZero (bTol (mBeam mb)) (bGrav (mBeam mb)) then vzero else vscal (pRhoA (bP (mBeam mb)) * bL (mBeam mb)) (bGrav (mBeam mb)).
Definition sumW (f : member -> v3) (mbs : list member) : v3 := V (sumL (fun m => vx (f m)) mbs) (sumL (fun m => vy (f m)) mbs) (sumL (fun m => vz (f m)) mbs).
