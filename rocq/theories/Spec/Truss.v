(** Statics of a truss, independent of matrices and of the assembly. *)
From Verif Require Import Lib.Base Lib.Writes Lib.Vec3 Spec.Bar Model.Bar Model.BeamElm Proofs.Bar Model.Truss.

(** The current position of a node. *)
Definition place (d : nat) (P : nat -> v3) (u : nat -> R) (n : nat) : v3 := vadd (P n) (disp d u n).
(** Work of nodal forces: the scalar products added over the nodes. *)
Definition twork (d nnod : nat) (f v : nat -> R) : R := sumf nnod (fun n => vdot (disp d f n) (disp d v n)).
(** Strain energy of the bars, as a function of the current positions of their nodes. *)
Definition stored (T : truss) (P Q : nat -> v3) (bs : list rod) : R :=
  sumL (fun b => barEnergy (kindOf (tM T)) (tK T) (vlen (vsub (P (rod2 b)) (P (rod1 b)))) (vsub (Q (rod2 b)) (Q (rod1 b)))) bs.
(** Weight of a bar; gravity below the tolerance is neglected. *)
Definition rodWeight (T : truss) (P : nat -> v3) (b : rod) : v3 :=
  if isZero (tTol T) (tGrav T) then vzero else vscal (tMass T * vlen (vsub (P (rod2 b)) (P (rod1 b)))) (tGrav T).
(** Potential of the weights, acting in the middle of each bar. *)
Definition middle (Q : nat -> v3) (b : rod) : v3 := vscal (1 / 2) (vadd (Q (rod1 b)) (Q (rod2 b))).
Definition lift (T : truss) (P Q : nat -> v3) (bs : list rod) : R := - sumL (fun b => vdot (rodWeight T P b) (middle Q b)) bs.
Definition inTruss (nnod : nat) (b : rod) : Prop := (1 <= rod1 b <= nnod)%nat /\ (1 <= rod2 b <= nnod)%nat.
(** Residual forces [f], loads [g] and reactions [R] cancel; reactions act at prescribed unknowns only. *)
Definition inBalance (N : nat) (f g R : nat -> R) (fixed : nat -> Prop) : Prop :=
  forall i, (1 <= i <= N)%nat -> f i + g i + R i = 0 /\ (~ fixed i -> R i = 0).
Definition sumN (n : nat) (f : nat -> v3) : v3 := V (sumf n (fun k => vx (f k))) (sumf n (fun k => vy (f k))) (sumf n (fun k => vz (f k))).
Definition sumB (f : rod -> v3) (bs : list rod) : v3 := V (sumL (fun b => vx (f b)) bs) (sumL (fun b => vy (f b)) bs) (sumL (fun b => vz (f b)) bs).
Definition moved (u v : nat -> R) (t : R) (i : nat) : R := u i + t * v i.
(** The part of a vector in the directions of the unknowns. *)
Definition keep (d : nat) (a : v3) : v3 := V (vx a) (if (2 <=? d)%nat then vy a else 0) (if (3 <=? d)%nat then vz a else 0).
(** Elongation of a bar in small displacements: the relative displacement of its ends along the bar. *)
Definition elongation (d : nat) (P : nat -> v3) (v : nat -> R) (b : rod) : R :=
  vdot (vsub (P (rod2 b)) (P (rod1 b))) (vsub (disp d v (rod2 b)) (disp d v (rod1 b))) / vlen (vsub (P (rod2 b)) (P (rod1 b))).
(** One to three unknowns in each node, bars between existing nodes. *)
Definition dims (d : nat) : Prop := (d = 1 \/ d = 2 \/ d = 3)%nat.
Definition good (T : truss) (nnod : nat) (bs : list rod) : Prop := dims (tD T) /\ forall b, In b bs -> inTruss nnod b.
(** The assembled force at an unknown; zero if the system is refused. *)
Definition residual (r : res tsys) (i : nat) : R := match r with Ret s => el (sB s) i 1%nat | _ => 0 end.
(** Total force and moment of nodal forces and of the weights, in the current positions [Q]. *)
Definition allForces (d nnod : nat) (T : truss) (P : nat -> v3) (bs : list rod) (g R : nat -> R) : v3 :=
  vadd (sumN nnod (disp d R)) (vadd (sumN nnod (disp d g)) (keep d (sumB (rodWeight T P) bs))).
Definition allMoments (d nnod : nat) (T : truss) (P Q : nat -> v3) (bs : list rod) (g R : nat -> R) : v3 :=
  vadd (sumN nnod (fun n => vcross (Q n) (disp d R n)))
    (vadd (sumN nnod (fun n => vcross (Q n) (disp d g n))) (sumB (fun b => vcross (middle Q b) (rodWeight T P b)) bs)).
