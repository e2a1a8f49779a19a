(** The bending problem of a plate, independent of matrices and of the assembly. *)
From Coquelicot Require Import Coquelicot.
From Verif Require Import Lib.Base Lib.Vec3 Spec.Plate Model.PlateSys.

(** Deflection and its second derivatives at a point, from the values of the nodes of the element. *)
Definition deflection (e : pelt) (p : ppt) (w : nat -> R) : R := sumf (qNen e) (fun a => qN p a * w (qConn e a)).
Definition bend (e : pelt) (p : ppt) (w : nat -> R) : curv :=
  mkCurv (sumf (qNen e) (fun a => qD2 p a 1%nat 1%nat * w (qConn e a))) (sumf (qNen e) (fun a => qD2 p a 2%nat 2%nat * w (qConn e a)))
    (sumf (qNen e) (fun a => qD2 p a 1%nat 2%nat * w (qConn e a))).
(** Virtual work of the moments of one deflection in the curvatures of the other: the plate, and the two tensor forms. *)
Definition momentWork (version : nat) (p : ppt) (c c' : curv) : R :=
  let D := rigidity (qE p) (qNu p) (qT p) in
  match version with
  | 1%nat => D * ((wxx c + qNu p * wyy c) * wxx c' + (wyy c + qNu p * wxx c) * wyy c' + 2 * (1 - qNu p) * wxy c * wxy c')
  | 2%nat => D * (wxx c * wxx c' + wyy c * wyy c' + 2 * wxy c * wxy c')
  | _ => D * ((wxx c + wyy c) * (wxx c' + wyy c'))
  end.
(** Load for each unit of area: weight and pressures; neglected if it is as good as zero. *)
Definition areaLoad (small : v3 -> bool) (gravity : R) (p : ppt) : R :=
  let q := qRho p * gravity * qT p + sumL (fun f => f) (qPress p) in if small (V 0 0 q) then 0 else q.
Definition overPlate (es : list pelt) (f : pelt -> ppt -> R) : R := sumL (fun e => sumL (fun p => qW p * f e p) (qPts e)) es.
Definition innerWork (version : nat) (es : list pelt) (v w : nat -> R) : R := overPlate es (fun e p => momentWork version p (bend e p v) (bend e p w)).
Definition loadWork (small : v3 -> bool) (gravity : R) (es : list pelt) (v : nat -> R) : R := overPlate es (fun e p => areaLoad small gravity p * deflection e p v).
Definition totalLoad (small : v3 -> bool) (gravity : R) (es : list pelt) : R := overPlate es (fun _ p => areaLoad small gravity p).
(** Elements of existing nodes, admissible material. *)
Definition goodPlate (nnod : nat) (es : list pelt) : Prop :=
  forall e, In e es -> (forall a, (1 <= a <= qNen e)%nat -> (1 <= qConn e a <= nnod)%nat) /\ forall p, In p (qPts e) -> 0 <= qNu p < 1 / 2.
Definition solidPlate (es : list pelt) : Prop := forall e p, In e es -> In p (qPts e) -> 0 < qE p /\ 0 < qT p /\ 0 <= qW p.
(** The basis represents the flat deflections a + b x + c y; [X], [Y] are the positions of the nodes, [x], [y] of the points. *)
Definition flat (X Y : nat -> R) (a b c : R) (n : nat) : R := a + b * X n + c * Y n.
Definition flatBasis (es : list pelt) (X Y : nat -> R) (x y : ppt -> R) : Prop :=
  forall e p a b c, In e es -> In p (qPts e) -> deflection e p (flat X Y a b c) = a + b * x p + c * y p /\ bend e p (flat X Y a b c) = mkCurv 0 0 0.
(** Nodal loads [g] and reactions [R] hold the deflections [w] in equilibrium; reactions act at prescribed nodes only. *)
Definition held (n : nat) (K : nat -> nat -> R) (f g R w : nat -> R) (fixed : nat -> Prop) : Prop :=
  forall i, (1 <= i <= n)%nat -> mv n K w i = f i + g i + R i /\ (~ fixed i -> R i = 0).
Definition nodeWork (n : nat) (g w : nat -> R) : R := sumf n (fun i => g i * w i).
Definition plateEnergy (version : nat) (small : v3 -> bool) (gravity : R) (n : nat) (es : list pelt) (g w : nat -> R) : R :=
  innerWork version es w w / 2 - loadWork small gravity es w - nodeWork n g w.
