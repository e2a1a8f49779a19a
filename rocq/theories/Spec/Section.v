(** Cross sections as regions of the plane, with area integrals. *)
From Coquelicot Require Import Coquelicot.
From Verif Require Import Lib.Base.

(** Integral of [f y z] over the rectangle of width [B] (along y) and height [H] (along z),
    centred at the origin. *)
Definition rectIntegral (f : R -> R -> R) (B H I : R) : Prop :=
  exists g : R -> R, (forall y, is_RInt (f y) (- (H / 2)) (H / 2) (g y)) /\ is_RInt g (- (B / 2)) (B / 2) I.
(** Hollow box: the outer rectangle without the inner one. *)
Definition boxIntegral (f : R -> R -> R) (B H Bi Hi I : R) : Prop :=
  exists Io Ii, rectIntegral f B H Io /\ rectIntegral f Bi Hi Ii /\ I = Io - Ii.
(** Integral over the ring between radii [r] and [Ro], in polar coordinates. *)
Definition ringIntegral (f : R -> R -> R) (r Ro I : R) : Prop :=
  exists g : R -> R,
    (forall s, is_RInt (fun th => f (s * cos th) (s * sin th) * s) 0 (2 * PI) (g s)) /\ is_RInt g r Ro I.

(** Torsion of a thin-walled closed section (Bredt): J = 4 Am^2 / (closed integral of ds/t). *)
Definition bredt (Am perimeterOverT : R) : R := 4 * Am ^ 2 / perimeterOverT.
