(** Contact of deformable bodies with rigid ones. *)
From Verif Require Import Lib.Base Lib.Sums Lib.Writes Model.Mortar Model.AugLag.
Import ListNotations.

(** Signorini's conditions for gap [g] and multiplier [l] (negative in compression): no penetration, no tension, and no
    force across an open gap. *)
Definition contactLaw (g l : R) : Prop := 0 <= g /\ l <= 0 /\ l * g = 0.

(** Rate of the gap at an integration point: normal component of the motion of the slave point relative to the master point. *)
Definition motion (nsd : nat) (e : elm) (p : point) (du : nat -> R) : R :=
  sumf (nen e + nmast e) (fun i => if (conn e i =? 0)%nat then 0 else
    (if (i <=? nen e)%nat then pN p i else - pNm p (i - nen e)%nat) * sumf nsd (fun k => pNorm p k * du (dof nsd (conn e i) k))).
(** The same contact elements after the motion [du], for a master surface whose normal does not change. *)
Definition moved (nsd : nat) (du : nat -> R) (e : elm) : elm :=
  mkElm (nen e) (nmast e) (conn e) (map (fun p => mkPoint (pN p) (pNm p) (pNorm p) (detJxW p) (gap p + motion nsd e p du)) (pts e)).

(** Weighted sum of a quantity at the integration points around slave node [n], its area and the mean gap. *)
Definition nodeSum (els : list elm) (f : point -> R) (n : nat) : R :=
  sumL (fun e => sumf (nen e) (fun j => if (conn e j =? n)%nat then sumL (fun p => pN p j * f p * detJxW p) (pts e) else 0)) els.
Definition nodeArea (els : list elm) (n : nat) : R := nodeSum els (fun _ => 1) n.
Definition meanGap (els : list elm) (n : nat) : R := nodeSum els gap n / nodeArea els n.
(** The force which acts at a slave node: compressive, or none. *)
Definition nodeForce (eps : R) (els : list elm) (psol : nat -> R) (n : nat) : R := Rmin 0 (psol n + eps * meanGap els n).
Definition touching (eps : R) (els : list elm) (psol : nat -> R) (n : nat) : Prop := psol n + eps * meanGap els n <= 0.
