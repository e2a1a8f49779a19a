(** Specification of the thin shell: strain measures of a surface and the isotropic energy in
    terms of the reference metric (independent of the parametrisation). *)
From Verif Require Import Lib.Base Lib.Vec3.

(** Symmetric surface tensor with covariant components 11, 22 and 12. *)
Record sym2 := mkS { a11 : R; a22 : R; a12 : R }.
Definition metric (g1 g2 : v3) : sym2 := mkS (vdot g1 g1) (vdot g2 g2) (vdot g1 g2).
Definition det2 (m : sym2) : R := a11 m * a22 m - a12 m ^ 2.
(** Contravariant metric. *)
Definition inverse (m : sym2) : sym2 := mkS (a22 m / det2 m) (a11 m / det2 m) (- a12 m / det2 m).
Definition trace (m A : sym2) : R := let c := inverse m in a11 c * a11 A + a22 c * a22 A + 2 * a12 c * a12 A.
Definition norm2 (m A : sym2) : R := let c := inverse m in
  let b11 := a11 c * a11 A + a12 c * a12 A in let b12 := a11 c * a12 A + a12 c * a22 A in
  let b21 := a12 c * a11 A + a22 c * a12 A in let b22 := a12 c * a12 A + a22 c * a22 A in
  b11 * b11 + 2 * b12 * b21 + b22 * b22.
(** Isotropic plane-stress power of a surface tensor. *)
Definition power (E nu : R) (m A : sym2) : R := E / (1 - nu ^ 2) * (nu * trace m A ^ 2 + (1 - nu) * norm2 m A).
(** Twice the energy per unit area, thickness t, membrane strain e and curvature change k. *)
Definition shellPower (E nu t : R) (m e k : sym2) : R := t * power E nu m e + t ^ 3 / 12 * power E nu m k.

Definition unitNormal (g1 g2 : v3) : v3 := vscal (/ vlen (vcross g1 g2)) (vcross g1 g2).
(** Second fundamental form: second derivatives h11 h22 h12 of the position in the direction of the normal. *)
Definition second (g1 g2 h11 h22 h12 : v3) : sym2 := let n := unitNormal g1 g2 in mkS (vdot n h11) (vdot n h22) (vdot n h12).
Definition diff (k : R) (a b : sym2) : sym2 := mkS (k * (a11 a - a11 b)) (k * (a22 a - a22 b)) (k * (a12 a - a12 b)).
(** Strains of a surface between a reference (capital) and a current configuration: half the change of the
    metric, and the change of the second fundamental form (to first order the strain at distance z along
    the normal is e + z k). *)
Record surface := mkSurf { t1 : v3; t2 : v3; s11 : v3; s22 : v3; s12 : v3 }.
Definition surfMetric (s : surface) : sym2 := metric (t1 s) (t2 s).
Definition surfSecond (s : surface) : sym2 := second (t1 s) (t2 s) (s11 s) (s22 s) (s12 s).
Definition surfNormal (s : surface) : v3 := unitNormal (t1 s) (t2 s).
Definition membrane (ref cur : surface) : sym2 := diff (1 / 2) (surfMetric cur) (surfMetric ref).
Definition bendingStrain (ref cur : surface) : sym2 := diff 1 (surfSecond ref) (surfSecond cur).
(** Nodal positions 3(a-1)+i and shape function derivatives give a surface point. *)
Definition field (nen : nat) (c : nat -> R) (x : nat -> R) : v3 :=
  V (sumf nen (fun a => x (3 * (a - 1) + 1)%nat * c a)) (sumf nen (fun a => x (3 * (a - 1) + 2)%nat * c a)) (sumf nen (fun a => x (3 * (a - 1) + 3)%nat * c a)).
Definition surfaceOf (nen : nat) (dN : nat -> nat -> R) (d2N : nat -> nat -> nat -> R) (x : nat -> R) : surface :=
  mkSurf (field nen (fun a => dN a 1%nat) x) (field nen (fun a => dN a 2%nat) x)
    (field nen (fun a => d2N a 1%nat 1%nat) x) (field nen (fun a => d2N a 2%nat 2%nat) x) (field nen (fun a => d2N a 1%nat 2%nat) x).
(** A finite rotation. *)
Definition rotation (Q : v3 -> v3) : Prop :=
  (forall a b, Q (vadd a b) = vadd (Q a) (Q b)) /\ (forall k a, Q (vscal k a) = vscal k (Q a)) /\
  (forall a b, vdot (Q a) (Q b) = vdot a b) /\ forall a b, vcross (Q a) (Q b) = Q (vcross a b).
Definition rotated (Q : v3 -> v3) (s : surface) : surface := mkSurf (Q (t1 s)) (Q (t2 s)) (Q (s11 s)) (Q (s22 s)) (Q (s12 s)).
(** Plane-stress stress components 11, 22, 12 at distance z from the middle surface in a local Cartesian
    basis, for membrane strain e and bending strain k (engineering shear). *)
Definition stressAt (E nu : R) (e k : v3) (z : R) (i : nat) : R :=
  let x := vadd e (vscal z k) in
  match i with 1%nat => E / (1 - nu ^ 2) * (vx x + nu * vy x) | 2%nat => E / (1 - nu ^ 2) * (vy x + nu * vx x)
  | 3%nat => E / (2 * (1 + nu)) * vz x | _ => 0 end.
