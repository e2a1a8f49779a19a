(** Beam theory, independent of the element matrices: cubic deflections with constant shear
    strain, energies as integrals along the axis, and rigid-body motions in space. *)
From Coquelicot Require Import Coquelicot.
From Verif Require Import Lib.Base Lib.Vec3.

Record cubic := mkCubic { c0 : R; c1 : R; c2 : R; c3 : R }.
Definition defl (w : cubic) (x : R) : R := c0 w + c1 w * x + c2 w * x ^ 2 + c3 w * x ^ 3.
Definition slope (w : cubic) (x : R) : R := c1 w + 2 * c2 w * x + 3 * c3 w * x ^ 2.
Definition curv (w : cubic) (x : R) : R := 2 * c2 w + 6 * c3 w * x.
Definition third (w : cubic) : R := 6 * c3 w.

(** Shear strain from moment equilibrium, EI w''' + kGA gamma = 0, with
    [Al] = 12 EI / (kGA L^2). *)
Definition shear (Al L : R) (w : cubic) : R := - (Al * L ^ 2 / 12) * third w.

(** The field with given end deflections and rotations (rotation = slope - shear strain). *)
Definition beamField (Al L w1 t1 w2 t2 : R) (w : cubic) : Prop :=
  defl w 0 = w1 /\ slope w 0 - shear Al L w = t1 /\ defl w L = w2 /\ slope w L - shear Al L w = t2.

(** Bending and shear energy density (twice), with kGA gamma^2 = EI Al L^2/12 (w''')^2. *)
Definition bendDensity (EI Al L : R) (w : cubic) (x : R) : R :=
  EI * curv w x ^ 2 + EI * (Al * L ^ 2 / 12) * third w ^ 2.

(** Linear interpolation. *)
Definition linear (L a b x : R) : R := a + (b - a) * (x / L).

(** ** Rigid-body motions: node [k] at position [P k], 1-based degrees of freedom. *)
Definition nodal (d1 r1 d2 r2 : v3) (i : nat) : R :=
  match i with
  | 1 => vx d1 | 2 => vy d1 | 3 => vz d1 | 4 => vx r1 | 5 => vy r1 | 6 => vz r1
  | 7 => vx d2 | 8 => vy d2 | 9 => vz d2 | 10 => vx r2 | 11 => vy r2 | 12 => vz r2
  | _ => 0%R
  end%nat.
Definition rigidMotion (a om P1 P2 : v3) : nat -> R :=
  nodal (vadd a (vcross om P1)) om (vadd a (vcross om P2)) om.

(** Right-handed orthonormal axes as the columns of [T]. *)
Definition col (T : nat -> nat -> R) (j : nat) : v3 := V (T 1%nat j) (T 2%nat j) (T 3%nat j).
Record frame (T : nat -> nat -> R) : Prop := {
  f11 : vdot (col T 1) (col T 1) = 1; f22 : vdot (col T 2) (col T 2) = 1; f33 : vdot (col T 3) (col T 3) = 1;
  f12 : vdot (col T 1) (col T 2) = 0; f13 : vdot (col T 1) (col T 3) = 0; f23 : vdot (col T 2) (col T 3) = 0;
  fh : vcross (col T 1) (col T 2) = col T 3 }.

(** Nodal displacements at the shear centre, offset (Sy,Sz) from the axis ... *)
Definition shearV (Sy Sz : R) (u : nat -> R) (i : nat) : R :=
  match i with
  | 2%nat => u 2%nat - Sz * u 4%nat | 3%nat => u 3%nat + Sy * u 4%nat
  | 8%nat => u 8%nat - Sz * u 10%nat | 9%nat => u 9%nat + Sy * u 10%nat
  | _ => u i
  end.
(** ... and at points offset by [-e1], [-e2] from the nodes: u - theta x e. *)
Definition eccV (e1 e2 : v3) (u : nat -> R) (i : nat) : R :=
  match i with
  | 1%nat => u 1%nat - vz e1 * u 5%nat + vy e1 * u 6%nat
  | 2%nat => u 2%nat + vz e1 * u 4%nat - vx e1 * u 6%nat
  | 3%nat => u 3%nat - vy e1 * u 4%nat + vx e1 * u 5%nat
  | 7%nat => u 7%nat - vz e2 * u 11%nat + vy e2 * u 12%nat
  | 8%nat => u 8%nat + vz e2 * u 10%nat - vx e2 * u 12%nat
  | 9%nat => u 9%nat - vy e2 * u 10%nat + vx e2 * u 11%nat
  | _ => u i
  end.

