(** Kirchhoff-Love plates.  Models Linear/KirchhoffLovePlate.C:54-332 and the load and mass
    terms of Elasticity/KirchhoffLove.C:283-371.
    [d2 a i j] is fe.d2NdX2(a,i,j), [d3 a i j k] is fe.d3NdX3(a,i,j,k).  The material is the
    plane-stress LinIsotropic the plate solvers create (SIMKLShell.C:139,232,
    SIMLinElBeamC1.C:87,192) with Young's modulus [E] and Poisson's ratio [nu] at the point.
    The transformation to a local coordinate system is not modelled. *)
From Verif Require Import Lib.Base Lib.Writes Lib.Vec3 Model.LinIsotropic.

Section Plate.
Variables (nsd nenod : nat) (E nu T : R) (d2 : nat -> nat -> nat -> R) (detJxW : R).

(* KirchhoffLovePlate.C:54-57, LinIsotropic.C:362-368 *)
Definition getStiffness : R := E * T * T * T / (12 - 12 * nu * nu).

(* formBmatrix, l.90-98 *)
Definition formB (k i : nat) : R :=
  if (nsd =? 1)%nat then match k with 1%nat => d2 i 1%nat 1%nat | _ => 0 end
  else match k with 1%nat => d2 i 1%nat 1%nat | 2%nat => d2 i 2%nat 2%nat | 3%nat => d2 i 1%nat 2%nat * 2 | _ => 0 end.

(* formCmatrix, l.104-115 *)
Definition formC (inv : bool) : res mat :=
  let* C := cmatrix nsd true false inv E nu in
  let factor := T * T * T / 12 in
  Ret (mkMat (rows C) (cols C) (fun i j => (if inv then 1 / factor else factor) * el C i j)).

Definition nstrc : nat := (nsd * (nsd + 1) / 2)%nat.

(* evalK1, l.141-160 *)
Definition evalK1 (EK : nat -> nat -> R) : res (nat -> nat -> R) :=
  let* C := formC false in
  let CB k j := sumf nstrc (fun l => el C k l * formB l j) * detJxW in
  Ret (fun i j => EK i j + sumf nstrc (fun k => formB k i * CB k j)).

(* Matrix::outer_product(X,Y,true) *)
Definition outer (EK : nat -> nat -> R) (X Y : nat -> R) : nat -> nat -> R := fun i j => EK i j + X i * Y j.

(* evalK2, l.163-190 *)
Definition evalK2 (version : nat) (EK : nat -> nat -> R) : nat -> nat -> R :=
  let DdJxW := getStiffness * detJxW in
  let xx i := d2 i 1%nat 1%nat in
  let EK := outer EK xx (fun j => xx j * DdJxW) in
  if (nsd <? 2)%nat then EK else
  let yy i := d2 i 2%nat 2%nat in
  let EK := outer EK yy (fun j => yy j * DdJxW) in
  if (version =? 2)%nat then
    let xy i := d2 i 1%nat 2%nat in outer EK xy (fun j => xy j * DdJxW * 2)
  else
    let EK := outer EK xx (fun j => yy j * DdJxW) in
    outer EK yy (fun j => xx j * DdJxW).

(* evalInt, l.130-137: the stiffness contribution of one integration point *)
Definition evalK (version : nat) (EK : nat -> nat -> R) : res (nat -> nat -> R) :=
  if (version =? 1)%nat then evalK1 EK else Ret (evalK2 version EK).

(* evalSol, l.272-296, version 1: moments m = -C B w *)
Definition moments (w : nat -> R) : res (nat -> R) :=
  let* C := formC false in
  let kappa k := sumf nenod (fun i => formB k i * w i) in
  Ret (fun k => sumf nstrc (fun l => el C k l * (-1 * kappa l))).

(* evalSol, l.298-304: shear forces from the third derivatives *)
Definition shear (d3 : nat -> nat -> nat -> nat -> R) (w : nat -> R) (d : nat) : R :=
  - getStiffness * sumf nsd (fun c => sumf nenod (fun i => w i * d3 i c c d)).

(* evalSol, l.316-324, versions 2 and 3 *)
Definition laplacian (w : nat -> R) (k : nat) : R :=
  match k with 3%nat => sumf nenod (fun i => w i * d2 i 1%nat 2%nat) | _ => sumf nenod (fun i => w i * d2 i k k) end.
End Plate.

(** * Loads and mass: KirchhoffLove.C *)
(* getPressure, l.283-296.  [press]: the pressure functions (or their time derivatives) at the
   point; [isZero n] is IFEM's Vec3::isZero. *)
Definition getPressure (isZero : v3 -> bool) (rho gravity thick : R) (press : list R) (n : v3) (grd : bool) : v3 :=
  fold_left (fun p f => if isZero n then V (vx p) (vy p) (vz p + f) else vadd p (vscal f n)) press
    (V 0 0 (if grd then 0 else rho * gravity * thick)).

(* formBodyForce, l.330-350: load vector (one column) and total load (one column, [rows] is the
   size of sumLoad).  For npv = 1 Vector::add(N,c) adds c N. *)
Definition formBodyForce (isZero : v3 -> bool) (npv nenod : nat) (N : nat -> R) (p : v3) (detJW : R) (grd : bool)
    (ES sumLoad : mat) : res (mat * mat) :=
  if isZero p then Ret (ES, sumLoad) else
  let* ES' :=
    (if (npv =? 1)%nat then run_add ES (loop nenod (fun a => [(a, 1%nat, N a * (vz p * detJW))]))
     else run_add ES (loop nenod (fun a => loop npv (fun i => [(dof npv a i, 1%nat, N a * vc p i * detJW)])))) in
  if grd then Ret (ES', sumLoad) else
  let* sum' :=
    (if ((npv =? 1) && negb (rows sumLoad =? 0))%nat%bool then run_add sumLoad [(1%nat, 1%nat, vz p * detJW)]
     else run_add sumLoad (loop (Nat.min npv (rows sumLoad)) (fun i => [(i, 1%nat, vc p i * detJW)]))) in
  Ret (ES', sum').

(* formMassMatrix, l.358-371.  The test [rhow == 0.0] is exact equality. *)
Definition formMassMatrix (npv nenod : nat) (N : nat -> R) (rho thick detJW : R) (EM : mat) : res mat :=
  let rhow := rho * thick * detJW in
  if Req_EM_T rhow 0 then Ret EM
  else if (npv =? 1)%nat then run_add EM (loop nenod (fun a => loop nenod (fun b => [(a, b, N a * (N b * rhow))])))
  else run_add EM (loop nenod (fun a => loop nenod (fun b => loop npv (fun i =>
         [(dof npv a i, dof npv b i, rhow * N a * N b)])))).
