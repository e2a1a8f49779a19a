(** Rigid master surfaces for contact.
    Models FiniteDeformation/RigidBody.C:67-336. *)
From Verif Require Import Lib.Base Lib.Vec3.

(* l.21 *)
Definition epsZ : R := / 10 ^ 16.

(* Vec3::normalize (IFEM): returns the length; divides by it unless it is below the
   tolerance, whose default is taken to be epsZ. *)
Definition normalize (v : v3) : R * v3 :=
  let d := vlen v in (d, if Rle_dec d epsZ then v else vscal (/ d) v).

(* RigidBody::update, l.67-88: current position of a point, in [nsd] dimensions, from the
   components [u] of its displacement.  The node numbers are assumed valid. *)
Definition updatePoint (nsd : nat) (X0 Xn : v3) (u : option v3) : v3 :=
  match u with
  | None => X0
  | Some u => V (vx X0 + vx u) (vy X0 + vy u) (if (nsd =? 3)%nat then vz X0 + vz u else vz Xn)
  end.

(** ** Sphere, l.115-148 *)
Definition sphereGap (Rd : R) (C X : v3) : R * v3 * list R :=
  let '(d, n) := normalize (vsub X C) in (d - Rd, n, [1]).

(* normal, Tg and N; [n0] is the normal passed in *)
Definition sphereStiff (C X n0 : v3) : v3 * (nat -> nat -> R) * list R :=
  let '(d, dX) := normalize (vsub X C) in
  let '(n, d) := if Rlt_dec epsZ d then (dX, d) else (vscal (-1) n0, 1) in
  (n, fun i j => (kron i j - vc dX i * vc dX j) / d, [1]).

(** ** Cylinder *)
(* update, l.177-194: axis direction and length; [None] when degenerated *)
Definition cylAxis (X1 X2 : v3) : option (v3 * R) :=
  let '(L, d) := normalize (vsub X2 X1) in if Rle_dec L epsZ then None else Some (d, L).
(* l.154 *)
Definition cylAxis2D : v3 := V 0 0 1.

(* l.203-210 and 238-245 *)
Definition cylWeights (nsd : nat) (z L : R) : list R := if (nsd =? 2)%nat then [1] else [1 - z / L; z / L].

(* l.197-213 *)
Definition cylGap (nsd : nat) (Rd : R) (C dir : v3) (L : R) (X : v3) : R * v3 * list R :=
  let n := vsub X C in
  let z := vdot n dir in
  let n := vsub n (vscal z dir) in
  let '(d, n) := normalize n in
  (d - Rd, n, cylWeights nsd z L).

(* l.216-246 *)
Definition cylStiff (nsd : nat) (C dir : v3) (L : R) (X n0 : v3) : v3 * (nat -> nat -> R) * list R :=
  let dX := vsub X C in
  let z := vdot dX dir in
  let dX := vsub dX (vscal z dir) in
  let '(d, dX) := normalize dX in
  let '(n, d) := if Rlt_dec epsZ d then (dX, d) else (vscal (-1) n0, 1) in
  (n, fun i j => (kron i j - vc dir i * vc dir j - vc dX i * vc dX j) / d, cylWeights nsd z L).

(** ** Plane *)
(* update, l.269-297: normal and length or area; [None] when degenerated *)
Definition planeUpdate (nsd : nat) (X1 X2 X3 : v3) : option (v3 * R) :=
  let t1 := vsub X2 X1 in
  if (nsd =? 2)%nat then
    let '(a, t1) := normalize t1 in if Rle_dec a epsZ then None else Some (V (- vy t1) (vx t1) 0, a)
  else
    let '(a, n) := normalize (vcross t1 (vsub X3 X1)) in if Rle_dec a epsZ then None else Some (n, a).

(* l.300-327; Vec3(a,b) is the cross product (IFEM) *)
Definition planeGap (nsd : nat) (X1 X2 X3 n : v3) (area : R) (X : v3) : R * v3 * list R :=
  let dX := vsub X X1 in
  let g := vdot dX n in
  let dX := vsub dX (vscal g n) in
  (g, n,
   if (nsd =? 2)%nat then let xi := vlen dX / area in [1 - xi; xi]
   else let A2 := vlen (vcross dX (vsub X2 X1)) / area in
        let A3 := vlen (vcross (vsub X3 X1) dX) / area in
        [1 - A2 - A3; A2; A3]).
