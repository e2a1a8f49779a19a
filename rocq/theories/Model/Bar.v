(** Two-node bar element.  Models Beam/ElasticBar.C:118-310 (evalInt), 313-323 (getStrain)
    and 345-363 (reduction to fewer components per node).  The element matrices are 6x6 with
    zero initial content (IFEM's ElmMats::redim); X0.normalize() and X.normalize() are divided
    by the length without IFEM's tolerance, as the lengths are checked to exceed 1e-8. *)
From Verif Require Import Lib.Base Lib.Vec3.

Inductive measure := Green | Log | Eng | Other.

(* getStrain, l.313-323 *)
Definition getStrain (m : measure) (lam : R) : R :=
  match m with Green => 1 / 2 * lam * lam - 1 / 2 | Log => ln lam | _ => lam - 1 end.

Section Bar.
Variables (m : measure) (k lineMass : R).   (* strain_meassure, stiffness, lineMass *)

(* l.181-197: axial force, nominal stiffnesses *)
Definition axialForce (L0 L : R) : R :=
  let F := k * getStrain m (L / L0) in
  match m with Green => F * (L / L0) | Log => F / (L / L0) | _ => F end.
Definition kmNom (L0 L : R) : R :=
  match m with Green => k / L0 * (L / L0 * (L / L0)) | Log => k / L0 / (L / L0 * (L / L0)) | _ => k / L0 end.
Definition kgNom (eKg : bool) (L0 L : R) : R :=
  if eKg then
    let g := k * getStrain m (L / L0) / L in
    match m with Green => g * (L / L0) | Log => g / (L / L0) | _ => g end
  else 0.

(* l.160-177: local Y and Z axes *)
Definition unit (v : v3) : v3 := vscal (/ vlen v) v.
Definition localAxes (X : v3) : v3 * v3 :=
  if Rlt_dec (Rabs (vy X)) (Rabs (vz X)) then
    let Y := unit (V (- vy X * vx X) (vx X * vx X + vz X * vz X) (- vy X * vz X)) in (Y, vcross X Y)
  else
    let Z := unit (V (- vz X * vx X) (- vz X * vy X) (vx X * vx X + vy X * vy X)) in (vcross Z X, Z).

(* l.223-237 *)
Definition kij (L0 L : R) (X : v3) (i j : nat) : R :=
  let g := kgNom true L0 L in
  match m with
  | Eng => g * (kron i j - vc X i * vc X j)
  | Green => if (i =? j)%nat then g else 0
  | Log => g * (kron i j - 2 * vc X i * vc X j)
  | Other => let '(Y, Z) := if Req_EM_T L L0 then (vzero, vzero) else localAxes X in
             g * (vc Y i * vc Y j + vc Z i * vc Z j)
  end.

(* l.206-259: the material matrix, and the geometric one when it is stored separately *)
Inductive slot := Nowhere | Same | Separate.   (* eKg = 0, eKg = eKm, other *)
Definition third3 (i : nat) : nat := S ((i - 1) mod 3).
Definition sgn (i j : nat) : R := if ((i <=? 3) && (j <=? 3) || (4 <=? i) && (4 <=? j))%nat%bool then 1 else -1.
Definition km11 (w : slot) (L0 L : R) (X : v3) (i j : nat) : R :=
  let K := kmNom L0 L * vc X i * vc X j in
  match w with
  | Same => if Req_EM_T (kgNom true L0 L) 0 then K else K + kij L0 L X i j
  | _ => K
  end.
Definition matKm (w : slot) (L0 L : R) (X : v3) (i j : nat) : R :=
  sgn i j * km11 w L0 L X (third3 i) (third3 j).
Definition matKg (L0 L : R) (X : v3) (i j : nat) : R :=
  if Req_EM_T (kgNom true L0 L) 0 then 0
  else if Rlt_dec 0 (sgn i j) then kij L0 L X (third3 i) (third3 j)
  else - matKm Separate L0 L X (third3 i) (third3 j).

(* l.261-273; [mass] = 0.5*lineMass*L0 *)
Definition barMass (lumped : bool) (L0 : R) (i j : nat) : R :=
  let mass := 1 / 2 * lineMass * L0 in
  if lumped then if (i =? j)%nat then mass else 0
  else if (i =? j)%nat then mass / 3 * 2 else mass / 3.
(* l.275-280 *)
Definition barGravity (L0 : R) (g : v3) (i : nat) : R := 1 / 2 * lineMass * L0 * vc g (third3 i).
(* l.286-300: minus the internal forces *)
Definition barForce (L0 L : R) (X : v3) (i : nat) : R :=
  if (i <=? 3)%nat then axialForce L0 L * vc X (third3 i) else - (axialForce L0 L * vc X (third3 i)).
End Bar.

(** The whole evaluation for reference ends [P1], [P2] and end displacements [U1], [U2] *)
Record barOut := mkBarOut { oKm : nat -> nat -> R; oKg : nat -> nat -> R; oS : nat -> R }.
Definition evalBar (m : measure) (k : R) (w : slot) (P1 P2 U1 U2 : v3) : res barOut :=
  let L0 := vlen (vsub P2 P1) in
  let r := vsub (vadd P2 U2) (vadd P1 U1) in
  let L := vlen r in
  if Rle_dec L0 (1 / 10 ^ 8) then Rejected
  else if Rle_dec L (1 / 10 ^ 8) then Rejected
  else let X := unit r in
    Ret (mkBarOut (matKm m k w L0 L X) (match w with Separate => matKg m k L0 L X | _ => fun _ _ => 0 end) (barForce m k L0 L X)).

(** ** finalizeElement, l.345-363: reduction to [npv] components per node, [nen] nodes *)
Definition shrinkMat (npv : nat) (A : nat -> nat -> R) (i j : nat) : R :=
  A (3 * ((i - 1) / npv) + S ((i - 1) mod npv))%nat (3 * ((j - 1) / npv) + S ((j - 1) mod npv))%nat.
Definition shrinkStep (npv : nat) (b : nat -> R) (p : nat * nat) : nat -> R :=
  let '(a, i) := p in fun n => if (n =? npv * a + i)%nat then b (3 * a + i)%nat else b n.
Definition shrinkVec (npv nen : nat) (b : nat -> R) : nat -> R :=
  fold_left (shrinkStep npv) (flat_map (fun a => map (fun i => (a, i)) (seq 1 npv)) (seq 1 (nen - 1))) b.
