(** Two-node beam element matrices.
    Models Beam/ElasticBeam.C:197-300, 303-511, 514-649 and 658-717.  The 12 degrees of
    freedom are numbered 1..12 as in the code: displacements 1-3 and rotations 4-6 of the
    first node, then those of the second node. *)
From Verif Require Import Lib.Base Lib.Script Lib.Vec3.
Local Open Scope nat_scope.

(* reading and assigning A(i,j) *)
Definition rd (A : fmat) (i j : nat) : R := A i j.
Definition asgn (i j : nat) (e : fmat -> R) : asg := (i, j, e).
Definition rv (b : nat -> R) (i : nat) : R := b i.
(* EK(i,j) = EK(k,l) = v *)
Definition both (i j k l : nat) (v : fmat -> R) : list asg := [(k, l, v); (i, j, fun A => rd A k l)].
Definition one (i j : nat) (v : fmat -> R) : list asg := [(i, j, v)].

(** ** Transformations *)
(* shearTransform, l.341-350 *)
Definition shearProg (Sy Sz : R) : list asg :=
  (flat_map (fun j => flat_map (fun i => [asgn (i + 4) j (fun A => rd A (i + 4) j + (Sy * rd A (i + 3) j - Sz * rd A (i + 2) j))%R]) [0; 6]) (seq 1 12) ++
   flat_map (fun i => flat_map (fun j => [asgn i (j + 4) (fun A => rd A i (j + 4) + (rd A i (j + 3) * Sy - rd A i (j + 2) * Sz))%R]) [0; 6]) (seq 1 12))%list.

(* eccTransform, l.317-338 *)
Definition eccProg (e1 e2 : v3) : list asg :=
  (flat_map (fun j =>
     [asgn 4 j (fun A => rd A 4 j + (vz e1 * rd A 2 j - vy e1 * rd A 3 j));
      asgn 5 j (fun A => rd A 5 j + (- vz e1 * rd A 1 j + vx e1 * rd A 3 j));
      asgn 6 j (fun A => rd A 6 j + (vy e1 * rd A 1 j - vx e1 * rd A 2 j));
      asgn 10 j (fun A => rd A 10 j + (vz e2 * rd A 8 j - vy e2 * rd A 9 j));
      asgn 11 j (fun A => rd A 11 j + (- vz e2 * rd A 7 j + vx e2 * rd A 9 j));
      asgn 12 j (fun A => rd A 12 j + (vy e2 * rd A 7 j - vx e2 * rd A 8 j))]%R) (seq 1 12) ++
   flat_map (fun i =>
     [asgn i 4 (fun A => rd A i 4 + (vz e1 * rd A i 2 - vy e1 * rd A i 3));
      asgn i 5 (fun A => rd A i 5 + (- vz e1 * rd A i 1 + vx e1 * rd A i 3));
      asgn i 6 (fun A => rd A i 6 + (vy e1 * rd A i 1 - vx e1 * rd A i 2));
      asgn i 10 (fun A => rd A i 10 + (vz e2 * rd A i 8 - vy e2 * rd A i 9));
      asgn i 11 (fun A => rd A i 11 + (- vz e2 * rd A i 7 + vx e2 * rd A i 9));
      asgn i 12 (fun A => rd A i 12 + (vy e2 * rd A i 7 - vx e2 * rd A i 8))]%R) (seq 1 12))%list.

(* eccTransform of a vector, l.306-314 *)
Definition eccVec (e1 e2 : v3) (b : nat -> R) (i : nat) : R :=
  (match i with
   | 4 => rv b 4 + (vz e1 * rv b 2 - vy e1 * rv b 3)
   | 5 => rv b 5 + (- vz e1 * rv b 1 + vx e1 * rv b 3)
   | 6 => rv b 6 + (vy e1 * rv b 1 - vx e1 * rv b 2)
   | 10 => rv b 10 + (vz e2 * rv b 8 - vy e2 * rv b 9)
   | 11 => rv b 11 + (- vz e2 * rv b 7 + vx e2 * rv b 9)
   | 12 => rv b 12 + (vy e2 * rv b 7 - vx e2 * rv b 8)
   | _ => b i
   end)%R.

(* l.400 and 448 *)
Definition skewed (Sy Sz : R) : bool := if Rlt_dec (/ 10 ^ 12) (Rabs Sy + Rabs Sz) then true else false.

(** ** Material stiffness, l.365-406 *)
Section Stiffness.
Variables (L EA GIt EIy EIz Aly Alz : R).
Definition stiffProg : list asg := let L3 := (L * L * L)%R in
  (both 1 1 7 7 (fun _ => EA / L) ++
   both 2 2 8 8 (fun _ => 12 * EIy / (L3 + L3 * Aly)) ++
   both 3 3 9 9 (fun _ => 12 * EIz / (L3 + L3 * Alz)) ++
   both 4 4 10 10 (fun _ => GIt / L) ++
   both 5 5 11 11 (fun _ => EIz * (4 + Alz) / (L + L * Alz)) ++
   both 6 6 12 12 (fun _ => EIy * (4 + Aly) / (L + L * Aly)) ++
   both 3 5 3 11 (fun A => - rd A 3 3 * L * (1 / 2)) ++
   both 2 6 2 12 (fun A => rd A 2 2 * L * (1 / 2)) ++
   one 1 7 (fun A => - rd A 1 1) ++
   both 6 8 8 12 (fun A => - rd A 2 6) ++
   both 5 9 9 11 (fun A => - rd A 3 5) ++
   one 4 10 (fun A => - rd A 4 4) ++
   one 2 8 (fun A => - rd A 2 2) ++
   one 3 9 (fun A => - rd A 3 3) ++
   one 5 11 (fun _ => EIz * (2 - Alz) / (L + L * Alz)) ++
   one 6 12 (fun _ => EIy * (2 - Aly) / (L + L * Aly)))%R%list.
End Stiffness.
Definition stiffness (L EA GIt EIy EIz Aly Alz Sy Sz : R) : fmat :=
  exec zero (stiffProg L EA GIt EIy EIz Aly Alz ++ mirror 12 ++ if skewed Sy Sz then shearProg Sy Sz else [])%list.

(** ** Geometric stiffness, l.414-454 *)
Section Geometric.
Variables (N L Aly Alz ItoA : R).
Definition geoProg : list asg := let L2 := (L * L)%R in
  let Cy := (N / (L * (1 + Aly) * (1 + Aly)))%R in let Cz := (N / (L * (1 + Alz) * (1 + Alz)))%R in
  (both 2 2 8 8 (fun _ => Cy * (12 / 10 + Aly * (2 + Aly))) ++
   both 3 3 9 9 (fun _ => Cz * (12 / 10 + Alz * (2 + Alz))) ++
   both 4 4 10 10 (fun _ => N * ItoA / L) ++
   both 5 5 11 11 (fun _ => Cz * L2 * (4 / 10 + Alz * (1 / 2 + 1 / 4 * Alz)) / 3) ++
   both 6 6 12 12 (fun _ => Cy * L2 * (4 / 10 + Aly * (1 / 2 + 1 / 4 * Aly)) / 3) ++
   both 3 5 3 11 (fun _ => - Cz * L * (1 / 10)) ++
   both 5 9 9 11 (fun A => - rd A 3 5) ++
   both 2 6 2 12 (fun _ => Cy * L * (1 / 10)) ++
   both 6 8 8 12 (fun A => - rd A 2 6) ++
   one 2 8 (fun A => - rd A 2 2) ++
   one 3 9 (fun A => - rd A 3 3) ++
   one 4 10 (fun A => - rd A 4 4) ++
   one 5 11 (fun _ => - Cz * L2 * (1 / 10 + Alz * (1 / 2 + 1 / 4 * Alz)) / 3) ++
   one 6 12 (fun _ => - Cy * L2 * (1 / 10 + Aly * (1 / 2 + 1 / 4 * Aly)) / 3))%R%list.
End Geometric.
Definition geometric (N L Aly Alz ItoA Sy Sz : R) : fmat :=
  exec zero (geoProg N L Aly Alz ItoA ++ mirror 12 ++ if skewed Sy Sz then shearProg Sy Sz else [])%list.

(** ** Mass, l.462-511 *)
Section Mass.
Variables (rhoA Ixx Iyy Izz L : R).
Definition lumpedProg : list asg := let AM := (L * rhoA)%R in let AM3 := (L * (L * AM))%R in
  (flat_map (fun i => one i i (fun _ => 1 / 2 * AM)) [9; 8; 7; 3; 2; 1]%nat ++
   both 4 4 10 10 (fun _ => 1 / 2 * L * Ixx) ++
   flat_map (fun i => one i i (fun _ => AM3 / 420)) [12; 11; 6; 5]%nat)%R%list.
Definition consProg : list asg := let AM := (L * rhoA)%R in let AM2 := (L * AM)%R in let AM3 := (L * AM2)%R in
  (both 1 1 7 7 (fun _ => AM / 3) ++
   both 2 2 8 8 (fun _ => AM * (13 / 10) / (35 / 10) + Izz * (12 / 10) / L) ++
   both 3 3 9 9 (fun _ => AM * (13 / 10) / (35 / 10) + Iyy * (12 / 10) / L) ++
   both 4 4 10 10 (fun _ => L * Ixx / 3) ++
   both 5 5 11 11 (fun _ => AM3 / 105 + Iyy * L * (4 / 10) / 3) ++
   both 6 6 12 12 (fun _ => AM3 / 105 + Izz * L * (4 / 10) / 3) ++
   one 1 7 (fun _ => AM / 6) ++
   one 2 6 (fun _ => AM2 * (11 / 10) / 21 + Izz * (1 / 10)) ++
   one 2 8 (fun _ => AM * (9 / 10) / 7 - Izz * (12 / 10) / L) ++
   one 2 12 (fun _ => - AM2 * (13 / 10) / 42 + Izz * (1 / 10)) ++
   one 3 5 (fun _ => - AM2 * (11 / 10) / 21 - Iyy * (1 / 10)) ++
   one 3 9 (fun _ => AM * (9 / 10) / 7 - Iyy * (12 / 10) / L) ++
   one 3 11 (fun _ => AM2 * (13 / 10) / 42 - Iyy * (1 / 10)) ++
   one 4 10 (fun A => rd A 4 4 * (1 / 2)) ++
   one 5 9 (fun A => - rd A 3 11) ++
   one 5 11 (fun _ => - AM3 / 140 - Iyy * L / 30) ++
   one 6 8 (fun A => - rd A 2 12) ++
   one 6 12 (fun _ => - AM3 / 140 - Izz * L / 30) ++
   one 8 12 (fun A => - rd A 2 6) ++
   one 9 11 (fun A => - rd A 3 5))%R%list.
End Mass.
(* [lumped] is the sign of lumpedMass *)
Definition mass (lumped : comparison) (rhoA Ixx Iyy Izz L : R) : fmat :=
  match lumped with
  | Gt => exec zero (lumpedProg rhoA Ixx L)
  | Eq => exec zero (consProg rhoA Ixx Iyy Izz L ++ mirror 12)%list
  | Lt => exec zero (consProg rhoA Ixx 0 0 L ++ mirror 12)%list
  end.
(* l.616-629: mass matrix with respect to the neutral axis *)
Definition massNA (lumped : comparison) (rhoA Ixx Iyy Izz L CGy CGz : R) : fmat :=
  let M := mass lumped rhoA Ixx Iyy Izz L in
  if Req_EM_T CGy 0 then if Req_EM_T CGz 0 then M else exec M (eccProg (V 0 (- CGy) (- CGz)) (V 0 (- CGy) (- CGz)))
  else exec M (eccProg (V 0 (- CGy) (- CGz)) (V 0 (- CGy) (- CGz))).
(* l.634-639: gravity forces; [g] in local axes *)
Definition gravityLoad (Mm : fmat) (g : v3) (i : nat) : R :=
  (0 + (rd Mm i 1 * vx g + rd Mm i 2 * vy g + rd Mm i 3 * vz g) + (rd Mm i 7 * vx g + rd Mm i 8 * vy g + rd Mm i 9 * vz g))%R.

(** ** Transformation to global axes and grid points, l.658-717 *)
(* utl::transform (IFEM): T A T^t with 3x3 blocks *)
Definition blk (i : nat) : nat := 3 * ((i - 1) / 3).
Definition loc (i : nat) : nat := S ((i - 1) mod 3).
Definition toGlobal (T : nat -> nat -> R) (A : fmat) : fmat := fun i j =>
  sumf 3 (fun a => sumf 3 (fun b => rd T (loc i) a * rd A (blk i + a) (blk j + b) * rd T (loc j) b))%R.
(* utl::transform(b,T): T b *)
Definition toGlobalVec (T : nat -> nat -> R) (b : nat -> R) (i : nat) : R := sumf 3 (fun a => rd T (loc i) a * rv b (blk i + a))%R.

(* Matrices other than a lumped mass matrix with lumpedMass = 2; [T] = None: !inLocalAxes *)
Definition finalize (T : option (nat -> nat -> R)) (ecc : option (v3 * v3)) (A : fmat) : fmat :=
  match T with
  | None => A
  | Some T => match ecc with None => toGlobal T A | Some (e1, e2) => exec (toGlobal T A) (eccProg e1 e2) end
  end.

(* Diagonal transformation of the lumped mass matrix, l.671-680 *)
Definition lumpedGlobal (T : nat -> nat -> R) (d : nat -> R) (i : nat) : R :=
  if i <=? 3 then d i else sumf 3 (fun j => rv d (blk i + j) * (rd T (loc i) j * rd T (loc i) j))%R.
(* l.700-710 *)
Definition lumpedEcc (e1 e2 : v3) (d : nat -> R) (i : nat) : R :=
  (match i with
   | 4 => rv d 4 + (rv d 3 * vy e1 * vy e1 + rv d 2 * vz e1 * vz e1)
   | 5 => rv d 5 + (rv d 3 * vx e1 * vx e1 + rv d 1 * vz e1 * vz e1)
   | 6 => rv d 6 + (rv d 2 * vx e1 * vx e1 + rv d 1 * vy e1 * vy e1)
   | 10 => rv d 10 + (rv d 9 * vy e2 * vy e2 + rv d 8 * vz e2 * vz e2)
   | 11 => rv d 11 + (rv d 9 * vx e2 * vx e2 + rv d 7 * vz e2 * vz e2)
   | 12 => rv d 12 + (rv d 8 * vx e2 * vx e2 + rv d 7 * vy e2 * vy e2)
   | _ => d i
   end)%R.

(** ** Element data objects, l.197-300 *)
Inductive kind := STD | DYN | HHT.
(* [dynamic]: getMode(true) = DYNAMIC; [prm3]: sign of intPrm[3]; result: new myType and the
   kind of object created, None when nullptr is returned *)
Definition createData (inActive dynamic : bool) (prm3 : comparison) (inLocalAxes : bool) (myType : kind) : kind * option kind :=
  if inActive then (myType, None)
  else if negb dynamic then (myType, Some STD)
  else match prm3 with
       | Gt => (DYN, Some DYN)
       | _ => if negb inLocalAxes then (HHT, Some HHT) else (myType, None)
       end.
(* getLocalAxes, l.291-300: the cast is undefined when the object is of another kind *)
Definition getLocalAxes (myType obj : kind) : res kind :=
  match myType, obj with STD, STD => Ret STD | DYN, DYN => Ret DYN | HHT, HHT => Ret HHT | _, _ => UB end.
