(** FiniteDeformation/LinearMaterial.C: a small-strain material in the large-deformation formulations, and the strains it is given.

    Simplifications: real arithmetic; the wrapped material is LinIsotropic with the modulus and ratio of the point;
    SymmTensor::transform is F S F^T (IFEM); a tensor of dimension two is given by its components in the plane, with the
    component (3,3) in axisymmetric solids; components that are not stored are zero here. *)
From Verif Require Export Model.LinIsotropic Model.NlElement.

(** Entry of the matrix T, LinearMaterial.C 62-78, [n] is sigma.dim(). *)
Definition Tentry (n : nat) (F : mat) (i j : nat) : res R :=
  let nx k := (k mod 3 + 1)%nat in
  if (i <=? n)%nat then
    if (j <=? n)%nat then let* a := mget F j i in Ret (a * a)                                        (* 65 *)
    else let k := (j - n)%nat in
      let* a := mget F k i in let* b := mget F (nx k) i in Ret (/ 2 * (a * b + b * a))               (* 67 *)
  else let k := (i - n)%nat in
    if (j <=? n)%nat then
      let* a := mget F j k in let* b := mget F j (nx k) in Ret (a * b + b * a)                       (* 73 *)
    else let l := (j - n)%nat in
      let* a := mget F l k in let* b := mget F (nx l) (nx k) in
      let* c := mget F (nx l) k in let* d := mget F l (nx k) in
      Ret (/ 2 * (a * b + c * d + d * c + b * a)).                                                   (* 75-76 *)
Definition isRet {A} (x : res A) : bool := match x with Ret _ => true | _ => false end.
Definition matT (n m : nat) (F : mat) : res mat :=
  if forallb (fun i => forallb (fun j => isRet (Tentry n F i j)) (seq 1 m)) (seq 1 m)
  then Ret (mkMat m m (fun i j => match Tentry n F i j with Ret v => v | _ => 0 end)) else UB.

(** Components of a symmetric tensor from the stored array. *)
Definition tensorOf (k : kind) (v : nat -> R) : t3 := fun i j =>
  if (((i <=? kdim k) && (j <=? kdim k)) || (isAxi k && (i =? 3) && (j =? 3)))%nat%bool then v (sidx (kdim k) (isAxi k) i j) else 0.
(** F.det() *)
Definition jacF (k : kind) (F : t3) : R :=
  match k with Plane => F 1%nat 1%nat * F 2%nat 2%nat - F 1%nat 2%nat * F 2%nat 1%nat | _ => det3 F end.

(** LinearMaterial::evaluate, LinearMaterial.C 25-90, for [iop] from 0: constitutive matrix and stresses. *)
Definition linearEvaluate (k : kind) (ps : bool) (E nu : R) (F : t3) (eps : nat -> R) (iop : nat) : res (mat * t3) :=
  let n := kdim k in
  let m := nst n (isAxi k) in
  let* C := cmatrix n ps (isAxi k) false E nu in
  let S := if (0 <? iop)%nat then tensorOf k (mv m (el C) eps) else fun _ _ => 0 in
  if (iop =? 2)%nat then Ret (C, S) else                                                             (* 34 *)
  let J := jacF k F in
  if Req_EM_T J 0 then Rejected else                                                                 (* 38-44 *)
  let s := if (0 <? iop)%nat then fun i j => 1 / J * mul3 F (mul3 S (trn F)) i j else S in           (* 46-51 *)
  if (1 <? iop)%nat then Ret (C, s) else                                                             (* 55 *)
  let* T := matT n m (mkMat (ndf k) (ndf k) F) in
  Ret (mkMat m m (fun i j => 1 / J * sumf m (fun r => el T r i * sumf m (fun q => el C r q * el T q j))), s).   (* 81-82 *)

(** The strains stored by NonlinearElasticityUL::kinematics, NonlinearElasticityUL.C 308-319, as a function of the deformation
    gradient: only the components in the plane, engineering shear strains. *)
Definition strainUL (k : kind) (F : t3) (r : nat) : R :=
  let g i j := let Eij := (F i j - kron i j) + (F j i - kron j i) + sumf (kdim k) (fun q => (F q i - kron q i) * (F q j - kron q j)) in
               if (i =? j)%nat then / 2 * Eij else Eij in
  match k, r with
  | Axi, 3%nat => 0 | Plane, 3%nat => g 2%nat 1%nat | _, 1%nat => g 1%nat 1%nat | _, 2%nat => g 2%nat 2%nat | _, 3%nat => g 3%nat 3%nat
  | _, 4%nat => g 2%nat 1%nat | Solid, 5%nat => g 3%nat 2%nat | Solid, 6%nat => g 3%nat 1%nat | _, _ => 0
  end.

(** The material seen by the updated Lagrangian element (evalInt passes 1 or 0 for [iop]). *)
Definition linStress (k : kind) (ps : bool) (E nu : R) (F : t3) : t3 :=
  match linearEvaluate k ps E nu F (strainUL k F) 1 with Ret (_, s) => s | _ => fun _ _ => 0 end.
Definition linTangent (k : kind) (ps : bool) (E nu : R) (F : t3) (r s : nat) : R :=
  match linearEvaluate k ps E nu F (strainUL k F) 1 with Ret (C, _) => el C r s | _ => 0 end.
(** Seen by the F-bar element: the strains are those of the deformation [F], 514 and 579 in NonlinearElasticityFbar.C, the
    push-forward takes the modified deformation [Fb]. *)
Definition linStressFbar (k : kind) (ps : bool) (E nu : R) (F Fb : t3) : t3 :=
  match linearEvaluate k ps E nu Fb (strainUL k F) 1 with Ret (_, s) => s | _ => fun _ _ => 0 end.
(** Seen by the mixed element: the strains passed are [SymmTensor(0)], NonlinearElasticityULMX.C 483-484; LinIsotropic.C 302-308
    then uses a tensor of the right size, which is zero. *)
Definition linStressMx (k : kind) (ps : bool) (E nu : R) (F : t3) : t3 :=
  match linearEvaluate k ps E nu F (fun _ => 0) 1 with Ret (_, s) => s | _ => fun _ _ => 0 end.
