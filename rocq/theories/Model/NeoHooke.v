(** Model of FiniteDeformation/NeoHookeMaterial.C over the reals.
    [pow(J,-2.0/3.0)] is [Rpower J (-2/3)] (equal for J > 0). *)
From Verif.Lib Require Import Base Tensor3.

(** NeoHookeMaterial.h:99-106 and the inherited Emod, nu of LinIsotropic. *)
Record neo := mkNeo { nEmod : R; nNu : R; mVER : nat; iVOL : nat; Bmod : R; Smod : R }.

(** NeoHookeMaterial.C:62-82; [E] is the optional argument (default -1). *)
Definition findLame (E : R) (m : neo) : neo :=
  if Rlt_dec (1/2) (nNu m) then
    let kappa := if Rlt_dec 0 E then E else nEmod m in
    let mu := nNu m in
    mkNeo (9 * kappa * mu / (3 * kappa + mu)) ((3/2 * kappa - mu) / (3 * kappa + mu))
          (mVER m) (iVOL m) kappa mu
  else
    let Em := if Rlt_dec 0 E then E else nEmod m in
    let sm := 1/2 * Em / (1 + nNu m) in
    let bm := if Rle_dec (1/2) (nNu m) then 0 else Em / (3 - 6 * nNu m) in
    let bm := if (Nat.eqb (mVER m) 1)%bool then
                if Rlt_dec (nNu m) (1/2) then bm - sm * 2 / 3 else bm
              else bm in
    mkNeo Em (nNu m) (mVER m) (iVOL m) bm sm.

(** NeoHookeMaterial.C:34-43: constructor. *)
Definition newNeo (E v : R) (ver : nat) : neo :=
  findLame (-1) (mkNeo E v (ver / 10) (ver mod 10) 0 0).

(** NeoHookeMaterial.C:324-361: (U, Up, Upp). *)
Definition volU (iv : nat) (K J : R) : R :=
  match iv with
  | 1%nat => 1/4 * K * (J * J - 1 - 2 * ln (Rabs J))
  | 2%nat => 1/2 * K * (J - 1) * (J - 1)
  | 3%nat => 1/2 * K * ln (Rabs J) * ln (Rabs J)
  | 4%nat => 2 * K * (J - 1 - ln (Rabs J))
  | _ => 0 end.
Definition volUp (iv : nat) (K J : R) : R :=
  match iv with
  | 1%nat => 1/2 * K * (J - 1 / J)
  | 2%nat => K * (J - 1)
  | 3%nat => K * ln (Rabs J) / J
  | 4%nat => K * (2 - 1 / J)
  | _ => 0 end.
Definition volUpp (iv : nat) (K J : R) : R :=
  match iv with
  | 1%nat => 1/2 * K * (1 + 1 / (J * J))
  | 2%nat => K
  | 3%nat => (K / J - K * ln (Rabs J) / J) / J
  | 4%nat => K / (J * J)
  | _ => 0 end.

(** Number of normal components touched by SymmTensor's scalar operations (IFEM, trusted). *)
Definition nnorm (ndim ncmp : nat) : nat := if (Nat.eqb ndim 2 && Nat.eqb ncmp 4)%bool then 3 else ndim.
Definition straceV (ndim ncmp : nat) (S : nat -> R) : R := sumf (nnorm ndim ncmp) S.
Definition addn (ndim ncmp : nat) (S : nat -> R) (c : R) : nat -> R :=
  fun i => if (i <=? nnorm ndim ncmp)%nat then S i + c else S i.

(** [for (i = 1; i <= n; i++) body] *)
Fixpoint loop {A} (n : nat) (body : nat -> A -> res A) (a : A) : res A :=
  match n with O => Ret a | S k => let* a := loop k body a in body (S k) a end.

Definition madd (M : mat) (i j : nat) (v : R) : res mat :=
  let* x := mget M i j in mset M i j (x + v).

(** NeoHookeMaterial.C:194-226. [S] is the Voigt array of b on entry. *)
Definition stdNeoHooke (m : neo) (ndim ncmp : nat) (J : R) (S : nat -> R)
  : res (R * (nat -> R) * mat) :=
  let U := volU (iVOL m) (Bmod m) J in
  let Press := volUp (iVOL m) (Bmod m) J in
  let Cv := volUpp (iVOL m) (Bmod m) J in
  let c1 := Smod m / J in
  let c3 := Cv * J in
  let c2 := c1 + c1 + c3 - Press in
  let Ic := straceV ndim ncmp S in
  let S' := addn ndim ncmp (fun i => S i * c1) (Press - c1) in        (* 207-208 *)
  let* C := loop ndim (fun i C =>                                      (* 212-221 *)
      let* C := mset C i i c2 in
      let* C := mset C (i+3) (i+3) (c1 - Press) in
      loop ndim (fun j C => if Nat.eqb j i then Ret C else mset C i j (c3 + Press)) C)
    (zeros ncmp ncmp) in
  Ret (U + Smod m * (1/2 * Ic - 3/2 - ln (Rabs J)), S', C).

(** NeoHookeMaterial.C:238-310. *)
Definition modNeoHooke (m : neo) (ndim ncmp : nat) (J : R) (S : nat -> R)
  : res (R * (nat -> R) * mat) :=
  let U := volU (iVOL m) (Bmod m) J in
  let Press := volUp (iVOL m) (Bmod m) J in
  let Cv := volUpp (iVOL m) (Bmod m) J in
  let S1 := fun i => S i * Rpower J (-2/3) in                          (* 245 *)
  let I_c := straceV ndim ncmp S1 / 3 in                               (* 247 *)
  let S2 := addn ndim ncmp S1 (- I_c) in                               (* 251 *)
  let c0 := Smod m * 2 / 3 in
  let* C := loop ncmp (fun i C => loop ndim (fun j C =>                (* 259-264 *)
      let* C := madd C i j (- (c0 * S2 i)) in
      madd C j i (- (c0 * S2 i))) C) (zeros ncmp ncmp) in
  let c1 := Smod m * I_c in
  let c2 := c1 + c1 in
  let c3 := c2 / 3 in
  let* C := loop ndim (fun i C =>                                      (* 273-280 *)
      let* C := madd C i i c2 in
      let* C := madd C (i+ndim) (i+ndim) c1 in
      loop ndim (fun j C => madd C i j (- c3)) C) C in
  let S3 := addn ndim ncmp (fun i => S2 i * (Smod m / J)) Press in     (* 286-287 *)
  let C := mkMat (rows C) (cols C) (fun i j => el C i j * (1 / J)) in  (* 291 *)
  let Cv := Cv * J in
  let* C := loop ndim (fun i C =>                                      (* 294-305 *)
      let* C := madd C i i (Cv - Press) in
      let* C := (if (i + ndim <=? rows C)%nat then madd C (i+ndim) (i+ndim) (- Press) else Ret C) in
      loop ndim (fun j C => if Nat.eqb j i then Ret C else madd C i j (Cv + Press)) C) C in
  Ret (U + 3/2 * Smod m * (I_c - 1), S3, C).

(** NeoHookeMaterial.C:99-136 for a three-dimensional deformation gradient and no stiffness function;
    SymmTensor::leftCauchyGreen(F) is b = F*F^T (IFEM, trusted).  (The pull-back branch, iop == 2, always
    returns false, lines 149-151, and iop == 3 is the returned U unless it is zero.) *)
Definition neoEvaluate (m : neo) (F : t3) : res (R * (nat -> R) * mat) :=
  let J := det3 F in
  if Req_EM_T J 0 then Rejected
  else let b := tovoigt (mul3 F (trn F)) in
    match mVER m with
    | 1 => stdNeoHooke m 3 6 J b
    | 2 => modNeoHooke m 3 6 J b
    | _ => Rejected
    end%nat.
