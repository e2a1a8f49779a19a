(** Continuum element kernels: deformation gradient, strain-displacement matrices,
    geometric stiffness, mass, loads and the total-Lagrangian stiffness kernels.

    Simplifications (see DESIGN.md): real arithmetic; one integration point;
    [M_PI*2*r*detJxW] enters as the number [detJW] except where the code mixes the
    two weights; profiling, debug output and error messages are dropped. *)
From Verif Require Export Lib.Base Lib.Writes.

(** The data one integration point passes around (FiniteElement, integrand settings).
    [ncol] is [dNdX.cols()], [rad] the X-coordinate given as [r]. *)
Record elm := mkElm {
  nsd : nat; axi : bool; nen : nat; ncol : nat;
  shp : nat -> R; dN : nat -> nat -> R; rad : R }.

(** Elasticity.C 31-33: [epsR] is 1e-16. *)
Definition epsR : R := / 10 ^ 16.

(** Elasticity.C 44: [nDF = axiSymmetry ? 3 : nsd]. *)
Definition nDF (e : elm) : nat := if axi e then 3%nat else nsd e.

(** [eV.dot(N,0,nsd)]: the radial displacement. *)
Definition udotN (e : elm) (u : nat -> R) : R := sumf (nen e) (fun a => u (1 + nsd e * (a - 1))%nat * shp e a).

(** Elasticity.C 526-532: [dUdX.multiplyMat(eV,dNdX)]; [eV] is read column by column. *)
Definition gradU (e : elm) (u : nat -> R) (i j : nat) : R :=
  sumf (nen e) (fun a => u (dof (nsd e) a i) * dN e a j).

(** Elasticity::formDefGradient, Elasticity.C 510-549. [usz] is [eV.size()]. *)
Definition formDefGradient (e : elm) (usz : nat) (u : nat -> R) (gradOnly : bool) : res mat :=
  let n := nDF e in
  let F0 := mkMat n n (fun i j => if gradOnly then 0 else kron i j) in
  if (usz =? 0)%nat then Ret F0
  else if negb (usz =? nsd e * nen e)%nat || (ncol e <? nsd e)%nat then Rejected
  else let* F := run_add F0 (loop (nsd e) (fun i => loop (ncol e) (fun j => [(i, j, gradU e u i j)]))) in
    if axi e && negb gradOnly then
      if Rlt_dec epsR (rad e) then run_add F [(3%nat, 3%nat, udotN e u / rad e)] else Ret F
    else Ret F.

(** The macro [INDEX(i,j)], Elasticity.C 378, 482 and NonlinearElasticityTL.C 283. *)
Definition INDEX (nstrc i j : nat) : nat := (i + nstrc * (j - 1))%nat.

(** Elasticity::formBmatrix, Elasticity.C 366-446 (plane and solid elements). *)
Definition formBmatrix (e : elm) : res mat :=
  let n := nsd e in
  let nstrc := (n * (n + 1) / 2)%nat in
  let B0 := zeros (nstrc * n) (nen e) in
  if (ncol e <? n)%nat then Rejected else
  let* B := match n with
  | 1%nat => run_set B0 (loop (nen e) (fun i => [(1%nat, i, dN e i 1)]))
  | 2%nat => run_set B0 (loop (nen e) (fun i =>
      [(INDEX nstrc 1 1, i, dN e i 1); (INDEX nstrc 2 2, i, dN e i 2); (INDEX nstrc 3 1, i, dN e i 2); (INDEX nstrc 3 2, i, dN e i 1)]))
  | 3%nat => run_set B0 (loop (nen e) (fun i =>
      [(INDEX nstrc 1 1, i, dN e i 1); (INDEX nstrc 2 2, i, dN e i 2); (INDEX nstrc 3 3, i, dN e i 3);
       (INDEX nstrc 4 1, i, dN e i 2); (INDEX nstrc 4 2, i, dN e i 1); (INDEX nstrc 5 2, i, dN e i 3); (INDEX nstrc 5 3, i, dN e i 2);
       (INDEX nstrc 6 1, i, dN e i 3); (INDEX nstrc 6 3, i, dN e i 1)]))
  | _ => Rejected
  end in
  Ret (reshape B nstrc (n * nen e)).

(** Elasticity::formBmatrix, Elasticity.C 464-507 (axisymmetric). *)
Definition formBmatrixAx (e : elm) : res mat :=
  if (ncol e <? 2)%nat then Rejected
  else if Rlt_dec (rad e) (- epsR) then Rejected else
  let* B := run_set (zeros 8 (nen e)) (loop (nen e) (fun i =>
      [(INDEX 4 1 1, i, dN e i 1); (INDEX 4 2 2, i, dN e i 2);
       (INDEX 4 3 1, i, if Rle_dec (rad e) epsR then dN e i 1 else shp e i / rad e);
       (INDEX 4 4 1, i, dN e i 2); (INDEX 4 4 2, i, dN e i 1)])) in
  Ret (reshape B 4 (2 * nen e)).

(** Storage position of component (i,j), j <= i, of a SymmTensor of dimension [d]
    (IFEM Tensor.h; assumption recorded in DESIGN.md): diagonal first, then 12, 23, 13;
    [with33] stores the out-of-plane component in third position for [d = 2]. *)
Definition sidx (d : nat) (with33 : bool) (i j : nat) : nat :=
  if (i =? j)%nat then i
  else match d with
       | 3%nat => if (i + j =? 3)%nat then 4%nat else if (i + j =? 5)%nat then 5%nat else 6%nat
       | _ => if with33 then 4%nat else 3%nat
       end.

(** The total-Lagrangian strain loop, NonlinearElasticityTL.C 253-265 (same text in
    NonlinearElasticityUL.C 306-318).  [E] is [SymmTensor E(nsd,axiSymmetry)], so [E.dim()] is [nsd];
    it is zero-initialised. The result is the array of stored components. *)
Definition greenStrain (e : elm) (H : mat) : res mat :=
  let d := nsd e in
  let sz := if axi e then 4%nat else (d * (d + 1) / 2)%nat in
  run_set (zeros sz 1) (loop d (fun i => loop i (fun j =>
    let Eij := el H i j + el H j i + sumf d (fun k => el H k i * el H k j) in
    [(sidx d (axi e) i j, 1%nat, if (i =? j)%nat then / 2 * Eij else Eij)]))).

(** The nonlinear B-matrix, NonlinearElasticityTL.C 278-316.  In the axisymmetric branch
    the hoop row is written at line 309 after the loop over [i] has ended, i.e. with [i = nsd+1]. *)
Definition formBnl (e : elm) (F : mat) : res mat :=
  let d := nsd e in
  let nstrc := if axi e then 4%nat else (d * (d + 1) / 2)%nat in
  let f := el F in
  let* B1 := run_set (zeros (nstrc * d) (nen e))
    (loop (nen e) (fun a => loop d (fun i => loop d (fun j => [(INDEX nstrc j i, a, f i j * dN e a j)])))) in
  let* B2 := match d with
  | 3%nat => run_set B1 (loop (nen e) (fun a => loop d (fun i =>
      [(INDEX nstrc 4 i, a, f i 1%nat * dN e a 2 + f i 2%nat * dN e a 1);
       (INDEX nstrc 5 i, a, f i 2%nat * dN e a 3 + f i 3%nat * dN e a 2);
       (INDEX nstrc 6 i, a, f i 3%nat * dN e a 1 + f i 1%nat * dN e a 3)])))
  | 2%nat => run_set B1 (loop (nen e) (fun a =>
      if axi e then
        loop d (fun i => [(INDEX nstrc 4%nat i, a, f i 1%nat * dN e a 2 + f i 2%nat * dN e a 1)])
        ++ [(INDEX nstrc 3%nat 1%nat, S d, f 3%nat 3%nat * (if Rle_dec (rad e) epsR then dN e a 1 else shp e a / rad e))]
      else loop d (fun i => [(INDEX nstrc 3%nat i, a, f i 1%nat * dN e a 2 + f i 2%nat * dN e a 1)])))
  | _ => Ret B1
  end in
  Ret (reshape B2 nstrc (d * nen e)).

(** NonlinearElasticityTL::kinematics, NonlinearElasticityTL.C 234-321, with [formB] set
    (line 276).  Result: deformation gradient, stored strain components, B-matrix. *)
Definition kinematicsTL (e : elm) (usz : nat) (u : nat -> R) : res (mat * mat * mat) :=
  let d := nsd e in
  if (usz =? 0)%nat then
    let* B := (if axi e then formBmatrixAx e else formBmatrix e) in
    Ret (mkMat (nDF e) (nDF e) (fun i j => kron i j), zeros (if axi e then 4%nat else (d * (d + 1) / 2)%nat) 1, B)
  else
    let* H := formDefGradient e usz u true in
    let* E := greenStrain e H in
    let* F1 := run_add H (loop (nDF e) (fun i => [(i, i, 1)])) in
    let* F := (if axi e then if Rlt_dec epsR (rad e) then run_add F1 [(3%nat, 3%nat, udotN e u / rad e)] else Ret F1
               else Ret F1) in
    let* B := formBnl e F in
    Ret (F, E, B).

(** Elasticity::formKG, Elasticity.C 576-606.  [sig] is the stress tensor, [r] the radius passed. *)
Definition kgrr (e : elm) (r : R) (sig : nat -> nat -> R) : R :=
  if axi e then if Rlt_dec 0 r then sig 3%nat 3%nat / (r * r) else 0 else 0.
Definition formKG (e : elm) (r : R) (sig : nat -> nat -> R) (detJW : R) (EM : mat) : res mat :=
  run_add EM (loop (nen e) (fun a => loop (nen e) (fun b =>
    let kg := sumf (nsd e) (fun i => sumf (nsd e) (fun j => dN e a i * sig i j * dN e b j)) in
    loop (nsd e) (fun i => [(dof (nsd e) a i, dof (nsd e) b i, kg * detJW)])
    ++ (if Rlt_dec 0 (kgrr e r sig)
        then [(dof (nsd e) a 1, dof (nsd e) b 1, shp e a * kgrr e r sig * shp e b * detJW)] else [])))).

(** Elasticity::formMassMatrix, Elasticity.C 609-619; [rho] is the mass density at the point. *)
Definition formMass (e : elm) (rho detJW : R) (EM : mat) : res mat :=
  let rhow := rho * detJW in
  if Req_EM_T rhow 0 then Ret EM else
  run_add EM (loop (nen e) (fun a => loop (nen e) (fun b =>
    loop (nsd e) (fun i => [(dof (nsd e) a i, dof (nsd e) b i, rhow * shp e a * shp e b)])))).

(** One integration point of an element loop for the mass matrix: [(rho, detJW, N)]. *)
Fixpoint massLoop (d n : nat) (pts : list (R * R * (nat -> R))) (EM : mat) : res mat :=
  match pts with
  | [] => Ret EM
  | (rho, w, N) :: t => let* EM' := formMass (mkElm d false n d N (fun _ _ => 0) 0) rho w EM in massLoop d n t EM'
  end.

(** A load state: the nodal vectors by slot and the total load [sumLoad] (size [nsum]). *)
Record loads := mkLoads { bvec : nat -> mat; tot : nat -> R; nsum : nat }.
Definition bset (st : loads) (s : nat) (v : mat) : loads :=
  mkLoads (fun k => if (k =? s)%nat then v else bvec st k) (tot st) (nsum st).
Definition addTot (st : loads) (d : nat) (f : nat -> R) : loads :=
  mkLoads (bvec st) (fun i => if ((1 <=? i) && (i <=? d) && (i <=? nsum st))%nat%bool then tot st i + f i else tot st i) (nsum st).

(** The nodal loop [ES(nsd*(a-1)+i) += f[i-1]*N(a)*w], Elasticity.C 629-631, 674-676. *)
Definition nodal (e : elm) (f : nat -> R) (ES : mat) : res mat :=
  run_add ES (loop (nen e) (fun a => loop (nsd e) (fun i => [(dof (nsd e) a i, 1%nat, f i * shp e a)]))).

(** Elasticity::formBodyForce, Elasticity.C 622-638, into slot [s] (1-based, as [b[s-1]]).
    [isz] is the outcome of [f.isZero()] on the body force [f] of this point. *)
Definition formBodyForce (e : elm) (s : nat) (f : nat -> R) (isz : bool) (detJW : R) (grd : bool) (st : loads) : res loads :=
  if isz then Ret st else
  let fw i := f i * detJW in
  let* ES := nodal e fw (bvec st s) in
  let st' := bset st s ES in
  if grd then Ret st' else Ret (addTot st' (nsd e) fw).

(** The two load statements that end NonlinearElasticityTL::evalInt, NonlinearElasticityTL.C 141-147. *)
Definition loadsTL (e : elm) (eS gS : nat) (f g : nat -> R) (zf zg : bool) (detJW : R) (st : loads) : res loads :=
  let* st1 := (if (eS =? 0)%nat then Ret st else formBodyForce e eS f zf detJW false st) in
  if (gS =? 0)%nat then Ret st1 else formBodyForce e gS g zg detJW true st1.

(** The same two statements of NonlinearElasticityUL::evalInt, NonlinearElasticityUL.C 191-197:
    the second call passes [elMat.b[eS-1]]. *)
Definition loadsUL (e : elm) (eS gS : nat) (f g : nat -> R) (zf zg : bool) (detJW : R) (st : loads) : res loads :=
  let* st1 := (if (eS =? 0)%nat then Ret st else formBodyForce e eS f zf detJW false st) in
  if (gS =? 0)%nat then Ret st1 else formBodyForce e eS g zg detJW true st1.

(** Load part of the boundary integrals.  Elasticity::evalBou, Elasticity.C 672-697:
    [dJ] is [fe.detJxW], [detJW] the (axisymmetric) weight of line 656, [T], [Tg] the traction and its
    gradient after the pull-back. *)
Definition evalBouLin (e : elm) (eS gS : nat) (T Tg : nat -> R) (dJ detJW : R) (st : loads) : res loads :=
  if (eS =? 0)%nat then Rejected else
  let* ES := nodal e (fun i => T i * detJW) (bvec st eS) in
  let st1 := addTot (bset st eS ES) (nsd e) (fun i => T i * dJ) in
  if (gS =? 0)%nat then Ret st1 else
  let* GS := nodal e (fun i => Tg i * detJW) (bvec st1 gS) in Ret (bset st1 gS GS).

(** NonlinearElasticityTL::evalBou 207-228 and NonlinearElasticityUL::evalBou 266-284. *)
Definition evalBouNL (e : elm) (eS gS : nat) (T Tg : nat -> R) (detJW : R) (st : loads) : res loads :=
  if (eS =? 0)%nat then Rejected else
  let* ES := nodal e (fun i => T i * detJW) (bvec st eS) in
  let st1 := addTot (bset st eS ES) (nsd e) (fun i => T i * detJW) in
  if (gS =? 0)%nat then Ret st1 else
  let* GS := nodal e (fun i => Tg i * detJW) (bvec st1 gS) in Ret (bset st1 gS GS).

(** Lines 655-656: the axisymmetric weight. *)
Definition axiWeight (e : elm) (dJ : R) : R := if axi e then 2 * PI * rad e * dJ else dJ.

(** Internal forces in tensor form, NonlinearElasticity.C 168-181. *)
Definition intForceTensor (e : elm) (F : mat) (Sg : nat -> nat -> R) (detJW : R) (ES : mat) : res mat :=
  run_add ES (loop (nen e) (fun a => loop (nsd e) (fun k =>
    [(dof (nsd e) a k, 1%nat,
      (- sumf (nsd e) (fun i => sumf (nsd e) (fun j => dN e a i * el F k j * Sg i j))) * detJW)]))).

(** The fourth-order tensor built in stiff_TL2D, stiff_TL.f 22-43, and stiff_TL3D, 79-104:
    position of the pair (i,j) in [Cmat]. *)
Definition pos2 (i j : nat) : nat := if (i =? j)%nat then i else 3%nat.
Definition pos3f (i j : nat) : nat :=
  let lo := Nat.min i j in let hi := Nat.max i j in
  if (lo =? hi)%nat then lo else if (lo =? 1)%nat then (hi + 2)%nat else 6%nat.

(** The accumulation of the four kernels: [km a b m n] is added at [(m,a,n,b)] for [b >= a],
    and at the mirrored position for [b > a] (stiff_TL.f 45-66, 106-127, 148-170, 194-219).
    [EK(d,NENOD,d,NENOD)] shares its storage with the element matrix. *)
Definition kernel (d n : nat) (km : nat -> nat -> nat -> nat -> R) (EK : mat) : res mat :=
  run_add EK (loop n (fun a => loop_from a n (fun b => loop d (fun m => loop d (fun k =>
    (dof d a m, dof d b k, km a b m k) :: (if (a <? b)%nat then [(dof d b k, dof d a m, km a b m k)] else [])))))).

(** stiff_TL.f 49-58 / 110-119 for a pair map [p] and [d] dimensions. *)
Definition kmFull (d : nat) (p : nat -> nat -> nat) (e : elm) (F C : nat -> nat -> R) (detJW : R) (a b m n : nat) : R :=
  sumf d (fun i => sumf d (fun j => sumf d (fun k => sumf d (fun l =>
    dN e a i * F m j * C (p i j) (p k l) * F n k * dN e b l)))) * detJW.
Definition stiff_TL2D (e : elm) (F C : nat -> nat -> R) (detJW : R) : mat -> res mat :=
  kernel 2 (nen e) (kmFull 2 pos2 e F C detJW).
Definition stiff_TL3D (e : elm) (F C : nat -> nat -> R) (detJW : R) : mat -> res mat :=
  kernel 3 (nen e) (kmFull 3 pos3f e F C detJW).

(** stiff_TL2D_isoel, stiff_TL.f 132-172. *)
Definition stiff_TL2D_isoel (e : elm) (F : nat -> nat -> R) (C1 C2 C3 detJW : R) : mat -> res mat :=
  kernel 2 (nen e) (fun a b m n =>
    let d := dN e in
    let ek1 := d a 1%nat * F m 1%nat * F n 1%nat * d b 1%nat + d a 2%nat * F m 2%nat * F n 2%nat * d b 2%nat in
    let ek2 := d a 1%nat * F m 1%nat * F n 2%nat * d b 2%nat + d a 2%nat * F m 2%nat * F n 1%nat * d b 1%nat in
    let ek3 := d a 1%nat * F m 2%nat * (F n 1%nat * d b 2%nat + F n 2%nat * d b 1%nat)
             + d a 2%nat * F m 1%nat * (F n 2%nat * d b 1%nat + F n 1%nat * d b 2%nat) in
    (ek1 * C1 + ek2 * C2 + ek3 * C3) * detJW).

(** stiff_TL3D_isoel, stiff_TL.f 175-221: the inner loops over i and j > i. *)
Definition stiff_TL3D_isoel (e : elm) (F : nat -> nat -> R) (C1 C2 C3 detJW : R) : mat -> res mat :=
  kernel 3 (nen e) (fun a b m n =>
    let d := dN e in
    let ek1 := sumf 3 (fun i => d a i * F m i * F n i * d b i) in
    let ek2 := sumf 3 (fun i => sumf 3 (fun j => if (i <? j)%nat then
      d a i * F m i * F n j * d b j + d a j * F m j * F n i * d b i else 0)) in
    let ek3 := sumf 3 (fun i => sumf 3 (fun j => if (i <? j)%nat then
      d a i * F m j * (F n i * d b j + F n j * d b i) + d a j * F m i * (F n j * d b i + F n i * d b j) else 0)) in
    (ek1 * C1 + ek2 * C2 + ek3 * C3) * detJW).

(** The one-dimensional branch, NonlinearElasticity.C 134-137: the weight [fe.detJxW] is not used. *)
Definition stiff_TL1D (e : elm) (F C : nat -> nat -> R) (detJW : R) (EM : mat) : res mat :=
  run_add EM (loop (nen e) (fun a => loop (nen e) (fun b =>
    [(a, b, dN e a 1 * F 1%nat 1%nat * C 1%nat 1%nat * F 1%nat 1%nat * dN e b 1)]))).

(** NonlinearElasticityTL.C 117-123: [EK += B^T * (C*B*detJW)] for an [ns]-component strain. *)
Definition stiffB (ns ndofs : nat) (B C : nat -> nat -> R) (detJW : R) (i j : nat) : R :=
  sumf ns (fun k => B k i * (sumf ns (fun l => C k l * B l j) * detJW)).

(** NonlinearElasticityTL.C 133-139: [S *= -detJW; ES += B^T*S]; [S] the stored components. *)
Definition intForceB (ns : nat) (B : nat -> nat -> R) (Sv : nat -> R) (detJW : R) (i : nat) : R :=
  sumf ns (fun k => B k i * (Sv k * - detJW)).

(** The pull-back of NonlinearElasticityTL::evalBou 189-204 and NonlinearElasticityUL::evalBou 244-260.
    [Fi] and [J] are what [F.inverse()] leaves in [F] and returns (IFEM Tensor::inverse). *)
Definition pullBack (d : nat) (Fi : nat -> nat -> R) (J : R) (T : nat -> R) (i : nat) : R :=
  if ((1 <=? i) && (i <=? d))%nat%bool then sumf d (fun j => J * T j * Fi j i) else 0.
Definition followTL (d : nat) (Fi : nat -> nat -> R) (J : R) (T : nat -> R) : res (nat -> R) :=
  if Rle_dec J 0 then Rejected else Ret (pullBack d Fi J T).
Definition followUL (d : nat) (Fi : nat -> nat -> R) (J : R) (T : nat -> R) : res (nat -> R) :=
  if Req_EM_T J 0 then Rejected else Ret (pullBack d Fi J T).
