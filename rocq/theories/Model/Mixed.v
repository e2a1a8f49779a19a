(** F-bar and mixed element formulations: NonlinearElasticityFbar.C, NonlinearElasticityULMX.C,
    NonlinearElasticityULMixed.C, MixedTanMat.C, accKM.f and accKMx.f. *)
From Verif Require Export Lib.Base Lib.Sums Lib.Writes Model.Continuum.

(** getAmat2D, NonlinearElasticityFbar.C 294-317, entry (i,j). *)
Definition amat2D (C Sg : nat -> nat -> R) (i j : nat) : R :=
  match j, i with
  | 1%nat, 1%nat => C 1%nat 1%nat + Sg 1%nat 1%nat
  | 1%nat, 2%nat => C 3%nat 1%nat
  | 1%nat, 3%nat => C 3%nat 1%nat + Sg 2%nat 1%nat
  | 1%nat, 4%nat => C 2%nat 1%nat
  | 2%nat, 1%nat => C 1%nat 3%nat
  | 2%nat, 2%nat => C 3%nat 3%nat + Sg 1%nat 1%nat
  | 2%nat, 3%nat => C 3%nat 3%nat
  | 2%nat, 4%nat => C 2%nat 3%nat + Sg 1%nat 2%nat
  | 3%nat, 1%nat => C 1%nat 3%nat + Sg 1%nat 2%nat
  | 3%nat, 2%nat => C 3%nat 3%nat
  | 3%nat, 3%nat => C 3%nat 3%nat + Sg 2%nat 2%nat
  | 3%nat, 4%nat => C 2%nat 3%nat
  | 4%nat, 1%nat => C 1%nat 2%nat
  | 4%nat, 2%nat => C 3%nat 2%nat + Sg 2%nat 1%nat
  | 4%nat, 3%nat => C 3%nat 2%nat
  | 4%nat, 4%nat => C 2%nat 2%nat + Sg 2%nat 2%nat
  | _, _ => 0
  end.

(** getAmatAx, NonlinearElasticityFbar.C 325-358, entry (i,j). *)
Definition amatAx (C Sg : nat -> nat -> R) (i j : nat) : R :=
  match j, i with
  | 1%nat, 1%nat => C 1%nat 1%nat + Sg 1%nat 1%nat
  | 1%nat, 2%nat => C 4%nat 1%nat
  | 1%nat, 3%nat => C 4%nat 1%nat + Sg 2%nat 1%nat
  | 1%nat, 4%nat => C 2%nat 1%nat
  | 1%nat, 5%nat => C 3%nat 1%nat
  | 2%nat, 1%nat => C 1%nat 4%nat
  | 2%nat, 2%nat => C 4%nat 4%nat + Sg 1%nat 1%nat
  | 2%nat, 3%nat => C 4%nat 4%nat
  | 2%nat, 4%nat => C 2%nat 4%nat + Sg 1%nat 2%nat
  | 2%nat, 5%nat => C 3%nat 4%nat
  | 3%nat, 1%nat => C 1%nat 4%nat + Sg 1%nat 2%nat
  | 3%nat, 2%nat => C 4%nat 4%nat
  | 3%nat, 3%nat => C 4%nat 4%nat + Sg 2%nat 2%nat
  | 3%nat, 4%nat => C 2%nat 4%nat
  | 3%nat, 5%nat => C 3%nat 4%nat
  | 4%nat, 1%nat => C 1%nat 2%nat
  | 4%nat, 2%nat => C 4%nat 2%nat + Sg 2%nat 1%nat
  | 4%nat, 3%nat => C 4%nat 2%nat
  | 4%nat, 4%nat => C 2%nat 2%nat + Sg 2%nat 2%nat
  | 4%nat, 5%nat => C 3%nat 2%nat
  | 5%nat, 1%nat => C 1%nat 3%nat
  | 5%nat, 2%nat => C 4%nat 3%nat
  | 5%nat, 3%nat => C 4%nat 3%nat
  | 5%nat, 4%nat => C 2%nat 3%nat
  | 5%nat, 5%nat => C 3%nat 3%nat + Sg 3%nat 3%nat
  | _, _ => 0
  end.

(** getAmat3D, NonlinearElasticityFbar.C 366-459, entry (i,j). *)
Definition amat3D (C Sg : nat -> nat -> R) (i j : nat) : R :=
  match j, i with
  | 1%nat, 1%nat => C 1%nat 1%nat + Sg 1%nat 1%nat
  | 1%nat, 2%nat => C 4%nat 1%nat
  | 1%nat, 3%nat => C 6%nat 1%nat
  | 1%nat, 4%nat => C 4%nat 1%nat + Sg 2%nat 1%nat
  | 1%nat, 5%nat => C 2%nat 1%nat
  | 1%nat, 6%nat => C 5%nat 1%nat
  | 1%nat, 7%nat => C 6%nat 1%nat + Sg 3%nat 1%nat
  | 1%nat, 8%nat => C 5%nat 1%nat
  | 1%nat, 9%nat => C 3%nat 1%nat
  | 2%nat, 1%nat => C 1%nat 4%nat
  | 2%nat, 2%nat => C 4%nat 4%nat + Sg 1%nat 1%nat
  | 2%nat, 3%nat => C 6%nat 4%nat
  | 2%nat, 4%nat => C 4%nat 4%nat
  | 2%nat, 5%nat => C 2%nat 4%nat + Sg 2%nat 1%nat
  | 2%nat, 6%nat => C 5%nat 4%nat
  | 2%nat, 7%nat => C 6%nat 4%nat
  | 2%nat, 8%nat => C 5%nat 4%nat + Sg 3%nat 1%nat
  | 2%nat, 9%nat => C 3%nat 4%nat
  | 3%nat, 1%nat => C 1%nat 6%nat
  | 3%nat, 2%nat => C 4%nat 6%nat
  | 3%nat, 3%nat => C 6%nat 6%nat + Sg 1%nat 1%nat
  | 3%nat, 4%nat => C 4%nat 6%nat
  | 3%nat, 5%nat => C 2%nat 6%nat
  | 3%nat, 6%nat => C 5%nat 6%nat + Sg 1%nat 2%nat
  | 3%nat, 7%nat => C 6%nat 6%nat
  | 3%nat, 8%nat => C 5%nat 6%nat
  | 3%nat, 9%nat => C 3%nat 6%nat + Sg 1%nat 2%nat
  | 4%nat, 1%nat => C 1%nat 4%nat + Sg 1%nat 2%nat
  | 4%nat, 2%nat => C 4%nat 4%nat
  | 4%nat, 3%nat => C 6%nat 4%nat
  | 4%nat, 4%nat => C 4%nat 4%nat + Sg 2%nat 2%nat
  | 4%nat, 5%nat => C 2%nat 4%nat
  | 4%nat, 6%nat => C 5%nat 4%nat
  | 4%nat, 7%nat => C 6%nat 4%nat + Sg 3%nat 2%nat
  | 4%nat, 8%nat => C 5%nat 4%nat
  | 4%nat, 9%nat => C 3%nat 4%nat
  | 5%nat, 1%nat => C 1%nat 2%nat
  | 5%nat, 2%nat => C 4%nat 2%nat + Sg 1%nat 2%nat
  | 5%nat, 3%nat => C 6%nat 2%nat
  | 5%nat, 4%nat => C 4%nat 2%nat
  | 5%nat, 5%nat => C 2%nat 2%nat + Sg 2%nat 2%nat
  | 5%nat, 6%nat => C 5%nat 2%nat
  | 5%nat, 7%nat => C 6%nat 2%nat
  | 5%nat, 8%nat => C 5%nat 2%nat + Sg 3%nat 2%nat
  | 5%nat, 9%nat => C 3%nat 2%nat
  | 6%nat, 1%nat => C 1%nat 5%nat
  | 6%nat, 2%nat => C 4%nat 5%nat
  | 6%nat, 3%nat => C 6%nat 5%nat + Sg 2%nat 1%nat
  | 6%nat, 4%nat => C 4%nat 5%nat
  | 6%nat, 5%nat => C 2%nat 5%nat
  | 6%nat, 6%nat => C 5%nat 5%nat + Sg 2%nat 2%nat
  | 6%nat, 7%nat => C 6%nat 5%nat
  | 6%nat, 8%nat => C 5%nat 5%nat
  | 6%nat, 9%nat => C 3%nat 5%nat + Sg 2%nat 3%nat
  | 7%nat, 1%nat => C 1%nat 6%nat + Sg 1%nat 3%nat
  | 7%nat, 2%nat => C 4%nat 6%nat
  | 7%nat, 3%nat => C 6%nat 6%nat
  | 7%nat, 4%nat => C 4%nat 6%nat + Sg 2%nat 3%nat
  | 7%nat, 5%nat => C 2%nat 6%nat
  | 7%nat, 6%nat => C 5%nat 6%nat
  | 7%nat, 7%nat => C 6%nat 6%nat + Sg 3%nat 3%nat
  | 7%nat, 8%nat => C 5%nat 6%nat
  | 7%nat, 9%nat => C 3%nat 6%nat
  | 8%nat, 1%nat => C 1%nat 5%nat
  | 8%nat, 2%nat => C 4%nat 5%nat + Sg 1%nat 3%nat
  | 8%nat, 3%nat => C 6%nat 5%nat
  | 8%nat, 4%nat => C 4%nat 5%nat
  | 8%nat, 5%nat => C 2%nat 5%nat + Sg 2%nat 3%nat
  | 8%nat, 6%nat => C 5%nat 5%nat
  | 8%nat, 7%nat => C 6%nat 5%nat
  | 8%nat, 8%nat => C 5%nat 5%nat + Sg 3%nat 3%nat
  | 8%nat, 9%nat => C 3%nat 5%nat
  | 9%nat, 1%nat => C 1%nat 3%nat
  | 9%nat, 2%nat => C 4%nat 3%nat
  | 9%nat, 3%nat => C 6%nat 3%nat + Sg 3%nat 1%nat
  | 9%nat, 4%nat => C 4%nat 3%nat
  | 9%nat, 5%nat => C 2%nat 3%nat
  | 9%nat, 6%nat => C 5%nat 3%nat + Sg 3%nat 2%nat
  | 9%nat, 7%nat => C 6%nat 3%nat
  | 9%nat, 8%nat => C 5%nat 3%nat
  | 9%nat, 9%nat => C 3%nat 3%nat + Sg 3%nat 3%nat
  | _, _ => 0
  end.

(** getGradOperator, NonlinearElasticityFbar.C 269-286, entry ((i,j), (a,m)): row k = nsd*(i-1)+j holds
    dNdx(a,i) in column (a,j); with r > 0 there is one more row N(a)/r in the first column of each node. *)
Definition gradOp (d : nat) (hoop : bool) (r : R) (N : nat -> R) (dNdx : nat -> nat -> R) (n : nat) : res mat :=
  let nrg := if hoop then S (d * d) else (d * d)%nat in
  run_set (zeros nrg (d * n)) (loop n (fun a =>
    loop d (fun i => loop d (fun j => [(dof d i j, dof d a j, dNdx a i)])) ++
    (if hoop then [(S (d * d), dof d a 1, N a / r)] else []))).

(** The Q tensor, NonlinearElasticityFbar.C 622-638: entry (k,l). [nDF] is 3 in axisymmetric mode. *)
Definition qmat (d ndf : nat) (hoop : bool) (Sg A : nat -> nat -> R) (k l : nat) : R :=
  let i := S ((k - 1) / d) in let j := S ((k - 1) mod d) in
  let q := ((1 - INR ndf) * (if (d <? i)%nat then Sg 3%nat 3%nat else Sg i j)
            + sumf d (fun m => A k (S ((m - 1) * (d + 1)))) + (if hoop then A k 5%nat else 0)) / INR ndf in
  if ((((l - 1) mod (d + 1) =? 0) && (l <=? d * d)) || (hoop && (l =? 5)))%nat%bool then q else 0.

(** The two multiply-accumulate calls of NonlinearElasticityFbar.C 650-655. *)
Definition matTmat (n : nat) (G M : nat -> nat -> R) (p q : nat) : R := sumf n (fun k => G k p * M k q).
Definition fbarTangent (ng : nat) (G Gbar A Q : nat -> nat -> R) (p q : nat) : R :=
  matTmat ng G (fun k c => sumf ng (fun l => A k l * G l c)) p q
  + matTmat ng G (fun k c => sumf ng (fun l => Q k l * (Gbar l c - G l c))) p q.

(** pow (x, y) of the C library for x >= 0 and y > 0. *)
Definition cpow (x y : R) : R := if Req_EM_T x 0 then 0 else Rpower x y.

(** The volume ratio and basis gradients extrapolated from the sampling points, NonlinearElasticityFbar.C
    523-566: [vol] is the list of (J, dNdx) data and [Nbar] the Lagrange functions at the point. *)
Definition jbar (vol : list R) (Nbar : list R) (J : R) : R :=
  match vol with
  | [] => J
  | [J1] => J1
  | _ => sumL (fun p => fst p * snd p) (combine vol Nbar)
  end.

(** F *= pow(fabs(Jbar/J),1.0/nDF), NonlinearElasticityFbar.C 569. *)
Definition fbarF (ndf : nat) (Jbar J : R) (F : nat -> nat -> R) (i j : nat) : R :=
  F i j * cpow (Rabs (Jbar / J)) (1 / INR ndf).

(** NonlinearElasticityULMX.C 446-447: always the cube root. *)
Definition mxF (Theta : R) (detF : R) (F : nat -> nat -> R) (i j : nat) : R :=
  F i j * cpow (Rabs (Theta / detF)) (1 / 3).

(** NonlinearElasticityULMixed.C 302-309: a 2D F is copied to the upper left part of a 3x3 tensor. *)
Definition mixedF (ndf : nat) (Theta detF : R) (F : nat -> nat -> R) (i j : nat) : R :=
  let r1 := cpow (Rabs (Theta / detF)) (1 / 3) in
  if (ndf =? 2)%nat then
    (if ((i =? 3) && (j =? 3))%nat%bool then r1
     else if ((i =? 3) || (j =? 3))%nat%bool then 0 else F i j * r1)
  else F i j * r1.

(** ceil, for pow results. *)
Definition ceilR (x : R) : Z := (1 - up (- x))%Z.

(** FbarElmData::init, NonlinearElasticityFbar.C 54-69. [rt] is the floating-point value of
    pow(nPt,1.0/nsd); the second pow is exact (both arguments are small integers). The scale factor, a Gauss
    point coordinate, is not modelled. Returns pbar and the number of allocated slots. *)
Definition fbarInit (nsd nPt : nat) (rt : R) : option (nat * nat) :=
  let pbar := ceilR (rt - / 2) in
  if Z.eqb (pbar ^ Z.of_nat nsd) (Z.of_nat nPt) then Some (Z.to_nat pbar, nPt) else None.

(** fbar->myVolData[fbar->iP++] in reducedInt, NonlinearElasticityFbar.C 210: slot used, next counter. *)
Definition nextSlot (size iP : nat) : res (nat * nat) := if (iP <? size)%nat then Ret (iP, S iP) else UB.
Fixpoint slots (calls size iP : nat) : res (list nat) :=
  match calls with
  | 0%nat => Ret []
  | S c => let* p := nextSlot size iP in let* t := slots c size (snd p) in Ret (fst p :: t)
  end.

(** Data stored per integration point by NonlinearElasticityULMX::evalInt, 221-301. *)
Record mxPt := mkPt { phi : nat -> R; detF : R; wgt : R; grd : nat -> nat -> R }.

(** Hh->outer_product(Phi,Phi*detJW,true), 288-290, over all points. *)
Definition mxH (pts : list mxPt) (i j : nat) : R := sumL (fun p => phi p i * (phi p j * wgt p)) pts.
(** J1 and Gg, 388-399. *)
Definition mxJ1 (pts : list mxPt) (i : nat) : R := sumL (fun p => phi p i * detF p * wgt p) pts.
Definition mxG (pts : list mxPt) (i a k : nat) : R := sumL (fun p => phi p i * detF p * wgt p * grd p a k) pts.
(** Theta and dNdxBar at a point, 409-437 (general branch). *)
Definition mxTheta (nPM : nat) (Hi : nat -> nat -> R) (pts : list mxPt) (p : mxPt) : R :=
  sumf nPM (fun i => sumf nPM (fun j => Hi i j * mxJ1 pts j) * phi p i).
Definition mxBar (nPM : nat) (Hi : nat -> nat -> R) (pts : list mxPt) (p : mxPt) (a k : nat) : R :=
  sumf nPM (fun i => sumf nPM (fun j => Hi i j * mxG pts j a k) * (phi p i / mxTheta nPM Hi pts p)).
(** The short cut for a constant pressure mode, 347-376. *)
Definition mxTheta1 (Hi11 : R) (pts : list mxPt) : R := sumL (fun p => detF p * wgt p) pts * Hi11.
Definition mxBar1 (pts : list mxPt) (a k : nat) : R :=
  sumL (fun p => detF p * wgt p * grd p a k) pts * (1 / sumL (fun p => detF p * wgt p) pts).

(** MixedElmMats::getNewtonMatrix, NonlinearElasticityULMixed.C 92-139; the matrix is overwritten entry by
    entry and was zeroed when allocated. *)
Definition newtonMatrix (n m : nat) (Kuu Kut Kup Ktt Ktp : nat -> nat -> R) (N0 : mat) : res mat :=
  let* N1 := run_set N0 (loop n (fun i =>
    loop n (fun j => [(i, j, Kuu i j)]) ++
    loop m (fun j => let k := (n + 2 * j - 1)%nat in let l := (n + 2 * j)%nat in
      [(i, k, Kut i j); (k, i, Kut i j); (i, l, Kup i j); (l, i, Kup i j)]))) in
  run_set N1 (loop m (fun i => loop m (fun j =>
    let ki := (n + 2 * i - 1)%nat in let kj := (n + 2 * j - 1)%nat in let lj := (n + 2 * j)%nat in
    [(ki, kj, Ktt i j); (ki, lj, Ktp i j); (lj, ki, Ktp i j)]))).

(** MixedElmMats::getRHSVector, 156-186 (column vector). *)
Definition rhsVector (withLHS : bool) (n m : nat) (Ru Rt Rp : nat -> R) (R0 : mat) : res mat :=
  let* R1 := run_set R0 (loop n (fun i => [(i, 1%nat, Ru i)])) in
  if withLHS then
    run_set R1 (loop m (fun i => [((n + 2 * i - 1)%nat, 1%nat, Rt i); ((n + 2 * i)%nat, 1%nat, Rp i)]))
  else run_set R1 (loop_from (S n) (rows R0) (fun i => [(i, 1%nat, 0)])).

(** One point of NonlinearElasticityULMixed::evalIntMx, 408-441 and 456-459: the coupling blocks and the
    residuals of the volume change and pressure equations. [D7 i] is Dmat(i,7) after the division by Theta. *)
Definition kutWrites (d : nat) (hoop : bool) (n1 n2 : nat) (Nr : nat -> R) (dNdx : nat -> nat -> R) (N2 D7 : nat -> R) : list wr :=
  loop n1 (fun a => loop n2 (fun b =>
    loop d (fun i =>
      [(dof d a i, b, dNdx a i * N2 b * D7 i)] ++
      (if (d =? 2)%nat then [(dof d a i, b, dNdx a (3 - i)%nat * N2 b * D7 4%nat)]
       else if (i <? 3)%nat then
         let j := S i in let k := S (j mod 3) in
         [(dof d a i, b, dNdx a (3 - i)%nat * N2 b * D7 4%nat);
          (dof d a j, b, dNdx a (5 - j)%nat * N2 b * D7 5%nat);
          (dof d a k, b, dNdx a (4 - k)%nat * N2 b * D7 6%nat)]
       else [])) ++
    (if hoop then [(dof d a 1, b, Nr a * N2 b * D7 3%nat)] else []))).
Definition kupWrites (d : nat) (hoop : bool) (n1 n2 : nat) (Nr : nat -> R) (dNdx : nat -> nat -> R) (N2 : nat -> R) (dVup : R) : list wr :=
  loop n1 (fun a => loop n2 (fun b =>
    loop d (fun i => [(dof d a i, b, dNdx a i * N2 b * dVup)]) ++
    (if hoop then [(dof d a 1, b, Nr a * N2 b * dVup)] else []))).
Definition kttAdd (N2 : nat -> R) (D77 : R) (i j : nat) : R := N2 i * (N2 j * D77).
Definition ktpAdd (N2 : nat -> R) (detJW : R) (i j : nat) : R := N2 i * (N2 j * - detJW).
Definition rtAdd (haveStrains : bool) (N2 : nat -> R) (Press Bpres detJW : R) (i : nat) : R :=
  if haveStrains then N2 i * ((Press - Bpres) * detJW) else 0.
Definition rpAdd (haveStrains : bool) (N2 : nat -> R) (Theta J detJW : R) (i : nat) : R :=
  if haveStrains then N2 i * ((Theta - J) * detJW) else 0.

(** MixedMat::addVolumetricTerms, MixedTanMat.C 32-115, loop by loop on a 7x7 array. *)
Definition volStep1 (D : nat -> nat -> R) : nat -> nat -> R :=
  fold_left (fun D i =>
    let D := upd2 D i 7 ((D i 1%nat + D i 2%nat + D i 3%nat) / 3) in
    upd2 D 7 i ((D 1%nat i + D 2%nat i + D 3%nat i) / 3)) [1; 2; 3; 4; 5; 6]%nat D.
Definition volStep2 (D : nat -> nat -> R) : nat -> nat -> R :=
  fold_left (fun D i => fold_left (fun D j =>
    let D := upd2 D i j (D i j - D i 7%nat) in
    upd2 D j i (D j i - D 7%nat i)) [1; 2; 3]%nat D) [1; 2; 3; 4; 5; 6]%nat D.
Definition volStep3 (D : nat -> nat -> R) : nat -> nat -> R :=
  upd2 D 7 7 ((D 1%nat 7%nat + D 2%nat 7%nat + D 3%nat 7%nat) / 3).
Definition volStep4 (D : nat -> nat -> R) : nat -> nat -> R :=
  fold_left (fun D i =>
    let D := upd2 D i 7 (D i 7%nat - D 7%nat 7%nat) in
    let D := upd2 D 7 i (D 7%nat i - D 7%nat 7%nat) in
    fold_left (fun D j => upd2 D i j (D i j + D 7%nat 7%nat)) [1; 2; 3]%nat D) [1; 2; 3]%nat D.
Definition sigDev (sg : nat -> R) (pbar : R) (i : nat) : R := (if (i <=? 3)%nat then sg i - pbar else sg i) * (2 / 3).
Definition volStep5 (f1 : R) (D : nat -> nat -> R) : nat -> nat -> R :=
  fold_left (fun D i => fold_left (fun D j => upd2 D i j (D i j + f1)) [1; 2; 3]%nat D) [1; 2; 3]%nat D.
Definition volStep6 (sd : nat -> R) (D : nat -> nat -> R) : nat -> nat -> R :=
  fold_left (fun D i => fold_left (fun D j =>
    let D := upd2 D i j (D i j - sd j) in upd2 D j i (D j i - sd j)) [1; 2; 3; 4; 5; 6]%nat D) [1; 2; 3]%nat D.
Definition volStep7 (f2 : R) (D : nat -> nat -> R) : nat -> nat -> R :=
  fold_left (fun D j => let D := upd2 D j j (D j j + 2 * f2) in
    upd2 D (j + 3) (j + 3) (D (j + 3)%nat (j + 3)%nat + f2)) [1; 2; 3]%nat D.
Definition volStep8 (sd : nat -> R) (D : nat -> nat -> R) : nat -> nat -> R :=
  fold_left (fun D j => let D := upd2 D 7 j (D 7%nat j + sd j) in upd2 D j 7 (D j 7%nat + sd j)) [1; 2; 3; 4; 5; 6]%nat D.
Definition addVolumetric (D0 : nat -> nat -> R) (sg : nat -> R) (pbar pmix : R) : nat -> nat -> R :=
  let sd := sigDev sg pbar in
  let D := volStep8 sd (volStep7 (pbar - pmix) (volStep6 sd (volStep5 (pmix - pbar * 2 / 3)
            (volStep4 (volStep3 (volStep2 (volStep1 D0))))))) in
  upd2 D 7 7 (D 7%nat 7%nat - pbar / 3).

(** accKM2D / accKM3D (accKM.f 14-144) and accKMx2D / accKMx3D (accKMx.f 14-163): the value added to
    EKt(i,a,j,b). The first two are the last two with zero "bar" gradients. *)
Definition bbc2 (hoop : bool) (sr : R) (s sb : nat -> R) (D : nat -> nat -> R) (i j : nat) : R :=
  match i with
  | 1%nat => s 1%nat * D 1%nat j + s 2%nat * D 4%nat j + sb 1%nat * D 7%nat j + (if hoop then sr * D 3%nat j else 0)
  | _ => s 1%nat * D 4%nat j + s 2%nat * D 2%nat j + sb 2%nat * D 7%nat j
  end.
Definition accKMx2 (hoop : bool) (n : nat) (sr : nat -> R) (s sb D : nat -> nat -> R) (EK : mat) : res mat :=
  run_add EK (loop n (fun a => loop n (fun b => loop 2 (fun i => loop 2 (fun j =>
    let c := bbc2 hoop (sr a) (s a) (sb a) D i in
    [(dof 2 a i, dof 2 b j,
      match j with
      | 1%nat => c 1%nat * s b 1%nat + c 4%nat * s b 2%nat + c 7%nat * sb b 1%nat + (if hoop then c 3%nat * sr b else 0)
      | _ => c 4%nat * s b 1%nat + c 2%nat * s b 2%nat + c 7%nat * sb b 2%nat
      end)]))))).
Definition bbc3 (s sb : nat -> R) (D : nat -> nat -> R) (i j : nat) : R :=
  match i with
  | 1%nat => s 1%nat * D 1%nat j + s 2%nat * D 4%nat j + s 3%nat * D 6%nat j + sb 1%nat * D 7%nat j
  | 2%nat => s 1%nat * D 4%nat j + s 2%nat * D 2%nat j + s 3%nat * D 5%nat j + sb 2%nat * D 7%nat j
  | _ => s 1%nat * D 6%nat j + s 2%nat * D 5%nat j + s 3%nat * D 3%nat j + sb 3%nat * D 7%nat j
  end.
Definition accKMx3 (n : nat) (s sb D : nat -> nat -> R) (EK : mat) : res mat :=
  run_add EK (loop n (fun a => loop n (fun b => loop 3 (fun i => loop 3 (fun j =>
    let c := bbc3 (s a) (sb a) D i in
    [(dof 3 a i, dof 3 b j,
      match j with
      | 1%nat => c 1%nat * s b 1%nat + c 4%nat * s b 2%nat + c 6%nat * s b 3%nat + c 7%nat * sb b 1%nat
      | 2%nat => c 4%nat * s b 1%nat + c 2%nat * s b 2%nat + c 5%nat * s b 3%nat + c 7%nat * sb b 2%nat
      | _ => c 6%nat * s b 1%nat + c 5%nat * s b 2%nat + c 3%nat * s b 3%nat + c 7%nat * sb b 3%nat
      end)]))))).
