(** The mixed element with internal pressure modes, NonlinearElasticityULMX.C: evaluation of the integration
    points (evalInt) and of the element matrices (finalizeElement).

    Simplifications: real arithmetic; the previous state [Fp] is left out (it is stored and scaled but used by
    nothing); mass and body forces are not included (Continuum.v); the inverse of the mode matrix is given
    ([utl::invert] is part of IFEM); the material is a function of the integration point and the deformation
    gradient giving the Cauchy stress and the 6x6 spatial tangent; [isz] stands for SymmTensor::isZero.  Only the
    build with the Fortran kernels (USE_FTNMAT) assembles a stiffness. *)
From Verif Require Export Lib.Base Lib.Sums Lib.Tensor3 Lib.Writes Model.Continuum Model.Mixed.

(** Solids, plane strain and axisymmetric solids. *)
Inductive kind := Solid | Plane | Axi.
Definition kdim (k : kind) : nat := match k with Solid => 3 | _ => 2 end.
Definition isAxi (k : kind) : bool := match k with Axi => true | _ => false end.

(** What evalInt gets for an integration point: FiniteElement N, dNdX, detJxW and the point X; [iPhi] are the
    values of utl::Pascal at the point, 274-285. *)
Record mxIn := mkIn { iN : nat -> R; iG : nat -> nat -> R; iX : R; iW : R; iPhi : nat -> R }.
Definition inElm (k : kind) (n : nat) (p : mxIn) : elm := mkElm (kdim k) (isAxi k) n (kdim k) (iN p) (iG p) (iX p).

(** ItgPtData, NonlinearElasticityULMX.C 45-58. *)
Record mpt := mkMpt { pIn : mxIn; pF : t3; pN : nat -> R; pG : nat -> nat -> R; pW : R }.

(** Lines 242-251: the 3x3 deformation gradient; the tensor is the unit tensor outside the part written. *)
Definition defGrad3 (k : kind) (n : nat) (p : mxIn) (u : nat -> R) : res t3 :=
  let* F := formDefGradient (inElm k n p) (kdim k * n) u false in
  Ret (fun i j => if ((i <=? rows F) && (j <=? rows F))%nat%bool then el F i j else kron i j).
(** Lines 253-260: the part that is inverted, here extended by the unit tensor. *)
Definition block (k : kind) (F : t3) : t3 :=
  match k with Solid => F | _ => fun i j => if ((i <=? 2) && (j <=? 2))%nat%bool then F i j else kron i j end.

(** NonlinearElasticityULMX::evalInt, 221-301. *)
Definition evalPt (k : kind) (n : nat) (p : mxIn) (u : nat -> R) : res mpt :=
  let* F := defGrad3 k n p u in
  let J := det3 (block k F) * (if isAxi k then F 3%nat 3%nat else 1) in
  if Req_EM_T J 0 then Rejected else
  Ret (mkMpt p F
    (if isAxi k then fun a => iN p a * (1 / (iX p + udotN (inElm k n p) u)) else fun _ => 0)
    (fun a j => sumf (kdim k) (fun m => iG p a m * inv3 (block k F) m j))
    (if isAxi k then 2 * PI * iX p * iW p else iW p)).
Fixpoint evalPts (k : kind) (n : nat) (ps : list mxIn) (u : nat -> R) : res (list mpt) :=
  match ps with
  | [] => Ret []
  | p :: r => let* x := evalPt k n p u in let* t := evalPts k n r u in Ret (x :: t)
  end.

(** The data of a point used for the projection; lines 363-365 and 397-399 add the hoop value to the first column. *)
Definition toMx (k : kind) (x : mpt) : mxPt :=
  mkPt (iPhi (pIn x)) (det3 (pF x)) (pW x) (fun a j => pG x a j + (if (isAxi k && (j =? 1)%nat)%bool then pN x a else 0)).

(** Lines 347-437: both branches. *)
Definition theta (k : kind) (nPM : nat) (Hi : nat -> nat -> R) (xs : list mpt) (x : mpt) : R :=
  if (nPM =? 1)%nat then mxTheta1 (Hi 1%nat 1%nat) (map (toMx k) xs) else mxTheta nPM Hi (map (toMx k) xs) (toMx k x).
Definition gradBar (k : kind) (nPM : nat) (Hi : nat -> nat -> R) (xs : list mpt) (x : mpt) (a j : nat) : R :=
  if (nPM =? 1)%nat then mxBar1 (map (toMx k) xs) a j else mxBar nPM Hi (map (toMx k) xs) (toMx k x) a j.
(** Line 446. *)
Definition Fbar (th : R) (x : mpt) : t3 := mxF th (det3 (pF x)) (pF x).

(** Lines 463-497: stresses at all points and the pressure moments. *)
Section Finalize.
Variables (k : kind) (n nPM : nat) (Hi : nat -> nat -> R) (stress : mxIn -> t3 -> t3) (tangent : mxIn -> t3 -> nat -> nat -> R) (isz : t3 -> bool).
Definition sigAt (xs : list mpt) (x : mpt) : t3 := stress (pIn x) (Fbar (theta k nPM Hi xs x) x).
Definition haveStress (xs : list mpt) : bool := existsb (fun x => negb (isz (sigAt xs x))) xs.
Definition sigm (xs : list mpt) (i : nat) : R :=
  sumL (fun x => if isz (sigAt xs x) then 0 else tr3 (sigAt xs x) * (pW x / 3) * iPhi (pIn x) i) xs.
(** Lines 499-501. *)
Definition hsig (xs : list mpt) (i : nat) : R := sumf nPM (fun j => Hi i j * sigm xs j).
(** Lines 505-516. *)
Definition press (xs : list mpt) (x : mpt) : R :=
  if haveStress xs then sumf nPM (fun i => hsig xs i * iPhi (pIn x) i) * det3 (pF x) / theta k nPM Hi xs x else 0.
Definition bpres (xs : list mpt) (x : mpt) : R := if haveStress xs then tr3 (sigAt xs x) / 3 else 0.
Definition sigma (xs : list mpt) (x : mpt) : t3 := fun i j => sigAt xs x i j + kron i j * (press xs x - bpres xs x).
(** Stress components in the sequence of the rows of the strain-displacement matrix. *)
Definition stressVec (s : t3) (r : nat) : R :=
  match k, r with
  | Plane, 3%nat => s 1%nat 2%nat
  | Axi, 4%nat => s 1%nat 2%nat
  | _, _ => tovoigt s r
  end.
Definition nstr : nat := match k with Solid => 6 | Plane => 3 | Axi => 4 end.
(** The element seen by formKG and formBmatrix: gradients in the current configuration, radius 1. *)
Definition curElm (x : mpt) : elm := mkElm (kdim k) (isAxi k) n (kdim k) (pN x) (pG x) 1.

(** Lines 520-564: one point of the last loop. *)
Definition addPt (xs : list mpt) (x : mpt) (st : mat * (nat -> R)) : res (mat * (nat -> R)) :=
  let th := theta k nPM Hi xs x in
  let dV := th * pW x in
  let* K1 := (if haveStress xs then formKG (curElm x) 1 (sigma xs x) dV (fst st) else Ret (fst st)) in
  let D i j := addVolumetric (tangent (pIn x) (Fbar th x)) (tovoigt (sigAt xs x)) (bpres xs x) (press xs x) i j * dV in
  let* K2 := (match k with
    | Solid => accKMx3 n (pG x) (gradBar k nPM Hi xs x) D K1
    | _ => accKMx2 (isAxi k) n (pN x) (pG x) (gradBar k nPM Hi xs x) D K1 end) in
  if haveStress xs then
    let* B := (if isAxi k then formBmatrixAx (curElm x) else formBmatrix (curElm x)) in
    Ret (K2, fun i => snd st i + sumf nstr (fun r => el B r i * (stressVec (sigma xs x) r * - dV)))
  else Ret (K2, snd st).
Fixpoint addPts (xs ys : list mpt) (st : mat * (nat -> R)) : res (mat * (nat -> R)) :=
  match ys with [] => Ret st | y :: r => let* s1 := addPt xs y st in addPts xs r s1 end.

(** NonlinearElasticityULMX::evalInt at all points followed by finalizeElement, 310-572. *)
Definition mxElement (ps : list mxIn) (u : nat -> R) (st : mat * (nat -> R)) : res (mat * (nat -> R)) :=
  let* xs := evalPts k n ps u in addPts xs xs st.
End Finalize.
