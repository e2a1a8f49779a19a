(** The three-field element (displacements, volume change, pressure): one integration point of
    NonlinearElasticityULMixed::evalIntMx and the sum over the points.

    Simplifications: real arithmetic; displacements are always given; mass and body forces are not included
    (Continuum.v); the material is a function of the integration point and the deformation gradient giving the
    Cauchy stress and the 6x6 spatial tangent; [isz] stands for the test [E.isZero(1.0e-16)] on the stored strain
    components.  Tensors of dimension 2 are extended by the unit tensor.  [iPhi p] are the values of the second
    basis (fe.basis(2)) at the point.  Only the build with the Fortran kernels (USE_FTNMAT) is modelled. *)
From Verif Require Export Model.NlElement.

(** Matrices and vectors of MixedElmMats, NonlinearElasticityULMixed.C 44-64. *)
Record tfMats := mkTf { aUU : mat; aUT : mat; aUP : mat; aTT : nat -> nat -> R; aTP : nat -> nat -> R; bU : nat -> R; bT : nat -> R; bP : nat -> R }.

Section ThreeField.
Variables (k : kind) (n m : nat) (stress : mxIn -> t3 -> t3) (tangent : mxIn -> t3 -> nat -> nat -> R) (isz : (nat -> R) -> bool).

(** Lines 285-286. *)
Definition tfTheta (p : mxIn) (th : nat -> R) : R := sumf m (fun b => iPhi p b * th b) + 1.
Definition tfPress (p : mxIn) (pr : nat -> R) : R := sumf m (fun b => iPhi p b * pr b).

(** NonlinearElasticityULMixed::evalIntMx, 266-470; 297 and 311-330 are the push-forward of NonlinearElasticityUL
    without its short cut for zero strains. *)
Definition tfPt (p : mxIn) (u th pr : nat -> R) (st : tfMats) : res tfMats :=
  let* FE := kinematicsUL (inElm k n p) (kdim k * n) u in
  let have := negb (isz (fun r => el (snd FE) r 1)) in
  let Theta := tfTheta p th in
  let Press := tfPress p pr in
  let w := wgt0 k p in
  let* c := pushUL k n (fun _ => false) p u in
  let Fb := mixedF (ndf k) Theta (det3 (cF c)) (cF c) in
  let dVol := Theta * w in
  let dVup := cJ c * w in
  let Sig := stress p Fb in
  let Bpres := if have then tr3 Sig / 3 else 0 in
  let Mpres := if have then Press * cJ c / Theta else 0 in
  let Sigma : t3 := fun i j => Sig i j + kron i j * (Mpres - Bpres) in
  let e := mkElm (kdim k) (isAxi k) n (kdim k) (iN p) (cG c) (cR c) in
  let* K1 := (if have then formKG e (cR c) Sigma dVol (aUU st) else Ret (aUU st)) in
  let Nr a := if (isAxi k && (if Rlt_dec 0 (cR c) then true else false))%bool then iN p a / cR c else iN p a in
  let D i j := addVolumetric (tangent p Fb) (tovoigt Sig) Bpres Mpres i j * dVol in
  let* K2 := (match k with
    | Solid => accKMx3 n (cG c) (fun _ _ => 0) D K1
    | _ => accKMx2 (isAxi k) n Nr (cG c) (fun _ _ => 0) D K1 end) in
  let* K3 := run_add (aUT st) (kutWrites (kdim k) (isAxi k) n m (fun a => iN p a / cR c) (cG c) (iPhi p) (fun i => D i 7%nat / Theta)) in
  let* K4 := run_add (aUP st) (kupWrites (kdim k) (isAxi k) n m (fun a => iN p a / cR c) (cG c) (iPhi p) dVup) in
  let tt i j := aTT st i j + kttAdd (iPhi p) (D 7%nat 7%nat / (Theta * Theta)) i j in
  let tp i j := aTP st i j + ktpAdd (iPhi p) w i j in
  let* ru := (if have then let* B := bmat e in Ret (addBts k B Sigma (- dVol) (bU st)) else Ret (bU st)) in
  Ret (mkTf K2 K3 K4 tt tp ru
    (fun i => bT st i + rtAdd have (iPhi p) Press Bpres w i) (fun i => bP st i + rpAdd have (iPhi p) Theta (cJ c) w i)).

(** All integration points. *)
Fixpoint tfElement (ps : list mxIn) (u th pr : nat -> R) (st : tfMats) : res tfMats :=
  match ps with [] => Ret st | p :: r => let* s1 := tfPt p u th pr st in tfElement r u th pr s1 end.
End ThreeField.
