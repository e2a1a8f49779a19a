(** Integration over one element of the large-deformation formulations: NonlinearElasticityUL.C,
    NonlinearElasticityTL.C and NonlinearElasticityFbar.C, stiffness and internal forces.

    Simplifications: real arithmetic; displacements are always given (the branch for an empty vector is in
    Continuum.v); mass and body forces are not included (Continuum.v); the material is a function of the
    integration point and the deformation gradient giving stress and tangent; [isz] stands for the test
    [E.isZero(1.0e-16)] on the stored strain components.  Tensors of dimension 2 are extended by the unit tensor. *)
From Verif Require Export Model.MxElement.

(** NonlinearElasticityUL::kinematics, NonlinearElasticityUL.C 289-330: deformation gradient and stored strains. *)
Definition kinematicsUL (e : elm) (usz : nat) (u : nat -> R) : res (mat * mat) :=
  let* H := formDefGradient e usz u true in
  let* E := greenStrain e H in
  let* F1 := run_add H (loop (nDF e) (fun i => [(i, i, 1)])) in
  let* F := (if axi e then if Rlt_dec epsR (rad e) then run_add F1 [(3%nat, 3%nat, udotN e u / rad e)] else Ret F1
             else Ret F1) in
  Ret (F, E).
(** A tensor of the dimension of [F], extended by the unit tensor. *)
Definition ext3 (F : mat) : t3 := fun i j => if ((i <=? rows F) && (j <=? rows F))%nat%bool then el F i j else kron i j.

Section Element.
Variables (k : kind) (n : nat) (stress : mxIn -> t3 -> t3) (tangent : mxIn -> t3 -> nat -> nat -> R) (isz : (nat -> R) -> bool).
Definition state : Type := mat * (nat -> R).

(** Point in the current configuration: deformation, gradients, radius, volume ratio, whether there are strains. *)
Record cpt := mkCpt { cF : t3; cG : nat -> nat -> R; cR : R; cJ : R; cHave : bool }.
(** NonlinearElasticityUL.C 99-146: without strains the gradients of the initial configuration are kept. *)
Definition pushUL (p : mxIn) (u : nat -> R) : res cpt :=
  let* FE := kinematicsUL (inElm k n p) (kdim k * n) u in
  let F := ext3 (fst FE) in
  if isz (fun r => el (snd FE) r 1) then Ret (mkCpt F (iG p) (iX p) 1 false) else
  let J := det3 (block k F) * (if isAxi k then F 3%nat 3%nat else 1) in
  if Req_EM_T J 0 then Rejected else
  Ret (mkCpt F (fun a j => sumf (kdim k) (fun m => iG p a m * inv3 (block k F) m j)) (iX p + udotN (inElm k n p) u) J true).
(** Integration point volume, NonlinearElasticityUL.C 108. *)
Definition wgt0 (p : mxIn) : R := if isAxi k then 2 * PI * iX p * iW p else iW p.
(** A.multiply(B,C*B*w,true,false,true) and B.multiply(s,b,true,true). *)
Definition addBtCB (B : mat) (C : nat -> nat -> R) (w : R) (K : mat) : mat :=
  mkMat (rows K) (cols K) (fun i j => el K i j + sumf (nstr k) (fun r => el B r i * sumf (nstr k) (fun s => C r s * el B s j) * w)).
Definition addBts (B : mat) (s : t3) (w : R) (b : nat -> R) : nat -> R :=
  fun i => b i + sumf (nstr k) (fun r => el B r i * (stressVec k s r * w)).
Definition bmat (e : elm) : res mat := if axi e then formBmatrixAx e else formBmatrix e.

(** NonlinearElasticityUL::evalInt, 93-199. *)
Definition ulPt (p : mxIn) (u : nat -> R) (st : state) : res state :=
  let* c := pushUL p u in
  let e := mkElm (kdim k) (isAxi k) n (kdim k) (iN p) (cG c) (cR c) in
  let* B := bmat e in
  let dV := wgt0 p * cJ c in
  let s := stress p (cF c) in
  let K1 := addBtCB B (tangent p (cF c)) dV (fst st) in
  let* K2 := (if cHave c then formKG e (cR c) s dV K1 else Ret K1) in
  Ret (K2, if cHave c then addBts B s (- dV) (snd st) else snd st).

(** NonlinearElasticityTL::evalInt, 76-150; [stress] is the second Piola-Kirchhoff stress. *)
Definition tlPt (p : mxIn) (u : nat -> R) (st : state) : res state :=
  let e := inElm k n p in
  let* FEB := kinematicsTL e (kdim k * n) u in
  let F := ext3 (mkMat (nDF e) (nDF e) (el (fst (fst FEB)))) in let B := snd FEB in
  let have := negb (isz (fun r => el (snd (fst FEB)) r 1)) in
  let s := stress p F in
  let K1 := addBtCB B (tangent p F) (wgt0 p) (fst st) in
  let* K2 := (if have then formKG e (iX p) s (wgt0 p) K1 else Ret K1) in
  Ret (K2, if have then addBts B s (- wgt0 p) (snd st) else snd st).

(** All integration points. *)
Fixpoint overPts (f : mxIn -> (nat -> R) -> state -> res state) (ps : list mxIn) (u : nat -> R) (st : state) : res state :=
  match ps with [] => Ret st | p :: r => let* s1 := f p u st in overPts f r u s1 end.
Definition ulElement := overPts ulPt.
Definition tlElement := overPts tlPt.

(** ** F-bar *)
(** VolPtData, NonlinearElasticityFbar.C 33-42, filled by reducedInt, 185-262. *)
Record vpt := mkVpt { vJ : R; vG : nat -> nat -> R; vN : nat -> R }.
Definition samplePt (p : mxIn) (u : nat -> R) : res vpt :=
  let* c := pushUL p u in
  Ret (mkVpt (cJ c) (cG c) (fun a => iN p a * (1 / cR c))).
Fixpoint samplePts (qs : list mxIn) (u : nat -> R) : res (list vpt) :=
  match qs with [] => Ret [] | q :: r => let* x := samplePt q u in let* t := samplePts r u in Ret (x :: t) end.
(** Sum over the sampling points with the Lagrange functions [Nb]. *)
Definition extrap (Nb : nat -> R) (f : vpt -> R) (vs : list vpt) : R :=
  sumL (fun x => f (snd x) * Nb (fst x)) (combine (seq 1 (length vs)) vs).
(** NonlinearElasticityFbar.C 520-566: modified volume ratio, gradients and hoop functions. *)
Definition barJ (Nb : nat -> R) (vs : list vpt) (J : R) : R :=
  match vs with [] => J | [v] => vJ v | _ => extrap Nb vJ vs end.
Definition barG (Nb : nat -> R) (vs : list vpt) (G : nat -> nat -> R) (a i : nat) : R :=
  match vs with [] => G a i | [v] => vG v a i | _ => extrap Nb (fun v => vG v a i * vJ v) vs * (1 / extrap Nb vJ vs) end.
Definition barN (Nb : nat -> R) (vs : list vpt) (Nr : nat -> R) (a : nat) : R :=
  match vs with [] => Nr a | [v] => vN v a | _ => extrap Nb (fun v => vN v a * vJ v) vs / extrap Nb vJ vs end.
(** nDF. *)
Definition ndf : nat := match k with Plane => 2 | _ => 3 end.
Definition ngr : nat := match k with Solid => 9 | Plane => 4 | Axi => 5 end.
(** F *= pow(fabs(Jbar/J),1.0/nDF), line 569. *)
Definition scaleF (Jb J : R) (F : t3) : t3 := fun i j =>
  if ((i <=? ndf) && (j <=? ndf))%nat%bool then fbarF ndf Jb J F i j else kron i j.
(** Lines 594-606: forces of one point; [s] is multiplied by the volume. *)
Definition fbForce (N : nat -> R) (G : nat -> nat -> R) (r : R) (s : t3) (a i : nat) : R :=
  sumf (kdim k) (fun j => G a j * s i j) + (if (isAxi k && (i =? 1)%nat)%bool then if Rlt_dec 0 r then N a * s 3%nat 3%nat / r else 0 else 0).
Definition amat (C : nat -> nat -> R) (s : t3) : nat -> nat -> R :=
  match k with Solid => amat3D C s | Plane => amat2D C s | Axi => amatAx C s end.

(** NonlinearElasticityFbar::evalInt, 463-668. Without strains the material gives no stresses (line 581). *)
Definition fbarPt (vs : list vpt) (p : mxIn) (u : nat -> R) (st : state) : res state :=
  let* c := pushUL p u in
  let F := if cHave c then cF c else kron in
  let J := cJ c in
  let dV := wgt0 p * J in
  let r := iX p + udotN (inElm k n p) u in
  let Nr a := iN p a * (1 / r) in
  let Fb := scaleF (barJ (iPhi p) vs J) J F in
  let s : t3 := fun i j => if cHave c then stress p Fb i j * dV else 0 in
  let C i j := tangent p Fb i j * dV in
  let* Gm := gradOp (kdim k) (isAxi k) r (iN p) (cG c) n in
  let* Gb := gradOp (kdim k) (isAxi k) 1 (barN (iPhi p) vs Nr) (barG (iPhi p) vs (cG c)) n in
  let A := amat C s in
  let Q := qmat (kdim k) ndf (isAxi k) s A in
  Ret (mkMat (rows (fst st)) (cols (fst st)) (fun i j => el (fst st) i j + fbarTangent ngr (el Gm) (el Gb) A Q i j),
       if cHave c then fun x => snd st x - fbForce (iN p) (cG c) r s (S ((x - 1) / kdim k)) (S ((x - 1) mod kdim k)) else snd st).
(** reducedInt at the sampling points [qs], then evalInt at the integration points [ps]. *)
Definition fbarElement (qs ps : list mxIn) (u : nat -> R) (st : state) : res state :=
  let* vs := samplePts qs u in overPts (fbarPt vs) ps u st.
End Element.
