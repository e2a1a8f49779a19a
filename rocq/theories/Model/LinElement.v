(** The linear continuum element: LinearElasticity.C, initElement and evalInt (interior and interface).

    Simplifications: real arithmetic; one integration point at a time, all data of the point are in [lpt];
    the material is LinIsotropic with the moduli of the point; element vectors have the length given by the
    connectivity; [SymmTensor::isZero(tol)] compares every stored component with [tol] (IFEM, trusted);
    profiling, debug output and the storage of the integration points (256-258) are dropped. *)
From Verif Require Export Model.Continuum Model.LinIsotropic Model.Thermal.

(** Settings of the integrand: dimension, axisymmetry, plane stress, number of nodes; positions of the element
    matrices and vectors (ElasticBase.h, eKm, eKg, eM, eS, iS; Elasticity.h 374, dS); whether there is a temperature. *)
Record lset := mkLset { lnsd : nat; lax : bool; lps : bool; lnen : nat;
  eKm : Z; eKg : Z; eM : Z; iS : nat; eS : nat; dS : nat; hasT : bool }.
(** Data of an integration point: functions, gradients, X.x, detJxW, moduli, density, body force and the outcome of
    [f.isZero()], thermal strain. *)
Record lpt := mkLpt { pN : nat -> R; pG : nat -> nat -> R; pX : R; pW : R; pE : R; pNu : R; pRho : R;
  pF : nat -> R; pIsz : bool; pT : R }.
Definition pElm (s : lset) (p : lpt) : elm := mkElm (lnsd s) (lax s) (lnen s) (lnsd s) (pN p) (pG p) (pX p).
(** Element matrices and vectors, by position. *)
Record lst := mkLst { lA : nat -> mat; lB : loads }.
Definition setA (st : lst) (s : nat) (K : mat) : lst := mkLst (fun k => if (k =? s)%nat then K else lA st k) (lB st).
Definition setB (st : lst) (b : loads) : lst := mkLst (lA st) b.

(** Elasticity::kinematics, Elasticity.C 552-573: without displacements [eps] keeps its values. *)
Definition kinem (s : lset) (p : lpt) (eV : option (nat -> R)) (eps : nat -> R) : res (mat * (nat -> R)) :=
  let e := pElm s p in
  let* B := (if lax s then formBmatrixAx e else formBmatrix e) in
  Ret (B, match eV with None => eps | Some u => mv (lnsd s * lnen s) (el B) u end).
(** eps.isZero(1.0e-16). *)
Definition zeroStrain (s : lset) (eps : nat -> R) : bool :=
  forallb (fun r => if Rle_dec (Rabs (eps r)) epsR then true else false) (seq 1 (nst (lnsd s) (lax s))).
(** Stress tensor from the stored components. *)
Definition sigT (s : lset) (sg : nat -> R) (i j : nat) : R :=
  if (lax s && (i =? 3)%nat && (j =? 3)%nat)%bool then sg 3%nat else sg (sidx (lnsd s) (lax s) (Nat.max i j) (Nat.min i j)).
(** A.multiply(B,C*B*w,true,false,true) and B.multiply(sigma,b,true,true). *)
Definition stiffAdd (ns : nat) (B : mat) (C : nat -> nat -> R) (w : R) (K : mat) : mat :=
  mkMat (rows K) (cols K) (fun i j => el K i j + sumf ns (fun r => el B r i * (sumf ns (fun c => C r c * el B c j) * w))).
Definition forceAdd (ns : nat) (B : mat) (sg : nat -> R) (b : mat) : mat :=
  mkMat (rows b) (cols b) (fun i j => el b i j + sumf ns (fun r => el B r i * sg r)).

(** LinearElasticity.C 217-218. *)
Definition lVol (s : lset) (p : lpt) : R := if lax s then 2 * PI * pX p * pW p else pW p.
Definition isSome {A} (o : option A) : bool := match o with Some _ => true | None => false end.

(** Lines 190-215: B-matrix, strains, constitutive matrix, stresses. *)
Definition needStrains (s : lset) (eV : option (nat -> R)) : bool :=
  ((0 <? eKm s)%Z || (0 <? eKg s)%Z || ((0 <? iS s)%nat && isSome eV) || ((0 <? eS s)%nat && hasT s))%bool.
Definition matEval (s : lset) (p : lpt) (eps : nat -> R) : res (mat * (nat -> R)) :=
  let* C := cmatrix (lnsd s) (lps s) (lax s) false (pE p) (pNu p) in Ret (C, mv (nst (lnsd s) (lax s)) (el C) eps).
Definition ptState (s : lset) (p : lpt) (eV : option (nat -> R)) : res (mat * (nat -> R) * (mat * (nat -> R))) :=
  if needStrains s eV then
    let* k := kinem s p eV (fun _ => 0) in let* m := matEval s p (snd k) in Ret (k, m)
  else Ret (zeros 0 0, fun _ => 0, (zeros 0 0, fun _ => 0)).

(** Lines 220-226. *)
Definition stepK (s : lset) (p : lpt) (B C : mat) (st : lst) : lst :=
  if (0 <? eKm s)%Z then let k := Z.to_nat (eKm s) in setA st k (stiffAdd (nst (lnsd s) (lax s)) B (el C) (lVol s p) (lA st k)) else st.
(** Lines 228-233. *)
Definition stepKg (s : lset) (p : lpt) (eV : option (nat -> R)) (have : bool) (sg : nat -> R) (st : lst) : res lst :=
  if ((0 <? eKg s)%Z && have)%bool then
    let k := Z.to_nat (eKg s) in
    let r := if lax s then pX p + match eV with Some u => udotN (pElm s p) u | None => 0 end else 0 in
    let* K := formKG (pElm s p) r (sigT s sg) (lVol s p) (lA st k) in Ret (setA st k K)
  else Ret st.
(** Lines 235-237. *)
Definition stepM (s : lset) (p : lpt) (st : lst) : res lst :=
  if (0 <? eM s)%Z then let k := Z.to_nat (eM s) in let* K := formMass (pElm s p) (pRho p) (lVol s p) (lA st k) in Ret (setA st k K) else Ret st.
(** Lines 239-245. *)
Definition stepInt (s : lset) (p : lpt) (have : bool) (B : mat) (sg : nat -> R) (st : lst) : lst :=
  if ((0 <? iS s)%nat && have)%bool then
    setB st (bset (lB st) (iS s) (forceAdd (nst (lnsd s) (lax s)) B (fun r => sg r * - lVol s p) (bvec (lB st) (iS s)))) else st.
(** Lines 247-254, formInitStrainForces 373-392. *)
Definition stepExt (s : lset) (p : lpt) (B C : mat) (st : lst) : res lst :=
  if (0 <? eS s)%nat then
    let* b1 := formBodyForce (pElm s p) (eS s) (pF p) (pIsz p) (lVol s p) false (lB st) in
    if hasT s then
      let ns := nst (lnsd s) (lax s) in
      let eps0 := fun i => if isnormal (lnsd s) (lax s) i then pT p * lVol s p else 0 in
      Ret (setB st (bset b1 (eS s) (forceAdd ns B (mv ns (el C) eps0) (bvec b1 (eS s)))))
    else Ret (setB st b1)
  else Ret st.
(** Lines 260-278: the extraction function.  [eps] holds the strains of the first part. *)
Definition stepDual (s : lset) (p : lpt) (vecs : list (option (nat -> R))) (eps : nat -> R) (st : lst) : res lst :=
  if ((dS s <=? 1) || (length vecs <=? 1))%nat%bool then Ret st else
  let* k := kinem s p (nth 1 vecs None) eps in
  if zeroStrain s (snd k) then Ret st else
  let* m := matEval s p (snd k) in
  Ret (setB st (bset (lB st) (dS s) (forceAdd (nst (lnsd s) (lax s)) (fst k) (fun r => snd m r * lVol s p) (bvec (lB st) (dS s))))).

(** LinearElasticity::evalInt, LinearElasticity.C 183-278. *)
Definition evalIntLin (s : lset) (p : lpt) (vecs : list (option (nat -> R))) (st : lst) : res lst :=
  let eV := nth 0 vecs None in
  let* q := ptState s p eV in
  let '(B, eps, (C, sg)) := q in
  let have := (needStrains s eV && negb (zeroStrain s eps))%bool in
  let* st2 := stepKg s p eV have sg (stepK s p B C st) in
  let* st3 := stepM s p st2 in
  let* st5 := stepExt s p B C (stepInt s p have B sg st3) in
  stepDual s p vecs eps st5.
(** All integration points. *)
Fixpoint linElement (s : lset) (ps : list lpt) (vecs : list (option (nat -> R))) (st : lst) : res lst :=
  match ps with [] => Ret st | p :: r => let* st1 := evalIntLin s p vecs st in linElement s r vecs st1 end.

(** ** The element vectors, initElement, LinearElasticity.C 120-160 (without the buffers, Model/Buffers.v).
    [sols] are the solution vectors of the patch ([None]: empty), [gather] picks the values of the element;
    [domRHS] is [dualRHS->inDomain(XC)] ([None]: no function), [domFld] the same for [dualFld]. *)
Inductive lmode := Mstatic | Mrecovery | Mother.
Fixpoint trimEmpty {A} (l : list (option A)) : list (option A) :=
  match l with
  | [] => []
  | x :: r => match x, trimEmpty r with None, [] => [] | _, r' => x :: r' end
  end.
Definition haveValues (m : lmode) (domRHS : option bool) (domFld : list bool) (i : nat) : bool :=
  match m with
  | Mstatic => if (i =? 1)%nat then match domRHS with Some b => b | None => false end else true
  | Mrecovery => if (0 <? i)%nat then nth (i - 1) domFld false else true
  | Mother => true
  end.
Fixpoint pickVecs {A B} (g : A -> B) (have : nat -> bool) (i : nat) (l : list (option A)) : list (option B) :=
  match l with [] => [] | x :: r => (match x with Some v => if have i then Some (g v) else None | None => None end) :: pickVecs g have (S i) r end.
Definition initVecs {A B} (gather : A -> B) (m : lmode) (domRHS : option bool) (domFld : list bool) (sols : list (option A)) : list (option B) :=
  match sols with
  | [] => [None]
  | x :: r => match trimEmpty r with
    | [] => [option_map gather x]
    | r' => pickVecs gather (haveValues m domRHS domFld) 0 (x :: r')
    end
  end.

(** ** The stabilisation term at an interface, LinearElasticity.C 286-350.
    [xi] are the local coordinates of the point, [hs] the element lengths in the three directions. *)
Definition faceDir (xi : nat -> R) : option (nat * bool) :=
  if Req_EM_T (xi 1%nat) (-1) then Some (1%nat, false) else if Req_EM_T (xi 1%nat) 1 then Some (1%nat, true) else
  if Req_EM_T (xi 2%nat) (-1) then Some (2%nat, false) else if Req_EM_T (xi 2%nat) 1 then Some (2%nat, true) else
  if Req_EM_T (xi 3%nat) (-1) then Some (3%nat, false) else if Req_EM_T (xi 3%nat) 1 then Some (3%nat, true) else None.
Definition evalIface (s : lset) (xi hs : nat -> R) (deg : nat) (gam : R) (p : lpt) (st : lst) : res lst :=
  if (eKm s <? 0)%Z then Ret st else if (eKm s =? 0)%Z then Rejected else if lax s then Rejected else
  match faceDir xi with
  | None => Rejected
  | Some (dir, up) =>
    let h := hs dir in
    let hJW := (h ^ (2 * deg + 1)) * (pE p * gam) * pW p in
    let hJW := if up then hJW else - hJW in
    let k := Z.to_nat (eKm s) in
    let* K := run_add (lA st k) (loop (lnen s) (fun a => loop (lnen s) (fun b =>
      loop (lnsd s) (fun i => [(dof (lnsd s) a i, dof (lnsd s) b i, hJW * pN p a * pN p b)])))) in
    Ret (setA st k K)
  end.
