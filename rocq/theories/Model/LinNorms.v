(** The norms of a linear analysis: the data that ElasticityNorm::evalInt (Elasticity.C 1103-1232, Model/Norms.v) takes from
    the element, and their sums over the mesh.

    Simplifications: real arithmetic; the material is LinIsotropic with the moduli of the point; the young's modulus of
    [material->getStiffness] is the one of the point; the sum over the elements (IFEM) is that of the integration points. *)
From Verif Require Export Model.LinElement Model.LinSystem.
From Verif Require Model.Norms.

(** Vectors and matrices of IFEM as lists. *)
Definition vecL (n : nat) (f : nat -> R) : list R := map f (seq 1 n).
Definition matL (n : nat) (C : mat) : list (list R) := map (fun i => vecL n (el C i)) (seq 1 n).
(** The components stored by SymmTensor(nsd,four) (IFEM): in two dimensions with four components, zz is the third. *)
Definition tensL (nsd : nat) (four : bool) (T : nat -> nat -> R) : list R :=
  if (nsd =? 3)%nat then [T 1%nat 1%nat; T 2%nat 2%nat; T 3%nat 3%nat; T 1%nat 2%nat; T 2%nat 3%nat; T 1%nat 3%nat]
  else if four then [T 1%nat 1%nat; T 2%nat 2%nat; T 3%nat 3%nat; T 1%nat 2%nat] else [T 1%nat 1%nat; T 2%nat 2%nat; T 1%nat 2%nat].

(** The thermal strain, LinearElasticity.C 362-370. *)
Definition thermT (s : lset) (p : lpt) : R := if hasT s then pT p else 0.
(** Elasticity::evalSol, Elasticity.C 771-842 with [toLocal = false]; [strain] is wantStrain.  The tensor has four components
    in plane strain (798); [SymmTensor::copy] leaves zz zero. *)
Definition normStress (s : lset) (p : lpt) (strain : bool) (u : nat -> R) : res (list R) :=
  let ns := nst (lnsd s) (lax s) in
  let* k := kinem s p (Some u) (fun _ => 0) in
  if strain then
    let e := sub_normal (lnsd s) (lax s) (snd k) (thermT s p) in
    Ret (if ((lnsd s =? 2) && negb (lax s) && negb (lps s))%nat%bool then [e 1%nat; e 2%nat; 0; e 3%nat] else vecL ns e)
  else
    let* r := recovered (lnsd s) (lps s) (lax s) (pE p) (pNu p) (pE p) (thermT s p) (snd k) in
    Ret (match snd r with Some z => [fst r 1%nat; fst r 2%nat; z; fst r 3%nat] | None => vecL ns (fst r) end).
(** Elasticity::evalEps, 868-887; vectors that are empty are skipped (1121-1124). *)
Fixpoint dualEps (s : lset) (p : lpt) (zs : list (option (nat -> R))) : res (list (list R)) :=
  match zs with
  | [] => Ret []
  | z :: r =>
    let* e := match z with Some v => let* k := kinem s p (Some v) (fun _ => 0) in Ret (vecL (nst (lnsd s) (lax s)) (snd k)) | None => Ret [] end in
    let* l := dualEps s p r in Ret (e :: l)
  end.
(** Elasticity::haveLoads, 295-307; [rho0] is the density at the origin. *)
Definition haveLoads (trac flux body : bool) (nsd : nat) (grav : nat -> R) (rho0 : R) : bool :=
  (trac || flux || body || (existsb (fun i => if Req_EM_T (grav i) 0 then false else true) (seq 1 nsd) && if Req_EM_T rho0 0 then false else true))%bool.
(** Elasticity::getBodyforce, 285-291. *)
Definition bodyForce (grav : nat -> R) (rho : R) (body : option (nat -> R)) (i : nat) : R :=
  grav i * rho + match body with Some b => b i | None => 0 end.
(** The data of one point: [h] is haveLoads(), [ana] the analytical stress tensor as stored, [zs] the dual solutions,
    [prj] and [nrc] the projected solutions and their number of components. *)
Definition normPt (s : lset) (h strain : bool) (p : lpt) (u : nat -> R) (zs : list (option (nat -> R))) (ana : option (list R))
    (prj : list (option (nat -> R))) (nrc : nat) : res Norms.point :=
  let* C := cmatrix (lnsd s) (lps s) (lax s) (negb strain) (pE p) (pNu p) in
  let* sg := normStress s p strain u in
  let* es := dualEps s p zs in
  Ret (Norms.mkPoint (matL (nst (lnsd s) (lax s)) C) sg ana
    (if h then Some (sumf (lnsd s) (fun i => pF p i * sumf (lnen s) (fun a => u (lnsd s * (a - 1) + i)%nat * pN p a))) else None)
    es prj nrc (pW p) (lax s) (pX p) strain).

(** An element of the mesh with the analytical stresses at its points and the dual solutions. *)
Record nelt := mkNelt { ne : elt; nsig : list (nat -> nat -> R); nz : list (option (nat -> R)) }.
(** The values of the global vector in the unknowns of the element (IFEM: extractElmVec). *)
Definition gatherU (d : nat) (e : elt) (u : nat -> R) : nat -> R := fun i => u (dof d (conn e ((i - 1) / d + 1)) ((i - 1) mod d + 1)).
Fixpoint normPts (s : lset) (h strain anasol four : bool) (u : nat -> R) (zs : list (option (nat -> R))) (l : list (lpt * (nat -> nat -> R))) (acc : nat -> R)
  : res (nat -> R) :=
  match l with
  | [] => Ret acc
  | (p, sg) :: r =>
    let* d := normPt s h strain p u zs (if anasol then Some (tensL (lnsd s) four sg) else None) [] 0 in
    normPts s h strain anasol four u zs r (Norms.accum acc (Norms.evalInt d))
  end.
Fixpoint normMesh (d : nat) (ax ps tmp h strain anasol four : bool) (u : nat -> R) (els : list nelt) (acc : nat -> R) : res (nat -> R) :=
  match els with
  | [] => Ret acc
  | x :: r =>
    let* a := normPts (linStatic d ax ps tmp false (enen (ne x))) h strain anasol four (gatherU d (ne x) u) (nz x) (combine (epts (ne x)) (nsig x)) acc in
    normMesh d ax ps tmp h strain anasol four u r a
  end.
