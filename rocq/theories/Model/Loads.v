(** Model of distributed loads of the continuum element: load vectors, their total, and the external energy.
    Elasticity/Elasticity.C:280-306, 622-682, 1130-1151, 1235-1256; resultants of boundary tractions, 1354-1438. *)
From Verif.Lib Require Import Base Vec3 Tensor3.

(** The loads of an Elasticity object.  [trac] stands for tracFld or fluxFld (traction at a point for a normal), [body] for
    bodyFld, [isZero] for Vec3::isZero (IFEM: all components below a tolerance). *)
Record loads := mkLd {
  ldim : nat; lax2 : bool; grav : v3; dens : v3 -> R; body : option (v3 -> v3); trac : option (v3 -> v3 -> v3); isZero : v3 -> bool }.
(** An integration point: position, basis functions, |J|*w, and outward normal (boundary points only). *)
Record ipoint := mkIp { ipX : v3; ipN : nat -> R; ipJW : R; ipn : v3 }.

(** Elasticity.C:280-292, grd = false. *)
Definition bodyforce (p : loads) (X : v3) : v3 :=
  let f := vscal (dens p X) (grav p) in
  match body p with Some g => vadd f (g X) | None => f end.
(** Elasticity.C:295-306. *)
Fixpoint gravityLoads (p : loads) (i n : nat) : bool :=
  match n with
  | O => false
  | S k => if Req_EM_T (vc (grav p) i) 0 then gravityLoads p (S i) k else if Req_EM_T (dens p vzero) 0 then false else true
  end.
Definition haveLoads (p : loads) : bool :=
  match trac p with Some _ => true | None =>
  match body p with Some _ => true | None => gravityLoads p 1 (ldim p) end end.
(** Elasticity.C:656, 1134-1136, 1248-1250, LinearElasticity.C:218: volume or area of an integration point. *)
Definition weight (p : loads) (q : ipoint) : R := if lax2 p then 2 * PI * vx (ipX q) * ipJW q else ipJW q.

(** Elasticity.C:622-638: contributions of a point to the entry nsd*(a-1)+i of the load vector (addressed by node and
    direction here) and to the total load. *)
Definition bodyES (p : loads) (q : ipoint) (a i : nat) : R :=
  let f := bodyforce p (ipX q) in if isZero p f then 0 else vc (vscal (weight p q) f) i * ipN q a.
Definition bodySum (p : loads) (q : ipoint) (i : nat) : R :=
  let f := bodyforce p (ipX q) in if isZero p f then 0 else vc (vscal (weight p q) f) i.
(** Elasticity.C:641-682: the same of a boundary point; pullBackTraction does nothing here (linear problems). *)
Definition traction (p : loads) (q : ipoint) : v3 := match trac p with Some t => t (ipX q) (ipn q) | None => vzero end.
Definition bouES (p : loads) (q : ipoint) (a i : nat) : R := vc (traction p q) i * ipN q a * weight p q.
Definition bouSum (p : loads) (q : ipoint) (i : nat) : R := vc (traction p q) i * ipJW q.
(** Elasticity.C:703-711: displacement at a point. *)
Definition dispAt (p : loads) (nn : nat) (U : nat -> nat -> R) (q : ipoint) : v3 :=
  let c i := if (i <=? ldim p)%nat then sumf nn (fun a => U a i * ipN q a) else 0 in V (c 1%nat) (c 2%nat) (c 3%nat).
(** Elasticity.C:1142-1150, 1235-1256: external energy. *)
Definition bodyEnergy (p : loads) (nn : nat) (U : nat -> nat -> R) (q : ipoint) : R :=
  if haveLoads p then vdot (bodyforce p (ipX q)) (dispAt p nn U q) * weight p q else 0.
Definition bouEnergy (p : loads) (nn : nat) (U : nat -> nat -> R) (q : ipoint) : R :=
  if haveLoads p then vdot (traction p q) (dispAt p nn U q) * weight p q else 0.

(** The sums over all integration points [l] and boundary points [b]. *)
Definition loadVector (p : loads) (l b : list ipoint) (a i : nat) : R := sumL (fun q => bodyES p q a i) l + sumL (fun q => bouES p q a i) b.
Definition totalLoad (p : loads) (l b : list ipoint) (i : nat) : R := sumL (fun q => bodySum p q i) l + sumL (fun q => bouSum p q i) b.
Definition externalEnergy (p : loads) (nn : nat) (U : nat -> nat -> R) (l b : list ipoint) : R :=
  sumL (bodyEnergy p nn U) l + sumL (bouEnergy p nn U) b.

(** * ElasticityForce *)
(** A boundary point: stress and strain there (the strains as a tensor), with the integration point. *)
Record bpoint := mkBp { bsig : t3; beps : t3; bip : ipoint }.
(** Elasticity.C:799-803 and 1373-1378: the tensor returned by evalSol times the normal (IFEM's SymmTensor*Vec3 runs over the
    dimension of the tensor). *)
Definition tractionOf (wantStrain : bool) (nsd : nat) (q : bpoint) : v3 :=
  let s := if wantStrain then beps q else bsig q in
  let c i := if (i <=? nsd)%nat then sumf nsd (fun j => s i j * vc (ipn (bip q)) j) else 0 in V (c 1%nat) (c 2%nat) (c 3%nat).
(** Elasticity.C:1389-1409: contribution to the entry [k] (zero-based) of the array of forces and moments. *)
Definition forceEntry (nsd : nat) (X0 : option v3) (th X : v3) (detJW : R) (k : nat) : R :=
  if (k <? nsd)%nat then vc th (S k) * detJW
  else match X0 with
       | None => 0
       | Some x0 => let T := vcross (vsub X x0) th in
                    if Nat.eqb nsd 2 then if Nat.eqb k 2 then vz T * detJW else 0
                    else if (k <? 2 * nsd)%nat then vc T (S (k - nsd)) * detJW else 0
       end.
Definition boundaryForce (wantStrain : bool) (nsd : nat) (X0 : option v3) (l : list bpoint) (k : nat) : R :=
  sumL (fun q => forceEntry nsd X0 (tractionOf wantStrain nsd q) (ipX (bip q)) (ipJW (bip q)) k) l.
(** Elasticity.C:1412-1423: nodal forces. *)
Definition nodalForce (wantStrain : bool) (nsd : nat) (l : list bpoint) (a i : nat) : R :=
  sumL (fun q => vc (tractionOf wantStrain nsd q) i * ipN (bip q) a * ipJW (bip q)) l.
(** Elasticity.C:1426-1438. *)
Definition noComps (nsd : nat) (X0 : option v3) : nat := nsd + match X0 with Some _ => if Nat.eqb nsd 2 then 1 else nsd | None => 0 end.
