(** Model of the thermal part of the stress recovery.
    Elasticity/Elasticity.C:794-810 (Elasticity::evalSol), LinearElasticity.C:362-392
    (getThermalStrain, formInitStrainForces).
    IFEM's [SymmTensor -= a] and [SymmTensor = a] act on all normal components (trusted). *)
From Verif.Lib Require Import Base.
From Verif.Model Require Import LinIsotropic.

(** Normal components of the Voigt array of SymmTensor(nsd,ax). *)
Definition isnormal (nsd : nat) (ax : bool) (i : nat) : bool :=
  (1 <=? i)%nat && (i <=? (if Nat.eqb nsd 2 && ax then 3 else nsd))%nat.

(** LinearElasticity.C:362-370. *)
Definition thermal_strain (temp temp0 : option R) (alpha : R -> R) : R :=
  match temp with
  | None => 0
  | Some T => alpha T * (T - match temp0 with Some t => t | None => 0 end)
  end.

(** Elasticity.C:796. *)
Definition sub_normal (nsd : nat) (ax : bool) (eps : nat -> R) (eT : R) : nat -> R :=
  fun i => if isnormal nsd ax i then eps i - eT else eps i.

(** Elasticity.C:796-809 with [wantStrain = false]; [Eq] is the value of material->getStiffness(X).
    Result: Voigt stresses and, in plane strain, sigma_zz (size-4 tensor of line 798).
    The tests [epsT != 0.0] only skip additions of zero and are dropped. *)
Definition recovered (nsd : nat) (ps ax : bool) (E nu Eq eT : R) (eps : nat -> R)
  : res ((nat -> R) * option R) :=
  let* r := stress nsd ps ax (Nat.eqb nsd 2 && (ax || negb ps)) E nu (sub_normal nsd ax eps eT) in
  let (s, z) := r in
  if (Nat.eqb nsd 2 && negb ps)%bool then                      (* 808: isPlaneStrain() is !planeStress *)
    match z with
    | Some szz => Ret (s, Some (szz - Eq * eT))
    | None => Ret (fun i => if Nat.eqb i 3 then s 3%nat - Eq * eT else s i, None)
    end
  else Ret (s, z).

(** LinearElasticity.C:380-391: external load of the thermal strain at one integration point,
    B is nst x ndof. *)
Definition thermal_load (nsd : nat) (ax : bool) (C B : nat -> nat -> R) (eT detJW : R) : nat -> R :=
  let eps := fun i => if isnormal nsd ax i then eT * detJW else 0 in
  fun a => sumf (nst nsd ax) (fun r => B r a * mv (nst nsd ax) C eps r).
