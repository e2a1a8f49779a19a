(** What the entries of a norm group are called and what they are, per integration point. *)
From Coq Require Import List String Arith Bool Reals.
From Verif Require Import Lib.Base Model.Labels Model.Norms.
Import ListNotations.
Open Scope string_scope.
Open Scope nat_scope.

(** ** Continuum *)

Inductive nq :=
| EnergyH | External | EnergyU | ErrorU | Volume
| VirtH (k : nat) | VirtU (k : nat)   (* extraction function k, from 1 *)
| EnergyR | ErrorR | L2R | L2ErrR | ErrorUR | Effectivity.

Definition describeNorm (nExt : nat) (q : nq) : string :=
  let w k := if nExt =? 1 then "w" else "w" ++ dec k in
  match q with
  | EnergyH => "a(u^h,u^h)^0.5" | External => "((f,u^h)+(t,u^h))^0.5"
  | EnergyU => "a(u,u)^0.5" | ErrorU => "a(e,e)^0.5, e=u-u^h" | Volume => "volume"
  | VirtH k => "a(u^h," ++ w k ++ ")" | VirtU k => "a(u," ++ w k ++ ")"
  | EnergyR => "a(u^r,u^r)^0.5" | ErrorR => "a(e,e)^0.5, e=u^r-u^h"
  | L2R => "(u^r,u^r)^0.5" | L2ErrR => "(e,e)^0.5, e=u^r-u^h"
  | ErrorUR => "a(e,e)^0.5, e=u-u^r" | Effectivity => "effectivity index"
  end.

(** The components of a stress that work on the strains of the problem: in plane strain
    (four stresses, three by three compliance) all but the out-of-plane one. *)
Definition active (d : point) (v : list R) : list R :=
  if (length v =? 4) && (length (Cinv d) =? 3) then firstn 2 v ++ skipn 3 v else v.

(** Complementary energy of a stress, without and with the weight of the point. *)
Definition compl (d : point) (s : list R) : R := dotl s (mulv (Cinv d) s).
Definition weight (d : point) : R := (detJxW d * (if axiN d then 2 * PI * Xr d else 1))%R.

(** All components of the stress interpolated from a projection. *)
Definition interp (d : point) (psol : nat -> R) : list R := map psol (seq 0 (length (sigh d))).

(** The integrand of a quantity, stress output.  [psol] is the projection of the group;
    effectivity indices are not integrated. *)
Definition integrand (d : point) (psol : nat -> R) (q : nq) : R :=
  let sh := active d (sigh d) in
  let su := match ana d with Some s => active d s | None => [] end in
  let sr := active d (interp d psol) in
  (match q with
   | EnergyH => compl d sh
   | External => match loads d with Some fu => fu | None => 0 end
   | EnergyU => compl d su
   | ErrorU => compl d (subl su sh)
   | Volume => 1
   | VirtH k => dotl sh (nth (k - 1) (duals d) [])
   | VirtU k => dotl su (nth (k - 1) (duals d) [])
   | EnergyR => compl d sr
   | ErrorR => compl d (subl sr sh)
   | L2R => dotl sr sr
   | L2ErrR => dotl (subl sr sh) (subl sr sh)
   | ErrorUR => compl d (subl su sr)
   | Effectivity => 0
   end * weight d)%R.

(** A point of a run with or without analytical solution and [nExt] extraction functions;
    the projected field has at least as many components as the stress. *)
Definition fits (anasol : bool) (nExt : nat) (d : point) : Prop :=
  (ana d <> None <-> anasol = true) /\ length (duals d) = nExt /\ length (sigh d) <= nrcmp d /\ strainN d = false.

(** Entry [j] (from 1) of group 1, and of the group of the projection at position [k]. *)
Definition firstEntry (d : point) (j : nat) : R := nth (j - 1) (evalInt d) 0%R.
Definition present (p : option (nat -> R)) : bool := match p with Some _ => true | None => false end.
Definition slotOf (anasol : bool) (nExt k : nat) (ps : list (option (nat -> R))) : nat :=
  firstFields anasol nExt + projFields anasol * length (filter present (firstn k ps)).
Definition projEntry (anasol : bool) (nExt : nat) (d : point) (k j : nat) : R :=
  nth (slotOf anasol nExt k (prj d) + (j - 1)) (evalInt d) 0%R.

(** External load on the boundary: the work of the traction. *)
Definition boundaryPart (d : point) (q : nq) : R :=
  match q, loads d with External, Some tu => (tu * weight d)%R | _, _ => 0%R end.

(** ** Updated Lagrangian: the strain energy is per initial volume, the stress norms per current volume. *)
Inductive ulq := ULEnergy | ULExternal | ULStress | ULPressure | ULDev | ULMises | ULVolume.
Definition describeUL (q : ulq) : string :=
  match q with
  | ULEnergy => "a(u^h,u^h)^0.5" | ULExternal => "((f,u^h)+(t,u^h))^0.5" | ULStress => "(s^h,s^h)^0.5"
  | ULPressure => "(p^h,p^h)^0.5" | ULDev => "(e^h,e^h), e^h=S^h-p^h*I" | ULMises => "vm(s^h)" | ULVolume => "volume"
  end.
Definition meanOf (m : nat) (S : nat -> nat -> R) : R := (sumf m (fun i => S i i) / INR m)%R.
Definition normSq (m : nat) (S : nat -> nat -> R) : R := sumf m (fun i => sumf m (fun j => S i j ^ 2))%R.
Definition deviator (m : nat) (S : nat -> nat -> R) (i j : nat) : R := (S i j - meanOf m S * kron i j)%R.
Definition ulIntegrand (m : nat) (S : nat -> nat -> R) (U vm detF JW : R) (q : ulq) : R :=
  let dv := (detF * JW)%R in
  match q with
  | ULEnergy => U * JW | ULExternal => 0 | ULStress => normSq m S * dv | ULPressure => meanOf m S ^ 2 * dv
  | ULDev => normSq m (deviator m S) * dv | ULMises => vm * dv | ULVolume => dv
  end%R.

(** ** Plates *)

Inductive wq := WEnergyH | WExternal | WEnergyU | WErrorU | WResU | WArea
| WEnergyR | WErrorR | WL2R | WL2ErrR | WResR | WJumpR | WErrorUR | WEffect | WEffectRes.

Definition describeW (q : wq) : string :=
  match q with
  | WEnergyH => "a(w^h,w^h)^0.5" | WExternal => "(p,w^h)^0.5" | WEnergyU => "a(w,w)^0.5"
  | WErrorU => "a(e,e)^0.5, e=w-w^h" | WResU => "res(w)^0.5" | WArea => "area"
  | WEnergyR => "a(w^r,w^r)^0.5" | WErrorR => "a(e,e)^0.5, e=w^r-w^h"
  | WL2R => "(w^r,w^r)^0.5" | WL2ErrR => "(e,e)^0.5, e=w^r-w^h"
  | WResR => "res(w^r)^0.5" | WJumpR => "jump(w^r)^0.5" | WErrorUR => "a(e,e)^0.5, e=w-w^r"
  | WEffect => "effectivity index^*" | WEffectRes => "effectivity index^RES"
  end.

(** Energy of a moment or curvature triple: in version 1 the complementary energy, else the
    square of the Hessian, which counts the mixed derivative twice. *)
Definition wEnergy (d : plate) (v : list R) : R :=
  if version d =? 1 then dotl v (mulv (pCinv d) v)
  else match v with [a; b; c] => (a * a + b * b + 2 * (c * c))%R | v => dotl v v end.

Definition wProjected (d : plate) (p : pproj) : list R * R :=
  match p with PNodal v r => (v, r) | POwn v r => (firstn (length (mh d)) v, r) | PNone => ([], 0%R) end.

(** Interior integrand; the jump term has none. *)
Definition wIntegrand (d : plate) (p : pproj) (q : wq) : R :=
  let mu := match anaP d with Some (m, _) => m | None => [] end in
  let mr := fst (wProjected d p) in
  let sq x := (x * x)%R in
  (match q with
   | WEnergyH => wEnergy d (mh d)
   | WExternal => pw d
   | WEnergyU => wEnergy d mu
   | WErrorU => wEnergy d (subl mu (mh d))
   | WResU => match anaP d with Some (_, r) => hk4 d * sq r | None => 0 end
   | WArea => 1
   | WEnergyR => wEnergy d mr
   | WErrorR => wEnergy d (subl mr (mh d))
   | WL2R => dotl mr mr
   | WL2ErrR => dotl (subl mr (mh d)) (subl mr (mh d))
   | WResR => hk4 d * sq (snd (wProjected d p))
   | WErrorUR => wEnergy d (subl mu mr)
   | WJumpR | WEffect | WEffectRes => 0
   end * pJW d)%R.

Definition wfirst (withAna : bool) : nat := if withAna then 6 else 3.
Definition wgroup (withAna : bool) : nat := if withAna then 9 else 6.
Definition wpresent (p : pproj) : bool := match p with PNone => false | _ => true end.
Definition wslot (withAna : bool) (k : nat) (ps : list pproj) : nat :=
  wfirst withAna + wgroup withAna * length (filter wpresent (firstn k ps)).

(** Sizes: one component (beams) or three; everything else has as many components. *)
Definition wfits (withAna : bool) (d : plate) : Prop :=
  (anaP d <> None <-> withAna = true) /\ length (mh d) <= 3 /\
  (forall m r, anaP d = Some (m, r) -> length m = length (mh d)) /\
  (forall v r, In (PNodal v r) (pprj d) -> length v = length (mh d)) /\
  (forall v r, In (POwn v r) (pprj d) -> length (mh d) <= length v).
Definition nodal (p : pproj) : bool := match p with PNodal _ _ => true | _ => false end.

(** Where the boundary terms belong: the external energy, the residual of the analytical
    solution, and for the projection at position [k] its residual and jump entries. *)
Definition wBoundary (withAna : bool) (ps : list (pproj * R)) (tw jana : R) (i : nat) : R :=
  ((if i =? 1 then tw else 0) + (if withAna && (i =? 4)%nat then jana else 0) +
   sumL (fun k => match nth_error ps k with
                  | Some (PNodal _ _, v) =>
                    let s := wslot withAna k (map fst ps) in
                    if ((i =? s + 4) || (i =? s + 5))%nat then v else 0
                  | _ => 0 end) (seq 0 (length ps)))%R.

(** ** Shells *)

Inductive sq := SEnergyH | SExternal | SEnergyR | SErrorR | SNR | SMR | SErrN | SErrM.
Definition describeS (q : sq) : string :=
  match q with
  | SEnergyH => "a(u^h,u^h)^0.5" | SExternal => "(p,u^h)^0.5" | SEnergyR => "a(u^r,u^r)^0.5"
  | SErrorR => "a(e,e)^0.5, e=u^r-u^h" | SNR => "(n^r,n^r)^0.5" | SMR => "(m^r,m^r)^0.5"
  | SErrN => "(e,e)^0.5, e=n^r-n^h" | SErrM => "(e,e)^0.5, e=m^r-m^h"
  end.
Definition sIntegrand (d : shell) (p : list R * list R) (q : sq) : R :=
  let (nr, mr) := p in
  let a n m := (dotl n (mulv (sDm d) n) + dotl m (mulv (sDb d) m))%R in
  let en := subl nr (nh d) in let em := subl mr (mhS d) in
  (match q with
   | SEnergyH => a (nh d) (mhS d) | SExternal => pu d
   | SEnergyR => a nr mr | SErrorR => a en em
   | SNR => dotl nr nr | SMR => dotl mr mr | SErrN => dotl en en | SErrM => dotl em em
   end * sJW d)%R.
Definition spresent (p : option (list R * list R)) : bool := match p with Some _ => true | None => false end.

(** Trapezoidal work along a history of tractions and displacements from rest. *)
Fixpoint work (t0 u0 : list R) (h : list (list R * list R)) : R :=
  match h with
  | [] => 0%R
  | (t, u) :: h => (1 / 2 * dotl (addl t t0) (subl u u0) + work t u h)%R
  end.
