(** Which load and boundary functions are in effect while patches and boundaries are visited.
    Elasticity/SIMElasticity.C 318-367 (preprocessA), 832-849 (initNeumann), Elasticity/Elasticity.h 66-68 and Elasticity.C 269-278,
    Shell/SIMKLShell.C 375-411, 289-325, Elasticity/KirchhoffLove.h 81-87, KirchhoffLove.C 178-184, 272-281, Linear/SIMLinElKL.C 150-203.

    Functions are represented by numbers; a map of functions is an association list. *)
From Verif Require Import Lib.Base.
Import ListNotations.

Definition fmap := list (Z * nat).
Fixpoint lookup (m : fmap) (c : Z) : option nat :=
  match m with [] => None | (k, f) :: r => if Z.eqb k c then Some f else lookup r c end.

(** A vector function of the position, or a traction function of position and normal. *)
Inductive tfun := VecF (f : nat) | TracF (f : nat).
(** The members fluxFld and tracFld of the integrand. *)
Record trac := Trac { flux : option nat; tracF : option nat }.

(** Elasticity::setTraction, Elasticity/Elasticity.h 66-68. *)
Definition setTrac_el (s : trac) (t : tfun) : trac :=
  match t with TracF f => Trac (flux s) (Some f) | VecF f => Trac (Some f) (tracF s) end.
(** KirchhoffLove::setTraction, Elasticity/KirchhoffLove.h 85-87. *)
Definition setTrac_kl (s : trac) (t : tfun) : trac :=
  match t with TracF f => Trac None (Some f) | VecF f => Trac (Some f) (tracF s) end.

(** SIMElasticity::initNeumann, Elasticity/SIMElasticity.C 832-849, and SIMKLShell::initNeumann, Shell/SIMKLShell.C 394-411. *)
Definition initNeumann (set : trac -> tfun -> trac) (vectors tracs : fmap) (s : trac) (code : Z) : bool * trac :=
  match lookup vectors code with
  | Some f => (true, set s (VecF f))
  | None => match lookup tracs code with Some f => (true, set s (TracF f)) | None => (false, s) end
  end.
(** Elasticity::getTraction, Elasticity/Elasticity.C 269-278, and KirchhoffLove::getTraction, KirchhoffLove.C 272-281: the function evaluated. *)
Definition getTraction (s : trac) : option tfun :=
  match flux s with Some f => Some (VecF f) | None => match tracF s with Some f => Some (TracF f) | None => None end end.
(** The boundaries visited one after the other, over any number of assembly passes. *)
Definition visit (set : trac -> tfun -> trac) (vectors tracs : fmap) (s : trac) (codes : list Z) : trac :=
  fold_left (fun s c => snd (initNeumann set vectors tracs s c)) codes s.

(** Types of boundary properties (IFEM Property::Type), those of interest here. *)
Inductive pcode := DIRICHLET_ANASOL | DIRICHLET_INHOM | NEUMANN_ANASOL | NEUMANN | BODYLOAD | UNDEFINED.
Record prop := Prop_ { p_code : pcode; p_indx : Z; p_patch : Z }.

(** SIMElasticity::preprocessA, Elasticity/SIMElasticity.C 334-366: the properties, the member aCode, and the codes
    for which the analytical displacement and traction are registered.  [vec] and [stress] tell if the analytical solution has a
    displacement and a stress field. *)
Record ana := Ana { aCode : Z; vecCodes : list Z; tracCodes : list Z }.
Definition anaProp (vec stress : bool) (a : ana) (p : prop) : ana * prop :=
  match p_code p with
  | DIRICHLET_ANASOL =>
      if negb vec then (a, Prop_ UNDEFINED (p_indx p) (p_patch p))
      else if Z.eqb (aCode a) (Z.abs (p_indx p)) then (a, Prop_ DIRICHLET_INHOM (p_indx p) (p_patch p))
      else if Z.eqb (aCode a) 0 then
        (Ana (Z.abs (p_indx p)) (Z.abs (p_indx p) :: vecCodes a) (tracCodes a), Prop_ DIRICHLET_INHOM (p_indx p) (p_patch p))
      else (a, Prop_ UNDEFINED (p_indx p) (p_patch p))
  | NEUMANN_ANASOL =>
      if negb stress then (a, Prop_ UNDEFINED (p_indx p) (p_patch p))
      else (Ana (aCode a) (vecCodes a) (if existsb (Z.eqb (p_indx p)) (tracCodes a) then tracCodes a else p_indx p :: tracCodes a),
            Prop_ NEUMANN (p_indx p) (p_patch p))
  | _ => (a, p)
  end.
Fixpoint anaProps (vec stress : bool) (a : ana) (ps : list prop) : ana * list prop :=
  match ps with
  | [] => (a, [])
  | p :: r => let (a1, p1) := anaProp vec stress a p in let (a2, r2) := anaProps vec stress a1 r in (a2, p1 :: r2)
  end.

(** SIMLinElKL::preprocessA, Linear/SIMLinElKL.C 158-202: three codes, for deflection and the two rotations. *)
Record ana3 := Ana3 { aC0 : Z; aC1 : Z; aC2 : Z }.
Definition klSlot (c : Z) : nat := if (200 <=? Z.abs c)%Z then 2 else if (100 <=? Z.abs c)%Z then 1 else 0.
Definition slotOf (a : ana3) (k : nat) : Z := match k with 0%nat => aC0 a | 1%nat => aC1 a | _ => aC2 a end.
Definition setSlot (a : ana3) (k : nat) (c : Z) : ana3 :=
  match k with 0%nat => Ana3 c (aC1 a) (aC2 a) | 1%nat => Ana3 (aC0 a) c (aC2 a) | _ => Ana3 (aC0 a) (aC1 a) c end.
Definition klProp (have : nat -> bool) (a : ana3) (p : prop) : ana3 * prop :=
  match p_code p with
  | DIRICHLET_ANASOL =>
      if Z.eqb (p_indx p) 0 then (a, p)
      else let k := klSlot (p_indx p) in
           if Z.eqb (slotOf a k) (Z.abs (p_indx p)) then (a, Prop_ DIRICHLET_INHOM (p_indx p) (p_patch p))
           else if (Z.eqb (slotOf a k) 0 && have k)%bool then
             (setSlot a k (Z.abs (p_indx p)), Prop_ DIRICHLET_INHOM (p_indx p) (p_patch p))
           else (a, Prop_ UNDEFINED (p_indx p) (p_patch p))
  | _ => (a, p)
  end.
Fixpoint klProps (have : nat -> bool) (a : ana3) (ps : list prop) : ana3 * list prop :=
  match ps with
  | [] => (a, [])
  | p :: r => let (a1, p1) := klProp have a p in let (a2, r2) := klProps have a1 r in (a2, p1 :: r2)
  end.

(** KirchhoffLove::setPressure, Elasticity/KirchhoffLove.C 178-184. *)
Definition setPressure (pf : option nat) (pres : list nat) : list nat :=
  match pf with Some f => pres ++ [f] | None => [] end.
(** SIMKLShell::initBodyLoad, Shell/SIMKLShell.C 376-391, and SIMLinElBeamC1::initBodyLoad, Linear/SIMLinElBeamC1.C 307-322.
    The scalar map holds optional functions (parsing may fail and leave a null pointer). *)
Fixpoint slookup (m : list (Z * option nat)) (c : Z) : option (option nat) :=
  match m with [] => None | (k, f) :: r => if Z.eqb k c then Some f else slookup r c end.
Definition addLoad (scalars : list (Z * option nat)) (patch : Z) (pres : list nat) (p : prop) : list nat :=
  match p_code p with
  | BODYLOAD => if Z.eqb (p_patch p) patch then
                  match slookup scalars (p_indx p) with Some (Some f) => setPressure (Some f) pres | _ => pres end
                else pres
  | _ => pres
  end.
Definition initBodyLoad (scalars : list (Z * option nat)) (props : list prop) (pres : list nat) (patch : Z) : list nat :=
  let p0 := setPressure None pres in
  let p1 := match slookup scalars 0 with Some f => setPressure f p0 | None => p0 end in
  fold_left (addLoad scalars patch) props p1.

(** Line loads read from the input, Shell/SIMKLShell.C 289-325: the function is kept in one member of the integrand and the line
    in one member of the simulator; [inl] is a line of constant u, [inr] one of constant v, with optional range. *)
Record llTag := LLTag { ll_fun : nat; ll_line : R + R; ll_lo : option R; ll_hi : option R }.
Record llDom := LLDom { ld_fun : option nat; ld_dir : Z; ld_u : R; ld_lo : R; ld_hi : R }.
Definition llInit : llDom := LLDom None 0 0 0 0.
Definition llTagRead (s : llDom) (t : llTag) : llDom :=
  LLDom (Some (ll_fun t)) (match ll_line t with inl _ => 2 | inr _ => 1 end) (match ll_line t with inl u | inr u => u end)
        (match ll_lo t with Some x => x | None => ld_lo s end) (match ll_hi t with Some x => x | None => ld_hi s end).
