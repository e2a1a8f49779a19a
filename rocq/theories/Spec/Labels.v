(** What a result label should say, independent of the label tables of the code, and what
    an extreme value is. *)
From Coq Require Import List String Ascii Arith Bool Reals.
From Verif Require Import Lib.Base Model.Labels.
Import ListNotations.
Open Scope string_scope.
Open Scope nat_scope.

Definition axisName (a : axis) : string :=
  match a with AX => "x" | AY => "y" | AZ => "z" | AR => "r" | AT => "t" end.

Definition sameAxis (a b : axis) : bool :=
  match a, b with AX, AX | AY, AY | AZ, AZ | AR, AR | AT, AT => true | _, _ => false end.

Definition surface (top : bool) : string := if top then "Top " else "Bottom ".

(** The text describing a quantity; [strain] when tensor values are strains. *)
Definition describe (strain : bool) (q : quantity) : string :=
  match q with
  | Comp a b => (if strain then "e_" else "s_") ++ axisName a ++ axisName b
  | VonMises => "von Mises " ++ (if strain then "strain" else "stress")
  | EqPlastic => "E_pp"
  | MeanStress => "s_h"
  | PrnStress k => "s_" ++ digit k
  | Triax => "T"
  | Lode => "L"
  | Pressure => "hydrostatic pressure"
  | Nothing => "zero"
  | Principal k => "P" ++ digit k
  | Moment a b => "m_" ++ axisName a ++ axisName b
  | Shear a => "q_" ++ axisName a
  | Curv a b => "d2w/d" ++ axisName a ++ (if sameAxis a b then "2" else axisName b)
  | Force a b => "n_" ++ axisName a ++ axisName b
  | SurfComp t a b => surface t ++ (if sameAxis a b then "sigma_" ++ axisName a
                                    else "tau_" ++ axisName a ++ axisName b)
  | SurfPrn t k => surface t ++ "sigma_" ++ digit k
  | SurfMises t => surface t ++ "sigma_m"
  | AxialForce => "Axial force"
  | BendMoment => "Bending moment"
  end.

(** Principal values are numbered 1 to 3. *)
Definition indexed (q : quantity) : Prop :=
  match q with PrnStress k | Principal k | SurfPrn _ k => 1 <= k <= 3 | _ => True end.

(** A table of [n] columns whose labels are right: every column exists and its label, with
    any prefix, describes the quantity in it. *)
Definition labelled (strain : bool) (cols : list quantity) (n : nat)
  (name : nat -> option string -> res string) : Prop :=
  length cols = n /\
  forall i prefix, i < n -> exists q, nth_error cols i = Some q /\
    name i prefix = Ret (pfx prefix (describe strain q)).

(** Two-dimensional without a normal component out of the plane. *)
Definition planeStress (c : config) : Prop :=
  nsd c = 2 /\ axi c = false /\ planeStrain c = false.

Definition continuum (c : config) : Prop := nsd c = 2 \/ (nsd c = 3 /\ axi c = false).

(** Name of the k-th displacement component (0-based) of the continuum. *)
Definition dispName (axi : bool) (k : nat) : string :=
  match axi, k with
  | true, 0 => "u_r" | true, _ => "u_z"
  | false, 0 => "u_x" | false, 1 => "u_y" | false, _ => "u_z"
  end.

(** The visits that count for cell [p]: all of them when a component has one cell, those of
    patch [p] otherwise. *)
Definition counts {P} (nP p : nat) (w : @visitv P) : bool :=
  if nP =? 1 then true else vpatch w =? p.

(** [m] is the largest of the absolute values in [l], 0 when there are none. *)
Definition isMaxAbs (m : R) (l : list R) : Prop :=
  (forall v, In v l -> (Rabs v <= m)%R) /\ (m = 0%R \/ exists v, In v l /\ m = Rabs v).

(** Values of component [j] over the visits that count for cell [p]. *)
Definition samples {P} (nP p j : nat) (ws : list (@visitv P)) : list (P * R) :=
  flat_map (fun w => if counts nP p w then
                       match nth_error (vres w) j with Some v => [(vpoint w, v)] | None => [] end
                     else []) ws.

(** Names of the shell's displacement components and their magnitude. *)
Definition shellDisp : list string := ["u"; "v"; "w"; "sqrt(u^2+v^2+w^2)"].
