(** Model of the input of an isotropic linear-elastic material, Elasticity/LinIsotropic.C:25-168, and of the properties
    it then has, 355-398.  The functions of IFEM which turn a text and a type into a function are the oracles
    [parseReal] and [parseTime]; tag names are compared without regard to case, and are constructors here.  Printing is left out. *)
From Coq Require Import List String.
From Verif.Lib Require Import Base.
Import ListNotations.

Inductive tag := TStiffness | TPoisson | TDensity | TExpansion | THeatCapacity | TConductivity | TOther.
(** A child element: name, attributes "type" and "aging", and text (if any). *)
Record child := mkCh { ctag : tag; ctype : string; caging : bool; ctext : option string }.
(** The element: attributes and children. *)
Record matTag := mkMT { aE : option R; anu : option R; arho : option R; aalpha : option R; acp : option R; akappa : option R; children : list child }.

Section MatInput.
Context {Pt : Type}.
Variable parseReal : string -> string -> option (Pt -> R).    (* utl::parseRealFunc(value,type); None is a null pointer *)
Variable parseTime : string -> string -> option (R -> R).

Record linMat := mkLin { Emod : R; nu : R; rho : R; alpha : R; cp : R; kappa : R;
  Efunc : option (Pt -> R); Eaging : option (R -> R); nuFunc : option (Pt -> R); rhoFunc : option (Pt -> R);
  Afunc : option (R -> R); Cpfunc : option (R -> R); condFunc : option (R -> R) }.
(** Lines 25-37. *)
Definition steel : linMat := mkLin 205000000000 (29/100) 7850 (12/100000000) 1 1 None None None None None None None.

Definition orElse (a : option R) (b : R) : R := match a with Some x => x | None => b end.
(** Lines 84-95. *)
Definition readAttributes (e : matTag) (m : linMat) : linMat :=
  mkLin (if Rle_dec 0 (Emod m) then orElse (aE e) (Emod m) else Emod m) (orElse (anu e) (nu m)) (orElse (arho e) (rho m))
        (orElse (aalpha e) (alpha m)) (orElse (acp e) (cp m)) (orElse (akappa e) (kappa m))
        (Efunc m) (Eaging m) (nuFunc m) (rhoFunc m) (Afunc m) (Cpfunc m) (condFunc m).
(** Lines 97-117: both lambdas capture the variable [child] by value where they are defined, before the loop. *)
Definition spatialFunc (captured : child) : option (Pt -> R) := match ctext captured with Some v => parseReal v (ctype captured) | None => None end.
Definition scalarFunc (captured : child) : option (R -> R) := match ctext captured with Some v => parseTime v (ctype captured) | None => None end.
(** Lines 119-136: one turn of the loop. *)
Definition readChild (captured : child) (m : linMat) (c : child) : linMat :=
  match ctag c with
  | TStiffness =>
    if caging c then mkLin (Emod m) (nu m) (rho m) (alpha m) (cp m) (kappa m) (Efunc m) (scalarFunc captured) (nuFunc m) (rhoFunc m) (Afunc m) (Cpfunc m) (condFunc m)
    else match Efunc m with
         | Some _ => m
         | None => if Rle_dec 0 (Emod m)
                   then mkLin (Emod m) (nu m) (rho m) (alpha m) (cp m) (kappa m) (spatialFunc captured) (Eaging m) (nuFunc m) (rhoFunc m) (Afunc m) (Cpfunc m) (condFunc m)
                   else m
         end
  | TPoisson => mkLin (Emod m) (nu m) (rho m) (alpha m) (cp m) (kappa m) (Efunc m) (Eaging m) (spatialFunc captured) (rhoFunc m) (Afunc m) (Cpfunc m) (condFunc m)
  | TDensity => mkLin (Emod m) (nu m) (rho m) (alpha m) (cp m) (kappa m) (Efunc m) (Eaging m) (nuFunc m) (spatialFunc captured) (Afunc m) (Cpfunc m) (condFunc m)
  | TExpansion => mkLin (Emod m) (nu m) (rho m) (alpha m) (cp m) (kappa m) (Efunc m) (Eaging m) (nuFunc m) (rhoFunc m) (scalarFunc captured) (Cpfunc m) (condFunc m)
  | THeatCapacity => mkLin (Emod m) (nu m) (rho m) (alpha m) (cp m) (kappa m) (Efunc m) (Eaging m) (nuFunc m) (rhoFunc m) (Afunc m) (scalarFunc captured) (condFunc m)
  | TConductivity => mkLin (Emod m) (nu m) (rho m) (alpha m) (cp m) (kappa m) (Efunc m) (Eaging m) (nuFunc m) (rhoFunc m) (Afunc m) (Cpfunc m) (scalarFunc captured)
  | TOther => m
  end.
(** Lines 80-136. *)
Definition parse (e : matTag) (m : linMat) : linMat :=
  let m := readAttributes e m in
  match children e with
  | [] => m
  | first :: _ => fold_left (readChild first) (children e) m
  end.

(** Lines 355-358, 371-398. *)
Definition orValue {A} (f : option (A -> R)) (x : A) (c : R) : R := match f with Some g => g x | None => c end.
Definition getStiffness (m : linMat) (X : Pt) (age : R) : R := match Efunc m with Some f => f X | None => orValue (Eaging m) age (Emod m) end.
Definition getPoissonRatio (m : linMat) (X : Pt) : R := orValue (nuFunc m) X (nu m).
Definition getMassDensity (m : linMat) (X : Pt) : R := orValue (rhoFunc m) X (rho m).
Definition getThermalExpansion (m : linMat) (T : R) : R := orValue (Afunc m) T (alpha m).
Definition getHeatCapacity (m : linMat) (T : R) : R := orValue (Cpfunc m) T (cp m).
Definition getThermalConductivity (m : linMat) (T : R) : R := orValue (condFunc m) T (kappa m).
End MatInput.
