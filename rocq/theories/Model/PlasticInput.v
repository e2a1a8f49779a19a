(** The XML tag of a plastic material: SIMFiniteDefEl::parseMaterial, FiniteDeformation/SIMFiniteDefEl.C 198-259.
    The loop of line 202 visits the child elements only, so the text of the tag is never read; for a child other than
    <hardeningcurve> the words of its name are taken as numbers (204-208), which gives zeros as names are not numbers.
    utl::getAttribute (IFEM) assigns if the attribute is present. *)
From Verif.Lib Require Import Base.
From Verif.Model Require Import Plastic.

Inductive child := Other | Curve (f : (R -> R) * (R -> R)).
Record attrs := mkAttrs {
  aBmod : option R; aEmod : option R; aE : option R; aSmod : option R; aNu : option R; aRho : option R;
  aHiso : option R; aHkin : option R; aYield : option R; aY0 : option R; aYinf : option R; aBeta : option R; aIstrt : option R;
  aA : option R; aB : option R; aN : option R; aQ1 : option R; aC1 : option R; aQ2 : option R; aC2 : option R }.
Record tag := mkTag { text : list R; children : list child; attr : attrs }.

(** Lines 202-218. *)
Definition childParams (l : list child) : list R := flat_map (fun c => match c with Other => [0] | Curve _ => [] end) l.
Definition curveOf (l : list child) : option ((R -> R) * (R -> R)) :=
  fold_left (fun h c => match c with Curve f => Some f | Other => h end) l None.
Definition set (i : nat) (o : option R) (l : list R) : list R := match o with Some v => assign l (i, v) | None => l end.
(** Lines 220-248. *)
Definition params (t : tag) : list R :=
  let a := attr t in
  let p := resize0 11 (childParams (children t)) in
  let p := set 0 (aBmod a) p in let p := set 0 (aEmod a) p in let p := set 0 (aE a) p in
  let p := set 1 (aSmod a) p in let p := set 1 (aNu a) p in
  let p := set 3 (aRho a) p in let p := set 4 (aHiso a) p in let p := set 5 (aHkin a) p in
  let p := set 6 (aYield a) p in let p := set 7 (aY0 a) p in let p := set 8 (aYinf a) p in
  let p := set 9 (aBeta a) p in let p := set 10 (aIstrt a) p in
  let y := toint (nth 6 p 0) in
  if (y =? 4)%Z then set 9 (aN a) (set 8 (aB a) (set 7 (aA a) p))
  else if (y =? 6)%Z then
    set 12 (aC2 a) (set 11 (aQ2 a) (set 9 (aC1 a) (set 8 (aQ1 a) (resize0 13 p))))
  else p.
(** Line 259: the material. *)
Definition plasticMaterial (t : tag) : list R * option ((R -> R) * (R -> R)) := (ctor (params t), curveOf (children t)).
