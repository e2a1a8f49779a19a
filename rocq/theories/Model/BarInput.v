(** Input of bars, cables and beams: the material tag of Beam/SIMElasticBar.C and the cross section
    data files of Beam/BeamProperty.C.

    Simplifications: XML attributes are [option]s; strings of the data file are lists of characters;
    [atof] is a parameter; messages and the clipping of lines to the buffer are left out. *)
From Coq Require Import List Ascii String Reals Bool.
From Verif Require Import Lib.Base Model.Section Model.FileNames.
Import ListNotations.
Local Open Scope list_scope.
Local Open Scope R_scope.

(** ** Material tags *)
(** The integrand object, SIMElasticBar.C 60-72: [isC] tells whether the type is "cable". *)
Inductive integrand := ICable | IBar.
Definition getBarIntegrand (isC : bool) : integrand := if isC then ICable else IBar.
(** SIMElasticBar.C 133-154: an existing integrand is kept; otherwise the type is that of the attribute,
    by default "cable" for a cable tag. [typ] tells whether a given type is "cable". *)
Definition pickIntegrand (old : option integrand) (cableTag : bool) (typ : option bool) : integrand :=
  match old with Some i => i | None => getBarIntegrand (match typ with Some b => b | None => cableTag end) end.

Record barMat := mkBarMat { mE : option R; mRho : option R; mRo : option R; mD : option R; mt : option R;
  mEA : option R; mA : option R; mEI : option R; mI : option R; mRhoA : option R }.
Definition orDef (a : option R) (d : R) : R := match a with Some v => v | None => d end.
(** BeamProperty.C 84-91: the outer radius, if one is given. *)
Definition outerR (m : barMat) : option R :=
  match mRo m with Some r => Some r | None => match mD m with Some d => Some (/ 2 * d) | None => None end end.
(** SIMElasticBar.C 175-205: axial stiffness, bending stiffness (if the tag sets one) and mass per length. *)
Definition parseBarMat (cableTag : bool) (i : integrand) (m : barMat) : res (R * option R * R) :=
  let E := orDef (mE m) (21 * 10 ^ 10) in
  let rho := orDef (mRho m) 7850 in
  let '(A0, I0) := match outerR m with Some r => let '(a, i, _) := pipe r (mt m) in (a, i) | None => (1, 0) end in
  let '(EA, A) := match mEA m with Some v => (v, A0) | None => let A := orDef (mA m) A0 in (E * A, A) end in
  let* EI := if cableTag then
      match i with
      | IBar => UB
      | ICable => Ret (Some (match mEI m with Some v => v | None => E * orDef (mI m) I0 end))
      end
    else Ret None in
  Ret (EA, EI, match mRhoA m with Some v => if Rlt_dec 0 A then v else rho * A | None => rho * A end).
(** ElasticCable.C 24: a cable starts without bending stiffness; SIMElasticBar.C 118-205 for one tag. *)
Definition bendingOf (i : integrand) (EI : option R) : option R :=
  match i with ICable => Some (orDef EI 0) | IBar => None end.
Definition parseBarTag (old : option integrand) (cableTag : bool) (typ : option bool) (m : barMat) : res (integrand * R * option R * R) :=
  let i := pickIntegrand old cableTag typ in
  let* r := parseBarMat cableTag i m in let '(EA, EI, rhoA) := r in Ret (i, EA, bendingOf i EI, rhoA).

(** SIMElasticBar.C 207-216: moduli of a beam. *)
Definition parseBeamMat (E G nu : option R) : R * R :=
  let E := orDef E (21 * 10 ^ 10) in
  (E, match G with
      | Some g => g
      | None => match nu with
                | Some n => if Rle_dec 0 n then if Rlt_dec n (/ 2) then E / (n + n + 2) else 81 * 10 ^ 9 else 81 * 10 ^ 9
                | None => 81 * 10 ^ 9 end
      end).

(** ** Section data files *)
Definition comma : ascii := ","%char.
(** The fields of a line. *)
Fixpoint split (s : chars) : list chars :=
  match s with
  | [] => [[]]
  | c :: r => if Ascii.eqb c comma then [] :: split r else match split r with f :: t => (c :: f) :: t | [] => [[c]] end
  end.
(** Successive [strtok] calls with a comma: empty fields are passed over. *)
Definition toks (s : chars) : list chars := List.filter (fun f => match f with [] => false | _ => true end) (split s).
Definition chareq (a b : chars) : bool := if list_eq_dec ascii_dec a b then true else false.
(** BeamProperty.C 258-274: scaling by unit. *)
Definition unitScale (u : chars) : R :=
  if chareq u (str "[cm]") then / 10 ^ 2 else if chareq u (str "[mm]") then / 10 ^ 3
  else if chareq u (str "[cm2]") then / 10 ^ 4 else if chareq u (str "[mm2]") then / 10 ^ 6
  else if chareq u (str "[cm3]") then / 10 ^ 6 else if chareq u (str "[mm3]") then / 10 ^ 9
  else if chareq u (str "[cm4]") then / 10 ^ 8 else if chareq u (str "[mm4]") then / 10 ^ 12 else 1.
Record dataLine := mkLine { dlabel : chars; dvalues : list R }.
(** BeamProperty.C 248-277: one line; the line is read behind a '#'. [substr(1,2)] of an empty string throws. *)
Definition readLine (atof : chars -> R) (line : chars) : res dataLine :=
  let t := toks ("#"%char :: line) in
  let lab := nth 1 t [] in let unit := nth 2 t [] in
  match unit with
  | [] => Rejected
  | _ => Ret (mkLine lab (map (fun v => atof v * unitScale unit) (skipn 3 t)))
  end.
(** BeamProperty.C 247-287: the first line of each label is kept. *)
Fixpoint look (key : chars) (l : list dataLine) : option (list R) :=
  match l with [] => None | d :: r => if chareq (dlabel d) key then Some (dvalues d) else look key r end.
Definition addLine (d : dataLine) (l : list dataLine) : list dataLine :=
  match look (dlabel d) l with Some _ => l | None => l ++ [d] end.
Fixpoint readLines (atof : chars -> R) (lines : list chars) (l : list dataLine) : res (list dataLine) :=
  match lines with
  | [] => Ret l
  | s :: r => let* d := readLine atof s in readLines atof r (addLine d l)
  end.
(** BeamProperty.C 291-330: the abscissas and the property function of a key, as pairs of values; [None] if there is none. *)
Definition propFunc (l : list dataLine) (key : chars) : option (list R * list R) :=
  match look (str "x") l, look key l with
  | Some (x :: xs), Some (v :: vs) => Some (x :: xs, v :: vs)
  | _, _ => None
  end.
