(** Model of the input of analytical solutions: Linear/SIMLinEl.h:180-246, Linear/SIMLinEl2D.C:18-159, Linear/SIMLinEl3D.C:18-116
    and Linear/SIMLinElKL.C:40-147, together with the input of the materials they refer to, Elasticity/Elasticity.C:103-114 with
    SIMElasticity.C:691-715, 754-755 (bodies), Shell/SIMKLShell.C:223-254, 347-348 (plates; material sets left out) and LinIsotropic.C (MatInput).

    Simplifications: the name of a solution is its constructor (text names are compared by their first characters, tags in lower
    case); printing is left out; numbers are read by the oracles [atof] and [atoi]; an expression or field is the number [id] with
    a flag telling if it has a stress field; the strtok state is the list of remaining words; a missing word is [UB] (atof(nullptr)),
    and so is a null material. *)
From Coq Require Import List String.
From Verif.Lib Require Import Base.
From Verif.Model Require Import MatInput.
From Verif.Model Require Analytic.
Import ListNotations.

Inductive kind := KHole | KLshape | KCanTS | KCanTM | KCurved | KPipe | KNavier | KCircular | KExpr (id : nat) (stress : bool) | KUnknown.
(** The arguments of the constructors, AnalyticSolutions.h:29-33, 54, 80-83, 105-109, 129-131, 154-157, 243-248, 311. *)
Inductive anaSol :=
| Hole (a F0 nu : R) (d3 : bool) | Lshape (a F0 nu : R) (d3 : bool) | CanTS (L H F0 : R) (d3 : bool) | CanTM (H M0 : R)
| Curved (u0 a b E : R) | PipeSol (Ri Ro Ti To T0 E nu al : R) (d3 polar : bool)
| NavierU (a b t E nu pz : R) (n : Z) | NavierP (a b t E nu pz xi eta c d : R) (n : Z) | Circular (R0 t E nu P : R)
| Expr (id : nat) (stress : bool).
Definition attrs := string -> option string.
(** getStressSol() != nullptr: AnaSol(STensorFunc* ) and ThinPlateSol set the stress field. *)
Definition hasStress (s : anaSol) : bool := match s with Expr _ b => b | _ => true end.

Section AnaInput.
Context {Pt : Type}.
Variable parseReal : string -> string -> option (Pt -> R).
Variable parseTime : string -> string -> option (R -> R).
Variable origin : Pt.                  (* Vec3() *)
Variable atof : string -> R.
Variable atoi : string -> Z.
Variable isTrue : string -> bool.      (* utl::getAttribute for a bool *)
Notation material := (@linMat Pt).

Definition real (a : attrs) (n : string) (def : R) : R := match a n with Some v => atof v | None => def end.
Definition deref (m : option material) : res material := match m with Some m => Ret m | None => UB end.
Definition word (ts : list string) : res (R * list string) := match ts with [] => UB | t :: r => Ret (atof t, r) end.

(** parseDimSpecific for a tag, SIMLinEl2D.C:76-157 and SIMLinEl3D.C:59-114 (the latter with [d3]); the attribute L of cantm is not used. *)
Definition dimTag (d3 : bool) (mat : option material) (k : kind) (a : attrs) : res (option anaSol) :=
  match k, d3 with
  | KHole, _ => let* m := deref mat in Ret (Some (Hole (real a "a" 0) (real a "F0" 0) (getPoissonRatio m origin) d3))
  | KLshape, _ => let* m := deref mat in Ret (Some (Lshape (real a "a" 0) (real a "F0" 0) (getPoissonRatio m origin) d3))
  | KCanTS, _ => Ret (Some (CanTS (real a "L" 0) (real a "H" 0) (real a "F0" 0) d3))
  | KCanTM, false => Ret (Some (CanTM (real a "H" 0) (real a "M0" 0)))
  | KCurved, false => let* m := deref mat in Ret (Some (Curved (real a "u0" 0) (real a "a" 0) (real a "b" 0) (getStiffness m origin 0)))
  | KPipe, _ => let* m := deref mat in
      Ret (Some (PipeSol (real a "Ri" 0) (real a "Ro" 0) (real a "Ti" 0) (real a "To" 0) (real a "Tref" 273)
                         (getStiffness m origin 0) (getPoissonRatio m origin) (getThermalExpansion m 0) d3
                         (match a "polar"%string with Some v => isTrue v | None => false end)))
  | _, _ => Ret None
  end.
(** parseDimSpecific for a line of text, SIMLinEl2D.C:18-73 and SIMLinEl3D.C:18-56. *)
Definition dimText (d3 : bool) (mat : option material) (k : kind) (ts : list string) : res (option (anaSol * list string)) :=
  match k, d3 with
  | KHole, _ => let* p := word ts in let* q := word (snd p) in let* m := deref mat in Ret (Some (Hole (fst p) (fst q) (getPoissonRatio m origin) d3, snd q))
  | KLshape, _ => let* p := word ts in let* q := word (snd p) in let* m := deref mat in Ret (Some (Lshape (fst p) (fst q) (getPoissonRatio m origin) d3, snd q))
  | KCanTS, _ => let* p := word ts in let* q := word (snd p) in let* r := word (snd q) in Ret (Some (CanTS (fst p) (fst q) (fst r) d3, snd r))
  | KCanTM, false => let* p := word ts in let* q := word (snd p) in Ret (Some (CanTM (fst p) (fst q), snd q))
  | KCurved, false => let* p := word ts in let* q := word (snd p) in let* r := word (snd q) in let* m := deref mat in
      Ret (Some (Curved (fst r) (fst p) (fst q) (getStiffness m origin 0), snd r))
  | _, _ => Ret None
  end.

Record state := mkState { cur : option material; mats : list material; mySol : option anaSol; tracs : list (Z * anaSol) }.
(** [if (!mySol) mySol = new ...]. *)
Definition keep (old : option anaSol) (q : anaSol) : anaSol := match old with Some s => s | None => q end.
(** SIMLinEl.h:198-210, 236-245: [code] is the boundary with the analytical tractions. *)
Definition setSol (s : state) (q : anaSol) (code : Z) : state :=
  let q := keep (mySol s) q in
  mkState (cur s) (mats s) (Some q) (if (Z.ltb 0 code && hasStress q)%bool then (code, q) :: tracs s else tracs s).
Inductive item := Mat (e : matTag) | AnaTag (k : kind) (a : attrs) | AnaText (k : kind) (ts : list string).
Definition codeOf (ts : list string) : Z := match ts with t :: _ => atoi t | [] => 0%Z end.
Definition readItem (d3 : bool) (s : state) (i : item) : res state :=
  match i with
  | Mat e => let m := parse parseReal parseTime e steel in Ret (mkState (Some m) (mats s ++ [m]) (mySol s) (tracs s))
  | AnaTag k a =>                                       (* SIMLinEl.h:215-246 *)
      let code := match a "code"%string with Some v => atoi v | None => 0%Z end in
      match k with
      | KExpr id b => Ret (setSol s (Expr id b) code)
      | _ => let* q := dimTag d3 (cur s) k a in Ret (match q with Some q => setSol s q code | None => s end)
      end
  | AnaText k ts =>                                     (* SIMLinEl.h:180-212 *)
      match k with
      | KExpr id b => Ret (setSol s (Expr id b) (codeOf (tl ts)))
      | _ => let* q := dimText d3 (cur s) k ts in Ret (match q with Some (q, r) => setSol s q (codeOf r) | None => s end)
      end
  end.
Fixpoint readItems (d3 : bool) (s : state) (l : list item) : res state :=
  match l with [] => Ret s | i :: r => let* s := readItem d3 s i in readItems d3 s r end.
(** The integrand starts with the default material, Elasticity.C:46-48. *)
Definition start : state := mkState (Some steel) [] None [].

(** Plates.  SIMKLShell.C:223-254: the material is always the first one; [thickF] is the child <thickness>. *)
Record plate := mkPlate { pcur : option material; pmats : list material; pthk : list R; thickness : Pt -> R; constT : bool; pSol : option anaSol }.
Inductive pitem := PMat (e : matTag) (t : option R) (thickF : option (Pt -> R)) | PAnaTag (k : kind) (a : attrs) | PAnaText (k : kind) (ts : list string).
Definition putSol (s : plate) (q : anaSol) : plate := mkPlate (pcur s) (pmats s) (pthk s) (thickness s) (constT s) (Some (keep (pSol s) q)).
(** SIMLinElKL.C:92-138; a missing attribute nTerm is 100. *)
Definition plateTag (s : plate) (k : kind) (a : attrs) : res (option anaSol) :=
  match k with
  | KNavier => let* m := deref (pcur s) in
      let t := thickness s origin in let E := getStiffness m origin 0 in let nu := getPoissonRatio m origin in
      let n := match a "nTerm"%string with Some v => atoi v | None => 100%Z end in
      let xi := real a "xi" 0 in let eta := real a "eta" 0 in let c := real a "c" 0 in let d := real a "d" 0 in
      Ret (Some (if Req_EM_T xi 0 then NavierU (real a "a" 0) (real a "b" 0) t E nu (real a "pz" 1) n
                 else if Req_EM_T eta 0 then NavierU (real a "a" 0) (real a "b" 0) t E nu (real a "pz" 1) n
                 else if Req_EM_T c 0 then NavierP (real a "a" 0) (real a "b" 0) t E nu (real a "pz" 1) xi eta 0 0 n
                 else if Req_EM_T d 0 then NavierP (real a "a" 0) (real a "b" 0) t E nu (real a "pz" 1) xi eta 0 0 n
                 else NavierP (real a "a" 0) (real a "b" 0) t E nu (real a "pz" 1) xi eta c d n))
  | KCircular => let* m := deref (pcur s) in
      Ret (Some (Circular (real a "R" 0) (thickness s origin) (getStiffness m origin 0) (getPoissonRatio m origin) (real a "P" 1000000)))
  | KExpr id b => Ret (Some (Expr id b))
  | _ => Ret None
  end.
(** SIMLinElKL.C:43-78. *)
Definition plateText (s : plate) (k : kind) (ts : list string) : res (option anaSol) :=
  match k with
  | KNavier => let* a := word ts in let* b := word (snd a) in let* p := word (snd b) in let* m := deref (pcur s) in
      let t := thickness s origin in let E := getStiffness m origin 0 in let nu := getPoissonRatio m origin in
      match snd p with
      | [] => Ret (Some (NavierU (fst a) (fst b) t E nu (fst p) 100))
      | _ => let* xi := word (snd p) in let* eta := word (snd xi) in
             match snd eta with
             | [] => Ret (Some (NavierP (fst a) (fst b) t E nu (fst p) (fst xi) (fst eta) 0 0 100))
             | _ => let* c := word (snd eta) in let* d := word (snd c) in
                    Ret (Some (NavierP (fst a) (fst b) t E nu (fst p) (fst xi) (fst eta) (fst c) (fst d) 100))
             end
      end
  | KExpr id b => Ret (Some (Expr id b))
  | _ => Ret None
  end.
Definition readPItem (s : plate) (i : pitem) : res plate :=
  match i with
  | PMat e t tf =>
      let ms := pmats s ++ [parse parseReal parseTime e steel] in let ths := pthk s ++ [match t with Some t => t | None => 0 end] in
      let front := hd 0 ths in
      Ret (match tf with
           | Some f => if constT s then mkPlate (hd_error ms) ms ths f false (pSol s) else mkPlate (hd_error ms) ms ths (thickness s) false (pSol s)
           | None => if constT s then (if Req_EM_T front 0 then mkPlate (hd_error ms) ms ths (thickness s) true (pSol s)
                                       else mkPlate (hd_error ms) ms ths (fun _ => front) true (pSol s))
                     else mkPlate (hd_error ms) ms ths (thickness s) false (pSol s)
           end)
  | PAnaTag k a => let* q := plateTag s k a in Ret (match q with Some q => putSol s q | None => s end)
  | PAnaText k ts => let* q := plateText s k ts in Ret (match q with Some q => putSol s q | None => s end)
  end.
Fixpoint readPItems (s : plate) (l : list pitem) : res plate :=
  match l with [] => Ret s | i :: r => let* s := readPItem s i in readPItems s r end.
(** KirchhoffLove.C:32-35. *)
Definition startP : plate := mkPlate None [] [] (fun _ => 1/10) true None.

(** Stress (bodies) of a solution at a point of the plane, AnalyticSolutions.C (Analytic). *)
Definition stressOf (s : anaSol) (x y : R) : option Analytic.st :=
  match s with
  | Hole a F0 nu _ => Some (Analytic.hole a F0 nu x y) | Lshape a F0 nu _ => Some (Analytic.lshape a F0 nu x y)
  | CanTS L H F0 _ => Some (Analytic.canTS L H F0 x y) | CanTM H M0 => Some (Analytic.canTM H M0 y)
  | Curved u0 a b E => Some (Analytic.curvedBeam u0 E a b x y)
  | PipeSol Ri Ro Ti To T0 E nu al _ polar => Some (Analytic.pipe Ri Ro Ti To T0 E nu al polar x y)
  | _ => None
  end.
End AnaInput.
