(** Keyword and XML input of plates, shells and rotation-free beams.
    Models SIMKLShell::parse of keyword lines, Shell/SIMKLShell.C 112-208, SIMKLShell::parse of XML elements, 210-354 (the elements
    gravity, isotropic, pointload and pressure), initMaterial 357-373, initBodyLoad 375-391, the evaluation of the point loads in
    assembleDiscreteTerms 488-490; SIMLinElBeamC1::parse, Linear/SIMLinElBeamC1.C 57-155 and 157-256, initBodyLoad 307-323;
    KirchhoffLove::setPressure and haveLoads, Elasticity/KirchhoffLove.C 176-182 and 310-322.
    A line is the list of its words as split by strtok; reading a word that is not there passes a null pointer to atoi or
    atof (undefined behaviour).
    Simplified: patch numbers are integers instead of size_t, thickness functions (C88) and line loads (C54) are left out, materials
    have constant properties, and a keyword is separated from its number.
    IFEM: readLine, setPropertyType, parseMaterialSet and getUniquePropertyCode (the code of a set), parseRealFunc; keywords of
    the base class do not change the state modelled here. *)
From Coq Require Import List ZArith QArith Bool.
From Verif.Lib Require Import Base.
From Verif.Model Require TextInput.
Import ListNotations.
Local Open Scope Z_scope.
Notation word := TextInput.word. Notation Num := TextInput.Num. Notation Word := TextInput.Word.
Notation atoi := TextInput.atoi. Notation atof := TextInput.atof.

(** The simulators: plates (nsd = 2), shells (nsd = 3), and rotation-free beams. *)
Inductive sim := Plate | Shell3 | BeamC1.
(** SIMKLShell.h 38-47 ([l_dir] is ldof.second) and SIMLinElBeamC1.h 83-91 ([l_dir] is inod); no value: a null function. *)
Record pload := mkPL { l_patch : Z; l_xi : list Q; l_dir : Z; l_val : option Q }.
Definition defLoad (m : sim) : pload :=
  match m with BeamC1 => mkPL 1 [(-1)%Q] 0 (Some 0%Q) | _ => mkPL 0 [0%Q; 0%Q] 1 None end.
Record mat := mkM { m_E : Q; m_nu : Q; m_rho : Q }.
(** A function from parseRealFunc: a constant, or what the function of that name makes of the value. *)
Inductive fn := FConst (p : Q) | FNamed (w : word) (p : Q).
Inductive kind := UNDEFINED | MATERIAL | BODYLOAD.
Record prop := mkProp { p_code : kind; p_indx : Z; p_patch : Z }.
(** The simulator's tables, and the integrand's gravity, material, thickness and pressures. *)
Record state := mkSt { mVec : list mat; tVec : list Q; myLoads : list pload; myScalars : list (Z * fn); myProps : list prop;
                       gravity : Q; material : option mat; thickness : Q; presFld : list fn }.
(** KirchhoffLove.C 27-48, with the properties of the geometry. *)
Definition init (ps : list prop) : state := mkSt [] [] [] [] ps 0%Q None (1 # 10)%Q [].

(** IFEM: setPropertyType; without an index, the code stays. *)
Definition setPropertyType (code : Z) (k : kind) (idx : option Z) (l : list prop) : list prop :=
  map (fun p => match p_code p with
                | UNDEFINED => if p_indx p =? code then mkProp k (match idx with Some i => i | None => code end) (p_patch p) else p
                | _ => p end) l.
Definition isZeroQ (q : Q) : bool := Qeq_bool q 0.
Definition nMat (s : state) : Z := Z.of_nat (length (mVec s)).
Definition setGravity (g : Q) (s : state) : state :=
  mkSt (mVec s) (tVec s) (myLoads s) (myScalars s) (myProps s) g (material s) (thickness s) (presFld s).
Definition setProps (ps : list prop) (s : state) : state :=
  mkSt (mVec s) (tVec s) (myLoads s) (myScalars s) ps (gravity s) (material s) (thickness s) (presFld s).
Definition setLoads (ls : list pload) (s : state) : state :=
  mkSt (mVec s) (tVec s) ls (myScalars s) (myProps s) (gravity s) (material s) (thickness s) (presFld s).
Definition setScalars (f : list (Z * fn)) (s : state) : state :=
  mkSt (mVec s) (tVec s) (myLoads s) f (myProps s) (gravity s) (material s) (thickness s) (presFld s).
Definition pushPressure (f : fn) (s : state) : state :=
  mkSt (mVec s) (tVec s) (myLoads s) (myScalars s) (myProps s) (gravity s) (material s) (thickness s) (presFld s ++ [f]).
Definition pushMat (m : mat) (t : Q) (s : state) : state :=
  mkSt (mVec s ++ [m]) (tVec s ++ [t]) (myLoads s) (myScalars s) (myProps s) (gravity s) (material s) (thickness s) (presFld s).
(** SIMKLShell.C 145-148 and 239, 253-254 (no thickness function); SIMLinElBeamC1.C 93-96 and 194-196. *)
Definition useFront (s : state) : state :=
  mkSt (mVec s) (tVec s) (myLoads s) (myScalars s) (myProps s) (gravity s)
       (match mVec s with m :: _ => Some m | [] => material s end)
       (match tVec s with t :: _ => if isZeroQ t then thickness s else t | [] => thickness s end) (presFld s).
Definition matCode (code : Z) (s : state) : state :=
  if 0 <? code then setProps (setPropertyType code MATERIAL (Some (nMat s)) (myProps s)) s else s.

Section Text.
Variable m : sim.
(** SIMKLShell.C 128-142; SIMLinElBeamC1.C 78-90 (no Poisson's ratio). *)
Definition isoLine (l : list word) (s : state) : res state :=
  match l with
  | [] => UB
  | c :: r =>
    let s := matCode (atoi c) s in
    let opt r := match r with [] => (0%Q, 0%Q) | [x] => (atof x, 0%Q) | x :: y :: _ => (atof x, atof y) end in
    match m, r with
    | BeamC1, e :: r => Ret (pushMat (mkM (atof e) 0%Q (fst (opt r))) (snd (opt r)) s)
    | BeamC1, [] => UB
    | _, e :: n :: r => Ret (pushMat (mkM (atof e) (atof n) (fst (opt r))) (snd (opt r)) s)
    | _, _ => UB
    end
  end.
(** std::vector::resize and operator[]. *)
Definition resize (n : nat) (l : list pload) : list pload := firstn n l ++ repeat (defLoad m) (n - length l).
Fixpoint setNth (i : nat) (f : pload -> pload) (l : list pload) : list pload :=
  match l, i with
  | [], _ => []
  | a :: r, O => f a :: r
  | a :: r, S i => a :: setNth i f r
  end.
(** SIMKLShell.C 159-170: the members are assigned one by one; the direction only if given, and only in three dimensions.
    SIMLinElBeamC1.C 107-109. *)
Definition loadLine (i : nat) (l : list word) (s : state) : res state :=
  match m, l with
  | BeamC1, p :: u :: v :: _ =>
      Ret (setLoads (setNth i (fun o => mkPL (atoi p) [atof u] (l_dir o) (Some (atof v))) (myLoads s)) s)
  | Plate, p :: u :: v :: w :: _ =>
      Ret (setLoads (setNth i (fun o => mkPL (atoi p) [atof u; atof v] (l_dir o) (Some (atof w))) (myLoads s)) s)
  | Shell3, p :: u :: v :: w :: r =>
      Ret (setLoads (setNth i (fun o => mkPL (atoi p) [atof u; atof v] (match r with d :: _ => atoi d | [] => l_dir o end)
                                             (Some (atof w))) (myLoads s)) s)
  | _, _ => UB
  end.
(** SIMKLShell.C 182-190; SIMLinElBeamC1.C 120-128. *)
Definition presLine (l : list word) (s : state) : res state :=
  match l with
  | c :: p :: r =>
    let code := atoi c in
    let s := setScalars ((code, match r with [] => FConst (atof p) | w :: _ => FNamed w (atof p) end) :: myScalars s) s in
    Ret (if 0 <? code then setProps (setPropertyType code BODYLOAD None (myProps s)) s else s)
  | _ => UB
  end.

Inductive keyword := GRAVITY | ISOTROPIC | POINTLOAD | PRESSURE | OTHER.
(** A line of the file, with or without a keyword in front of its other words. *)
Record tline := mkL { l_key : option keyword; l_args : list word }.
(** The same line when read as data: the keyword is a word without a numerical value. *)
Definition words (l : tline) : list word := match l_key l with Some _ => Word 1%nat :: l_args l | None => l_args l end.
(** Where the reading stands: at a keyword, or in a section with [i] of the [n] announced lines read. *)
Inductive mode := Top | In (k : keyword) (i n : nat).
(** The end of a section. *)
Definition finish (k : keyword) (s : state) : state := match k with ISOTROPIC => useFront s | _ => s end.
Definition enter (k : keyword) (n : Z) (s : state) : mode * state :=
  if n <=? 0 then (Top, finish k s) else (In k 0 (Z.to_nat n), s).
(** A keyword line, SIMKLShell.C 117-126, 152-156, 178-179.  A negative number of point loads throws std::length_error. *)
Definition start (l : tline) (s : state) : res (mode * state) :=
  let n := match l_args l with a :: _ => atoi a | [] => 0 end in
  match l_key l with
  | Some GRAVITY => match l_args l with a :: _ => Ret (Top, setGravity (atof a) s) | [] => UB end
  | Some ISOTROPIC => match l_args l with [] => UB | _ => Ret (enter ISOTROPIC n s) end
  | Some POINTLOAD => if n <? 0 then Rejected else Ret (enter POINTLOAD n (setLoads (resize (Z.to_nat n) (myLoads s)) s))
  | Some PRESSURE => Ret (enter PRESSURE n s)
  | _ => Ret (Top, s)
  end.
Definition dataLine (k : keyword) (i : nat) (l : list word) (s : state) : res state :=
  match k with ISOTROPIC => isoLine l s | POINTLOAD => loadLine i l s | PRESSURE => presLine l s | _ => Ret s end.
(** The whole file; at the end of the file a section ends as if it were complete. *)
Fixpoint run (ls : list tline) (md : mode) (s : state) : res state :=
  match ls with
  | [] => match md with Top => Ret s | In k _ _ => Ret (finish k s) end
  | l :: r =>
    match md with
    | Top => let* x := start l s in run r (fst x) (snd x)
    | In k i n => let* s1 := dataLine k i (words l) s in
                  if Nat.eqb (S i) n then run r Top (finish k s1) else run r (In k (S i) n) s1
    end
  end.
End Text.

(** KirchhoffLove::haveLoads('I'), without line load. *)
Definition haveLoads (s : state) : bool :=
  negb (match presFld s with [] => true | _ => false end) ||
  (negb (isZeroQ (gravity s)) && match material s with Some mt => negb (isZeroQ (m_rho mt)) | None => false end).

(** The XML elements with their attributes; [code] is the property code of the set, or the attribute. *)
Inductive elem :=
  | XGravity (g : option Q)
  | XIso (code : Z) (e n r t : option Q)
  | XLoad (p : option Z) (u v : option Q) (d : option Z) (onElement : bool) (val : Q)
  | XPressure (code : Z) (f : fn).
Definition dflt {A} (o : option A) (a : A) : A := match o with Some x => x | None => a end.
(** SIMKLShell.C 222-287 and 322-341; LinIsotropic.C 31-35; SIMLinElBeamC1.C 172-231. *)
Definition parseElem (m : sim) (x : elem) (s : state) : state :=
  match x with
  | XGravity g => setGravity (dflt g 0%Q) s
  | XIso code e n r t =>
    let s := matCode code s in
    useFront (match m with
              | BeamC1 => pushMat (mkM (dflt e 1000%Q) 0%Q (dflt r 1%Q)) (dflt t (1 # 10)%Q) s
              | _ => pushMat (mkM (dflt e 205000000000%Q) (dflt n (29 # 100)%Q) (dflt r 7850%Q)) (dflt t 0%Q) s end)
  | XLoad p u v d e val =>
    let o := defLoad m in
    let l := match m with
             | BeamC1 => mkPL (dflt p (l_patch o)) [dflt u (-1)%Q] (if e then -1 else l_dir o) (Some val)
             | _ => let dir := match m with Shell3 => dflt d (l_dir o) | _ => l_dir o end in
                    mkPL (dflt p (l_patch o)) [dflt u 0%Q; dflt v 0%Q] (if e then - dir else dir) (Some val) end in
    setLoads (myLoads s ++ [l]) s
  | XPressure code f =>
    if 0 <? code then
      let s := setProps (setPropertyType code BODYLOAD None (myProps s)) (setScalars ((code, f) :: myScalars s) s) in
      match m with BeamC1 => s | _ => if haveLoads s then s else pushPressure f s end
    else s
  end.
Definition parseXml (m : sim) (xs : list elem) (s : state) : state := fold_left (fun s x => parseElem m x s) xs s.

(** std::map: the entry last written. *)
Definition find (code : Z) (l : list (Z * fn)) : option fn :=
  match List.find (fun e => fst e =? code) l with Some e => Some (snd e) | None => None end.
(** initBodyLoad: the pressures acting on a patch (setPressure adds a function to the list). *)
Definition pressures (s : state) (patch : Z) : list fn :=
  match find 0 (myScalars s) with Some f => [f] | None => [] end ++
  flat_map (fun p => match p_code p with
                     | BODYLOAD => if p_patch p =? patch then match find (p_indx p) (myScalars s) with Some f => [f] | None => [] end else []
                     | _ => [] end) (myProps s).
(** assembleDiscreteTerms: the values of the point loads; a null function is called. *)
Fixpoint loadValues (l : list pload) : res (list Q) :=
  match l with
  | [] => Ret []
  | a :: r => match l_val a with None => UB | Some v => let* vs := loadValues r in Ret (v :: vs) end
  end.
