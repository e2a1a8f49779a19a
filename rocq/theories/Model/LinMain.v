(** The command line of the linear program and the analysis it selects: main_LinEl.C 110-256, 327-349, 376-461, 490-498, 546-547, 628-640, 826-887,
    ElasticityArgs::parseArg and parse, Elasticity/ElasticityArgs.C 19-56.
    Settings are a map from names to values; an option is a list of assignments.  IFEM: SIMargsBase::parseArg ([base]: the
    dimension and the adaptive flag it assigns, if the word is one of its options), SIMoptions::ignoreOldOptions ([old]: the
    number of words it skips after one of its options), strcasestr ([has]), SIMargsBase::parse (elements SetDim and SetAdap).
    Numbers are kept as the words they are read from by atoi and atof; comparing argv[i] to infile is a comparison of
    pointers, here of positions. *)
From Coq Require Import List ZArith Bool String Ascii Lia.
Import ListNotations.
Open Scope string_scope.
Open Scope list_scope.

Inductive key := Kiop | KoutPrec | Kztol | Ktime | KcheckRHS | KvizRHS | KfixDup | KprintMax | KdumpASCII | KdumpMatlab | KKLp | KisC1 | Kshell
  | KnoProj | KnoError | KdualSol | KdynSol | Kmlcase | KdumpModes | KdumpNodeMap | KtracRes | Ksupid | KwantStrain | KwantPrincipal
  | KplaneStrain | KaxiSymmetry | KignoreDirichlet | KplotSC | Kshrink | KvecX | KvecY | KvecZ | Kdim | Kadap | Keig | KtopSets | Kignored.
Scheme Equality for key.
Inductive val := Bo (b : bool) | Nu (z : Z) | Wd (w : string) | Ch (c : ascii) | Li (l : list string).
Definition settings := key -> val.
(** An assignment; [Add] appends to a list. *)
Inductive assign := Set_ (k : key) (v : val) | Add (k : key) (l : list string).
Definition put (s : settings) (a : assign) : settings := fun j =>
  match a with
  | Set_ k v => if key_beq k j then v else s j
  | Add k l => if key_beq k j then Li (match s j with Li m => m ++ l | _ => l end) else s j
  end.
Definition puts (s : settings) (l : list assign) : settings := fold_left put l s.

(** main_LinEl.C 110-137; dimension, adaptivity and eigensolver of ElasticityArgs. *)
Definition initial : settings := fun k =>
  match k with
  | Kiop => Nu 0 | KoutPrec => Wd "6" | Kztol => Wd "-1.0" | Ktime => Wd "1.0" | KvizRHS => Nu 0 | KprintMax => Ch "0" | KdualSol => Ch "0" | KdynSol => Ch "0"
  | Ksupid => Wd "" | KwantPrincipal => Bo true | Kshrink => Wd "0.0" | KvecX | KvecY | KvecZ => Wd "0.0"
  | Kdim => Nu 3 | Kadap => Nu 0 | Keig => Nu 0 | KtopSets | Kignored => Li [] | _ => Bo false
  end.

Section CommandLine.
Variables (base : string -> option (option Z * option Z)) (old : string -> list string -> option nat) (has : string -> string -> bool).
Variable pid0 : bool.                                             (* myPid == 0 *)

Definition opt1 (k : key) (o : option Z) : list assign := match o with Some z => [Set_ k (Nu z)] | None => [] end.
(** ElasticityArgs.C 19-33. *)
Definition parseArg (a : string) : option (list assign) :=
  match base a with
  | Some (d, p) => Some (opt1 Kdim d ++ opt1 Kadap p)
  | None => if a =? "-sup" then Some [Set_ Kdim (Nu 4)] else if a =? "-1D3D" then Some [Set_ Kdim (Nu 13)]
            else if a =? "-1Dsup" then Some [Set_ Kdim (Nu 14)] else None
  end.
Definition dash (w : string) : bool := match w with String "-" _ => true | _ => false end.
Definition isDigit (w : string) : bool :=
  match w with String c _ => let n := nat_of_ascii c in (48 <=? n)%nat && (n <=? 57)%nat | EmptyString => false end.
Fixpoint takeWhile (p : string -> bool) (l : list string) : list string :=
  match l with [] => [] | w :: r => if p w then w :: takeWhile p r else [] end.
Definition flag (k : key) : option (list assign * nat) := Some ([Set_ k (Bo true)], O).
Definition tail (n : nat) (s : string) : string := substring n (String.length s - n) s.
(** One more word is needed: [&& i < argc-1]; otherwise the remaining options are tried, none of which matches. *)
Definition value (r : list string) (k : key) : option (list assign * nat) := match r with v :: _ => Some ([Set_ k (Wd v)], 1%nat) | [] => None end.

(** main_LinEl.C 146-246: assignments and the number of further words used, in the order of the tests. *)
Definition local (a : string) (r : list string) : option (list assign * nat) :=
  if a =? "-printMax" then Some ([Set_ KprintMax (Ch "G")], O)
  else if a =? "-printMaxPatch" then Some ([Set_ KprintMax (Ch "P")], O)
  else if a =? "-dumpASC" then Some ([Set_ KdumpASCII (Bo pid0)], O)
  else if a =? "-dumpMatlab" then let l := takeWhile (fun w => negb (dash w)) r in Some ([Set_ KdumpMatlab (Bo true); Add KtopSets l], List.length l)
  else if prefix "-dumpNod" a then flag KdumpNodeMap
  else if prefix "-tracRes" a then flag KtracRes
  else if (a =? "-outPrec") && negb (match r with [] => true | _ => false end) then value r KoutPrec
  else if (a =? "-ztol") && negb (match r with [] => true | _ => false end) then value r Kztol
  else if (a =? "-time") && negb (match r with [] => true | _ => false end) then value r Ktime
  else if a =? "-ignore" then let l := takeWhile isDigit r in Some ([Add Kignored l], List.length l)
  else if prefix "-vo" a && negb (match r with [] => true | _ => false end) then
    match tail 3 a with
    | String ("x" | "X") _ => value r KvecX | String ("y" | "Y") _ => value r KvecY | String ("z" | "Z") _ => value r KvecZ
    | _ => Some ([], O)
    end
  else if prefix "-shrink" a && negb (match r with [] => true | _ => false end) then value r Kshrink
  else if a =? "-plotSC" then flag KplotSC
  else if a =? "-free" then flag KignoreDirichlet
  else if prefix "-staticCond" a then
    match r with w :: _ => if dash w then Some ([Set_ Kiop (Nu 9)], O) else Some ([Set_ Kiop (Nu 9); Set_ Ksupid (Wd w)], 1%nat) | [] => Some ([Set_ Kiop (Nu 9)], O) end
  else if a =? "-check" then Some ([Set_ Kiop (Nu 100)], O)
  else if a =? "-ignoreSol" then Some ([Set_ Kiop (Nu 200)], O)
  else if a =? "-RHSonly" then Some ([Set_ Kiop (Nu 210)], O)
  else if a =? "-checkRHS" then flag KcheckRHS
  else if a =? "-vizRHS" then Some ([Set_ KvizRHS (Nu 2)], O)
  else if a =? "-fixDup" then flag KfixDup
  else if a =? "-1DC1" then Some ([Set_ Kdim (Nu 1); Set_ KisC1 (Bo true)], O)
  else if a =? "-1DKL" then Some ([Set_ Kdim (Nu 1); Set_ KisC1 (Bo true); Set_ KKLp (Bo true)], O)
  else if prefix "-2DKL" a then Some ([Set_ Kdim (Nu 2); Set_ KisC1 (Bo true); Set_ KKLp (Bo true); Set_ Kshell (Bo (prefix "shel" (tail 5 a)))], O)
  else if prefix "-1D2D" a then Some ([Set_ Kdim (Nu 12); Set_ KisC1 (Bo true); Set_ KKLp (Bo true); Set_ Kshell (Bo (prefix "shel" (tail 7 a)))], O)
  else if prefix "-2Dpstra" a then Some ([Set_ Kdim (Nu 2); Set_ KplaneStrain (Bo true)], O)
  else if prefix "-2Daxi" a then Some ([Set_ Kdim (Nu 2); Set_ KaxiSymmetry (Bo true)], O)
  else if a =? "-strain" then flag KwantStrain
  else if prefix "-noPrin" a then Some ([Set_ KwantPrincipal (Bo false)], O)
  else if prefix "-noP" a then flag KnoProj
  else if prefix "-noE" a then flag KnoError
  else if prefix "-dualadap" a then Some ([Set_ KdualSol (Ch "d"); Set_ Kadap (Nu (-2))], O)
  else if prefix "-dual" a then Some ([Set_ KdualSol (Ch "d")], O)
  else if prefix "-dyn" a then Some ([Set_ KdynSol (Ch "d")], O)
  else if prefix "-qstat" a then Some ([Set_ KdynSol (Ch "s")], O)
  else if prefix "-mlc" a then flag Kmlcase
  else if a =? "-dumpModes" then flag KdumpModes
  else None.

(** The loop over the words, 141-257; [pos] is i, [skip] the words already used by an option.  Restart: an input file with
    the extension xinp has been found. *)
Inductive outcome := Finished (s : settings) (inf : option (nat * string)) (g2 : option string) | Restart (s : settings) (pos : nat) (file : string) (g2 : option string).
Fixpoint scan (l : list string) (pos skip : nat) (s : settings) (inf : option (nat * string)) (g2 : option string) : outcome :=
  match l with
  | [] => Finished s inf g2
  | a :: r =>
    match skip with
    | S k => scan r (S pos) k s inf g2
    | O =>
      if match inf with Some (p, _) => (p =? pos)%nat | None => false end then scan r (S pos) O s inf g2
      else match parseArg a with
      | Some l => scan r (S pos) O (puts s l) inf g2
      | None => match old a r with
      | Some n => scan r (S pos) n s inf g2
      | None => match local a r with
      | Some (l, n) => scan r (S pos) n (puts s l) inf g2
      | None => match inf with
        | Some _ => scan r (S pos) O s inf g2                     (* unknown option ignored *)
        | None => if has a ".g2" then scan r (S pos) O s None (Some a)
                  else if has a ".xinp" then Restart s pos a g2
                  else scan r (S pos) O s (Some (pos, a)) g2
        end end end end
    end
  end.

(** Elements of the input file seen by the pre-parse: ElasticityArgs.C 36-56. *)
Inductive elem := EigMode (n : Z) | Superelem | BeamElem | SetDim (n : Z) | SetAdap (n : Z) | OtherElem.
Definition isDim (s : settings) (n : Z) : bool := match s Kdim with Nu d => Z.eqb d n | _ => false end.
Definition preElem (s : settings) (e : elem) : settings :=
  match e with
  | EigMode n => put s (Set_ Keig (Nu n))
  | Superelem => if isDim s 3 then put s (Set_ Kdim (Nu 4)) else s
  | BeamElem => if isDim s 4 then put s (Set_ Kdim (Nu 14)) else s
  | SetDim n => put s (Set_ Kdim (Nu n)) | SetAdap n => put s (Set_ Kadap (Nu n)) | OtherElem => s
  end.
Variable content : string -> option (list elem).                  (* None: the file cannot be read *)
(** The whole command line (after the name of the program): exit status 1 (256), or settings and names of input file and g2 file. *)
Inductive result := Exit1 | Run (s : settings) (input : option string) (g2 : option string).
Definition ended (o : outcome) : result :=
  match o with Finished s inf g2 => Run s (match inf with Some (_, f) => Some f | None => None end) g2 | Restart _ _ _ _ => Exit1 end.
Definition commandLine (args : list string) : result :=
  match scan args 1 O initial None None with
  | Restart s p f g2 => match content f with
                        | None => Exit1
                        | Some es => ended (scan args 1 O (fold_left preElem es s) (Some (p, f)) g2)
                        end
  | o => ended o
  end.
End CommandLine.

(** ** The analysis. *)
Record choice := mkC { iop : Z; eig : Z (* model->opt.eig *); dim : Z; klp : bool; adaptive : bool; dyn : bool; mlc : bool; restart : bool }.
Definition coupled (c : choice) : bool := ((dim c =? 12) && klp c || (dim c =? 13) || (dim c =? 14))%Z.
(** 338-348, for an eigensolver given as option or in the input. *)
Definition genEig (c : choice) : bool := ((3 <=? eig c) && (eig c <=? 6) && negb (eig c =? 5))%Z.
Definition dynSol (c : choice) : bool := dyn c && negb (adaptive c).
Definition modal (c : choice) : bool := dynSol c && (1 <? dim c)%Z && genEig c.
Inductive analysis := Newmark | LoadCases | Coupled | Adaptive | Static | Buckling | Regular | Condense | Vibration | Assemble.
(** 457-461, 546-547, 628-887 in sequence; the analyses done one after the other. *)
Definition performed (c : choice) : list analysis :=
  if dynSol c && negb (modal c) then [Newmark]
  else if mlc c then [LoadCases]
  else if coupled c then [Coupled]
  else
    let iop := if restart c && modal c then (100 - eig c)%Z else iop c in
    let one :=
      let m := if adaptive c then 10%Z else (iop + eig c)%Z in
      if ((m =? 0) || (m =? 5) || (m =? 200) || (m =? 210))%Z then
        (if (200 <=? iop)%Z then [Assemble] else [Static]) ++ (if ((eig c =? 0) || (200 <=? iop))%Z then [] else [Buckling])
      else if ((m =? 1) || (m =? 2))%Z then [Regular]
      else if (m =? 9)%Z then [Condense]
      else if (m =? 10)%Z then (if adaptive c then [Adaptive] else [])
      else if (m =? 100)%Z then []                             (* model check *)
      else [Vibration] in
    one ++ (if modal c then [Newmark] else []).
