(** Command-line and input-file selection of the formulation.
    NLargs.C 24-187, FiniteDeformation/NLoptions.h 23-60, FiniteDeformation/NLoptions.C 23-59.
    Simplified: the remaining arguments are handled by IFEM's SIMargsBase::parseArg, taken as an
    oracle [base] for the result and the new number of space dimensions (it touches no other field). *)
From Coq Require Import List ZArith Bool String Ascii.
Import ListNotations.
Open Scope string_scope.
Open Scope Z_scope.

(** SIM::FormulationType: LINEAR and NONLINEAR from IFEM's SIMenums.h (below TOTAL_LAGRANGE),
    the others from NLoptions.h 23-31. *)
Definition LINEAR := 1. Definition NONLINEAR := 2. Definition TOTAL_LAGRANGE := 3.
Definition UPDATED_LAGRANGE := 4. Definition MIXED_QnPn1 := 5. Definition MIXED_QnQn1 := 6. Definition FBAR := 7.

Inductive mxType := MxDefault | MxFull | MxReduced.            (* ASMmxBase::Type *)
Inductive algo := ARCLEN | STATIC | GENALPHA | OLDHHT | NEWHHT. (* NLargs.h Algorithm *)

Record args := mkArgs { options : list Z; mx : mxType; algor : algo;
                        planeStrain : bool; axiSymmetry : bool; dim : Z;
                        printMax : ascii; dNodeMap : bool; checkRHS : bool; fixDup : bool }.
Definition withOpt a o := mkArgs o (mx a) (algor a) (planeStrain a) (axiSymmetry a) (dim a) (printMax a) (dNodeMap a) (checkRHS a) (fixDup a).
Definition withMx a m := mkArgs (options a) m (algor a) (planeStrain a) (axiSymmetry a) (dim a) (printMax a) (dNodeMap a) (checkRHS a) (fixDup a).
Definition withAlg a g := mkArgs (options a) (mx a) g (planeStrain a) (axiSymmetry a) (dim a) (printMax a) (dNodeMap a) (checkRHS a) (fixDup a).
Definition withPS a b := mkArgs (options a) (mx a) (algor a) b (axiSymmetry a) (dim a) (printMax a) (dNodeMap a) (checkRHS a) (fixDup a).
Definition withAxi a b := mkArgs (options a) (mx a) (algor a) (planeStrain a) b (dim a) (printMax a) (dNodeMap a) (checkRHS a) (fixDup a).
Definition withDim a d := mkArgs (options a) (mx a) (algor a) (planeStrain a) (axiSymmetry a) d (printMax a) (dNodeMap a) (checkRHS a) (fixDup a).
Definition withMax a c := mkArgs (options a) (mx a) (algor a) (planeStrain a) (axiSymmetry a) (dim a) c (dNodeMap a) (checkRHS a) (fixDup a).
Definition withDump a := mkArgs (options a) (mx a) (algor a) (planeStrain a) (axiSymmetry a) (dim a) (printMax a) true (checkRHS a) (fixDup a).
Definition withRHS a := mkArgs (options a) (mx a) (algor a) (planeStrain a) (axiSymmetry a) (dim a) (printMax a) (dNodeMap a) true (fixDup a).
Definition withDup a := mkArgs (options a) (mx a) (algor a) (planeStrain a) (axiSymmetry a) (dim a) (printMax a) (dNodeMap a) (checkRHS a) true.

(** isdigit and atoi on the tail of an argument. *)
Definition digit (c : ascii) : option Z :=
  let n := Z.of_nat (nat_of_ascii c) in if (48 <=? n) && (n <=? 57) then Some (n - 48) else None.
Fixpoint atoi (acc : Z) (s : string) : Z :=
  match s with
  | EmptyString => acc
  | String c r => match digit c with Some d => atoi (10 * acc + d) r | None => acc end
  end.
Definition tail (n : nat) (s : string) : string := substring n (length s - n) s.
Definition orderOf (n : nat) (s : string) : Z :=
  match tail n s with String c _ => match digit c with Some _ => atoi 0 (tail n s) | None => -1 end | EmptyString => -1 end.

(** NLargs.C 168-187 *)
Definition setFormulation (a : args) (form pOrd : Z) : args :=
  let a1 := if 0 <=? form then withOpt a (match options a with [] => [form] | _ :: r => form :: r end) else a in
  if 0 <=? pOrd then
    withOpt a1 (match options a1 with [] => [0; pOrd] | [f] => [f; pOrd] | f :: _ :: r => f :: pOrd :: r end)
  else a1.

(** NLargs.C 24-93; [strncmp(argv,p,n) = 0] is [prefix p argv]. *)
Definition parseArg (base : string -> Z -> bool * Z) (arg : string) (a : args) : bool * args :=
  let form := -1 in
  if (arg =? "-printMax")%string then (true, withMax a "G"%char)
  else if (arg =? "-printMaxPatch")%string then (true, withMax a "P"%char)
  else if prefix "-dumpNod" arg then (true, withDump a)
  else if (arg =? "-checkRHS")%string then (true, withRHS a)
  else if (arg =? "-fixDup")%string then (true, withDup a)
  else if prefix "-2Dpstra" arg then (true, withPS (withDim a 2) true)
  else if prefix "-2Daxi" arg then (true, withAxi (withDim a 2) true)
  else if (arg =? "-linear")%string then (true, setFormulation a LINEAR (-1))
  else if (arg =? "-UL")%string then
    (true, setFormulation a (if form <? UPDATED_LAGRANGE then UPDATED_LAGRANGE else form) (-1))
  else if prefix "-MX" arg then (true, setFormulation a MIXED_QnPn1 (orderOf 3 arg))
  else if (arg =? "-Mixed")%string then (true, setFormulation (withMx a MxFull) MIXED_QnQn1 (-1))
  else if (arg =? "-mixed")%string then (true, setFormulation (withMx a MxReduced) MIXED_QnQn1 (-1))
  else if prefix "-Fbar" arg then (true, setFormulation a FBAR (orderOf 5 arg))
  else if (arg =? "-Tensor")%string then (true, setFormulation a NONLINEAR (-1))
  else if (arg =? "-GA")%string then (true, withAlg a GENALPHA)
  else if (arg =? "-oldHHT")%string then (true, withAlg a OLDHHT)
  else if (arg =? "-HHT")%string then (true, withAlg a NEWHHT)
  else if (arg =? "-arclen")%string then (true, withAlg a ARCLEN)
  else let (ok, d) := base arg (dim a) in (ok, withDim a d).

(** main_NonLinEl.C 275-320, one pass: the arguments are offered one after the other (those not recognised are used otherwise). *)
Definition parseAll (base : string -> Z -> bool * Z) (l : list string) (a : args) : args :=
  fold_left (fun a arg => snd (parseArg base arg a)) l a.

(** NLargs.C 124-165: the children of <formulation>. [Mixed ty order] is <mixed type=ty>order</mixed>. *)
Inductive child := PlaneStrain | AxiSymmetric | TotalLagrange | UpdatedLagrange | Linear
  | Mixed (ty : string) (order : option Z) | OtherChild.
Definition formStep (d : Z) (s : Z * Z * args) (c : child) : Z * Z * args :=
  let '(form, pOrd, a) := s in
  match c with
  | PlaneStrain => (form, pOrd, withPS a (d =? 2))
  | AxiSymmetric => (form, pOrd, withAxi a (d =? 2))
  | TotalLagrange => (TOTAL_LAGRANGE, pOrd, a)
  | UpdatedLagrange => (if form <? UPDATED_LAGRANGE then UPDATED_LAGRANGE else form, pOrd, a)
  | Linear => (LINEAR, pOrd, a)
  | Mixed ty o =>
      let pOrd := match o with Some p => p | None => pOrd end in
      if (ty =? "Qp/Pp-1")%string then (MIXED_QnPn1, pOrd, a)
      else if (ty =? "Qp/Qp-1")%string then (MIXED_QnQn1, pOrd, withMx a (if (pOrd =? 1)%Z then MxFull else MxReduced))
      else if (ty =? "Fbar")%string then (FBAR, pOrd, a)
      else if (ty =? "Tensor")%string then (NONLINEAR, pOrd, a)
      else (form, pOrd, a)
  | OtherChild => s
  end.
Definition parseFormulation (cs : list child) (a : args) : args :=
  let '(form, pOrd, a') := fold_left (formStep (dim a)) cs (-1, -1, a) in setFormulation a' form pOrd.

(** FiniteDeformation/SIMFiniteDefEl.C 38-39: the formulation and order of the integrand (default: total Lagrange, 0). *)
Definition chosenForm (a : args) : Z := match options a with f :: _ => f | [] => TOTAL_LAGRANGE end.
Definition chosenOrder (a : args) : Z := match options a with _ :: p :: _ => p | _ => 0 end.
(** main_NonLinEl.C 275-320: arguments [before] the input file name, then the input file is
    pre-parsed, then all arguments are parsed once more ([i = 0]). *)
Definition runMain (base : string -> Z -> bool * Z) (before : list string) (file : list child) (after : list string) (a : args) : args :=
  parseAll base (before ++ after) (parseFormulation file (parseAll base before a)).
(** NLargs.h 47-52 and the dimension default 3 of SIMargsBase. *)
Definition args0 : args := mkArgs [] MxDefault STATIC false false 3 "000" false false false.
