(** The simulation programs around the drivers: storage for projected results, exit status, adaptive flag, clean-up.
    main_NonLinEl.C 44-213 and 402-438, main_ShellEl.C 29-104 and 187-199, Linear/DynamicDriver.C 23-110,
    Linear/ModalDriver.C 167-222, Linear/MultiLoadCaseDriver.C 22-80, main_LinEl.C 440-1031. *)
From Coq Require Import List Bool Arith ZArith.
Import ListNotations.

(** ** Storage for the projected results *)
Inductive program := NonLinStatic | NonLinArcLength | NonLinDynamic | ShellStatic | ShellArcLength | LinMultiLoad | LinModal | LinDynamic.
(** The size given by initProj: main_NonLinEl.C 137, main_ShellEl.C 60, ModalDriver.C 188; not called in DynamicDriver.C and MultiLoadCaseDriver.C. *)
Definition proSolSize (p : program) (nProject : nat) : nat :=
  match p with
  | NonLinStatic | NonLinArcLength | NonLinDynamic => match nProject with O => 0 | _ => 1 end
  | ShellStatic | ShellArcLength | LinModal => nProject
  | LinMultiLoad | LinDynamic => 0
  end.
Definition newmark (p : program) : bool := match p with NonLinDynamic | LinModal | LinDynamic => true | _ => false end.
Record popts := POpts { nProject : nat; vtf : bool; pSolOnly : bool; isElasticity : bool }.
(** Elasticity/NonlinearDriver.C 242-247 *)
Definition getMaxVals (o : popts) : bool :=
  if negb (isElasticity o) then false else if 0 <? nProject o then true else vtf o && negb (pSolOnly o).
(** How often a converged step that is (not) saved calls proSol.front(): NewmarkDriver.h 128-159, NonlinearDriver.C 320-327, 389-393, 421-428. *)
Definition frontCalls (p : program) (o : popts) (saved : bool) : nat :=
  let doProject := 0 <? nProject o in
  let a := if doProject then 1 else 0 in
  let b := if newmark p then if saved && vtf o && doProject then 1 else 0
           else if saved then if vtf o && doProject then 1 else 0
           else if getMaxVals o then 1 else 0 in
  a + b.
(** front() of an empty vector is undefined behaviour. *)
Definition projUB (p : program) (o : popts) (steps : list bool) : bool :=
  (proSolSize p (nProject o) =? 0) && existsb (fun s => 0 <? frontCalls p o s) steps.

(** ** The adaptive flag *)
(** main_NonLinEl.C 406, 414 (the flag is passed as the second argument, which the constructor ArcLengthDriver.C 23-24 ignores),
    main_ShellEl.C 191, 197, MultiLoadCaseDriver.C 26; the dynamic drivers have no mesh adaptation. *)
Definition arcLengthCtor (ignored adaptive : bool) : bool := adaptive.
Definition nonlinearCtor (linear adaptive : bool) : bool := adaptive.
Definition isAdaptive (p : program) (linear adap : bool) : bool :=
  match p with
  | NonLinStatic => nonlinearCtor linear adap
  | NonLinArcLength => arcLengthCtor adap false
  | ShellStatic => nonlinearCtor false adap
  | ShellArcLength => arcLengthCtor false adap
  | LinMultiLoad => nonlinearCtor true false
  | NonLinDynamic | LinModal | LinDynamic => false
  end.

(** ** Exit status *)
(** What the operating system sees of the value returned by main. *)
Definition exitCode (status : Z) : Z := (status mod 256)%Z.
Record setup := Setup { readOk : bool; prepOk : bool; glvOk : bool; checkOnly : bool; checkOk : bool; eqOk : bool; restartOk : bool }.
(** main_NonLinEl.C 44-213; [solve] is the status of solveProblem. *)
Definition runNonLin (s : setup) (solve : Z) : Z :=
  if negb (readOk s) then 1 else if negb (prepOk s) then 2 else if negb (glvOk s) then 4
  else if checkOnly s then if checkOk s then 0 else 4
  else if negb (eqOk s) then 3 else if negb (restartOk s) then 5 else solve.
Definition mainNonLin (s : setup) (solve : Z) : Z := exitCode (runNonLin s solve).
(** main_ShellEl.C 29-104 *)
Definition runShell (s : setup) (solve : Z) : Z :=
  if negb (readOk s) then 1 else if negb (prepOk s) then 2 else if negb (glvOk s) then 3
  else if checkOnly s then if checkOk s then 0 else 3
  else if negb (eqOk s) then 3 else if negb (restartOk s) then 4 else solve.
(** main_ShellEl.C 187-200: the status is dropped, and main without return statement returns zero. *)
Definition mainShell (s : setup) (solve : Z) : Z := let _ := runShell s solve in exitCode 0.

(** main_LinEl.C, static analysis without adaptivity (463-485, 628-719, 889-966). [fields]: the result files calls from 896 to 960 with their status. *)
Record linRun := LinRun { lRead : bool; lPrep : bool; lAssemble : bool; lSolve : bool; lProject : list bool; lNorms : option (list bool);
  lFields : list (bool * Z); lGlvStep : bool; lHdf5 : option bool }.
Fixpoint firstBad (l : list (bool * Z)) : option Z :=
  match l with [] => None | (true, _) :: r => firstBad r | (false, c) :: _ => Some c end.
Definition checks (r : linRun) : list (bool * Z) :=
  [(lRead r, 1%Z); (lPrep r, 2%Z); (lAssemble r, 4%Z); (lSolve r, 5%Z)] ++ map (fun b => (b, 6%Z)) (lProject r)
  ++ map (fun b => (b, 7%Z)) (match lNorms r with Some l => l | None => [] end) ++ lFields r.
Definition mainLin (r : linRun) : Z := exitCode (match firstBad (checks r) with Some c => c | None => 0%Z end).

(** ** Clean-up in main_LinEl.C 440-455 *)
Inductive object := Model | AdaptiveSim | MultiSim | Exporter.
Definition objEq (a b : object) : bool := match a, b with Model, Model | AdaptiveSim, AdaptiveSim | MultiSim, MultiSim | Exporter, Exporter => true | _, _ => false end.
Definition deletePtr (p : option object) : list object := match p with Some o => [o] | None => [] end.
(** The closure holds the values the pointers have when it is created. The multi-simulator (IFEM) owns and deletes its simulators. *)
Record captured := Cap { cA : option object; cM : option object; cModel : option object; cExp : option object }.
Definition terminate (c : captured) : list object :=
  deletePtr (cA c) ++ (match cM c with Some m => [m; Model] | None => deletePtr (cModel c) end) ++ deletePtr (cExp c).
(** Whether an adaptive or a multi-simulator is used, and whether the HDF5 exporter gets created (512) before the end is reached. *)
Definition linObjects (adap multi hdf5 : bool) : list object * list object :=
  let mSim := if multi then Some MultiSim else None in
  let aSim := if adap && negb multi then Some AdaptiveSim else None in
  let exporter := @None object in
  let closure := Cap aSim mSim (Some Model) exporter in
  let exporter := if hdf5 then Some Exporter else None in
  (deletePtr mSim ++ deletePtr aSim ++ [Model] ++ deletePtr exporter, terminate closure).
