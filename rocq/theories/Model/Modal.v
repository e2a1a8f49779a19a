(** Modal dynamics: which equation system is active. Linear/SIMLinElModal.h 50-97 and Linear/SIMLinKLModal.C 18-62
    (the same code), driven by Elasticity/NewmarkDriver.h 119-182 and Linear/ModalDriver.C 33-39.
    The equation system pointers are modelled by the name of the system they point at; swapSystem (IFEM) exchanges them.
    IFEM's NewmarkSIM::solveStep is assumed to call assembleSystem and solveSystem once per iteration, numbering the
    iterations from zero, and realSolutions(false) once when the step has converged. *)
From Coq Require Import List Bool.
Import ListNotations.

Inductive sys := Full | Modal.
Definition swap (s : sys) : sys := match s with Full => Modal | Modal => Full end.
(** Observable uses of the active equation system. *)
Inductive event := AssembleEigen (s : sys) | AssembleLoad (s : sys) | ExtractLoad (s : sys) | BuildModal (s : sys) | Solve (s : sys) | Expand (s : sys).
(** One iteration of a time step: do the load assembly, the load extraction, the modal assembly and the solve succeed? *)
Record iter := It { loadOk : bool; extractOk : bool; modalOk : bool; solveOk : bool }.

(** Linear/SIMLinElModal.h 50-83 *)
Definition assembleSystem (vibration : bool) (it : nat) (x : iter) (s : sys) : bool * sys * list event :=
  if vibration then (loadOk x, s, [AssembleEigen s]) else
  let '(ok, s1, ev) :=
    match it with
    | S _ => (true, swap s, [])
    | O => if negb (loadOk x) then (false, s, [AssembleLoad s])
           else (extractOk x, s, [AssembleLoad s; ExtractLoad s])
    end in
  if negb ok then (false, s1, ev)
  else if negb (modalOk x) then (false, s1, ev ++ [BuildModal s1])
  else (true, swap s1, ev ++ [BuildModal s1]).

(** Linear/SIMLinElModal.h 89-97 *)
Definition expandSolution (swapBack : bool) (s : sys) : sys * list event :=
  let s' := if swapBack then swap s else s in (s', [Expand s']).

(** The iterations of a time step; [conv] tells whether it ends converged. *)
Fixpoint iterate (n : nat) (its : list iter) (s : sys) : bool * sys * list event :=
  match its with
  | [] => (true, s, [])
  | x :: r =>
    let '(ok, s1, e1) := assembleSystem false n x s in
    if negb ok then (false, s1, e1)
    else if negb (solveOk x) then (false, s1, e1 ++ [Solve s1])
    else let '(ok2, s2, e2) := iterate (S n) r s1 in (ok2, s2, e1 ++ Solve s1 :: e2)
  end.
(** A time step: at least one iteration (the first one is [fst]), then the convergence decision; Linear/ModalDriver.C 33-39 on convergence. *)
Record step := Stp { first : iter; others : list iter; conv : bool }.
Definition solveStep (t : step) (s : sys) : bool * sys * list event :=
  let '(ok, s1, e1) := iterate 0 (first t :: others t) s in
  if ok && conv t then let '(s2, e2) := expandSolution true s1 in (true, s2, e1 ++ e2) else (false, s1, e1).
(** Elasticity/NewmarkDriver.h 119-126: the simulation ends at the first step that does not converge. *)
Fixpoint simulate (ts : list step) (s : sys) : bool * sys * list event :=
  match ts with
  | [] => (true, s, [])
  | t :: r => let '(ok, s1, e1) := solveStep t s in
              if ok then let '(ok2, s2, e2) := simulate r s1 in (ok2, s2, e1 ++ e2) else (false, s1, e1)
  end.
(** main_LinEl.C 872-887: eigenvalue analysis on the full system, then the time integration. *)
Definition modalRun (eigen : iter) (ts : list step) : bool * sys * list event :=
  let '(ok, s, e) := assembleSystem true 0 eigen Full in
  if ok then let '(ok2, s2, e2) := simulate ts s in (ok2, s2, e ++ e2) else (false, s, e).
