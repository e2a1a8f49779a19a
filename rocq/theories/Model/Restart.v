(** Restart of simulations.  Models the load and time stepping loops with the state they carry from step to step and
    the restart output: NonlinearDriver::solveProblem (Elasticity/NonlinearDriver.C 228-444), serialize and deSerialize
    (447-456), NewmarkDriver::solveProblem, serialize and deSerialize (Elasticity/NewmarkDriver.h 92-203),
    main_NonLinEl.C 130-145 (initial state, then checkForRestart, then solveProblem).
    Runs in which an output call fails are left to Model/Driver.v; mesh adaptation and element activation are left out.
    IFEM's TimeStep, NonLinSIM and NewmarkSIM are functions of their state:
    [advance] TimeStep::increment with advanceStep, [push] the solution vectors at a new step, [solve] the solution of
    one step with its cut-backs, [due] HDF5Restart::dumpStep, [initAcc] NewmarkSIM::initAcc.
    checkForRestart restores what serialize stored: the parameters and the solution vectors. *)
From Coq Require Import List QArith Bool.
From Verif.Model Require Import History.
Import ListNotations.
Open Scope Q_scope.

Section Restart.
Context {H T X U P : Type}.
Variable upd : H -> T -> T -> nat -> bool -> option (H * X).   (* PlasticPoint::evaluate, see Model/History.v *)
Variables (timeOf : P -> Q) (advance : P -> option P) (push : U -> U) (due : P -> bool) (initAcc : P -> U -> U).
(** Parameters, solution and the evaluations (all attempts) at every material point; [None]: no convergence. *)
Variable solve : P -> U -> list (point H T) -> option (P * U * list (list (attempt T))).

Record cfg := mkC { dtSave : Q; stopTime : Q; tol : Q; writeRestart : bool; doInitAcc : bool }.
(** IFEM: TimeStep::hasReached. *)
Definition reached (c : cfg) (t target : Q) : bool := negb (Qle_bool (t + tol c) target).
Definition clamp (c : cfg) (t : Q) : Q := if Qle_bool t (stopTime c) then t else stopTime c.

Record state := mkS { prm : P; sol : U; pts : list (point H T); nextSave : Q }.
(** What is visible of one step: its time, its solution, whether results were saved, and the restart state written. *)
Record output := mkO { oTime : Q; oSol : U; oSaved : bool; oRestart : option (P * U) }.

(** PlasticMaterial.C 79-167, 271-301: the evaluations of a step at all points. *)
Fixpoint record (l : list (point H T)) (a : list (list (attempt T))) : list (point H T) :=
  match l, a with
  | p :: l, x :: a => fold_left (increment upd) x p :: record l a
  | l, _ => l
  end.

(** NonlinearDriver.C 238-242, after main_NonLinEl.C 130-145; [fresh]: the points of new material objects. *)
Definition start (c : cfg) (fresh : list (point H T)) (d : P * U) : state :=
  mkS (fst d) (snd d) fresh (timeOf (fst d) + dtSave c).

(** NonlinearDriver.C 269-441. *)
Definition nlStep (c : cfg) (s : state) : option (state * output) :=
  match advance (prm s) with
  | None => None
  | Some p =>
    match solve p (push (sol s)) (pts s) with
    | None => None
    | Some (p', u, a) =>
      let saved := Qle_bool (dtSave c) 0 || reached c (timeOf p') (nextSave s) in
      let nx := if saved then clamp c (timeOf p + dtSave c) else nextSave s in      (* 270: tn is the time before cut-backs *)
      let dump := if saved && writeRestart c && due p' then Some (p', u) else None in   (* 407-409 *)
      Some (mkS p' u (record (pts s) a) nx, mkO (timeOf p') u saved dump)
    end
  end.

(** NewmarkDriver.h 96-105. *)
Definition nmStart (c : cfg) (fresh : list (point H T)) (d : P * U) : state :=
  mkS (fst d) (if doInitAcc c then initAcc (fst d) (snd d) else snd d) fresh (timeOf (fst d) + dtSave c).

(** NewmarkDriver.h 119-182. *)
Definition nmStep (c : cfg) (s : state) : option (state * output) :=
  match advance (prm s) with
  | None => None
  | Some p =>
    match solve p (push (sol s)) (pts s) with
    | None => None
    | Some (p', u, a) =>
      let saved := reached c (timeOf p') (nextSave s) in
      let nx := if saved then clamp c (timeOf p' + dtSave c) else nextSave s in
      let dump := if writeRestart c && due p' then Some (p', u) else None in            (* 175-181 *)
      Some (mkS p' u (record (pts s) a) nx, mkO (timeOf p') u saved dump)
    end
  end.

(** At most [n] steps. *)
Fixpoint runs (step : state -> option (state * output)) (n : nat) (s : state) : state * list output :=
  match n with
  | O => (s, [])
  | S n => match step s with
           | None => (s, [])
           | Some (s', o) => let (e, l) := runs step n s' in (e, o :: l)
           end
  end.
End Restart.
Arguments state : clear implicits.
Arguments output : clear implicits.
