(** Load incrementation loops.
    Models NonlinearDriver::solveProblem (Elasticity/NonlinearDriver.C:228-444) and
    NewmarkDriver::solveProblem (Elasticity/NewmarkDriver.h:92-191).
    Every call into the IFEM library or the model is an oracle: its result is read from the
    record of the load step it belongs to.  Times are rationals instead of doubles. *)
From Coq Require Import List QArith Bool Arith.
Import ListNotations.
Open Scope Q_scope.

Inductive status := OK | CONVERGED | DIVERGED | FAILURE | SLOW.
Definition isDiverged (s : status) : bool := match s with DIVERGED => true | _ => false end.
Definition isConverged (s : status) : bool := match s with CONVERGED => true | _ => false end.

Section Driver.
Variable Sol : Type.   (* solution vector *)

(* One pass of the cut-back loop: what TimeStep::cutback answers if it is called (the new
   time, or a refusal) and what solveStep returns and leaves in solution[0]. *)
Record attempt := mkAttempt { cut : option Q; out : status; sol' : Sol }.

(* Oracle answers for one load step, in the order of the calls. *)
Record step := mkStep {
  tAdv : Q;                          (* time after advanceStep, l.269 *)
  adaptOk : bool; adapted : bool;    (* adaptMesh, l.273-275 *)
  solA : Sol;                        (* solution[0] and solution[1], just made equal by
                                        advanceStep, after refinement *)
  activE0 : bool; saveE0Ok : bool;   (* l.282-294 *)
  tries : list attempt;
  reacOk : bool; projOk : bool; normOk : bool;          (* l.317, 325, 334 *)
  activ : bool; geoOk : bool; stepOk : bool; forceOk : bool; projWOk : bool; elNormOk : bool; (* l.374-397 *)
  hdfOk : bool; dumpNow : bool; serialOk : bool; restartOk : bool; gridOk : bool; (* l.403-413 *)
  evalOk : bool; maxOk : bool }.     (* l.423, 426 *)

Record cfg := mkCfg {
  t0 : Q; dtSave : Q; stopTime : Q; tol : Q;   (* tol: tolerance of TimeStep::hasReached *)
  format : bool;      (* opt.format >= 0 *)
  initStep : bool;    (* save0 && params.multiSteps() && params.time.dt > 0.0 *)
  adap : bool; saveE0 : bool; doProject : bool; haveReac : bool;
  writer : bool; restart : bool; getMaxVals : bool;
  modelOk : bool; initStepOk : bool; initPrmOk : bool;   (* l.256, 259, 264 *)
  sol0 : Sol }.

(* TimeStep::hasReached (IFEM): the current time plus a tolerance exceeds the target *)
Definition hasReached (c : cfg) (t target : Q) : bool := negb (Qle_bool (t + tol c) target).

(* What the user sees: solver calls with the state they start from and their result, and accepted steps with
   the time used for their output, the actual time and whether they were saved. *)
Inductive event :=
| Refined (s : Sol)                       (* the mesh was adapted, solution on the new mesh *)
| Solve (t : Q) (start : Sol) (o : status) (result : Sol)
| Accept (tn t : Q) (s : Sol) (saved : bool).

Record state := mkState {
  time : Q; cur : Sol; prev : Sol;   (* params.time.t, solution[0], solution[1] *)
  nextSave : Q; stepNo : nat; trace : list event }.

(* [Running]: between two steps; [Solving]: inside a cut-back loop; [Exit]: returned. *)
Inductive outcome := Running (s : state) | Solving (s : state) | Exit (code : nat) (s : state).

(* The cut-back loop, l.297-312.  [None] when the recorded attempts are used up. *)
Fixpoint cutBack (stat : status) (s : state) (l : list attempt) : option status * state :=
  match l with
  | [] => (None, s)
  | a :: l =>
    let go s :=
      let s := mkState (time s) (sol' a) (prev s) (nextSave s) (stepNo s) (trace s ++ [Solve (time s) (cur s) (out a) (sol' a)]) in
      if isDiverged (out a) then cutBack (out a) s l else (Some (out a), s) in
    if isDiverged stat then
      match cut a with
      | None => (Some stat, s)                         (* l.302: break *)
      | Some t => go (mkState t (prev s) (prev s) (nextSave s) (stepNo s) (trace s))
      end
    else go s
  end.

Fixpoint firstFail (l : list (bool * nat)) : option nat :=
  match l with
  | [] => None
  | (true, _) :: l => firstFail l
  | (false, c) :: _ => Some c
  end.

(* calls between the solve and the save test, l.317-339 *)
Definition checksPost (c : cfg) (x : step) : list (bool * nat) :=
  [(implb (haveReac c) (reacOk x), 9%nat); (implb (doProject c) (projOk x), 8%nat); (implb (adap c) (normOk x), 9%nat)].
(* calls of a saved step, l.360-413 *)
Definition checksSave (c : cfg) (x : step) : list (bool * nat) :=
  [(implb (format c && activ x) (geoOk x), 11%nat); (implb (format c) (stepOk x), 11%nat);
   (implb (format c) (forceOk x), 11%nat); (implb (format c && doProject c) (projWOk x), 11%nat);
   (implb (format c) (elNormOk x), 11%nat); (implb (writer c) (hdfOk x), 12%nat);
   (implb (restart c && dumpNow x && serialOk x) (restartOk x), 12%nat); (gridOk x, 13%nat)].
(* calls of a step that is not saved, l.421-427 *)
Definition checksSkip (c : cfg) (x : step) : list (bool * nat) :=
  [(implb (getMaxVals c) (evalOk x), 14%nat); (implb (getMaxVals c) (maxOk x), 15%nat)].

(* l.417-419 *)
Definition clamp (c : cfg) (t : Q) : Q := if Qle_bool t (stopTime c) then t else stopTime c.

(* One pass of the load incrementation loop, l.269-441; [first] when params.step = 1.
   advanceStep pushes solution[0] to solution[1] (NonLinSIM::advanceStep, IFEM). *)
Definition oneStep (c : cfg) (first : bool) (s : state) (x : step) : outcome :=
  let tn := tAdv x in
  let s := mkState tn (cur s) (cur s) (nextSave s) (stepNo s) (trace s) in
  if negb first && adap c && negb (adaptOk x) then Exit 6 s else
  let refined := negb first && adap c && adapted x in
  let s := if refined then mkState (time s) (solA x) (solA x) (nextSave s) (stepNo s) (trace s ++ [Refined (solA x)]) else s in
  if negb refined && format c && saveE0 c && activE0 x && negb (saveE0Ok x) then Exit 11 s else
  match cutBack OK s (tries x) with
  | (None, s) => Solving s
  | (Some stat, s) =>
    if negb (isConverged stat) then Exit 7 s else
    match firstFail (checksPost c x) with
    | Some e => Exit e s
    | None =>
      if Qle_bool (dtSave c) 0 || hasReached c (time s) (nextSave s) then
        match firstFail (checksSave c x) with
        | Some e => Exit e s
        | None => Running (mkState (time s) (cur s) (prev s) (clamp c (tn + dtSave c)) (S (stepNo s))
                    (trace s ++ [Accept tn (time s) (cur s) true]))
        end
      else
        match firstFail (checksSkip c x) with
        | Some e => Exit e s
        | None => Running (mkState (time s) (cur s) (prev s) (nextSave s) (stepNo s)
                    (trace s ++ [Accept tn (time s) (cur s) false]))
        end
    end
  end.

Fixpoint loop (c : cfg) (first : bool) (s : state) (l : list step) : outcome :=
  match l with
  | [] => Running s
  | x :: l => match oneStep c first s x with Running s => loop c false s l | o => o end
  end.

(* l.238-265 *)
Definition init (c : cfg) : outcome :=
  let s := mkState (t0 c) (sol0 c) (sol0 c) (t0 c + dtSave c) 0 [] in
  if format c && negb (modelOk c) then Exit 4 s else
  if format c && initStep c && negb (initStepOk c) then Exit 4 s else
  let s := if format c && initStep c then mkState (time s) (cur s) (prev s) (nextSave s) 1 (trace s) else s in
  if adap c && negb (initPrmOk c) then Exit 5 s else Running s.

(** A run up to any point: the steps are those made so far. *)
Definition run (c : cfg) (l : list step) : outcome :=
  match init c with Running s => loop c true s l | o => o end.

(* The status of solveProblem when advanceStep ends the loop after the steps [l] (l.443). *)
Definition solveProblem (c : cfg) (l : list step) : option nat :=
  match run c l with Exit e _ => Some e | Running _ => Some 0%nat | Solving _ => None end.

Definition stateOf (o : outcome) : state := match o with Running s | Solving s | Exit _ s => s end.

End Driver.

(** ** NewmarkDriver *)

Record nstep := mkNStep {
  nTime : Q; nOut : status;
  nProjOk : bool; nStepOk : bool; nProjWOk : bool; nHdfOk : bool; nGridOk : bool;
  nDumpNow : bool; nSerialOk : bool; nRestartOk : bool }.
Record ncfg := mkNCfg {
  nT0 : Q; nDtSave : Q; nStop : Q; nTol : Q; nFormat : bool; nProject : bool; nWriter : bool; nRestart : bool;
  doInitAcc : bool; initAccOk : bool; nModelOk : bool }.

Definition nReached (c : ncfg) (t target : Q) : bool := negb (Qle_bool (t + nTol c) target).
Definition nClamp (c : ncfg) (t : Q) : Q := if Qle_bool t (nStop c) then t else nStop c.
Definition add (b : bool) (k : nat) : nat := if b then 0%nat else k.

(* NewmarkDriver.h:119-182: status and next save time after one step *)
Definition newmarkStep (c : ncfg) (nextSave : Q) (x : nstep) : nat * Q :=
  if negb (isConverged (nOut x)) then (5%nat, nextSave) else
  let st := add (implb (nProject c) (nProjOk x)) 6 in
  let saved := nReached c (nTime x) nextSave in
  let st := if saved then
      (st + (if nFormat c then if negb (nStepOk x) then 11 else add (implb (nProject c) (nProjWOk x)) 14 else 0)
       + add (implb (nWriter c) (nHdfOk x)) 15 + add (nGridOk x) 16)%nat
    else st in
  let nx := if saved then nClamp c (nTime x + nDtSave c) else nextSave in
  ((st + add (implb (nRestart c && nDumpNow x && nSerialOk x) (nRestartOk x)) 17)%nat, nx).

(* the loop ends at the first nonzero status, l.119 *)
Fixpoint newmarkLoop (c : ncfg) (nextSave : Q) (l : list nstep) : nat :=
  match l with
  | [] => 0%nat
  | x :: l => match newmarkStep c nextSave x with
              | (O, nx) => newmarkLoop c nx l
              | (st, _) => st end
  end.

(* l.96-110 *)
Definition newmarkSolve (c : ncfg) (l : list nstep) : nat :=
  if doInitAcc c && negb (initAccOk c) then 4%nat else
  if nFormat c && negb (nModelOk c) then 4%nat else
  newmarkLoop c (nT0 c + nDtSave c) l.
