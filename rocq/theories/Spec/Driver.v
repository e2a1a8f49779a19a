(** What a load incrementation is expected to do, in terms of its visible events. *)
From Coq Require Import List QArith Bool Arith.
From Verif Require Import Model.Driver.
Import ListNotations.
Open Scope Q_scope.

Section Spec.
Variable Sol : Type.
Notation event := (event Sol). Notation step := (step Sol). Notation cfg := (cfg Sol). Notation attempt := (attempt Sol).

(** The state a solve must start from: the last accepted one, or its image on a new mesh. *)
Fixpoint lastGood (s : Sol) (l : list event) : Sol :=
  match l with
  | [] => s
  | Accept _ _ _ g _ :: l => lastGood g l
  | Refined _ g :: l => lastGood g l
  | _ :: l => lastGood s l
  end.
Fixpoint lastTime (t : Q) (l : list event) : Q :=
  match l with
  | [] => t
  | Accept _ _ u _ _ :: l => lastTime u l
  | _ :: l => lastTime t l
  end.

(** Contract of TimeStep: a new step moves forward, a cut-back ends up between the last
    accepted time and the one that diverged. *)
Fixpoint honestTries (tl t : Q) (l : list attempt) : Prop :=
  match l with
  | [] => True
  | a :: l => match cut _ a with None => True | Some t' => tl < t' < t /\ honestTries tl t' l end
  end.
Fixpoint finalTime (t : Q) (l : list attempt) : Q :=
  match l with
  | [] => t
  | a :: l => match cut _ a with None => t | Some t' => if isDiverged (out _ a) then finalTime t' l else t' end
  end.
Definition stepTime (x : step) : Q :=
  match tries _ x with
  | a :: l => if isDiverged (out _ a) then finalTime (tAdv _ x) l else tAdv _ x
  | [] => tAdv _ x end.
Fixpoint honest (tl : Q) (l : list step) : Prop :=
  match l with
  | [] => True
  | x :: l => tl < tAdv _ x /\ honestTries tl (tAdv _ x) (List.tl (tries _ x)) /\ honest (stepTime x) l
  end.

(** Everything the driver was asked to do in a step succeeded. *)
Fixpoint converges (l : list attempt) : bool :=
  match l with
  | [] => false
  | a :: l => match out _ a with
              | CONVERGED => true
              | DIVERGED => match l with b :: _ => match cut _ b with Some _ => converges l | None => false end | [] => false end
              | _ => false end
  end.

(** Accepted steps: output time, actual time, saved or not. *)
Fixpoint accepted (l : list event) : list (Q * Q * bool) :=
  match l with
  | [] => []
  | Accept _ a b _ s :: l => (a, b, s) :: accepted l
  | _ :: l => accepted l
  end.
End Spec.

(** When the next save is due: [dt] after the output time of the last save, but not after
    the stop time; [dt] after the start for the first one. *)
Definition due (dt stop : Q) (last : Q) : Q := if Qle_bool (last + dt) stop then last + dt else stop.
Definition unsaved (l : list (Q * Q * bool)) : Prop := forall x, In x l -> snd x = false.

(** Exit status: everything requested of an accepted step was done ... *)
Section Status.
Variable Sol : Type.
Notation step := (step Sol). Notation cfg := (cfg Sol).
Definition whenever (b : bool) (P : bool) : Prop := b = true -> P = true.

Record servedSave (c : cfg) (x : step) : Prop := {
  sv_geo : format Sol c = true -> whenever (activ Sol x) (geoOk Sol x);
  sv_step : whenever (format Sol c) (stepOk Sol x);
  sv_force : whenever (format Sol c) (forceOk Sol x);
  sv_proj : format Sol c = true -> whenever (doProject Sol c) (projWOk Sol x);
  sv_norm : whenever (format Sol c) (elNormOk Sol x);
  sv_hdf : whenever (writer Sol c) (hdfOk Sol x);
  (* the state is written to the restart file if it could be serialised *)
  sv_restart : restart Sol c = true -> dumpNow Sol x = true -> whenever (serialOk Sol x) (restartOk Sol x);
  sv_grid : gridOk Sol x = true }.
Record served (c : cfg) (x : step) (saved : bool) : Prop := {
  s_reac : whenever (haveReac Sol c) (reacOk Sol x);
  s_proj : whenever (doProject Sol c) (projOk Sol x);
  s_norm : whenever (adap Sol c) (normOk Sol x);
  s_save : saved = true -> servedSave c x;
  s_max : saved = false -> whenever (getMaxVals Sol c) (evalOk Sol x && maxOk Sol x) }.

(** ... and what each nonzero status stands for. *)
Definition explains (e : nat) (c : cfg) (x : step) : Prop :=
  match e with
  | 6%nat => adap Sol c = true /\ adaptOk Sol x = false
  | 7%nat => converges Sol (tries Sol x) = false
  | 8%nat => doProject Sol c = true /\ projOk Sol x = false
  | 9%nat => haveReac Sol c = true /\ reacOk Sol x = false \/ adap Sol c = true /\ normOk Sol x = false
  | 11%nat => format Sol c = true /\
      (activE0 Sol x = true /\ saveE0Ok Sol x = false \/ activ Sol x = true /\ geoOk Sol x = false \/ stepOk Sol x = false \/
       forceOk Sol x = false \/ projWOk Sol x = false \/ elNormOk Sol x = false)
  | 12%nat => writer Sol c = true /\ hdfOk Sol x = false \/ restart Sol c = true /\ dumpNow Sol x = true /\ restartOk Sol x = false
  | 13%nat => gridOk Sol x = false
  | 14%nat => getMaxVals Sol c = true /\ evalOk Sol x = false
  | 15%nat => getMaxVals Sol c = true /\ maxOk Sol x = false
  | _ => False
  end.
Definition explainsInit (e : nat) (c : cfg) : Prop :=
  match e with
  | 4%nat => format Sol c = true /\ (modelOk Sol c = false \/ initStep Sol c = true /\ initStepOk Sol c = false)
  | 5%nat => adap Sol c = true /\ initPrmOk Sol c = false
  | _ => False
  end.
Definition initFine (c : cfg) : Prop :=
  (format Sol c = true -> modelOk Sol c = true /\ whenever (initStep Sol c) (initStepOk Sol c)) /\
  whenever (adap Sol c) (initPrmOk Sol c).
(** Equal steps [h] from the start on, without cut-backs. *)
Definition uniform (c : cfg) (h : Q) (A : list (Q * Q * bool)) : Prop :=
  forall k tn t b, nth_error A k = Some (tn, t, b) -> tn == t0 Sol c + inject_Z (Z.of_nat (S k)) * h /\ t == tn.
End Status.

(** Dynamic driver: what has to succeed in a step, and in all steps of a run. *)
Definition nFine (c : ncfg) (x : nstep) (saved : bool) : Prop :=
  nOut x = CONVERGED /\ (nProject c = true -> nProjOk x = true) /\
  (saved = true -> (nFormat c = true -> nStepOk x = true /\ (nProject c = true -> nProjWOk x = true)) /\
     (nWriter c = true -> nHdfOk x = true) /\ nGridOk x = true) /\
  (nRestart c = true -> nDumpNow x = true -> nSerialOk x = true -> nRestartOk x = true).

Fixpoint nAllFine (c : ncfg) (nx : Q) (l : list nstep) : Prop :=
  match l with
  | [] => True
  | x :: l => nFine c x (nReached c (nTime x) nx) /\
      nAllFine c (if nReached c (nTime x) nx then due (nDtSave c) (nStop c) (nTime x) else nx) l
  end.


