(** What a coupled analysis is expected to do, as a list of actions in their order. *)
From Coq Require Import List ZArith QArith Bool Ascii String.
From Verif.Model Require Import McStatic.
Import ListNotations.

(** The code of the first check that fails, zero if there is none. *)
Fixpoint firstFailure (l : list (bool * Z)) : Z := match l with [] => 0%Z | (true, _) :: r => firstFailure r | (false, c) :: _ => c end.
Definition checks (ss : list sim) (solved : bool) (format : Z) : list (bool * Z) :=
  map (fun a => (asmOk a, 4%Z)) ss ++ [(solved, 5%Z)] ++
  if (format <? 0)%Z then [] else map (fun a => (geoOk a, 12%Z)) ss ++ map (fun a => (solOk a, 16%Z)) ss.
(** Geometry blocks of the simulators before number [i]. *)
Definition blocksBefore (ss : list sim) (i : nat) : nat := list_sum (map nGeo (firstn i ss)).
Definition isSolve (e : event) : bool := match e with ESolve _ => true | _ => false end.
Definition isAsm (e : event) : bool := match e with EAsm _ _ _ => true | _ => false end.
