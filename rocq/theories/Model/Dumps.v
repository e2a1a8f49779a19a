(** Visualisation dumps of the coupled-solver wrapper, Elasticity/SIMElasticityWrap.C 53-64.
    [writeS], [writeStep]: whether writing the fields and the step record of dump number [n] succeeds (IFEM).
    C++ integer division and remainder truncate towards zero ([Z.quot], [Z.rem]); by zero is undefined behaviour. *)
From Coq Require Import ZArith List.
Import ListNotations.
Local Open Scope Z_scope.

Inductive saved := UB | Done (ok : bool) (dump : option Z).
Definition saveStep (writeS writeStep : Z -> bool) (format saveInc step : Z) : saved :=
  if format <? 0 then Done true None
  else if saveInc =? 0 then UB
  else if 0 <? Z.rem step saveInc then Done true None
  else let iDump := 1 + Z.quot step saveInc in
       if negb (writeS iDump) then Done false None
       else Done (writeStep iDump) (Some iDump).
(** The calls made for the steps of a simulation, until one fails; the dump numbers used with their step. *)
Fixpoint saveAll (writeS writeStep : Z -> bool) (format saveInc : Z) (steps : list Z) : option (list (Z * Z)) :=
  match steps with
  | [] => Some []
  | s :: r => match saveStep writeS writeStep format saveInc s with
              | UB => None
              | Done ok d =>
                let here := match d with Some n => [(s, n)] | None => [] end in
                if ok then option_map (app here) (saveAll writeS writeStep format saveInc r) else Some here
              end
  end.
