(** General nodal couplings. Elasticity/SIMRigid.C 69-128 (reading), 164-196 (creation).
    A line is its slave node followed by the complete (master, weight) pairs on it; a line without
    a complete pair leaves the map alone. The patch functions addNodalCouplings(slave,masters,weights)
    and selfInterconnect(pairs) are IFEM functions: the first makes the displacement of the slave the
    weighted sum of those of the masters, the second makes the two nodes of each pair one node.
    The equations of rigid couplings (addRigidMPCs, 131-161) are made entirely in IFEM and not modelled. *)
From Verif Require Import Lib.Base Lib.Vec3.
Import ListNotations.

Definition master := (Z * R)%type.
Definition line := (Z * list master)%type.
(** [cpl[slave].emplace_back(master,weight)] on the ordered map. *)
Fixpoint addMaster (s : Z) (p : master) (m : list (Z * list master)) : list (Z * list master) :=
  match m with
  | [] => [(s, [p])]
  | (s', ps) :: r => if (s' <? s)%Z then (s', ps) :: addMaster s p r
                     else if (s' =? s)%Z then (s', ps ++ [p]) :: r else (s, [p]) :: m
  end.
Definition parseLine (m : list (Z * list master)) (l : line) : list (Z * list master) :=
  fold_left (fun m p => addMaster (fst l) p m) (snd l) m.
Definition parseCpl (ls : list line) (m : list (Z * list master)) : list (Z * list master) := fold_left parseLine ls m.

(** Elasticity/SIMRigid.C 170-186 *)
Inductive constraint := Direct (slave node : Z) | Linear (slave : Z) (masters : list Z) (weights : list R).
Definition couple (c : Z * list master) : constraint :=
  match snd c with
  | [(m, w)] => if Req_EM_T w 1 then Direct (fst c) m else Linear (fst c) [m] [w]
  | ps => Linear (fst c) (map fst ps) (map snd ps)
  end.
Definition couplings (ls : list line) : list constraint := map couple (parseCpl ls []).
(** The displacement of the slave under a constraint, given that of the other nodes. *)
Definition slaveOf (c : constraint) : Z := match c with Direct s _ => s | Linear s _ _ => s end.
Definition weighted (l : list (Z * R)) (u : Z -> v3) : v3 := fold_right (fun p a => vadd (vscal (snd p) (u (fst p))) a) vzero l.
Definition slaveDisp (c : constraint) (u : Z -> v3) : v3 :=
  match c with Direct _ m => u m | Linear _ ms ws => weighted (combine ms ws) u end.
