(** Reactions, section forces and reference points of boundary sections.
    Elasticity/SIMElasticity.C 81-113, 255-290, 386-433.
    [bCode] is the std::map of property codes, in increasing order. The reaction of one code
    (getCurrentReactions) and the nodes of a code (getBoundaryNodes) are IFEM functions, taken as
    oracles; getInterfaceForces is the sum over the nodes of the code of weight times nodal force
    (weight 1 if no weights). Parallel reduction is the identity. *)
From Verif Require Import Lib.Base Lib.Vec3.
Import ListNotations.

Definition vec := nat -> R.
(** Elasticity/SIMElasticity.C 255-271 *)
Definition allReactions (react : Z -> bool * vec) (codes : list Z) : res (list vec) :=
  match codes with
  | [] => Rejected
  | _ => if forallb (fun c => fst (react c)) codes then Ret (map (fun c => snd (react c)) codes) else Rejected
  end.
(** Elasticity/SIMElasticity.C 274-290 *)
Definition boundaryReaction (react : Z -> bool * vec) (codes : list Z) (bindex : nat) : res vec :=
  let* rtmp := allReactions react codes in
  if (length rtmp <? bindex)%nat then Rejected
  else if (0 <? bindex)%nat then match nth_error rtmp bindex with Some r => Ret r | None => UB end
  else match rtmp with
       | [] => UB
       | r :: rs => Ret (fold_left (fun a b k => a k + b k) rs r)
       end.

(** Elasticity/SIMElasticity.C 86-97: nodal weights (a node is a positive number). *)
Definition nodeWeight (secs : list (list nat)) (n : nat) : R :=
  let w := INR (count_occ Nat.eq_dec (concat secs) n) in if Rlt_dec 1 w then 1 / w else w.
(** Elasticity/SIMElasticity.C 99-110: force at one section. *)
Definition sectionForce (secs : list (list nat)) (f : nat -> vec) (s : list nat) : vec := fun k =>
  if (1 <? length secs)%nat then sumL (fun n => nodeWeight secs n * f n k) s else sumL (fun n => f n k) s.

(** Elasticity/SIMElasticity.C 401-428: reference point of a section from its nodes, starting from the stored value [x0]. *)
Definition dist2 (a b : v3) : R := vdot (vsub a b) (vsub a b).
Definition mean (x0 : v3) (l : list v3) : v3 := vscal (/ INR (length l)) (fold_left vadd l x0).
Definition furthest (c : v3) (l : list v3) (start : v3 * R) : v3 * R :=
  fold_left (fun b X => if Rlt_dec (snd b) (dist2 X c) then (X, dist2 X c) else b) l start.
Definition refPoint (x0 : v3) (l : list v3) : v3 :=
  match l with
  | [] => x0
  | _ => let c := mean x0 l in
         let b1 := furthest c l (c, 0) in
         let b2 := furthest (fst b1) l (fst b1, snd b1) in
         vscal (1 / 2) (vadd (fst b1) (fst b2))
  end.

(** Linear/SIMLinEl.h 85-112: the total reaction force that is printed if there are several sections. The reaction of a
    section (IFEM, getCurrentReactions) is the sum of the reactions of its supported nodes. *)
Definition nodeReact (nodes : Z -> list nat) (f : nat -> vec) (c : Z) : bool * vec := (true, fun k => sumL (fun n => f n k) (nodes c)).
Definition printedTotal (react : Z -> bool * vec) (codes : list Z) : res (option vec) :=
  let* rf := allReactions react codes in
  Ret (match rf with r :: r2 :: rs => Some (fold_left (fun a b k => a k + b k) (r2 :: rs) r) | _ => None end).
