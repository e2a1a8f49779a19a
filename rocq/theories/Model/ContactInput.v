(** Set-up of contact analyses.  FiniteDeformation/SIMContact.C 84-118 (addLagrangeMultipliers), 121-238 (parseContactTag),
    241-279 (preprocessContact), 282-287 (updateDirichlet).

    Simplified: a slave set is the list of its patches; the library calls that add contact elements and constraints are assumed to succeed. *)
From Verif Require Import Lib.Base.
Import ListNotations.

(** The map from nodes to their multiplier, myALp. *)
Definition alMap := list (Z * Z).
Fixpoint alFind (m : alMap) (n : Z) : option Z :=
  match m with [] => None | (k, v) :: r => if Z.eqb k n then Some v else alFind r n end.

(** One contact element is the list of its boundary nodes (SIMContact.C 96-103: non-negative entries of type 'D').
    The loop over its nodes, lines 95-105. *)
Fixpoint alElm (m : alMap) (ngnod : Z) (nodes : list Z) : alMap * Z * list Z :=
  match nodes with
  | [] => (m, ngnod, [])
  | n :: r =>
      match alFind m n with
      | Some v => let '(m', g', l) := alElm m ngnod r in (m', g', v :: l)
      | None => let v := (ngnod + 1)%Z in let '(m', g', l) := alElm ((n, v) :: m) v r in (m', g', v :: l)
      end
  end.
(** All contact elements of all patches, in the sequence of the calls (lines 84-118). *)
Fixpoint alElms (m : alMap) (ngnod : Z) (elms : list (list Z)) : alMap * Z * list (list Z) :=
  match elms with
  | [] => (m, ngnod, [])
  | e :: r => let '(m1, g1, l1) := alElm m ngnod e in let '(m2, g2, l2) := alElms m1 g1 r in (m2, g2, l1 :: l2)
  end.

(** Children of a rigid body tag, SIMContact.C 165-229. *)
Inductive bodyTag := Slave (patches : list Z) | Dirichlet (comp : Z) (fn : option nat) | Eps (e : R) | Point.
(** A constraint put on the master nodes of a body as seen from a patch: fixed, or prescribed by a function. *)
Record mcon := MCon { mc_patch : Z; mc_comp : Z; mc_fun : option nat }.
Record body := Body { b_slaves : list Z; b_cons : list mcon; b_eps : R }.
Definition readTag (b : body) (t : bodyTag) : body :=
  match t with
  | Slave ps => Body (b_slaves b ++ ps) (b_cons b) (b_eps b)
  | Dirichlet comp None => Body (b_slaves b) (b_cons b ++ map (fun p => MCon p comp None) (b_slaves b)) (b_eps b)
  | Dirichlet comp (Some f) =>
      if ((0 <? comp)%Z && (comp <=? 3)%Z)%bool
      then Body (b_slaves b) (b_cons b ++ map (fun p => MCon p comp (Some f)) (b_slaves b)) (b_eps b) else b
  | Eps e => Body (b_slaves b) (b_cons b) e
  | Point => b
  end.
(** The penalty of a new body is 1, FiniteDeformation/RigidBody.C 30. *)
Definition readBody (tags : list bodyTag) : body := fold_left readTag tags (Body [] [] 1).

(** The radius of the bodies, SIMContact.C 141, 149: one variable for all children of the contact tag. *)
Fixpoint radii (r : R) (given : list (option R)) : list R :=
  match given with [] => [] | g :: t => let r' := match g with Some x => x | None => r end in r' :: radii r' t end.

(** preprocessContact, SIMContact.C 241-279: the bodies for which contact is integrated. *)
Definition active (bs : list body) : list body := filter (fun b => if Rlt_dec 0 (b_eps b) then true else false) bs.
