(** What load elements mean, independent of the reader. *)
From Verif Require Import Lib.Base Model.PointLoads Spec.PointLoads Proofs.PointLoads Model.LoadInput.
Import ListNotations.

(** A load as the user specifies it: a node or a point of a patch, a direction, and a function of time. *)
Inductive spot := InNode (n d : Z) | InPoint (patch : Z) (u : R) (onElement : bool) (d : Z).
Definition load := (spot * (R -> R))%type.
(** The loads of an element with content: the first patch and nodal loading are the defaults. *)
Definition meant (c : child) : list load :=
  match c with
  | Point (mkPtag (Some d) (Some u) e q (Some (p, _)) _) => [(InPoint (dfl q 1%Z) u (dfl e false) d, p)]
  | Node (mkNtag (Some n) (Some d) (Some (p, _)) _) => [(InNode n d, p)]
  | _ => []
  end.
(** A complete specification, with a direction the elements have and a point of the patch. *)
Definition proper (k : sort) (c : child) : Prop :=
  let nf := match k with KBar => 3%Z | KBeam => 6%Z end in
  match c with
  | Point (mkPtag (Some d) (Some u) e q (Some _) _) => (1 <= d <= nf)%Z /\ 0 <= u <= 1 /\ (1 <= dfl q 1)%Z
  | Node (mkNtag (Some n) (Some d) (Some _) _) => (1 <= n)%Z /\ (1 <= d <= nf)%Z
  | Other ok => ok = true
  | _ => False
  end.
Definition allMeant (ts : list (sort * list child)) : list load := flat_map (fun t => flat_map meant (snd t)) ts.
(** Elements of one kind only, and proper loads. *)
Definition properFile (k : sort) (ts : list (sort * list child)) : Prop := forall t, In t ts -> fst t = k /\ forall c, In c (snd t) -> proper k c.
(** Where a load acts: in its node, or where the model has its point. *)
Definition acts (o : oracle) (s : spot) (p : place) : Prop :=
  match s with InNode n d => p = AtNode n d | InPoint q u e d => resolves o q u e d p end.
