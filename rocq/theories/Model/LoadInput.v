(** Point loads in the XML description of bars, cables and beams: SIMElasticBar::parse, Beam/SIMElasticBar.C 105-297, as far as
    the loads are concerned, and preprocessA 345-353.

    Simplifications: the function of a load (ConstantFunc of the text, or IFEM's parseTimeFunc, 250-258 and 276-285) is given
    with its derivative; children that are no loads only have the result of the function that reads them (197-236, 291-292). *)
From Verif Require Import Lib.Base Model.PointLoads.
Import ListNotations.

(** The <pointload> and <nodeload> elements; an attribute that is not there keeps the default (utl::getAttribute, IFEM).
    [elseOk] is the result of the other readers, used if the element has no content (238, 267, 291-292). *)
Record ptag := mkPtag { tDof : option Z; tU : option R; tOnElm : option bool; tPatch : option Z; tFun : option ((R -> R) * (R -> R)); tElse : bool }.
Record ntag := mkNtag { nNode : option Z; nDof : option Z; nFun : option ((R -> R) * (R -> R)); nElse : bool }.
Inductive child := Point (t : ptag) | Node (t : ntag) | Other (ok : bool).
Definition dfl {A} (a : option A) (x : A) : A := match a with Some v => v | None => x end.

(** Lines 238-265; PointLoad(1), SIMElasticBar.h 96-104: patch 1, no direction, u = -1. *)
Definition readPoint (nf : Z) (t : ptag) : bool * list bload :=
  match tFun t with
  | None => (tElse t, [])
  | Some (p, dp) =>
    let d := dfl (tDof t) 0%Z in let u := dfl (tU t) (-1) in
    if ((0 <? d)%Z && (d <=? nf)%Z && (if Rle_dec 0 u then true else false) && (if Rle_dec u 1 then true else false))%bool
    then (true, [BL (dfl (tPatch t) 1%Z) (if dfl (tOnElm t) false then - d else d)%Z u p dp])
    else (true, [])
  end.
(** Lines 267-289; PointLoad(): node 0. *)
Definition readNode (nf : Z) (t : ntag) : bool * list bload :=
  match nFun t with
  | None => (nElse t, [])
  | Some (p, dp) =>
    let n := dfl (nNode t) 0%Z in let d := dfl (nDof t) 0%Z in
    if ((0 <? n)%Z && (0 <? d)%Z && (d <=? nf)%Z)%bool then (true, [BL n d (-1) p dp]) else (true, [])
  end.
Definition readChild (nf : Z) (c : child) : bool * list bload :=
  match c with Point t => readPoint nf t | Node t => readNode nf t | Other ok => (ok, []) end.
(** The loop of lines 176-294. *)
Fixpoint readChildren (nf : Z) (cs : list child) (ls : list bload) : bool * list bload :=
  match cs with
  | [] => (true, ls)
  | c :: r => let (ok, l) := readChild nf c in if ok then readChildren nf r (ls ++ l) else (false, ls ++ l)
  end.

(** The integrand (created by the first element, 150-163), the number of unknowns in each node, the loads. *)
Inductive sort := KBar | KBeam.
Record bst := mkBst { sNf : Z; sProb : option sort; sLoads : list bload }.
(** Lines 105-167; a <bar>, <cable> or <beam> element. *)
Definition readTop (k : sort) (cs : list child) (s : bst) : bool * bst :=
  let nf := match k with KBar => 3%Z | KBeam => 6%Z end in
  let fits := match sProb s, k with None, _ | Some KBar, KBar | Some KBeam, KBeam => true | _, _ => false end in
  if fits then let (ok, ls) := readChildren nf cs (sLoads s) in (ok, mkBst nf (Some k) ls)
  else (false, mkBst nf (sProb s) (sLoads s)).
(** All elements of a file; IFEM stops at the first that is refused. *)
Fixpoint readFile (ts : list (sort * list child)) (s : bst) : bool * bst :=
  match ts with
  | [] => (true, s)
  | (k, cs) :: r => let (ok, s') := readTop k cs s in if ok then readFile r s' else (false, s')
  end.
Definition freshBst : bst := mkBst 3 None [].
(** preprocessA, 345-353. *)
Definition unknowns (nsd : Z) (s : bst) : Z := if ((sNf s =? 3)%Z && (nsd <? 3)%Z)%bool then nsd else sNf s.
