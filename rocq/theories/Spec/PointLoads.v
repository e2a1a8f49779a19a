(** What a set of concentrated loads means, independently of how it is assembled. *)
From Verif Require Import Lib.Base.
Import ListNotations.

(** Where a concentrated load acts: in a node, or in a point of a patch where basis functions interpolate. *)
Inductive place := AtNode (n d : Z) | AtPoint (patch : Z) (xi : R) (d : Z).

(** The nodal force conjugate to the displacement of node [n] in direction [d]. *)
Definition nodalForce (shape : Z -> R -> list (Z * R)) (p : place) (f : R) (n d : Z) : R :=
  match p with
  | AtNode n' d' => if (Z.eqb n n' && Z.eqb d d')%bool then f else 0
  | AtPoint q xi d' => if Z.eqb d d' then sumL (fun a : Z * R => if Z.eqb n (fst a) then f * snd a else 0) (shape q xi) else 0
  end.
Definition totalForce (shape : Z -> R -> list (Z * R)) (l : list (place * R)) (n d : Z) : R :=
  sumL (fun x => nodalForce shape (fst x) (snd x) n d) l.

(** The displacement at a place. *)
Definition dispAt (shape : Z -> R -> list (Z * R)) (u : Z -> Z -> R) (p : place) : R :=
  match p with
  | AtNode n d => u n d
  | AtPoint q xi d => sumL (fun a : Z * R => snd a * u (fst a) d) (shape q xi)
  end.

(** Virtual work of nodal forces over a list of nodes and directions. *)
Definition work (dofs : list (Z * Z)) (F u : Z -> Z -> R) : R :=
  sumL (fun x : Z * Z => F (fst x) (snd x) * u (fst x) (snd x)) dofs.

(** The degrees of freedom a place touches. *)
Definition touches (shape : Z -> R -> list (Z * R)) (p : place) : list (Z * Z) :=
  match p with
  | AtNode n d => [(n, d)]
  | AtPoint q xi d => map (fun a : Z * R => (fst a, d)) (shape q xi)
  end.
