(** Listing order of intensity ranges. *)
From Coq Require Import List QArith.
Import ListNotations.
Open Scope Q_scope.

Definition contains (r : Q * Q) (I : Q) : Prop := fst r <= I /\ I <= snd r.
Definition sameRange (r s : Q * Q) : Prop := fst r == fst s /\ snd r == snd s.
(** Lexicographic order on (min,max). *)
Definition before (r s : Q * Q) : Prop := fst r < fst s \/ (fst r == fst s /\ snd r < snd s).
(** The first listed range containing an intensity. *)
Definition firstListed {A} (l : list ((Q * Q) * A)) (I : Q) (a : A) : Prop :=
  exists l1 r l2, l = l1 ++ (r, a) :: l2 /\ contains r I /\ forall e, In e l1 -> ~ contains (fst e) I.
(** The last listed entry for a range. *)
Definition lastFor {A} (l : list ((Q * Q) * A)) (r : Q * Q) (a : A) : Prop :=
  exists l1 r' l2, l = l1 ++ (r', a) :: l2 /\ sameRange r' r /\ forall e, In e l2 -> ~ sameRange (fst e) r.
(** No two entries of the list share an intensity. *)
Definition disjoint {A} (l : list ((Q * Q) * A)) : Prop :=
  forall l1 e l2 f l3 I, l = l1 ++ e :: l2 ++ f :: l3 -> ~ (contains (fst e) I /\ contains (fst f) I).

(** The image file holds, row by row, the channels (0 to 255) of each pixel. *)
Definition stores (w h ch : Z) (data : Z -> Z) (px : Z -> Z -> Z -> Z) : Prop :=
  forall i j c, (0 <= i < w -> 0 <= j < h -> 0 <= c < ch -> data (c + ch * (i + w * j)) = px i j c)%Z.
