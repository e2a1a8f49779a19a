(** Materials selected from an image. Elasticity/IsotropicTextureMat.C 22-111.
    Doubles are taken as rational numbers and the product [u*(n-1)] as exact; the material itself is
    abstract ([A]), with the effect of parsing one <range> element on the (re-used) material object. *)
From Coq Require Import List ZArith QArith Bool.
Import ListNotations.
Open Scope Q_scope.

Section Texture.
Context {A : Type}.
Definition range := (Q * Q)%type.
(** One <range> child: optional attributes min and max, and LinIsotropic::parse on the shared object. *)
Record relem := mkElem { emin : option Q; emax : option Q; eparse : A -> A }.

Definition qlt (a b : Q) : bool := negb (Qle_bool b a).
(** operator< of std::pair<double,double> *)
Definition keylt (a b : range) : bool := qlt (fst a) (fst b) || (negb (qlt (fst b) (fst a)) && qlt (snd a) (snd b)).
(** std::map::operator[] assignment on the ordered entries *)
Fixpoint minsert (k : range) (v : A) (m : list (range * A)) : list (range * A) :=
  match m with
  | [] => [(k, v)]
  | (k', v') :: r => if keylt k' k then (k', v') :: minsert k v r
                     else if keylt k k' then (k, v) :: m else (k', v) :: r
  end.
(** Elasticity/IsotropicTextureMat.C 44-54: [range] and [mat] live outside the loop. *)
Definition orElse {B} (o : option B) (d : B) : B := match o with Some x => x | None => d end.
Fixpoint parseRanges (cs : list relem) (r : range) (mat : A) (m : list (range * A)) : list (range * A) :=
  match cs with
  | [] => m
  | c :: cs =>
      let r := (orElse (emin c) (fst r), orElse (emax c) (snd r)) in
      let mat := eparse c mat in
      parseRanges cs r mat (minsert r mat m)
  end.
(** Elasticity/IsotropicTextureMat.C 35-40, first channel; [None] if the file could not be read. *)
Record image := mkImg { width : Z; height : Z; channels : Z; bytes : Z -> Z }.
Definition texel (im : image) (i j : Z) : Q := inject_Z (bytes im ((j * width im + i) * channels im)) / 255.

(** int conversion of a double: towards zero *)
Definition trunc (q : Q) : Z := Z.quot (Qnum q) (Zpos (Qden q)).
(** Elasticity/IsotropicTextureMat.C 69-92 *)
Definition pixel (im : image) (u v : Q) : option (Z * Z) :=
  let i := trunc (u * inject_Z (width im - 1)) in
  let j := trunc (v * inject_Z (height im - 1)) in
  if ((i <? 0) || (width im <=? i) || (j <? 0) || (height im <=? j))%Z then None else Some (i, j).
Definition inRange (I : Q) (r : range) : bool := Qle_bool (fst r) I && Qle_bool I (snd r).
Definition findMaterial (tex : option image) (m : list (range * A)) (u v : Q) : option A :=
  match tex with
  | None => None
  | Some im =>
      if (width im <=? 0)%Z then None else
      match pixel im u v with
      | None => None
      | Some (i, j) => match find (fun e => inRange (texel im i j) (fst e)) m with Some e => Some (snd e) | None => None end
      end
  end.
(** Elasticity/IsotropicTextureMat.C 104-111: the evaluation fails without a material. *)
Definition evaluate {B} (f : A -> B) (tex : option image) (m : list (range * A)) (u v : Q) : option B :=
  match findMaterial tex m u v with Some a => Some (f a) | None => None end.
End Texture.
Arguments relem : clear implicits.
