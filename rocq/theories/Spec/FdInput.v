(** What materials in a finite-deformation input are meant to be. *)
From Coq Require Import List ZArith.
From Verif Require Export Spec.LinMaterial.
From Verif Require Import Model.FdInput.
Import ListNotations.

(** The Cauchy stress a material describes: Saint Venant-Kirchhoff for a linear one, the hyperelastic law of a version, plasticity. *)
Definition meant (neo : Z -> R -> R -> t3 -> t3) (plast : list R -> t3 -> t3) (k : kind) (ps : bool) (e : entry) (F : t3) : t3 :=
  match e with
  | Iso E nu ver => if (ver <? 0)%Z then svkStress k ps E nu F else neo ver E nu F
  | Pla p => plast p F
  end.
Definition givesStress (neo : Z -> R -> R -> t3 -> t3) (plast : list R -> t3 -> t3) (form : Z) (e : entry) (l : law) : Prop :=
  forall k ps F, k <> Axi -> (forall E nu v, e = Iso E nu v -> 0 <= nu < 1 / 2)%R -> defOf k F -> (0 < det3 F)%R ->
  exists s, elementStress neo plast form k ps l F = Ret s /\ eqKind k s (meant neo plast k ps e F).
(** The materials of an input in their order, each with its code. *)
Definition written (bs : list block) : list (Z * entry) :=
  concat (map (fun b => match b with Text l | Tag l => l | Elastic l => map (fun c => (fst c, Iso (fst (snd c)) (snd (snd c)) (-1))) l end) bs).
