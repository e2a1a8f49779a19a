(** Materials of a finite-deformation model, and the stress each formulation makes of them.
    Models SIMFiniteDefEl::SIMFiniteDefEl and parse, FiniteDeformation/SIMFiniteDefEl.C 34-195, getIntegrand 262-270 and
    NLoptions::getIntegrand, FiniteDeformation/NLoptions.C 23-59, the material tags of SIMElasticity::parse,
    Elasticity/SIMElasticity.C 688-710, Elasticity::parseMatProp, Elasticity/Elasticity.C 103-115, initMaterial,
    Elasticity/SIMElasticity.C 809-826, preprocessB, SIMFiniteDefEl.C 274-297, and the calls of Material::evaluate in
    LinearElasticity.C 204, NonlinearElasticity.C 236 and 246, NonlinearElasticityTL.C 104-110 and NonlinearElasticityUL.C 163.
    Simplifications: real arithmetic; the density is left out; the parameters of a plastic material are read as in C127, here
    they are a list; the code of a material is given (parseMaterialSet in a tag).  The hyperelastic and the plastic stress are
    arguments of the model (NeoHookeMaterial.C and the Fortran kernels, C21 and C24).
    A formulation other than those of NLoptions::getIntegrand has no integrand. *)
From Coq Require Import List.
From Verif Require Export Model.LinMaterial Model.Options.
From Verif Require Import Lib.Base.
Import ListNotations.
Open Scope Z_scope.

(** A material as written: modulus, ratio and version (-1 if there is none), or the data of a plastic material. *)
Inductive entry := Iso (E nu : R) (ver : Z) | Pla (p : list R).
(** LinIsotropic, LinearMaterial around a LinIsotropic, NeoHookeMaterial, PlasticMaterial. *)
Inductive law := Raw (E nu : R) | Wrapped (E nu : R) | Neo (ver : Z) (E nu : R) | Plast (p : list R).
(** Material::isLinear, Elasticity/MaterialBase.h; NeoHookeMaterial.h and PlasticMaterial.h return false. *)
Definition isLinear (l : law) : bool := match l with Raw _ _ | Wrapped _ _ => true | _ => false end.
Definition isHistoryDependent (l : law) : bool := match l with Plast _ => true | _ => false end.
Definition wrap (l : law) : law := match l with Raw E nu => Wrapped E nu | _ => l end.

(** SIMFiniteDefEl.C 65-78 (ISOTROPIC) and 100 (PLASTIC). *)
Definition textLaw (form : Z) (e : entry) : law :=
  match e with
  | Iso E nu ver =>
    let m := if (0 <=? ver) && (UPDATED_LAGRANGE <=? form) then Neo ver E nu else Raw E nu in
    if (ver <? 0) && (UPDATED_LAGRANGE <=? form) then wrap m else m
  | Pla p => Plast p
  end.
(** parseMaterial, 171-256, and parse, 140-143. *)
Definition parseMaterial (form : Z) (e : entry) : law :=
  match e with Iso E nu ver => if (0 <=? ver) && (UPDATED_LAGRANGE <=? form) then Neo ver E nu else Raw E nu | Pla p => Plast p end.
Definition tagLaw (form : Z) (e : entry) : law :=
  let m := parseMaterial form e in if (UPDATED_LAGRANGE <=? form) && isLinear m then wrap m else m.

(** [mats]: mVec; [props]: codes given the property MATERIAL and the index; [cur]: the material of the integrand, set if
    one has been given to it. *)
Record state := mkSt { mats : list law; props : list (Z * nat); cur : option law }.
Definition start : state := mkSt [] [] None.
Definition hasInt (form : Z) : bool := (LINEAR <=? form) && (form <=? FBAR).

(** One material: 61-64 and 86-88, setPropertyType(code,MATERIAL,mDat.size()), and the push. *)
Definition push (code : Z) (m : law) (s : state) : state :=
  mkSt (mats s ++ [m]) (if 0 <? code then props s ++ [(code, length (mats s))] else props s) (cur s).
(** The lines of a section and its default material. *)
Fixpoint textLines (form : Z) (l : list (Z * entry)) (d : option law) (s : state) : option law * state :=
  match l with
  | [] => (d, s)
  | (c, e) :: r => let m := textLaw form e in
    textLines form r (match d with None => Some m | Some _ => if c =? 0 then Some m else d end) (push c m s)   (* 82, 105 *)
  end.
Fixpoint tagLines (form : Z) (l : list (Z * entry)) (d : option law) (s : state) : option law * state :=
  match l with
  | [] => (d, s)
  | (c, e) :: r => let m := tagLaw form e in
    tagLines form r (match d with None => Some m | Some _ => d end) (push c m s)                               (* 145-146 *)
  end.
(** 120-121 and 163-165. *)
Definition setMaterial (form : Z) (ds : option law * state) : state :=
  let (d, s) := ds in
  match d with Some m => if hasInt form then mkSt (mats s) (props s) (Some m) else s | None => s end.
(** A material tag within <elasticity>: SIMElasticity.C 705-708 and Elasticity.C 111-114; the material is the current one
    at once. *)
Fixpoint elasticTags (form : Z) (l : list (Z * (R * R))) (s : state) : state :=
  match l with
  | [] => s
  | (c, (E, nu)) :: r => elasticTags form r (let s1 := push c (Raw E nu) s in mkSt (mats s1) (props s1) (Some (Raw E nu)))
  end.

(** Blocks of the input: ISOTROPIC or PLASTIC with its lines, <finitedeformation>, <elasticity>. *)
Inductive block := Text (l : list (Z * entry)) | Tag (l : list (Z * entry)) | Elastic (l : list (Z * (R * R))).
Definition parse (form : Z) (b : block) (s : state) : state :=
  match b with
  | Text l => setMaterial form (textLines form l None s)
  | Tag l => setMaterial form (tagLines form l None s)
  | Elastic l => if hasInt form then elasticTags form l s else s
  end.
Definition input (form : Z) (bs : list block) : state := fold_left (fun s b => parse form b s) bs start.

(** The material of an element: initMaterial sets the one of the property of its patch; without such properties the current
    one is used, and without a current one steel (Elasticity.C 48-49). *)
Definition steel : law := Raw 205000000000 (29 / 100).
Definition current (s : state) : law := match cur s with Some m => m | None => steel end.
Definition ofCode (s : state) (c : Z) : option law :=
  match find (fun p => fst p =? c) (props s) with Some (_, i) => nth_error (mats s) i | None => None end.
(** preprocessB, 282-297: [proj] the projections asked for other than CGL2_INT. *)
Definition preprocessOk (s : state) (proj : list nat) : bool :=
  negb (existsb isHistoryDependent (mats s) && match proj with [] => false | _ => true end).

Section Stress.
Variables (neo : Z -> R -> R -> t3 -> t3) (plast : list R -> t3 -> t3).   (* Cauchy stresses of a deformation *)
Open Scope R_scope.
(** Material::evaluate with [iop] 1 (stress) or 2 (second Piola-Kirchhoff stress): LinIsotropic.C 270-330, LinearMaterial.C 25-55,
    NeoHookeMaterial.C 93-152, PlasticMaterial.C 192-206. *)
Definition evaluate (k : kind) (ps : bool) (l : law) (F : t3) (eps : nat -> R) (iop : nat) : res t3 :=
  match l with
  | Raw E nu => let* r := linearEvaluate k ps E nu F eps 2 in Ret (snd r)
  | Wrapped E nu => let* r := linearEvaluate k ps E nu F eps iop in Ret (snd r)
  | Neo v E nu =>                                                          (* NeoHookeMaterial.C 98-131; mVER is v/10, 25 and 37 *)
    if Req_EM_T (jacF k F) 0 then Rejected
    else if negb ((Z.quot v 10 =? 1) || (Z.quot v 10 =? 2))%Z then Rejected
    else if (iop =? 2)%nat then Rejected else Ret (neo v E nu F)
  | Plast p => if (iop =? 2)%nat then Rejected else Ret (plast p F)
  end.
(** Cauchy stress of an element in a deformation with strains: total Lagrangian elements take the result for the second
    Piola-Kirchhoff stress, updated Lagrangian elements for the Cauchy stress; the element with small strains passes them in
    place of the deformation gradient (LinearElasticity.C 204). *)
Definition smallStrain (k : kind) (F : t3) (r : nat) : R :=
  let g i j := if (i =? j)%nat then F i j - 1 else F i j + F j i in
  match k, r with
  | Plane, 3%nat => g 1%nat 2%nat | _, 1%nat => g 1%nat 1%nat | _, 2%nat => g 2%nat 2%nat | _, 3%nat => g 3%nat 3%nat
  | _, 4%nat => g 1%nat 2%nat | Solid, 5%nat => g 2%nat 3%nat | Solid, 6%nat => g 3%nat 1%nat | _, _ => 0
  end.
Definition smallTensor (F : t3) : t3 := fun i j => (F i j + F j i) / 2 - kron i j.
Definition elementStress (form : Z) (k : kind) (ps : bool) (l : law) (F : t3) : res t3 :=
  if (form =? LINEAR)%Z then evaluate k ps l (smallTensor F) (smallStrain k F) 1
  else if (form <? UPDATED_LAGRANGE)%Z then
    let* S := evaluate k ps l F (strainUL k F) 2 in Ret (fun i j => mul3 F (mul3 S (trn F)) i j / det3 F)
  else evaluate k ps l F (strainUL k F) 1.
End Stress.
