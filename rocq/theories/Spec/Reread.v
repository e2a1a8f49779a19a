(** What an input file says, and what it means to continue on a refined mesh. *)
From Coq Require Import QArith.
From Verif Require Import Lib.Base Lib.Vec3 Model.Couplings Model.ContactInput Model.Tables Model.Reread.
Import ListNotations.

Section Spec.
Context {M : Type}.
Definition tagsOf (e : element M) : list (tag M) := match e with Elast ts => ts | Finite ts => ts end.
Definition elastTags (file : list (element M)) : list (tag M) := flat_map (fun e => match e with Elast ts => ts | Finite _ => [] end) file.
Definition finiteTags (file : list (element M)) : list (tag M) := flat_map (fun e => match e with Elast _ => [] | Finite ts => ts end) file.
(** All materials of the file, in order. *)
Definition matsIn (ts : list (tag M)) : list M := flat_map (fun t => match t with TMat m => [m] | _ => [] end) ts.
Definition matsOf (file : list (element M)) : list M := matsIn (flat_map tagsOf file).
(** The material of the model as a whole: that chosen by the last element with a material. *)
Fixpoint chosen (file : list (element M)) : option M :=
  match file with
  | [] => None
  | e :: r => match chosen r with
              | Some m => Some m
              | None => match e with Elast ts => hd_error (rev (matsIn ts)) | Finite ts => hd_error (matsIn ts) end
              end
  end.
Definition dualsOf (file : list (element M)) : list nat := flat_map (fun t => match t with TDual f => [f] | _ => [] end) (elastTags file).
(** The lines of the nodal couplings of a patch. *)
Definition linesOf (p : Z) (file : list (element M)) : list line :=
  flat_map (fun t => match t with TCoupling q ls => if (q =? p)%Z then ls else [] | _ => [] end) (elastTags file).
(** The master point of a rigid set: the last one given. *)
Definition rigidOf (c : Z) (file : list (element M)) : option Z :=
  hd_error (rev (flat_map (fun t => match t with TRigid k i => if (k =? c)%Z then [i] else [] | _ => [] end) (elastTags file))).
Definition contactsOf (file : list (element M)) : list (list (list bodyTag)) :=
  flat_map (fun t => match t with TContact bs => [bs] | _ => [] end) (finiteTags file).

(** Two models that no analysis can tell apart. *)
Definition same (s t : model M) : Prop :=
  mats s = mats t /\ cur s = cur t /\ secs s = secs t /\ (forall c, masters s c = masters t c) /\
  (forall p, patchCouplings s p = patchCouplings t p) /\ contact s = contact t /\ bodies s = bodies t /\ duals s = duals t.

(** [nsol] vectors on a mesh with [nd] unknowns, whose patch values are those transferred by the refinement:
    [tr p i] are the values of vector [i] on patch [p]. *)
Definition carried (nd : nat) (patches : list (list nat)) (nsol : nat) (tr : nat -> nat -> list R) (sol : list (list R)) : Prop :=
  length sol = nsol /\
  forall i g, nth_error sol i = Some g -> length g = nd /\
    forall p dofs k dof, nth_error patches p = Some dofs -> nth_error dofs k = Some dof -> nth_error g dof = nth_error (tr p i) k.
End Spec.
(** The values that all patches give to an unknown agree; [sol] has the vectors of the first patch, then those of the second, ... *)
Definition agree (nsol : nat) (sol : list (list R)) (ps : list (list nat)) (i : nat) : Prop :=
  forall p q dp dq k j dof vp vq x y, nth_error ps p = Some dp -> nth_error ps q = Some dq -> nth_error dp k = Some dof -> nth_error dq j = Some dof ->
    nth_error sol (p * nsol + i)%nat = Some vp -> nth_error sol (q * nsol + i)%nat = Some vq -> nth_error vp k = Some x -> nth_error vq j = Some y -> x = y.

(** Thickness functions with their codes, and the thickness that the input gives to the patches of material index [q]:
    the last function with that code, or the constant of that material. *)
Definition funcsIn {M F} (l : list (iso M F)) : list (Z * F) := flat_map (fun e => match efunc e with Some f => [(ecode e, f)] | None => [] end) l.
Definition tableThick {M F} (l : list (iso M F)) (q : Z) : option (thick F) :=
  match lookupF q (rev (funcsIn l)) with
  | Some f => Some (Func f)
  | None => match nth_error l (Z.to_nat q) with Some e => if Qeq_bool (ethick e) 0 then None else Some (Const (ethick e)) | None => None end
  end.
