(** Mesh refinement: the model properties are cleared and the input file is read once more.
    Elasticity/NonlinearDriver.C 208-219, 459-506; Elasticity/SIMElasticity.C 81-113, 181-204, 642-771;
    Elasticity/Elasticity.C 42-62, 100-112, 147-162; Elasticity/SIMRigid.C 27-128; FiniteDeformation/SIMContact.C 121-238;
    FiniteDeformation/SIMFiniteDefEl.C 128-168; Shell/SIMKLShell.C 81-109.

    Simplified: an input file is the list of its <elasticity> and <finitedeformation> elements, and only the tags below are
    kept; their attributes and topology sets are taken to be valid. The IFEM part of clearProperties and of the parser (property
    codes, Dirichlet conditions, functions) is not modelled. A coupling map without entry for a patch is the empty map. *)
From Verif Require Import Lib.Base Lib.Vec3 Model.Couplings Model.ContactInput Model.Boundary Model.Tables.
Import ListNotations.

Section Reread.
Context {M : Type}.

Inductive tag :=
| TMat (m : M)                                  (* <isotropic>, <texturematerial>, <plastic> *)
| TForce (code : Z)                             (* <boundaryforce> *)
| TRigid (code item : Z)                        (* <rigid> *)
| TCoupling (patch : Z) (ls : list line)        (* <coupling> *)
| TDual (f : nat)                               (* <dualfield> *)
| TContact (bs : list (list bodyTag)).          (* <contact> *)
Inductive element := Elast (ts : list tag) | Finite (ts : list tag).

(** mVec; the material of the integrand; bCode; myMasters; myCouplings; contactMethod <> NONE; myBodies; dualFld. *)
Record model := mkModel {
  mats : list M; cur : option M; secs : list Z; masters : Z -> option Z; cpls : Z -> list (Z * list master);
  contact : bool; bodies : list body; duals : list nat }.

(** A new model: the integrand has a default material, Elasticity/Elasticity.C 48-50; SIMContact.h: contactMethod(NONE). *)
Definition fresh (dflt : M) : model := mkModel [] (Some dflt) [] (fun _ => None) (fun _ => []) false [] [].

(** Insertion in the ordered map bCode. *)
Fixpoint addCode (c : Z) (l : list Z) : list Z :=
  match l with
  | [] => [c]
  | k :: r => if (k <? c)%Z then k :: addCode c r else if (k =? c)%Z then l else c :: l
  end.
(** One tag of an <elasticity> element, Elasticity/SIMElasticity.C 688-768; a <contact> tag is not known here.
    Elasticity.C 110: the last material read becomes that of the integrand. *)
Definition readElast (s : model) (t : tag) : model :=
  match t with
  | TMat m => mkModel (mats s ++ [m]) (Some m) (secs s) (masters s) (cpls s) (contact s) (bodies s) (duals s)
  | TForce c => mkModel (mats s) (cur s) (addCode c (secs s)) (masters s) (cpls s) (contact s) (bodies s) (duals s)
  | TRigid c i => mkModel (mats s) (cur s) (secs s) (fun k => if (k =? c)%Z then Some i else masters s k) (cpls s) (contact s) (bodies s) (duals s)
  | TCoupling p ls => mkModel (mats s) (cur s) (secs s) (masters s) (fun k => if (k =? p)%Z then parseCpl ls (cpls s k) else cpls s k)
                              (contact s) (bodies s) (duals s)
  | TDual f => mkModel (mats s) (cur s) (secs s) (masters s) (cpls s) (contact s) (bodies s) (duals s ++ [f])
  | TContact _ => s
  end.
(** The tags of a <finitedeformation> element, FiniteDeformation/SIMFiniteDefEl.C 133-160, with defaultMat.
    SIMContact.C 125-130: a second <contact> tag is an error. *)
Fixpoint readFinite (s : model) (dm : option M) (ts : list tag) : res (model * option M) :=
  match ts with
  | [] => Ret (s, dm)
  | TMat m :: r =>
      readFinite (mkModel (mats s ++ [m]) (cur s) (secs s) (masters s) (cpls s) (contact s) (bodies s) (duals s))
                 (match dm with Some d => Some d | None => Some m end) r
  | TContact bs :: r =>
      if contact s then Rejected
      else readFinite (mkModel (mats s) (cur s) (secs s) (masters s) (cpls s) true (bodies s ++ map readBody bs) (duals s)) dm r
  | _ :: r => readFinite s dm r
  end.
(** SIMFiniteDefEl.C 162-165 *)
Definition setDefault (x : model * option M) : model :=
  match snd x with
  | Some d => let s := fst x in mkModel (mats s) (Some d) (secs s) (masters s) (cpls s) (contact s) (bodies s) (duals s)
  | None => fst x
  end.
Definition readElement (s : model) (e : element) : res model :=
  match e with
  | Elast ts => Ret (fold_left readElast ts s)
  | Finite ts => let* x := readFinite s None ts in Ret (setDefault x)
  end.
Fixpoint readFile (file : list element) (s : model) : res model :=
  match file with [] => Ret s | e :: r => let* s' := readElement s e in readFile r s' end.

(** SIMElasticity::clearProperties, SIMElasticity.C 181-204: bCode, the material of the integrand, its dual functions
    (addExtrFunction(nullptr), Elasticity.C 157-161) and all materials. *)
Definition clear (s : model) : model := mkModel [] None [] (masters s) (cpls s) (contact s) (bodies s) [].

(** The model after [n] refinements. *)
Fixpoint after (dflt : M) (file : list element) (n : nat) : res model :=
  match n with
  | O => readFile file (fresh dflt)
  | S k => let* s := after dflt file k in readFile file (clear s)
  end.

(** The constraints of the nodal couplings of a patch, Elasticity/SIMRigid.C 164-196. *)
Definition patchCouplings (s : model) (p : Z) : list constraint := map couple (cpls s p).

(** NonlinearDriver: solution vectors, number of refinements, weights for the section forces, model. *)
Record driver := mkDriver { solution : list (list R); aStep : nat; weights : list R; mdl : model }.
(** Answers of the adaptive setup and of the IFEM model: calcRefinement, refine (its result and what it leaves in the solution
    array), readModel (its IFEM part), preprocess, initEqSystem, saveModel, and the new mesh: the number of unknowns and for each
    patch the unknowns (from 0) of its values. [vtf]: opt.format >= 0. *)
Record answers := mkAnswers { calc : Z; refineOk : bool; refined : list (list R); readOk : bool; prepOk : bool; initOk : bool;
  vtf : bool; saveOk : bool; nDof : nat; patches : list (list nat) }.

Fixpoint set (l : list R) (i : nat) (v : R) : list R :=
  match l, i with [], _ => [] | _ :: r, O => v :: r | x :: r, S i => x :: set r i v end.
(** injectPatchSolution (IFEM) *)
Definition inject (g : list R) (dofs : list nat) (v : list R) : list R := fold_left (fun g p => set g (fst p) (snd p)) (combine dofs v) g.
(** The loop over the patches for solution vector [i], NonlinearDriver.C 498-499; [p]: number of patches already done. *)
Fixpoint injectPatches (sol : list (list R)) (nsol i p : nat) (ps : list (list nat)) (g : list R) : res (list R) :=
  match ps with
  | [] => Ret g
  | d :: r => match nth_error sol (p * nsol + i) with None => UB | Some v => injectPatches sol nsol i (S p) r (inject g d v) end
  end.
(** NonlinearDriver.C 496-499 *)
Fixpoint injectAll (sol : list (list R)) (nsol : nat) (n : nat) (ps : list (list nat)) (nd : nat) : res (list (list R)) :=
  match n with
  | O => Ret []
  | S k => let* l := injectAll sol nsol k ps nd in let* g := injectPatches sol nsol k 0 ps (repeat 0 nd) in Ret (l ++ [g])
  end.

(** NonlinearDriver::adaptMesh, NonlinearDriver.C 459-506. The vectors [soli] are local. *)
Definition adaptMesh (adap : bool) (file : list element) (a : answers) (d : driver) : res (bool * driver) :=
  if negb adap then Ret (true, d)
  else if (calc a <? 0)%Z then Ret (false, d)
  else if (calc a =? 0)%Z then Ret (true, d)
  else
    let nsol := length (solution d) in
    let d1 := mkDriver (refined a) (S (aStep d)) (weights d) (clear (mdl d)) in
    if negb (refineOk a) then Ret (false, d1) else
    match readFile file (mdl d1) with
    | UB => UB
    | Rejected => Ret (false, d1)
    | Ret m =>
        let d2 := mkDriver (solution d1) (aStep d1) (weights d1) m in
        if negb (readOk a) then Ret (false, d2) else
        if negb (prepOk a) then Ret (false, d2) else
        if negb (initOk a) then Ret (false, d2) else
        let* soli := injectAll (solution d2) nsol nsol (patches a) (nDof a) in
        if negb (vtf a) then Ret (true, d2) else Ret (saveOk a, d2)
    end.

End Reread.
Arguments tag : clear implicits. Arguments element : clear implicits. Arguments model : clear implicits. Arguments driver : clear implicits.

(** Section forces, Elasticity/SIMElasticity.C 81-113 as called by NonlinearDriver::calcInterfaceForces, NonlinearDriver.C 208-219:
    the weights are a member of the driver. [nn]: number of nodes of the mesh, [ss]: the nodes (from 1) of each section. *)
Definition initWeights (w : list R) (nn : nat) (ss : list (list nat)) : list R :=
  match w with
  | [] => if (1 <? length ss)%nat then map (fun i => nodeWeight ss (S i)) (seq 0 nn) else []
  | _ => w
  end.
(** getInterfaceForces (IFEM): the weight of node [n] is [weights[n-1]], 1 if there are no weights. *)
Fixpoint forceAt (w : list R) (f : nat -> vec) (s : list nat) : res vec :=
  match s with
  | [] => Ret (fun _ => 0)
  | n :: r =>
      let* v := forceAt w f r in
      match w with
      | [] => Ret (fun k => f n k + v k)
      | _ => match n with
             | O => UB
             | S i => match nth_error w i with Some x => Ret (fun k => x * f n k + v k) | None => UB end
             end
      end
  end.
Fixpoint forcesAt (w : list R) (f : nat -> vec) (ss : list (list nat)) : res (list vec) :=
  match ss with [] => Ret [] | s :: r => let* v := forceAt w f s in let* vs := forcesAt w f r in Ret (v :: vs) end.
Definition calcForces (w : list R) (nn : nat) (ss : list (list nat)) (f : nat -> vec) : res (list R * list vec) :=
  let w' := initWeights w nn ss in let* vs := forcesAt w' f ss in Ret (w', vs).

(** Shells: Shell/SIMKLShell.C 81-109. The thickness functions are deleted, the integrand keeps its pointer.
    A function is stamped with the number of the reading that created it. *)
Section Shell.
Context {M F : Type}.
Definition clearShell (s : shell M F) : shell M F := mkShell [] [] [] (mkInt None (curThick (klp s))).
Definition stamp (k : nat) (l : list (iso M F)) : list (iso M (nat * F)) :=
  map (fun e => mkIso (ecode e) (ethick e) (emat e) (option_map (pair k) (efunc e))) l.
End Shell.
(** Reading number [n], then the patches [ps] are visited; the earlier readings likewise. *)
Fixpoint shellAfter {M F} (l : list (iso M F)) (ps : list Z) (n : nat) : res (shell M (nat * F)) :=
  match n with
  | O => visit (parseAllIso (stamp 0 l) emptyShell) ps
  | S k => let* s := shellAfter l ps k in visit (parseAllIso (stamp (S k) l) (clearShell s)) ps
  end.
(** The function still exists after reading number [n]. *)
Definition exists_ {F} (n : nat) (t : thick (nat * F)) : bool := match t with Func (k, _) => (k =? n)%nat | _ => true end.
