(** Discrete point loads of bars, beams, cables, plates and shells.
    Beam/SIMElasticBar.C (preprocessB 363-385, assembleDiscreteTerms 417-485, shiftGlobalNums 517-524),
    Beam/SIMElastic1D.C 29-71, Shell/SIMKLShell.C (preprocessB 428-473, assembleDiscreteTerms 476-525,
    externalEnergy 528-551, shiftGlobalNums 553-558, assemblePoint 561-568),
    Linear/SIMLinElBeamC1.C (preprocessB 325-338, assembleDiscreteTerms 341-358, externalEnergy 361-376),
    Elasticity/ElasticBase.C (setMode 60-130, evalPoint 242-263), Elasticity/KirchhoffLove.C (setMode 72-124,
    evalPoint 420-446).

    Simplified: a surface point has one parameter here instead of two; the printed text is left out. *)
From Verif Require Import Lib.Base.
Import ListNotations.

(** Solution modes used by the drivers that call the functions below (IFEM SIMenums.h). *)
Inductive smode := STATIC | ARCLEN | DYNAMIC | VIBRATION | RHS_ONLY.

(** What the IFEM library answers.  [evalPt] is evalPoint: a node number if the point is a node, 0 if it is not, negative
    if the patch does not exist, with the parameter value of the point; [elemOf] is findElementContaining;
    [closest] is findClosestNode of the point; [patchOk] tells if getPatch finds the patch; [shape] lists the nodes
    and basis function values at a parameter value of a patch; [dofOk] tells if assembleSystem accepts a node and
    local DOF; [nvec] is the number of right-hand-side vectors of the equation system. *)
Record oracle := Oracle {
  evalPt : Z -> R -> Z * R;
  elemOf : Z -> R -> Z;
  closest : Z -> R -> Z;
  patchOk : Z -> bool;
  shape : Z -> R -> list (Z * R);
  dofOk : Z * Z -> bool;
  nvec : nat }.

(** Global vectors: one value for each vector index, node and local DOF. *)
Definition gvec := nat -> Z -> Z -> R.
Definition gzero : gvec := fun _ _ _ => 0.
Definition addv (v : gvec) (k : nat) (n d : Z) (x : R) : gvec :=
  fun k' n' d' => if (Nat.eqb k' k && Z.eqb n' n && Z.eqb d' d)%bool then v k' n' d' + x else v k' n' d'.

(** A point load of SIMElasticBar (Beam/SIMElasticBar.h 96-104); [bl_dp] is the time derivative of [bl_p]. *)
Record bload := BL { bl_inod : Z; bl_ldof : Z; bl_xi : R; bl_p : R -> R; bl_dp : R -> R }.

(** SIMElastic1D::findLoadPoint, Beam/SIMElastic1D.C 29-61: the returned node (positive), element (negative) or
    failure (zero), and the updated parameter. *)
Definition findLoadPoint (o : oracle) (patch : Z) (u : R) (onElement : bool) : Z * R :=
  let (imatch, u') := evalPt o patch u in
  let iclose := closest o patch u' in
  if ((0 <=? imatch)%Z && onElement)%bool then
    let e := elemOf o patch u' in
    if ((- e <? 0)%Z && onElement)%bool then ((- e)%Z, u')
    else if (0 <? imatch)%Z then ((- e)%Z, u') else (0%Z, u')
  else if ((imatch =? 0)%Z && (0 <? iclose)%Z)%bool then (iclose, u')
  else if ((imatch <? 0)%Z && onElement)%bool then (imatch, u')
  else if (0 <? imatch)%Z then (imatch, u') else (0%Z, u').

(** SIMElasticBar::preprocessB, Beam/SIMElasticBar.C 363-385, for one load. *)
Definition barPrep1 (o : oracle) (l : bload) : bool * bload :=
  if (if Rle_dec 0 (bl_xi l) then (0 <? bl_inod l)%Z else false) then
    let (f, u') := findLoadPoint o (bl_inod l) (bl_xi l) (bl_ldof l <? 0)%Z in
    let l' := BL (bl_inod l) (bl_ldof l) u' (bl_p l) (bl_dp l) in
    if (0 <? f)%Z then (true, BL f (bl_ldof l) u' (bl_p l) (bl_dp l))
    else if (f =? 0)%Z then (false, l') else (true, l')
  else (true, l).
Definition barPrep (o : oracle) (ls : list bload) : bool * list bload :=
  (forallb (fun l => fst (barPrep1 o l)) ls, map (fun l => snd (barPrep1 o l)) ls).

(** The integrand's external load index after setMode.
    ElasticBase::setMode, Elasticity/ElasticBase.C 60-130; [dyn] is nSV > nCS, [sep] is intPrm[4] == 1. *)
Definition barES (dyn sep : bool) (m : smode) : nat :=
  match m with
  | STATIC | ARCLEN => 1
  | DYNAMIC => if sep then 3 else 1
  | RHS_ONLY => if (dyn && sep)%bool then 3 else 1
  | VIBRATION => 0
  end.
(** KirchhoffLove::setMode, Elasticity/KirchhoffLove.C 72-124. *)
Definition klES (m : smode) : nat := match m with VIBRATION => 0 | _ => 1 end.

(** evalPoint of ElasticBase (242-263) and KirchhoffLove (420-446), called through diracPoint of the patch:
    a unit weight point; the element vector [eS-1] is added to the system vector of the same index.
    Vec3 has the components 1 to 3; other indices are out of its bounds. *)
Definition assemblePoint (o : oracle) (npv : Z) (eS : nat) (v : gvec) (patch : Z) (u f : R) (ldof : Z) : res (bool * gvec) :=
  if patchOk o patch then
    if ((ldof <? 1)%Z || (3 <? ldof)%Z)%bool then UB
    else match eS with
         | O => Ret (false, v)
         | S k => if (ldof <=? npv)%Z
                  then Ret (true, fold_left (fun w (a : Z * R) => addv w k (fst a) ldof (f * snd a)) (shape o patch u) v)
                  else Ret (true, v)
         end
  else Ret (false, v).

(** One pass of SIMElasticBar::assembleDiscreteTerms over the loads, lines 442-458 and 470-479: [val] is the value or
    the derivative at the current time, [k] the system vector of the nodal loads, [scl] their scaling factor. *)
Fixpoint barPass (o : oracle) (npv : Z) (eS k : nat) (scl : R) (val : bload -> R) (ls : list bload) (ok : bool) (v : gvec)
  : res (bool * gvec) :=
  match ls with
  | [] => Ret (ok, v)
  | l :: r =>
      if (0 <? bl_ldof l)%Z then
        let good := dofOk o (bl_inod l, bl_ldof l) in
        barPass o npv eS k scl val r (ok && good) (if good then addv v k (bl_inod l) (bl_ldof l) (val l * scl) else v)
      else
        let* q := assemblePoint o npv eS v (bl_inod l) (bl_xi l) (val l) (- bl_ldof l)%Z in
        barPass o npv eS k scl val r (ok && fst q) (snd q)
  end.

(** SIMElasticBar::assembleDiscreteTerms, Beam/SIMElasticBar.C 417-485.  [alpha] is intPrm[2] if intPrm[3] <= 0
    (time integration with the HHT method) and 0 otherwise. *)
Definition barAssemble (o : oracle) (npv : Z) (dyn sep : bool) (alpha : R) (mode : smode) (t : R) (ls : list bload) (v : gvec)
  : res (bool * gvec) :=
  let ext := if ((2 <? nvec o)%nat && sep)%bool then Some (2%nat, 1)
             else if (0 <? nvec o)%nat then Some (0%nat, alpha + 1) else None in
  let arc := match mode with ARCLEN => true | _ => false end in
  let m1 := if arc then match ls with [] => mode | _ => RHS_ONLY end else mode in
  let* q := match ext with
            | Some (k, scl) => barPass o npv (barES dyn sep m1) k scl (fun l => bl_p l t) ls true v
            | None => Ret (true, v)
            end in
  if (arc && (1 <? nvec o)%nat)%bool
  then barPass o npv 2 1 1 (fun l => bl_dp l t) ls (fst q) (snd q)
  else Ret q.

(** A point load of SIMKLShell (Shell/SIMKLShell.h 38-47). *)
Record sload := SL { sl_patch : Z; sl_node : Z; sl_ldof : Z; sl_xi : R; sl_p : R -> R; sl_dp : R -> R }.

(** SIMKLShell::preprocessB, Shell/SIMKLShell.C 428-473, for one load. *)
Definition klPrep1 (o : oracle) (l : sload) : bool * sload :=
  let (imatch, u') := evalPt o (sl_patch l) (sl_xi l) in
  let iclose := closest o (sl_patch l) u' in
  let f := if ((0 <=? imatch)%Z && (sl_ldof l <? 0)%Z)%bool then elemOf o (sl_patch l) u'
           else if ((imatch =? 0)%Z && (0 <? iclose)%Z)%bool then iclose else imatch in
  if (f <=? 0)%Z then (false, SL (sl_patch l) f (sl_ldof l) (sl_xi l) (sl_p l) (sl_dp l))
  else (true, SL (sl_patch l) f (sl_ldof l) u' (sl_p l) (sl_dp l)).
Definition klPrep (o : oracle) (ls : list sload) : bool * list sload :=
  (forallb (fun l => fst (klPrep1 o l)) ls, map (fun l => snd (klPrep1 o l)) ls).

(** One pass of SIMKLShell::assembleDiscreteTerms, lines 491-504 and 513-521. *)
Fixpoint klPass (o : oracle) (npv : Z) (eS k : nat) (val : sload -> R) (ls : list sload) (ok : bool) (v : gvec)
  : res (bool * gvec) :=
  match ls with
  | [] => Ret (ok, v)
  | l :: r =>
      if (0 <? sl_ldof l)%Z then
        let good := dofOk o (sl_node l, sl_ldof l) in
        klPass o npv eS k val r (ok && good) (if good then addv v k (sl_node l) (sl_ldof l) (val l) else v)
      else
        let* q := assemblePoint o npv eS v (sl_patch l) (sl_xi l) (val l) (- sl_ldof l)%Z in
        klPass o npv eS k val r (ok && fst q) (snd q)
  end.

(** SIMKLShell::assembleDiscreteTerms, Shell/SIMKLShell.C 476-525. *)
Definition klAssemble (o : oracle) (npv : Z) (mode : smode) (t : R) (ls : list sload) (v : gvec) : res (bool * gvec) :=
  match ls with
  | [] => Ret (true, v)
  | _ =>
      if (0 <? nvec o)%nat then
        let* q := klPass o npv (klES RHS_ONLY) 0 (fun l => sl_p l t) ls true v in
        match mode with
        | ARCLEN => if (1 <? nvec o)%nat then klPass o npv 2 1 (fun l => sl_dp l t) ls (fst q) (snd q) else Ret q
        | _ => Ret q
        end
      else Ret (false, v)
  end.

(** A point load of SIMLinElBeamC1 (Linear/SIMLinElBeamC1.h 83-91). *)
Record cload := CL { cl_patch : Z; cl_inod : Z; cl_xi : R; cl_p : R }.

(** SIMLinElBeamC1::preprocessB, Linear/SIMLinElBeamC1.C 325-338, for one load. *)
Definition c1Prep1 (o : oracle) (l : cload) : bool * cload :=
  let (f, u') := findLoadPoint o (cl_patch l) (cl_xi l) (cl_inod l <? 0)%Z in
  (negb (f =? 0)%Z, CL (cl_patch l) f u' (cl_p l)).
Definition c1Prep (o : oracle) (ls : list cload) : bool * list cload :=
  (forallb (fun l => fst (c1Prep1 o l)) ls, map (fun l => snd (c1Prep1 o l)) ls).

(** The loop of SIMLinElBeamC1::assembleDiscreteTerms, lines 349-355: one DOF in each node. *)
Fixpoint c1Pass (o : oracle) (eS : nat) (ls : list cload) (ok : bool) (v : gvec) : res (bool * gvec) :=
  match ls with
  | [] => Ret (ok, v)
  | l :: r =>
      if (0 <? cl_inod l)%Z then
        let good := dofOk o (cl_inod l, 1%Z) in
        c1Pass o eS r (ok && good) (if good then addv v 0 (cl_inod l) 1 (cl_p l) else v)
      else if (cl_inod l <? 0)%Z then
        let* q := assemblePoint o 1 eS v (cl_patch l) (cl_xi l) (cl_p l) 1 in c1Pass o eS r (ok && fst q) (snd q)
      else c1Pass o eS r ok v
  end.
(** SIMLinElBeamC1::assembleDiscreteTerms, Linear/SIMLinElBeamC1.C 341-358. *)
Definition c1Assemble (o : oracle) (mode : smode) (ls : list cload) (v : gvec) : res (bool * gvec) :=
  if (0 <? nvec o)%nat then c1Pass o (klES mode) ls true v else Ret (false, v).

(** getSolution of a component at a point (IFEM): the basis functions applied to the nodal values. *)
Definition solAt (o : oracle) (u : Z -> Z -> R) (patch : Z) (xi : R) (d : Z) : R :=
  sumL (fun a : Z * R => snd a * u (fst a) d) (shape o patch xi).

(** The point load part of SIMKLShell::externalEnergy, Shell/SIMKLShell.C 528-551, and of
    SIMLinElBeamC1::externalEnergy, Linear/SIMLinElBeamC1.C 361-376; SIMElasticBar does not override externalEnergy. *)
Definition klEnergy (o : oracle) (npv : Z) (t : R) (ls : list sload) (u : Z -> Z -> R) : R :=
  sumL (fun l => if (0 <? sl_ldof l)%Z then sl_p l t * u (sl_node l) (sl_ldof l)
                 else if (sl_ldof l <? 0)%Z then
                        (if (- sl_ldof l <=? npv)%Z then sl_p l t * solAt o u (sl_patch l) (sl_xi l) (- sl_ldof l) else 0)
                      else 0) ls.
Definition c1Energy (o : oracle) (ls : list cload) (u : Z -> Z -> R) : R :=
  sumL (fun l => if (0 <? cl_inod l)%Z then cl_p l * u (cl_inod l) 1%Z
                 else if (cl_inod l <? 0)%Z then cl_p l * solAt o u (cl_patch l) (cl_xi l) 1 else 0) ls.
Definition barEnergy : R := 0.
