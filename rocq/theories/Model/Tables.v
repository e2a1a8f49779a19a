(** Material and thickness tables.
    Elasticity/SIMElasticity.C 808-818, Shell/SIMKLShell.C 124-148, 224-253, 357-373,
    Linear/SIMLinElBeamC1.C 292-304, Elasticity/KirchhoffLove.C 154-169.
    Materials [M] and thickness functions [F] are abstract; doubles are rational numbers.
    Property codes and indices are mathematical integers; [size_t] wrap-around of [size()-1] on the
    empty table makes the access out of bounds, which is [UB]. *)
From Coq Require Import List ZArith QArith Bool.
From Verif Require Import Lib.Base.
Import ListNotations.

Definition wrap : Z := 2 ^ 64.
(** The index used: [if (propInd >= size) propInd = size-1;] on size_t. *)
Definition clampIdx {A} (l : list A) (p : Z) : Z :=
  let n := Z.of_nat (length l) in if (n <=? p)%Z then ((n - 1) mod wrap)%Z else p.
Definition at_ {A} (l : list A) (i : Z) : res A :=
  match nth_error l (Z.to_nat i) with Some a => Ret a | None => UB end.
(** Elasticity/SIMElasticity.C 808-818; [isEl]: the integrand is an Elasticity object. *)
Definition initElasticity {M} (isEl : bool) (mVec : list M) (p : Z) : res M :=
  if negb isEl then Rejected else at_ mVec (clampIdx mVec p).

Section Shell.
Context {M F : Type}.
Inductive thick := NoThick | Const (t : Q) | Func (f : F).
(** The integrand: current material and thickness. *)
Record integrand := mkInt { curMat : option M; curThick : thick }.
Record shell := mkShell { mVec : list M; tVec : list Q; tFunc : list (Z * F); klp : integrand }.
Definition setMat (i : integrand) (m : M) : integrand := mkInt (Some m) (curThick i).
(** Elasticity/KirchhoffLove.C 154-169 *)
Definition setThick (i : integrand) (t : thick) : integrand := mkInt (curMat i) t.
Definition constantT (i : integrand) : bool := match curThick i with Func _ => false | _ => true end.
Definition isZeroQ (t : Q) : bool := Qeq_bool t 0.
(** std::map find; the most recent assignment for a key counts. *)
Fixpoint lookupF (k : Z) (m : list (Z * F)) : option F :=
  match m with [] => None | (k', f) :: r => if (k' =? k)%Z then Some f else lookupF k r end.
(** Shell/SIMKLShell.C 224-253: one <isotropic> element; [ecode] is the property code from parseMaterialSet. *)
Record iso := mkIso { ecode : Z; ethick : Q; emat : M; efunc : option F }.
Definition parseIso (s : shell) (e : iso) : shell :=
  let mV := (mVec s ++ [emat e])%list in let tV := (tVec s ++ [ethick e])%list in
  let k := match mV with m :: _ => setMat (klp s) m | [] => klp s end in
  match efunc e with
  | Some f => mkShell mV tV ((ecode e, f) :: tFunc s) (if constantT k then setThick k (Func f) else k)
  | None => mkShell mV tV (tFunc s)
      (match tV with t :: _ => if negb (isZeroQ t) && constantT k then setThick k (Const t) else k | [] => k end)
  end.
Definition parseAllIso (l : list iso) (s : shell) : shell := fold_left parseIso l s.
Definition emptyShell : shell := mkShell [] [] [] (mkInt None (Const (1#10))).
(** Shell/SIMKLShell.C 357-373; the dynamic_cast is taken to succeed. *)
Definition initShell (s : shell) (p : Z) : res shell :=
  let p := clampIdx (mVec s) p in
  let* m := at_ (mVec s) p in
  let k := setMat (klp s) m in
  match lookupF p (tFunc s) with
  | Some f => Ret (mkShell (mVec s) (tVec s) (tFunc s) (setThick k (Func f)))
  | None => let* t := at_ (tVec s) p in
            Ret (mkShell (mVec s) (tVec s) (tFunc s) (if isZeroQ t then k else setThick k (Const t)))
  end.
(** Linear/SIMLinElBeamC1.C 292-304: the same without thickness functions. *)
Definition initBeamC1 (mV : list M) (tV : list Q) (i : integrand) (p : Z) : res integrand :=
  let p := clampIdx mV p in
  let* m := at_ mV p in
  let k := setMat i m in
  let* t := at_ tV p in Ret (if isZeroQ t then k else setThick k (Const t)).
(** The patches are visited one after the other with their material index. *)
Fixpoint visit (s : shell) (ps : list Z) : res shell :=
  match ps with [] => Ret s | p :: ps => let* s' := initShell s p in visit s' ps end.
End Shell.
Arguments thick : clear implicits. Arguments iso : clear implicits. Arguments shell : clear implicits. Arguments integrand : clear implicits.
