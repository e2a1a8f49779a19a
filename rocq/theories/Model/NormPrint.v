(** Printed norms and error estimates: which entry of which norm group is printed under
    which heading.  Models Elastic::printNorms (Elasticity/SIMElasticity.C:45-78), the
    printing part of the linear program (main_LinEl.C:721-806), SIMKLShell::printNormGroup
    (Shell/SIMKLShell.C:571-597), NonlinearDriver::printNorms (Elasticity/NonlinearDriver.C:
    174-208), haveAnaSol and getVolumeIndex of the simulators.
    A [Line] is a heading and its value, a [Rel] a percentage of the value named in brackets.
    The number format, colons and line breaks are left out. *)
From Coq Require Import List String Arith Bool Reals.
From Verif Require Import Lib.Base Model.Labels Model.Norms.
Import ListNotations.
Open Scope string_scope.
Open Scope nat_scope.

Inductive line := Line (text : string) (v : R) | Rel (ref : string) (v : R).

(** v(i) of utl::vector, addressed from 1; outside the vector the behaviour is undefined. *)
Definition at1 (v : list R) (i : nat) : res R :=
  match i with
  | O => UB
  | S k => match nth_error v k with Some x => Ret x | None => UB end
  end.

Definition size (v : list R) : nat := List.length v.

(* Elastic::printNorms, SIMElasticity.C:45-78; [g] the group, [r] the first group *)
Definition printNorms (haveAna : bool) (g r : list R) : res (list line) :=
  let uRef := if haveAna then "|u|" else "|u^r|" in
  let* den := if haveAna then at1 r 3 else at1 g 1 in
  let rel := (100 / den)%R in
  let* g1 := at1 g 1 in
  let* g2 := at1 g 2 in
  let top := [Line "Energy norm |u^r| = a(u^r,u^r)^0.5" g1; Line "Error norm a(e,e)^0.5, e=u^r-u^h" g2;
              Rel uRef (g2 * rel)%R] in
  let haveRes := (if haveAna then 8 else 5) <=? size g in
  let* mid :=
    if haveRes then
      let* g5 := at1 g 5 in
      let* jump := if 9 <=? size g then
                     let* g6 := at1 g 6 in Ret [Line "Jump term J(u^r)^0.5" g6; Rel uRef (g6 * rel)%R]
                   else Ret [] in
      Ret ([Line "Residual error (r(u^r) + J(u^r))^0.5" g5; Rel uRef (g5 * rel)%R] ++ jump)%list
    else Ret [] in
  let* low :=
    if haveAna then
      let* exaErr := at1 g (size g - (if haveRes then 2 else 1)) in
      let* r4 := at1 r 4 in
      let* two := if haveRes then
                    let* g5 := at1 g 5 in
                    Ret [Line "Effectivity index, theta^EX" ((g2 + exaErr) / r4)%R;
                         Line "Effectivity index, theta^RES" ((g2 + g5) / r4)%R]
                  else Ret [] in
      Ret ([Line "Exact error a(e,e)^0.5, e=u-u^r" exaErr; Rel uRef (exaErr * rel)%R;
            Line "Effectivity index" (g2 / r4)%R] ++ two)%list
    else Ret [] in
  Ret (top ++ mid ++ low)%list.

(* SIMKLShell::printNormGroup for a shell, SIMKLShell.C:581-596; [trunc] is utl::trunc (oracle) *)
Definition printShell (trunc : R -> R) (g : list R) : res (list line) :=
  let* g1 := at1 g 1 in
  if Req_EM_T (trunc g1) 0 then Ret [] else
  let* g2 := at1 g 2 in
  let* g3 := at1 g 3 in
  let* ln := if Rlt_dec 0 (trunc g3) then
               let* g5 := at1 g 5 in
               Ret [Line "L2 norm |n^r| = (n^r,n^r)^0.5" g3; Line "L2 error (e,e)^0.5, e=n^r-n^h" g5;
                    Rel "|n^r|" (100 * g5 / g3)%R]
             else Ret [] in
  let* g4 := at1 g 4 in
  let* lm := if Rlt_dec 0 (trunc g4) then
               let* g6 := at1 g 6 in
               Ret [Line "L2 norm |m^r| = (m^r,m^r)^0.5" g4; Line "L2 error (e,e)^0.5, e=m^r-m^h" g6;
                    Rel "|m^r|" (100 * g6 / g4)%R]
             else Ret [] in
  Ret ([Line "Energy norm |u^r| = a(u^r,u^r)^0.5" g1; Line "Error norm a(e,e)^0.5, e=u^r-u^h" g2;
        Rel "|u^r|" (100 * g2 / g1)%R] ++ ln ++ lm)%list.

(* main_LinEl.C:753-766: the loop over further extraction functions; [vcp] is getVCPindex (IFEM) *)
Fixpoint vcpLoop (fuel : nat) (haveAna : bool) (vcp : nat -> nat) (norm : list R) (i : nat) : res (list line) :=
  match fuel with
  | O => Ret []
  | S fuel =>
    let i := S i in
    let iSec := vcp i in
    if (iSec =? 0) || (size norm <? iSec) then Ret [] else
    let* v := at1 norm iSec in
    let head := if haveAna && Nat.even i then "Exact section force       a(u,w" else "Recovered section force a(u^h,w" in
    let num := if haveAna then (i - 1) / 2 + 1 else i in
    let* rest := vcpLoop fuel haveAna vcp norm i in
    Ret (Line (head ++ dec num ++ ")") v :: rest)
  end.

(* main_LinEl.C:727-770, two- and three-dimensional problems and Kirchhoff-Love plates;
   [dual] is dNorm.front() *)
Definition printFirst (haveAna : bool) (vcp : nat -> nat) (norm : list R) (dual : option (list R)) : res (list line) :=
  let* rel := if 2 <? size norm then let* n3 := at1 norm 3 in Ret (100 / n3)%R else Ret 0%R in
  let* n1 := at1 norm 1 in
  let* n2 := at1 norm 2 in
  let ext := if Req_EM_T n2 0 then [] else [Line "External energy ((f,u^h)+(t,u^h)^0.5" n2] in
  let* exact :=
    if haveAna && (4 <=? size norm) then
      let* n3 := at1 norm 3 in
      let* n4 := at1 norm 4 in
      Ret [Line "Exact norm  |u|   = a(u,u)^0.5" n3; Line "Exact error a(e,e)^0.5, e=u-u^h" n4; Rel "|u|" (n4 * rel)%R]
    else Ret [] in
  let iSec := vcp 1 in
  let* sec :=
    if negb (iSec =? 0) && (iSec <=? size norm) then
      let* v := at1 norm iSec in
      let* u := if haveAna && (S iSec <=? size norm) then
                  let* v := at1 norm (S iSec) in Ret [Line "Exact section force a(u,w)" v]
                else Ret [] in
      Ret (Line "Recovered section force a(u^h,w)" v :: u)
    else if haveAna && (6 <=? size norm) then
      let* n5 := at1 norm 5 in
      Ret [Line "Residual error (r(u) + J(u))^0.5" n5; Rel "|u|" (n5 * rel)%R]
    else Ret [] in
  let* more := vcpLoop (size norm) haveAna vcp norm (if haveAna then 2 else 1) in
  let* z := match dual with
            | Some dn => let* d1 := at1 dn 1 in Ret [Line "Energy norm |z^h| = a(z^h,z^h)^0.5" d1]
            | None => Ret []
            end in
  Ret (Line "Energy norm |u^h| = a(u^h,u^h)^0.5" n1 :: ext ++ exact ++ sec ++ more ++ z)%list.

(* main_LinEl.C:773-806 for one projection: [prt] is printNormGroup, [x] the norms of the
   projected analytical solution, [dn] those of the dual solution, [shell] the global flag *)
Definition printProjection (prt : list R -> list R -> res (list line)) (shell : bool) (norm g : list R)
  (x dn : option (list R)) : res (list line) :=
  let* rel := if 2 <? size norm then let* n3 := at1 norm 3 in Ret (100 / n3)%R else Ret 0%R in
  let* grp := prt g norm in
  let* ref :=
    match x with
    | None => Ret []
    | Some x =>
      let* x1 := at1 x 1 in
      let* x2 := at1 x 2 in
      let* rs := if 8 <=? size x then
                   let* x5 := at1 x 5 in
                   Ret [Line "Residual error (r(u^rr) + J(u^rr))^0.5" x5; Rel "|u|" (x5 * rel)%R]
                 else Ret [] in
      let* xe := at1 x (size x - (if 8 <=? size x then 2 else 1)) in
      Ret ([Line "Energy norm |u^rr| = a(u^rr,u^rr)^0.5" x1; Line "Error norm a(e,e)^0.5, e=u^rr-u^h" x2;
            Rel "|u|" (x2 * rel)%R] ++ rs ++
           [Line "Exact error a(e,e)^0.5, e=u-u^rr" xe; Rel "|u|" (xe * rel)%R])%list
    end in
  let* l2 :=
    if shell then Ret [] else
    let* g3 := at1 g 3 in
    let* g4 := at1 g 4 in
    Ret [Line "L2-norm |s^r| = (s^r,s^r)^0.5" g3; Line "L2-error (e,e)^0.5, e=s^r-s^h" g4; Rel "|s^r|" (g4 / g3 * 100)%R] in
  let* z :=
    match dn with
    | None => Ret []
    | Some dn =>
      let* d1 := at1 dn 1 in
      let* d2 := at1 dn 2 in
      Ret [Line "Energy norm |z^r| = a(z^r,z^r)^0.5" d1; Line "Error norm a(e,e)^0.5, e=z^r-z^h" d2; Rel "|z^r|" (100 * d2 / d1)%R]
    end in
  Ret (grp ++ ref ++ l2 ++ z)%list.

(* NonlinearDriver::printNorms, NonlinearDriver.C:174-208, without the squares of calcEn = 2 *)
Definition printNonlinear (trunc : R -> R) (norm : list R) : res (list line) :=
  let one (i : nat) (t : string) (f : R -> list R) : res (list line) :=
    if i <=? size norm then let* v := at1 norm i in Ret (map (Line t) (f v)) else Ret [] in
  let* a := one 1 "Energy norm:    |u^h| = a(u^h,u^h)^0.5" (fun v => [trunc v]) in
  let* b := one 2 "External energy: ((f,u^h)+(t,u^h))^0.5" (fun v => if Req_EM_T (trunc v) 0 then [] else [v]) in
  let* c := one 3 "Stress norm, L2: (sigma^h,sigma^h)^0.5" (fun v => [v]) in
  let* d := one 4 "Pressure norm, L2:       (p^h,p^h)^0.5" (fun v => [v]) in
  let* e := one 5 "Deviatoric stress norm:  (s^d,s^d)^0.5" (fun v => [v]) in
  let* f := one 6 "Stress norm, von Mises: vm(sigma^h)" (fun v => [v]) in
  Ret (a ++ b ++ c ++ d ++ e ++ f)%list.

(** What the simulators tell about the analytical solution and the volume. *)

(* The analytical solution read: its stresses and its second derivatives. *)
Record anaSol := mkAna { hasStress : bool; hasSecond : bool }.
(* SIMElasticity::haveAnaSol, SIMElasticity.C:305-308 *)
Definition haveAnaC (a : option anaSol) : bool := match a with Some a => hasStress a | None => false end.
(* Elasticity::getNormIntegrand, Elasticity.C:1068-1075: whether the norm integrand has one *)
Definition normAnaC (a : option anaSol) : bool :=
  match a with Some a => if hasStress a then true else false | None => false end.
(* SIMLinElKL::haveAnaSol, SIMLinElKL.C:204-217, for a plate of the given version *)
Definition haveAnaP (version : nat) (a : option anaSol) : bool :=
  match a with
  | None => false
  | Some a => if (version =? 1) && hasStress a then true
              else if (1 <? version) && hasSecond a then true else false
  end.
(* SIMLinElBeamC1::haveAnaSol, SIMLinElBeamC1.C:391-402 *)
Definition haveAnaB (version : nat) (a : option anaSol) : bool :=
  match a with None => false | Some a => if 1 <? version then hasSecond a else hasStress a end.
(* KirchhoffLovePlate::getNormIntegrand, KirchhoffLovePlate.C:392-402 *)
Definition normAnaP (version : nat) (a : option anaSol) : bool :=
  match a with None => false | Some a => if version =? 1 then hasStress a else hasSecond a end.

(* Elasticity::getVolumeIndex (Elasticity.C:1090-1093), NonlinearElasticityUL.h:93,
   SIMLinElKL::getVolumeIndex (SIMLinElKL.C:220-226) *)
Definition volumeIndexC (withAna : bool) : nat := if withAna then 5 else 3.
Definition volumeIndexUL : nat := 7.
Definition volumeIndexP (haveAna : bool) : nat := if haveAna then 6 else 3.

(** From integration points to norms: the totals over interior points [ds] and boundary
    points [bs], and a group of them.  [root] is the final operation of IFEM's norm
    assembly; entry [rev] (from 1, 0 for none) has it reverted (postProcessNorms,
    SIMElasticity.C:860-864). *)
Definition totals (ds bs : list point) : nat -> R :=
  fold_right evalBou (fold_right (fun d pn => accum pn (evalInt d)) (fun _ => 0%R) ds) bs.
Definition normGroup (root : R -> R) (tot : nat -> R) (start len rev : nat) : list R :=
  map (fun k => if S k =? rev then tot (start + k) else root (tot (start + k))) (seq 0 len).
