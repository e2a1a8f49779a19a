(** Path-following solution driver (Elasticity/ArcLengthDriver.C). *)
From Coq Require Import List ZArith Arith Bool SpecFloat Reals.
From Verif Require Import Lib.Base Model.Driver.
Import ListNotations.

(** ** Convergence test, in double precision *)

Definition fmul := SFmul 53 1024.
Definition fdiv := SFdiv 53 1024.
Definition fgt (a b : spec_float) : bool := SFltb b a.
Definition fzero : spec_float := S754_zero false.
Definition fone : spec_float := S754_finite false 4503599627370496 (-52).
Definition ftenth : spec_float := S754_finite false 7205759403792794 (-56).
Definition isnan (x : spec_float) : bool := match x with S754_nan => true | _ => false end.

Record ctl := mkCtl {
  rTol : spec_float; aTol : spec_float; divgLim : spec_float; maxIncr : nat; maxit : nat;
  refAll : bool }.   (* refNopt == ALL *)
(* the function-static variables of checkConvergence (l.210-212) and refNorm *)
Record chk := mkChk { convTol : spec_float; prevNorm : spec_float; nIncrease : nat; refNorm : spec_float }.

(* ArcLengthDriver::checkConvergence, l.208-283, without the printing; [norm] is the norm
   selected by iteNorm (l.217-218) *)
Definition checkConvergence (c : ctl) (s : chk) (iter : nat) (norm linsolNorm : spec_float) : status * chk :=
  if (iter =? 0)%nat && SFeqb linsolNorm fzero then (CONVERGED, s) else
  let '(norm, s) :=
    if (iter =? 0)%nat then
      let ref := if refAll c || fgt (SFabs norm) (refNorm s) then SFabs norm else refNorm s in
      if fgt (fmul ref (rTol c)) (aTol c) then let n := fdiv norm ref in (n, mkChk (rTol c) n 0 ref)
      else (norm, mkChk (aTol c) norm 0 fone)
    else (fdiv norm (refNorm s), s) in
  let status := if (1 <? iter)%nat && fgt (prevNorm s) fzero && fgt (SFabs norm) (fmul (prevNorm s) ftenth) then SLOW else OK in
  let '(status, ninc) :=
    if SFltb (SFabs norm) (convTol s) && ((0 <? iter)%nat || refAll c) then (CONVERGED, nIncrease s)
    else if isnan linsolNorm then (DIVERGED, nIncrease s)
    else if SFleb (SFabs norm) (SFabs (prevNorm s)) then (status, 0%nat)
    else let n := S (nIncrease s) in
         if (maxIncr c <? n)%nat || fgt (SFabs norm) (divgLim c) then (DIVERGED, n) else (status, n) in
  (status, mkChk (convTol s) norm ninc (refNorm s)).

(** Oracle answers of one pass of the iteration loop, l.129-173. *)
Record pass := mkPass {
  nrm : spec_float; lin : spec_float;   (* iterationNorms *)
  normsOk : bool;                       (* solutionNorms, l.133 *)
  solveOk : bool; updateOk : bool; assemOk : bool; assemDiv : bool }.

(* [None]: the recorded passes are used up *)
Fixpoint iterate (c : ctl) (s : chk) (iter : nat) (l : list pass) : option status :=
  if (maxit c <? iter)%nat then Some DIVERGED else
  match l with
  | [] => None
  | x :: l =>
    let '(st, s) := checkConvergence c s iter (nrm x) (lin x) in
    match st with
    | CONVERGED => Some (if normsOk x then CONVERGED else FAILURE)
    | DIVERGED => Some DIVERGED
    | _ => if negb (solveOk x) then Some FAILURE
           else if negb (updateOk x) then Some FAILURE
           else if negb (assemOk x) then Some (if assemDiv x then DIVERGED else FAILURE)
           else iterate c s (S iter) l
    end
  end.

(** ** Load and displacement increments, over the reals *)
Section Path.
Variable n : nat.   (* number of equations *)
Open Scope R_scope.
Definition dot (u v : nat -> R) : R := sumf n (fun i => u i * v i).
Definition norm2 (u : nat -> R) : R := sqrt (dot u u).
Definition axpy (u v : nat -> R) (a : R) : nat -> R := fun i => u i + a * v i.

(* total load factor and its increment, incremental and total solution *)
Record pstate := mkP { lam : R; dlam : R; inc : nat -> R; sol : nat -> R }.

(* l.92-98 *)
Definition predictorSize (arclen beta lgNorm : R) (tan : nat -> R) : R :=
  let tn := norm2 tan in
  if Rlt_dec beta 0 then arclen / sqrt (1 + tn * tn)
  else if Rlt_dec 0 beta then arclen / sqrt (beta * lgNorm * lgNorm + tn * tn)
  else arclen / tn.
(* l.100-112; [old] : incsol of the previous step, none in the first; updateConfiguration
   adds linsol to the total solution *)
Definition predictor (arclen beta lgNorm : R) (res tan : nat -> R) (old : option (nat -> R)) (t : R) (u : nat -> R) : pstate :=
  let d := predictorSize arclen beta lgNorm tan in
  let d := match old with Some i => if Rlt_dec (dot i tan) 0 then - d else d | None => d end in
  let l := axpy res tan d in
  mkP (t + d) d l (axpy u l 1).

(* l.149-162 *)
Definition correctorSize (beta : R) (s : pstate) (res tan : nat -> R) : R :=
  if Rlt_dec beta 0 then - dot (inc s) res / (dot (inc s) tan + dlam s)
  else - dot tan res / (1 + dot tan tan).
Definition corrector (beta : R) (s : pstate) (res tan : nat -> R) : pstate :=
  let d := correctorSize beta s res tan in
  let l := axpy res tan d in
  mkP (lam s + d) (dlam s + d) (axpy (inc s) l 1) (axpy (sol s) l 1).
Definition correct (beta : R) (s : pstate) (h : list ((nat -> R) * (nat -> R))) : pstate :=
  fold_left (fun s x => corrector beta s (fst x) (snd x)) h s.
End Path.
