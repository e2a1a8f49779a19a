(** Model of the history handling of FiniteDeformation/PlasticMaterial.C.
    H: history variables (HVc, HVp arrays), T: deformation gradients, O: results of an evaluation. *)
From Coq Require Import List Bool Arith.
Import ListNotations.

Section History.
Context {H T O : Type}.
(** PlasticPoint::evaluate, lines 308-726, as a function of the restored history (line 324), of Fp, Fc, prm.it and
    prm.first: new history and results, or [None] for an early error return (lines 370, 387, 425, 459, 529, 600). *)
Variable upd : H -> T -> T -> nat -> bool -> option (H * O).

(** PlasticMaterial.h:48-106: one material point. *)
Record point := mkP { HVc : H; HVp : H; Fp : T; updated : bool }.

(** PlasticMaterial.C:283-301. [updated] is 'c' or 'd' or 0; both letters count as true. *)
Definition updateState (v : bool) (p : point) : point :=
  if updated p then
    if v then mkP (HVc p) (HVc p) (Fp p) false else mkP (HVc p) (HVp p) (Fp p) false
  else p.

(** PlasticMaterial.C:79-100 for one point. *)
Definition initIntegration (first : bool) (it : nat) (p : point) : point :=
  updateState (negb first && Nat.eqb it 0) p.

(** PlasticMaterial.C:161-167 and 304-729. *)
Definition evaluate (first : bool) (it : nat) (F : T) (p : point) : point * option O :=
  let fp := if (Nat.eqb it 0 && negb first)%bool then F else Fp p in        (* 161-162 *)
  match upd (HVp p) fp F it first with                                       (* 324 restores HVp *)
  | None => (mkP (HVp p) (HVp p) fp (updated p), None)
  | Some (h, o) => (mkP h (HVp p) fp true, Some o)                           (* 727 *)
  end.

(** One assembly: initIntegration, then the evaluation at this point. *)
Definition assemble (first : bool) (it : nat) (F : T) (p : point) : point * option O :=
  evaluate first it F (initIntegration first it p).

(** Newton iterations of one increment, it = n, n+1, ... *)
Fixpoint iterate (first : bool) (it : nat) (trials : list T) (p : point) : point :=
  match trials with
  | [] => p
  | F :: r => iterate first (S it) r (fst (assemble first it F p))
  end.

(** One increment: its trial deformation gradients and whether the Newton iterations converged. *)
Record attempt := mkA { first : bool; trials : list T; converged : bool }.
Definition increment (p : point) (a : attempt) : point := iterate (first a) 0 (trials a) p.

(** PlasticMaterial.C:271-280. *)
Definition newPoint (h0 : H) (f0 : T) : point := mkP h0 h0 f0 false.
End History.
Arguments point : clear implicits.
Arguments attempt : clear implicits.
