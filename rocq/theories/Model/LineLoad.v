(** Line loads on plates.  Models Shell/SIMKLShell.C:600-671 (ElmBorderChk), SIMKLShell.h:176-198
    and KirchhoffLovePlate.C:193-219.
    The parametric grid is given by the distinct knots in the two directions.  IFEM's interface
    integration is assumed to visit every element once and, for a set bit of the mask, to
    integrate along that border of the element: bit 1 west, 2 east, 4 south, 8 north. *)
From Verif Require Import Lib.Base.

Record dom := mkDom { umin : R; umax : R; vmin : R; vmax : R }.
(* l.628-633 *)
Definition defaultDom : dom := mkDom (1/2) (1/2) (1/4) (3/4).
(* l.636-641 and 644-649 *)
Definition setDomainNS (u : R) (rng : R * R) : dom := mkDom u u (fst rng) (snd rng).
Definition setDomainEW (v : R) (rng : R * R) : dom := mkDom (fst rng) (snd rng) v v.
(* l.616-622: [direction] of the line load; 0 if none is specified *)
Definition checker (direction : nat) (u : R) (rng : R * R) : dom :=
  if (direction =? 1)%nat then setDomainEW u rng else if (direction =? 2)%nat then setDomainNS u rng else defaultDom.

Definition beq (a b : R) : bool := if Req_EM_T a b then true else false.
Definition ble (a b : R) : bool := if Rle_dec a b then true else false.

(* maskBorder, l.652-671 *)
Definition maskBorder (d : dom) (u0 u1 v0 v1 : R) : nat :=
  if (beq (umin d) (umax d) && ble (vmin d) v0 && ble v1 (vmax d))%bool then
    if beq u0 (umin d) then 1 else if beq u1 (umax d) then 2 else 0
  else if (beq (vmin d) (vmax d) && ble (umin d) u0 && ble u1 (umax d))%bool then
    if beq v0 (vmin d) then 4 else if beq v1 (vmax d) then 8 else 0
  else 0.

(* Distinct spans of a knot list. *)
Fixpoint spans (l : list R) : list (R * R) :=
  match l with a :: ((b :: _) as t) => (a, b) :: spans t | _ => [] end.

(* Contribution of one element; [Lu u a b] is the integral of the load along the grid line u
   from v = a to v = b, and [Lv v a b] along the grid line v.  The factor one half is that of
   KirchhoffLovePlate.C:209,211. *)
Definition elmLoad (d : dom) (Lu Lv : R -> R -> R -> R) (pu pv : R * R) : R :=
  1 / 2 * match maskBorder d (fst pu) (snd pu) (fst pv) (snd pv) with
          | 1%nat => Lu (fst pu) (fst pv) (snd pv) | 2%nat => Lu (snd pu) (fst pv) (snd pv)
          | 4%nat => Lv (fst pv) (fst pu) (snd pu) | 8%nat => Lv (snd pv) (fst pu) (snd pu)
          | _ => 0 end.
Definition total (d : dom) (Lu Lv : R -> R -> R -> R) (us vs : list R) : R :=
  sumL (fun pu => sumL (elmLoad d Lu Lv pu) (spans vs)) (spans us).
