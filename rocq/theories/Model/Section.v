(** Beam cross section input.  Models Beam/BeamProperty.C:80-185 (pipe, box and explicit
    values) and 336-392 (evaluation at a point).  The output messages, the csv reader and the
    XML attribute lookup are left out: attributes are given as [option R]. *)
From Verif Require Import Lib.Base.

(* parsePipe, l.80-104: A, I and K *)
Definition pipe (Ro : R) (t : option R) : R * R * R :=
  let R2 := Ro * Ro in
  let r2 := match t with Some t => (Ro - t) * (Ro - t) | None => 0 end in
  (PI * (R2 - r2), PI * (R2 * R2 - r2 * r2) * (1 / 4), if Rlt_dec 0 r2 then 2 else 1 / (9 / 10)).

(* parseBox, l.107-152: A, I1, I2, J, K1, K2 *)
Record box := mkBox { bA : R; bI1 : R; bI2 : R; bJ : R; bK1 : R; bK2 : R }.
Definition boxHollow (H B t1 t2 : R) : box :=
  let Bi := B - 2 * t2 in let Hi := H - 2 * t1 in
  let A := B * H - Bi * Hi in
  mkBox A ((B * H * H * H - Bi * Hi * Hi * Hi) / 12) ((H * B * B * B - Hi * Bi * Bi * Bi) / 12)
    (2 * t2 * t1 * ((B - t2) * (H - t1)) ^ 2 / (B * t2 + H * t1 - t2 * t2 - t1 * t1))
    (1 / 2 * A / (Bi * t1)) (1 / 2 * A / (Hi * t2)).
Definition boxSolid (H B : R) : box :=
  let '(B', H') := if Rlt_dec B H then (H, B) else (B, H) in
  mkBox (B * H) (B * H * H * H / 12) (H * B * B * B / 12)
    (B' * H' * H' * H' * (1 - 63 / 100 * (H' / B') * (1 - (H' / B') ^ 4 / 12)) / 3) (12 / 10) (12 / 10).

(** Section constants, BeamProperty.h:97-112. *)
Record section := mkSec { sA : R; sIx : R; sIy : R; sIz : R; sIt : R; sKy : R; sKz : R; sSy : R; sSz : R }.
(* parse, l.157-164 *)
Definition ofPipe (Ro : R) (t : option R) : section := let '(A, In, K) := pipe Ro t in mkSec A (In * 2) In In (In * 2) K K 0 0.
Definition ofBox (b : box) : section := mkSec (bA b) (bI1 b + bI2 b) (bI1 b) (bI2 b) (bJ b) (bK1 b) (bK2 b) 0 0.

(** Property functions at a point: their value, if the function is given. *)
Record funcs := mkFuncs { fEA : option R; fEIy : option R; fEIz : option R; fGIt : option R; fRho : option R;
  fAx : option R; fAy : option R; fAz : option R; fSy : option R; fSz : option R;
  fIx : option R; fIy : option R; fIz : option R; fCGy : option R; fCGz : option R }.
Definition noFuncs : funcs := mkFuncs None None None None None None None None None None None None None None None.
Definition orElse (f : option R) (d : R) : R := match f with Some v => v | None => d end.
Definition orIf (c : bool) (f : option R) (d : R) : R := if c then orElse f d else d.

Record eprop := mkProp { pEA : R; pEIy : R; pEIz : R; pGIt : R; pAly : R; pAlz : R; pRhoA : R; pCGy : R; pCGz : R;
  pIxx : R; pIyy : R; pIzz : R; pItoA : R; pSy : R; pSz : R }.
(* eval, l.336-367 *)
Definition evalProp (f : funcs) (s : section) (L E G rho : R) (hasGrav hasMass : bool) : eprop :=
  let Area := orElse (fAx f) (sA s) in
  let EA := orElse (fEA f) (E * Area) in
  let EIy := orElse (fEIy f) (E * orElse (fIy f) (sIy s)) in
  let EIz := orElse (fEIz f) (E * orElse (fIz f) (sIz s)) in
  let GIt := orElse (fGIt f) (G * orElse (fIx f) (sIt s)) in
  let Aly := 12 * (EIy / (G * L * L)) * (match fAy f with Some a => 1 / a | None => sKy s / Area end) in
  let Alz := 12 * (EIz / (G * L * L)) * (match fAz f with Some a => 1 / a | None => sKz s / Area end) in
  let ItoA := orElse (fIx f) (sIt s) / Area in
  let Sy0 := orElse (fSy f) (sSy s) in let Sz0 := orElse (fSz f) (sSz s) in
  let '(Sy, Sz) := if Rlt_dec (Sy0 * Sy0 + Sz0 * Sz0) (1 / 10 ^ 8 * Area) then (0, 0) else (Sy0, Sz0) in
  mkProp EA EIy EIz GIt Aly Alz (orIf (hasMass || hasGrav) (fRho f) (rho * Area)) (orIf (hasMass || hasGrav) (fCGy f) 0) (orIf (hasMass || hasGrav) (fCGz f) 0)
    (orIf hasMass (fIx f) (rho * sIx s)) (orIf hasMass (fIy f) (rho * sIy s)) (orIf hasMass (fIz f) (rho * sIz s)) ItoA Sy Sz.
