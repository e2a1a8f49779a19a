(** Closed-form reference solutions.  Models Linear/AnalyticSolutions.C (all but the printing).
    hypot, atan2, log, log10 and pow are taken as exact real functions; M_PI is PI.
    A stress is given by its components xx, yy, xy and zz; in a 3D problem the other two components
    are zero (CanTS and CanTM use xz instead of xy there, and z instead of y).
    IFEM's SymmTensor::transform(T) is T sigma T^t for the in-plane components. *)
From Verif Require Import Lib.Base.

Record st := mkSt { sxx : R; syy : R; sxy : R; szz : R }.
Definition hypot (x y : R) : R := sqrt (x * x + y * y).
Definition atan2 (y x : R) : R :=
  if Rlt_dec 0 x then atan (y / x)
  else if Rlt_dec x 0 then (if Rle_dec 0 y then atan (y / x) + PI else atan (y / x) - PI)
  else if Rlt_dec 0 y then PI / 2 else if Rlt_dec y 0 then - (PI / 2) else 0.
(* SymmTensor::transform *)
Definition transform (t11 t12 t21 t22 : R) (s : st) : st :=
  mkSt (t11 * (t11 * sxx s + t12 * sxy s) + t12 * (t11 * sxy s + t12 * syy s))
       (t21 * (t21 * sxx s + t22 * sxy s) + t22 * (t21 * sxy s + t22 * syy s))
       (t11 * (t21 * sxx s + t22 * sxy s) + t12 * (t21 * sxy s + t22 * syy s)) (szz s).

(* Hole::evaluate, l.27-45 *)
Definition hole (a F0 nu x y : R) : st :=
  let r := hypot x y in let th := atan2 y x in
  let C2 := cos (2 * th) in let C4 := cos (4 * th) in let S2 := sin (2 * th) in let S4 := sin (4 * th) in
  let R2 := if Rle_dec r a then 1 else a * a / (r * r) in
  let R4 := if Rle_dec r a then 1 else R2 * R2 in
  mkSt (F0 * (1 - R2 * (15 / 10 * C2 + C4) + 15 / 10 * R4 * C4))
       (F0 * (- R2 * (5 / 10 * C2 - C4) - 15 / 10 * R4 * C4))
       (F0 * (- R2 * (5 / 10 * S2 + S4) + 15 / 10 * R4 * S4))
       (F0 * nu * (1 - 2 * R2 * C2)).

(* Lshape::evaluate, l.81-108.  The exponent lambda and the constant q are l.84-85; [lshapeLocal] is the
   stress in the local system at polar coordinates r, theta. *)
Definition lambda : R := 544483737 / 1000000000.
Definition qL : R := 543075579 / 1000000000.
Definition lshapeLocal (la q F0 nu r theta : R) : st :=
  let lp1 := la + 1 in let lm1 := la - 1 in let lm3 := la - 3 in
  let c0 := F0 * la * Rpower r lm1 in
  let s11 := c0 * ((2 - q * lp1) * cos (lm1 * theta) - lm1 * cos (lm3 * theta)) in
  let s22 := c0 * ((2 + q * lp1) * cos (lm1 * theta) + lm1 * cos (lm3 * theta)) in
  mkSt s11 s22 (c0 * (q * lp1 * sin (lm1 * theta) + lm1 * sin (lm3 * theta))) (nu * (s11 + s22)).
Definition lshape (a F0 nu X Y : R) : st :=
  let m := - sqrt (5 / 10) in let p := sqrt (5 / 10) in
  let x := X * m + Y * m in let y := X * p + Y * m in
  let tol := a * / 10 ^ 32 in
  let r := if Rlt_dec (hypot x y) tol then tol else hypot x y in
  transform m p m m (lshapeLocal lambda qL F0 nu r (atan2 y x)).

(* CanTS::evaluate, l.111-123 and CanTM::evaluate, l.126-135; y is the height coordinate *)
Definition canTS (L H F0 x y : R) : st :=
  let x' := x / L in let y' := y / H - 5 / 10 in let I0 := H * H * H / 12 in
  mkSt (F0 * L * H / I0 * (x' - 1) * y') 0 (F0 * H * H / I0 * (5 / 10) * (25 / 100 - y' * y')) 0.
Definition canTM (H M0 y : R) : st :=
  let y' := y / H - 5 / 10 in let I0 := H * H * H / 12 in mkSt (M0 * H / I0 * y') 0 0 0.

(* CurvedBeam, l.147-178 *)
Definition beamPN (u0 E a b : R) : R := - u0 * E / (PI * (a * a + b * b)).
Definition curvedPolar (PN a b r theta : R) : st :=
  let c1 := a * a * b * b / (r * r * r) in let c2 := (a * a + b * b) / r in
  mkSt (PN * (r + c1 - c2) * sin theta) (PN * (3 * r - c1 - c2) * sin theta) (PN * (- r - c1 + c2) * cos theta) 0.
Definition curvedBeam (u0 E a b x y : R) : st :=
  let r := hypot x y in let theta := atan2 y x in let ct := cos theta in let s := sin theta in
  transform ct (- s) s ct (curvedPolar (beamPN u0 E a b) a b r theta).

(* Pipe, l.191-230 *)
Definition pipePolar (ra rb Tin Tex Tref E nu alpha r : R) : st :=
  let q := rb / ra in let ln_rb_ra := ln q in let rba2m1 := q * q - 1 in
  let C := E * alpha * (Tex - Tin) * (5 / 10) / (1 - nu * nu) in
  let Ea := E * alpha in
  let ln_rb := ln (rb / r) in let rbr2 := rb / r * (rb / r) in
  let Temp := Tin + (Tex - Tin) * ln (r / ra) / ln_rb_ra in
  let s11 := C * (ln_rb / ln_rb_ra - (rbr2 - 1) / rba2m1) in
  let s22 := C * ((ln_rb - 1) / ln_rb_ra + (rbr2 + 1) / rba2m1) in
  mkSt s11 s22 0 (nu * (s11 + s22) - Ea * (Temp - Tref)).
Definition pipe (ra rb Tin Tex Tref E nu alpha : R) (polar : bool) (x y : R) : st :=
  let r := hypot x y in let s := pipePolar ra rb Tin Tex Tref E nu alpha r in
  if polar then s else transform (x / r) (- (y / r)) (y / r) (x / r) s.

(** ** Plates *)
(* ThinPlateSol, l.238-241 *)
Definition plateD (E nu t : R) : R := E * t * t * t / (12 - 12 * nu * nu).

Record navier := mkNav { alpha : R; beta : R; pz : R; nuN : R; typ : nat; xi : R; eta : R; c2 : R; d2 : R; mxmn : nat; inc : nat }.
(* constructors, l.253-301 *)
Definition navierUniform (a b nu P : R) (max_mn : nat) : navier := mkNav (PI / a) (PI / b) P nu 0 0 0 0 0 max_mn 2.
Definition navierPartial (a b nu P xi_ eta_ c d : R) (max_mn : nat) : navier :=
  let point := if Req_EM_T c 0 then true else if Req_EM_T d 0 then true else false in
  let centre := if Req_EM_T xi_ (5 / 10) then (if Req_EM_T eta_ (5 / 10) then true else false) else false in
  mkNav (PI / a) (PI / b) P nu (if point then 1 else 2)%nat (xi_ * a) (eta_ * b)
    (if point then a else 5 / 10 * c) (if point then b else 5 / 10 * d) max_mn (if centre then 2 else 1)%nat.

Section Navier.
Variable s : navier.
(* load coefficient, l.342-353 *)
Definition pzmn (m n : nat) : R :=
  let am := alpha s * INR m in let bn := beta s * INR n in let dmn := INR m * INR n in
  match typ s with
  | 0%nat => 1 / dmn
  | 1%nat => sin (am * xi s) * sin (bn * eta s)
  | 2%nat => sin (am * xi s) * sin (bn * eta s) * sin (am * c2 s) * sin (bn * d2 s) / dmn
  | _ => 0 end.
(* addTerms, l.333-389: the increment of the three components M[0..2] (xx, yy, xy) *)
Definition addTerms (x y : R) (m n deriv : nat) : R * R * R :=
  let am := alpha s * INR m in let bn := beta s * INR n in let am2 := am * am in let bn2 := bn * bn in
  let p := pzmn m n / ((am2 + bn2) * (am2 + bn2)) in let nu := nuN s in
  let sx := sin (am * x) in let cx := cos (am * x) in let sy := sin (bn * y) in let cy := cos (bn * y) in
  match deriv with
  | 0%nat => (p * (am2 + nu * bn2) * sx * sy, p * (bn2 + nu * am2) * sx * sy, p * (nu - 1) * am * bn * cx * cy)
  | 1%nat => (p * (am2 + nu * bn2) * am * cx * sy, p * (bn2 + nu * am2) * am * cx * sy, p * (1 - nu) * am2 * bn * sx * cy)
  | 2%nat => (p * (am2 + nu * bn2) * bn * sx * cy, p * (bn2 + nu * am2) * bn * sx * cy, p * (1 - nu) * am * bn2 * cx * sy)
  | 11%nat => (- (p * (am2 + nu * bn2) * am2 * sx * sy), - (p * (bn2 + nu * am2) * am2 * sx * sy), p * (1 - nu) * am2 * am * bn * cx * cy)
  | 22%nat => (- (p * (am2 + nu * bn2) * bn2 * sx * sy), - (p * (bn2 + nu * am2) * bn2 * sx * sy), p * (1 - nu) * am * bn2 * bn * cx * cy)
  | 12%nat | 21%nat => (p * (am2 + nu * bn2) * am * bn * cx * cy, p * (bn2 + nu * am2) * am * bn * cx * cy, p * (nu - 1) * am2 * bn2 * sx * sy)
  | _ => (0, 0, 0) end.
Definition plus3 (a b : R * R * R) : R * R * R := (fst (fst a) + fst (fst b), snd (fst a) + snd (fst b), snd a + snd b).
Definition scal3 (k : R) (a : R * R * R) : R * R * R := (k * fst (fst a), k * snd (fst a), k * snd a).
(* loop value number k: 1, 1+inc, 1+2 inc, ... *)
Definition idxOf (k : nat) : nat := (1 + (k - 1) * inc s)%nat.
(* inner loop l.412-417 for i = idxOf k: the values j = idxOf 1 .. idxOf (k-1) are those below i *)
Fixpoint inner (x y : R) (deriv k n : nat) (M : R * R * R) : R * R * R :=
  match n with
  | O => M
  | S n' => let M := inner x y deriv k n' M in
            plus3 (plus3 M (addTerms x y (idxOf k) (idxOf n) deriv)) (addTerms x y (idxOf n) (idxOf k) deriv)
  end.
Definition row (x y : R) (deriv k : nat) (M : R * R * R) : R * R * R :=
  plus3 (inner x y deriv k (k - 1) M) (addTerms x y (idxOf k) (idxOf k) deriv).
(* l.410-432: [norm] is IFEM's SymmTensor::L2norm; the loop runs over i = idxOf k <= mxmn *)
Variable norm : R * R * R -> R.
Definition eps : R := / 10 ^ 8.
Fixpoint outer (x y : R) (deriv fuel k : nat) (prev : R) (M : R * R * R) : R * R * R * nat :=
  match fuel with
  | O => (M, (k - 1)%nat)
  | S f =>
    if (idxOf k <=? mxmn s)%nat then
      let M := row x y deriv k M in
      if Nat.odd (idxOf k) then
        if Rlt_dec (Rabs (norm M - prev)) (eps * norm M) then (M, k) else outer x y deriv f (k + 1) (norm M) M
      else outer x y deriv f (k + 1) prev M
    else (M, (k - 1)%nat)
  end.
(* the unscaled sum and the number of values of i that were visited *)
Definition summed (x y : R) (deriv : nat) : R * R * R * nat := outer x y deriv (mxmn s) 1 0 (0, 0, 0).
Definition factor : R := if (typ s =? 1)%nat then 4 * pz s * (alpha s / PI) * (beta s / PI) else 16 * pz s / (PI * PI).
(* evaluate, l.392-441 *)
Definition evaluate (x y : R) (deriv : nat) : R * R * R := scal3 factor (fst (summed x y deriv)).

(* Displ, l.304-330; the number of terms is that of the header, l.201: one less for a uniform load *)
Definition dispMax : nat := if (0 <? typ s)%nat then mxmn s else (mxmn s - 1)%nat.
Definition dispTerm (x y : R) (m n : nat) : R :=
  let am := alpha s * INR m in let bn := beta s * INR n in let abmn := am * am + bn * bn in
  match typ s with
  | 0%nat => sin (am * x) * sin (bn * y) / (INR m * INR n * abmn * abmn)
  | 2%nat => sin (am * xi s) * sin (bn * eta s) / (abmn * abmn) * (sin (am * c2 s) * sin (bn * d2 s) / (INR m * INR n)) * sin (am * x) * sin (bn * y)
  | _ => sin (am * xi s) * sin (bn * eta s) / (abmn * abmn) * sin (am * x) * sin (bn * y) end.
(* number of loop values 1, 1+inc, ... not above n *)
Definition countOf (n : nat) : nat := ((n + inc s - 1) / inc s)%nat.
Definition dispSum (x y : R) : R := sumf (countOf dispMax) (fun p => sumf (countOf dispMax) (fun q => dispTerm x y (idxOf p) (idxOf q))).
Definition displ (D x y : R) : R :=
  dispSum x y * (if (typ s =? 1)%nat then 4 * (pz s / D) / (c2 s * d2 s) else 16 * (pz s / D) / (PI * PI)).
End Navier.

(* CircularPlate, l.462-507 *)
Definition log10 (x : R) : R := ln x / ln 10.
Definition circDispl (P R0 D nu x y : R) : R :=
  let U0 := - P * R0 * R0 / (16 * PI * D) in let C0 := (3 + nu) / (1 + nu) in
  let rR := hypot x y / R0 in let rR := if Rlt_dec rR (1 / 10000) then 1 / 10000 else rR in
  let r2 := rR * rR in U0 * (C0 * (1 - r2) - 2 * r2 * log10 rR).
Definition circPolar (P R0 nu r : R) : R * R :=
  let M0 := 25 / 100 * P / PI in
  let Mr := M0 * (1 + nu) * log10 (r / R0) in (Mr, Mr + M0 * (1 - nu)).
Definition circMoments (P R0 nu x y : R) : st :=
  let r := hypot x y in let r := if Rlt_dec r (1 / 10000 * R0) then 1 / 10000 * R0 else r in
  let M := circPolar P R0 nu r in transform (x / r) (- (y / r)) (y / r) (x / r) (mkSt (fst M) (snd M) 0 0).
