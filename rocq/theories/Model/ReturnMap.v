(** Model of the local Newton iteration and the tangent transformation of
    FiniteDeformation/PlasticMaterial.C:304-729.  Vectors in the principal directions have components 1..3.
    The linear solver utl::solve is not modelled. *)
From Verif.Lib Require Import Base Tensor3.
From Verif.Model Require Import Plastic.

Definition sum3 (v : nat -> R) : R := v 1%nat + v 2%nat + v 3%nat.
Definition mean (v : nat -> R) : R := sum3 v * (1/3).

(** Lines 552-560: deviatoric relative stress and its invariants from the stress tau and back stress alp. *)
Definition relstress (tau alp : nat -> R) : nat -> R := fun i => tau i - mean tau - alp i + mean alp.
Definition inv1 (tau alp : nat -> R) : R := 3 * (mean tau - mean alp).
Definition inv2 (ta : nat -> R) : R := (ta 1%nat * ta 1%nat + ta 2%nat * ta 2%nat + ta 3%nat * ta 3%nat) * (1/2).
Definition inv3s (ta : nat -> R) : R :=
  (ta 1%nat * ta 1%nat * ta 1%nat + ta 2%nat * ta 2%nat * ta 2%nat + ta 3%nat * ta 3%nat * ta 3%nat) * (1/3).

(** Lines 435-441, 564-566: elastic logarithmic strain. *)
Definition elstrain (Bmod Smod : R) (tau : nat -> R) : nat -> R :=
  fun i => 1/2 / Smod * (tau i - mean tau) + 1/3 / Bmod * mean tau.

Record lstate := mkLS { sTau : nat -> R; sAlp : nat -> R; sGam : R }.

(** Lines 457-459 with 539: the yield function at a state. *)
Definition yat (p : list R) (hfn : option ((R -> R) * (R -> R))) (Eppn : R) (s : lstate) : res yout :=
  let ta := relstress (sTau s) (sAlp s) in
  yfunc p hfn true (Eppn + sqt23 * sGam s) (inv1 (sTau s) (sAlp s)) (inv2 ta) (inv3s ta).

(** Lines 461-463. *)
Definition normal (y : yout) (ta : nat -> R) : nat -> R :=
  fun i => yf1 y - yf3 y * (2/3) * inv2 ta + (yf2 y + yf3 y * ta i) * ta i.

(** Lines 465-466 and 522: the residual (before the sign of the right-hand side), components 1..3: r1,
    4..6: r2 (kinematic hardening), last: yield. *)
Definition residual (Bmod Smod Hkr : R) (etr alpn : nat -> R) (kin : bool) (y : yout) (s : lstate) : nat -> R :=
  let ta := relstress (sTau s) (sAlp s) in
  let nn := normal y ta in
  let r1 := fun a => elstrain Bmod Smod (sTau s) a - etr a + sGam s * nn a in
  let r2 := fun a => (alpn a - sAlp s a) * Hkr + sGam s * nn a in
  fun k => if kin then (if (k <=? 3)%nat then r1 k else if (k <=? 6)%nat then r2 (k - 3)%nat else yYield y)
           else (if (k <=? 3)%nat then r1 k else yYield y).

(** Lines 471-489. *)
Definition fss (y : yout) (ta : nat -> R) (gam : R) (a b : nat) : R :=
  let f112 := yf11 y - 1/3 * yf2 y in
  let f123 := yf12 y - 2/3 * yf3 y in
  let aa := fun i => yf23 y * ta i + yf13 y in
  let bb := fun i => ta i * ta i - 2/3 * inv2 ta in
  (f112 + yf22 y * ta a * ta b + yf33 y * bb a * bb b + f123 * (ta b + ta a) + aa a * bb b + bb a * aa b) * gam
  + (if Nat.eqb a b then (yf2 y + 2 * yf3 y * ta a) * gam else 0).

(** Lines 491-522: the matrix; rows and columns 1..4 or 1..7. *)
Definition tres (Bmod Smod Hk : R) (kin : bool) (y : yout) (s : lstate) (k l : nat) : R :=
  let ta := relstress (sTau s) (sAlp s) in
  let nn := normal y ta in
  let F := fss y ta (sGam s) in
  let d_el := (1/3 / Bmod - 1/2 / Smod) * (1/3) in
  let top := fun a b => F a b + d_el + (if Nat.eqb a b then 1/2 / Smod else 0) in
  if kin then
    (if (k <=? 3)%nat then
       if (l <=? 3)%nat then top k l else if (l <=? 6)%nat then - F k (l - 3)%nat else nn k
     else if (k <=? 6)%nat then
       if (l <=? 3)%nat then - F (k - 3)%nat l
       else if (l <=? 6)%nat then F (k - 3)%nat (l - 3)%nat + (if Nat.eqb k l then 1 / Hk else 0)
       else - nn (k - 3)%nat
     else
       if (l <=? 3)%nat then nn l else if (l <=? 6)%nat then - nn (l - 3)%nat else - yYpr y)
  else
    (if (k <=? 3)%nat then if (l <=? 3)%nat then top k l else nn k
     else if (l <=? 3)%nat then nn l else - yYpr y).

(** Lines 666-690: transformation matrix from the principal directions nn_tr (columns). *)
Definition p1 (i : nat) : nat := match i with 1 => 1 | 2 => 2 | 3 => 3 | 4 => 1 | 5 => 2 | _ => 3 end%nat.
Definition p2 (i : nat) : nat := match i with 1 => 1 | 2 => 2 | 3 => 3 | 4 => 2 | 5 => 3 | _ => 1 end%nat.
Definition Tmat (F : t3) (i j : nat) : R :=
  if (i <=? 3)%nat then
    if (j <=? 3)%nat then F (p1 j) (p1 i) * F (p2 j) (p2 i)
    else (F (p1 j) (p1 i) * F (p2 j) (p2 i) + F (p2 j) (p2 i) * F (p1 j) (p1 i)) * (1/2)
  else
    if (j <=? 3)%nat then F (p1 j) (p1 i) * F (p2 j) (p2 i) + F (p2 j) (p2 i) * F (p1 j) (p1 i)
    else (F (p1 j) (p1 i) * F (p2 j) (p2 i) + F (p2 j) (p1 i) * F (p1 j) (p2 i) +
          F (p1 j) (p2 i) * F (p2 j) (p1 i) + F (p2 j) (p2 i) * F (p1 j) (p1 i)) * (1/2).

(** Lines 638-653: tangent in the principal directions; [ll] squared trial stretches. *)
Definition tolb : R := / 10 ^ 8.
Definition Cstm (dtde : nat -> nat -> R) (tau ll : nat -> R) (i j : nat) : R :=
  if ((i <=? 3) && (j <=? 3))%nat%bool then 2 * dtde i j - (if Nat.eqb i j then 2 * tau i else 0)
  else if (Nat.eqb i j) then
    let a := (i - 3)%nat in let b := S (a mod 3) in
    let d := ll b - ll a in
    if Rlt_dec tolb d then (ll a * tau b - ll b * tau a) / d
    else if Rlt_dec d (- tolb) then (ll a * tau b - ll b * tau a) / d
    else dtde a a - dtde b a - tau a
  else 0.

(** Lines 621-625: Cauchy stress from the principal Kirchhoff stresses. *)
Definition cauchy (F : t3) (tau : nat -> R) (Jc : R) (k : nat) : R :=
  (tau 1%nat * F (p1 k) 1%nat * F (p2 k) 1%nat + tau 2%nat * F (p1 k) 2%nat * F (p2 k) 2%nat +
   tau 3%nat * F (p1 k) 3%nat * F (p2 k) 3%nat) / Jc.

(** Lines 700-703: C = Tmat^T * Cstm * Tmat / Jc. *)
Definition tangent6 (F : t3) (C : nat -> nat -> R) (Jc : R) (i j : nat) : R :=
  sumf 6 (fun k => Tmat F k i * sumf 6 (fun l => C k l * Tmat F l j)) * (1 / Jc).

(** Lines 383-402: trial stresses from the principal logarithmic strains, and lines 607-611: derivative used in an elastic step
    (half the derivative with respect to the logarithmic strains). *)
Definition trial (Bm Sm : R) (e : nat -> R) (i : nat) : R := 2 * Sm * (e i - sum3 e * (1/3)) + Bm * sum3 e.
Definition dtde_el (Bm Sm : R) (a b : nat) : R := if Nat.eqb a b then 1/2 * Bm + 2/3 * Sm else 1/2 * Bm - 1/3 * Sm.

(** Lines 595-603: derivative used in a plastic step, [X a] the solution for the right-hand side with 1/2 in row a;
    only the upper triangle is stored. *)
Definition dtde_pl (X : nat -> nat -> R) (a b : nat) : R := if (a <=? b)%nat then X a b else X b a.
