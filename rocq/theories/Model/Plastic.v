(** Model of FiniteDeformation/PlasticMaterial.C (parameters, yield functions, energy integral, results).
    The return mapping and the history are in Model/ReturnMap.v and Model/History.v. *)
From Verif.Lib Require Import Base Tensor3.

(** [RealArray::resize(n,0.0)] and the constructor, PlasticMaterial.C:22-54. *)
Definition resize0 (n : nat) (l : list R) : list R := l ++ repeat 0 (n - length l).

(** PlasticMaterial.C:27-48: (Emod, nu, Bmod, Smod). *)
Definition moduli (p0 p1 : R) : R * R * R * R :=
  if Rlt_dec (1/2) p1 then
    (9 * p0 * p1 / (3 * p0 + p1), (3/2 * p0 - p1) / (3 * p0 + p1), p0, p1)
  else if Rlt_dec p1 (1/2) then
    (p0, p1, p0 / (3 - 6 * p1), p0 / (2 + 2 * p1))
  else (p0, p1, 0, p0 / 3).

Definition ctor (p : list R) : list R :=
  let q := resize0 11 p in
  match q with
  | p0 :: p1 :: p2 :: p3 :: rest =>
      let '(E, nu, K, G) := moduli p0 p1 in
      E :: nu :: p2 :: p3 :: K :: G :: rest                       (* 50-53: insert at 4 and 5 *)
  | _ => q
  end.

(** [pMAT[i]] without range check. *)
Definition rd (p : list R) (i : nat) : res R :=
  match nth_error p i with Some v => Ret v | None => UB end.

(** [static_cast<int>] of a double (in range). *)
Definition toint (x : R) : Z := if Rle_dec 0 x then Int_part x else (- Int_part (- x))%Z.

Definition sqt23 : R := sqrt (2/3).
Definition epsZ : R := / 10 ^ 16.

Record yout := mkY {
  yf1 : R; yf2 : R; yf3 : R; yf11 : R; yf22 : R; yf33 : R; yf12 : R; yf13 : R; yf23 : R;
  yYpr : R; yYY : R; yYield : R }.

Definition f2_of (lIter : bool) (ss : R) : R := if lIter then (if Rlt_dec epsZ ss then 1 / ss else 0) else 0.
Definition f22_of (lIter : bool) (ss : R) : R :=
  if lIter then (if Rlt_dec epsZ ss then - (1/ss * (1/ss) * (1/ss)) else 0) else 0.

(** PlasticMaterial.C:732-896.  [hfn] is the hardening curve and its derivative.
    [pow(x,y)] is [Rpower]. *)
Definition yfunc (p : list R) (hfn : option ((R -> R) * (R -> R))) (lIter : bool) (Epp I1 J2 J3 : R) : res yout :=
  let* t := rd p 8 in                                               (* 756 *)
  let* h := rd p 6 in
  let* y0 := rd p 9 in
  let* yi := rd p 10 in
  let* beta := rd p 11 in
  let Hiso := sqt23 * h in
  let Y0 := sqt23 * y0 in
  let Yinf := sqt23 * yi in
  let YY := Y0 + Hiso * Epp in                                      (* 762-764 *)
  let Ypr := 2/3 * h in
  let ss := if Rlt_dec 0 J2 then sqrt (2 * J2) else 0 in            (* 767 *)
  let mises := fun YY Ypr =>
      mkY 0 (f2_of lIter ss) 0 0 (f22_of lIter ss) 0 0 0 0 Ypr YY (ss - YY) in
  match toint t with
  | 1%Z =>                                                          (* 773-784 *)
      let aa := (Y0 - Yinf) * exp (- beta * Epp) in
      Ret (mises (Yinf + aa + Hiso * Epp) (Ypr - sqt23 * beta * aa))
  | 2%Z =>                                                          (* 786-799 *)
      let aa := Yinf in
      Ret (mkY (if lIter then 1/3 * aa else 0) (f2_of lIter ss) 0 0 (f22_of lIter ss) 0 0 0 0 Ypr YY
               (ss + 1/3 * aa * I1 - YY))
  | 3%Z =>                                                          (* 801-822 *)
      if Rlt_dec J2 epsZ then Ret (mkY 0 0 0 0 0 0 0 0 0 Ypr YY (- YY))
      else if lIter then
        let c1 := sqrt (1/2) in
        let c2 := sqrt (27/2) * Yinf in
        let j1 := 1 / J2 in let j2 := j1 * j1 in let j12 := sqrt j1 in
        Ret (mkY 0 (c1 * j12 - c2 * J3 * j2) (c2 * j1) 0
                 (- c1 * (j12 * j12 * j12) * (1/2) + c2 * J3 * (j1 * j1 * j1) * 2) 0 0 0 (- c2 * j2)
                 Ypr YY (ss + c2 * J3 / J2 - YY))
      else Ret (mkY 0 0 0 0 0 0 0 0 0 Ypr YY (- YY))
  | 4%Z =>                                                          (* 824-843 *)
      if Rlt_dec Epp epsZ then
        if Rlt_dec (- Epp) epsZ then
          Ret (mises Y0 (Ypr + sqt23 * Yinf * Rpower epsZ (beta - 1)))
        else Ret (mises (Y0 + Yinf * Rpower Epp beta + Hiso * Epp) (Ypr + sqt23 * beta * Yinf * Rpower Epp (beta - 1)))
      else Ret (mises (Y0 + Yinf * Rpower Epp beta + Hiso * Epp) (Ypr + sqt23 * beta * Yinf * Rpower Epp (beta - 1)))
  | 5%Z =>                                                          (* 845-863 *)
      match hfn with
      | None => Rejected
      | Some (ev, de) => Ret (mises (sqt23 * ev Epp) (Ypr + 2/3 * de Epp))
      end
  | 6%Z =>                                                          (* 865-881 *)
      let* a13 := rd p 13 in
      let* c2 := rd p 14 in
      let q1 := Yinf in let c1 := beta in let q2 := sqt23 * a13 in
      let aa := q1 * exp (- c1 * Epp) in
      let bb := q2 * exp (- c2 * Epp) in
      Ret (mises (Y0 + q1 + q2 - aa - bb + Hiso * Epp) (Ypr + sqt23 * (c1 * aa + c2 * bb)))
  | _ => Rejected                                                   (* 883-886 *)
  end.

(** SIMFiniteDefEl.C:97-100: text input, the parameters as given. *)
Definition text_input (p : list R) : list R := ctor p.

(** SIMFiniteDefEl.C:200-255: XML input; [attr] are the attribute assignments (index, value), applied after the
    padding of line 220 and, for yield function 6, of line 243. *)
Definition assign (l : list R) (iv : nat * R) : list R :=
  let (i, v) := iv in if (i <? length l)%nat then firstn i l ++ v :: skipn (S i) l else l.
Definition xml_input (p : list R) (attr attr6 : list (nat * R)) : list R :=
  let q := fold_left assign attr (resize0 11 p) in
  let q := if Z.eqb (toint (nth 6 q 0)) 6 then fold_left assign attr6 (resize0 13 q) else q in
  ctor q.

(** PlasticMaterial.C:899-906: energy integral; state (Up,Sp,Ep). [ddot] is the double contraction. *)
Record estate := mkES { esU : R; esS : t3; esE : t3 }.
Definition energyIntegral (st : estate) (S E : t3) : estate :=
  mkES (esU st + 1/2 * ddot3 (fun i j => S i j + esS st i j) (fun i j => E i j - esE st i j)) S E.
(** PlasticMaterial.C:273-279: Up = 0, empty (zero) tensors. *)
Definition einit : estate := mkES 0 (fun _ _ => 0) (fun _ _ => 0).

(** PlasticMaterial.C:926-936. *)
Definition getTriax (sigma_h sigma_e : R) : R := if Rlt_dec 0 sigma_e then sigma_h / sigma_e else 0.
Definition getLode (px py pz : R) : R :=
  if Rlt_dec 0 (px - pz) then (2 * py - px - pz) / (px - pz) else 0.

(** PlasticMaterial.C:917-923: mean stress of a tensor with [size] stored components; xx, yy and the zz component, if stored. *)
Definition meanStress (size dim : nat) (sxx syy szz : R) : R :=
  (sxx + syy + (if (3 <? size)%nat then szz else 0)) / INR (if (3 <? size)%nat then 3 else dim).

(** PlasticMaterial.C:207-215: the energy reported for a sequence of evaluations with pulled-back stress
    S = F^-1 sigma F^-T, strain E and J = det F: energyIntegral(S,E)*J. *)
Definition reported (l : list (t3 * t3 * R)) : R :=
  let st := fold_left (fun st x => let '(s, e, _) := x in energyIntegral st s e) l einit in
  esU st * (match rev l with ((_, _, J) :: _)%list => J | nil => 1 end).
