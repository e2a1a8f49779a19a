(** Isogeometric cable.  Models Beam/ElasticCable.C:60-116 (local axes), 119-447 (strain,
    curvature and their derivatives, internal forces, tangent), 476-609 (end moment) and
    665-666 (recovered forces).  One integration point; node numbers 1..nen; [dN a], [ddN a]
    are fe.dNdX(a,1), fe.d2NdX2(a,1,1); components 1..3.  Matrices are functions of their
    indices: db[a-1](k,i) is [db a k i].  The straight-cable fallback of evalLocalAxes
    (l.65-109) is represented by the oracle [straight]. *)
From Verif Require Import Lib.Base Lib.Vec3.

(* 0.5*(k-l)*(l-i)*(i-k) *)
Definition eps3 (k l i : nat) : R := 1 / 2 * (INR k - INR l) * (INR l - INR i) * (INR i - INR k).

Section Cable.
Variable straight : v3 -> v3 -> option v3.   (* binormal when |dX x ddX| < 1e-12 *)

(* evalLocalAxes: unit binormal and normal, and their lengths *)
Record axes := mkAxes { bU : v3; nU : v3; bLen : R; nLen : R }.
Definition axesOf (B dX : v3) : axes :=
  let bl := vlen B in let b := vscal (1 / bl) B in
  let n := vcross b dX in mkAxes b (vscal (/ vlen n) n) bl (vlen n).
Definition evalLocalAxes (dX ddX : v3) : option axes :=
  let B := vcross dX ddX in
  if Rlt_dec (vlen B) (1 / 10 ^ 12) then match straight dX ddX with Some B' => Some (axesOf B' dX) | None => None end
  else Some (axesOf B dX).

Variables (dN ddN : nat -> R).   (* basis function derivatives at the point *)
Section Point.
Variables (dx ddx : v3) (ax : axes).
(* l.183-202 *)
Definition db (a k i : nat) : R :=
  sumf 3 (fun l => eps3 k i l * dN a * vc ddx l + eps3 k l i * vc dx l * ddN a).
Definition dbNormal (a i : nat) : R := sumf 3 (fun k => vc (bU ax) k * db a k i).
Definition dbUnit (a k i : nat) : R := (db a k i - vc (bU ax) k * dbNormal a i) / bLen ax.
(* l.221-268 *)
Definition ddb (a b k i j : nat) : R := eps3 k j i * ddN a * dN b + eps3 k i j * ddN b * dN a.
Definition bin (k : nat) : R := vc (bU ax) k * bLen ax.
Definition ddbNormal (a b i j : nat) : R :=
  sumf 3 (fun k => (ddb a b k i j * bin k + db a k i * db b k j - bin k * db a k i * bin k * db b k j / (bLen ax * bLen ax)) / bLen ax).
Definition ddbUnit (a b k i j : nat) : R :=
  ddb a b k i j / bLen ax - db a k i * dbNormal b j / (bLen ax * bLen ax) - db b k j * dbNormal a i / (bLen ax * bLen ax) -
  bin k * (ddbNormal a b i j - dbNormal a i * dbNormal b j * 2 / bLen ax) / (bLen ax * bLen ax).
(* l.282-306 *)
Definition dn (a k i : nat) : R :=
  sumf 3 (fun l => eps3 k l i * vc (bU ax) l * dN a + sumf 3 (fun o => eps3 k o l * dbUnit a o i * vc dx l)).
Definition dnNormal (a i : nat) : R := sumf 3 (fun k => vc (nU ax) k * dn a k i).
Definition dnUnit (a k i : nat) : R := (dn a k i - vc (nU ax) k * dnNormal a i) / nLen ax.
(* l.325-364 *)
Definition nn (k : nat) : R := vc (nU ax) k * nLen ax.
Definition ddn (a b k i j : nat) : R :=
  sumf 3 (fun o => eps3 k o j * dbUnit a o i * dN b + eps3 k o i * dbUnit b o j * dN a +
                   sumf 3 (fun l => eps3 k o l * ddbUnit a b o i j * vc dx l)).
Definition ddnNormal (a b i j : nat) : R :=
  sumf 3 (fun k => (ddn a b k i j * nn k + dn a k i * dn b k j - nn k * dn a k i * nn k * dn b k j / (nLen ax * nLen ax)) / nLen ax).
Definition ddnUnit (a b k i j : nat) : R :=
  ddn a b k i j / nLen ax - dn a k i * dnNormal b j / (nLen ax * nLen ax) - dn b k j * dnNormal a i / (nLen ax * nLen ax) -
  nn k * (ddnNormal a b i j - dnNormal a i * dnNormal b j * 2 / nLen ax) / (nLen ax * nLen ax).
(* l.377-413; the scalar index aa = 3(a-1)+i is kept as the pair (a,i) *)
Definition deps (a i : nat) : R := dN a * vc dx i.
Definition ddeps (a b i j : nat) : R := if (i =? j)%nat then dN a * dN b else 0.
Definition dkappa (a i : nat) : R := ddN a * vc (nU ax) i + sumf 3 (fun k => vc ddx k * dnUnit a k i).
Definition ddkappa (a b i j : nat) : R :=
  ddN a * dnUnit b i j + ddN b * dnUnit a j i + sumf 3 (fun k => vc ddx k * ddnUnit a b k i j).
End Point.

(* l.374, 390; [NU] is the reference normal *)
Definition axialStrain (dX dx : v3) : R := 1 / 2 * (vdot dx dx - vdot dX dX).
Definition curvature (ddX NU ddx nU : v3) : R := vdot ddx nU - vdot ddX NU.

(* l.129-148: current derivatives from nodal displacements [eV a i] *)
Definition current (nen : nat) (d : nat -> R) (v : v3) (eV : nat -> nat -> R) : v3 :=
  V (vx v + sumf nen (fun a => d a * eV a 1%nat)) (vy v + sumf nen (fun a => d a * eV a 2%nat)) (vz v + sumf nen (fun a => d a * eV a 3%nat)).

(* l.421-447: contributions of the point *)
Record pointOut := mkPoint { pS : nat -> nat -> R; pKm : nat -> nat -> nat -> nat -> R; pKg : nat -> nat -> nat -> nat -> R }.
Definition evalPoint (nen : nat) (EA EI detJxW : R) (dX ddX : v3) (eV : nat -> nat -> R) : res pointOut :=
  let dx := current nen dN dX eV in let ddx := current nen ddN ddX eV in
  match evalLocalAxes dX ddX with
  | None => Rejected
  | Some A0 =>
    match evalLocalAxes dx ddx with
    | None => Rejected
    | Some ax =>
      let ep := axialStrain dX dx in let ka := curvature ddX (nU A0) ddx (nU ax) in
      let g2 := 1 / (vx dX * vx dX + vy dX * vy dX + vz dX * vz dX) in
      let JW := g2 * g2 * detJxW in
      Ret (mkPoint (fun a i => deps dx a i * (- ep * (EA * JW)) + dkappa dx ddx ax a i * (- ka * (EI * JW)))
                   (fun a i b j => deps dx a i * (deps dx b j * (EA * JW)) + dkappa dx ddx ax a i * (dkappa dx ddx ax b j * (EI * JW)))
                   (fun a i b j => ddeps a b i j * (ep * (EA * JW)) + ddkappa dx ddx ax a b i j * (ka * (EI * JW))))
    end
  end.

(* evalSol, l.664-666 *)
Definition recovered (nen : nat) (EA EI : R) (dX ddX : v3) (eV : nat -> nat -> R) : res (R * R) :=
  let dx := current nen dN dX eV in let ddx := current nen ddN ddX eV in
  match evalLocalAxes dX ddX, evalLocalAxes dx ddx with
  | Some A0, Some ax => Ret (EA * (1 / 2) * (vdot dx dx - vdot dX dX), EI * (vdot ddx (nU ax) - vdot ddX (nU A0)))
  | _, _ => Rejected
  end.
End Cable.

(** ** End moment, l.476-609.  [X1] is the neighbour node, [X2] the end node (current
    positions); entries 1,2,4,5 stand for j1,j2,j4,j5: x and y of the two nodes. *)
Definition endForce (xi M : R) (X1 X2 : v3) (e : nat) : R :=
  let d := vsub X2 X1 in let mn := M / vdot d d in
  let Fx := mn * vy d in let Fy := mn * vx d in
  match e with 1%nat => xi * Fx | 2%nat => - xi * Fy | 4%nat => - xi * Fx | 5%nat => xi * Fy | _ => 0 end.
Record dF := mkdF { xu1 : R; xv1 : R; xu2 : R; xv2 : R; yu1 : R; yv1 : R; yu2 : R; yv2 : R }.
Definition endDeriv (M : R) (X1 X2 : v3) : dF :=
  let d := vsub X2 X1 in let ds2 := vdot d d in let mn := M / ds2 / ds2 in
  mkdF (mn * 2 * vx d * vy d) (mn * (ds2 - 2 * vy d * vy d)) (- mn * 2 * vx d * vy d) (- mn * (ds2 - 2 * vy d * vy d))
       (- mn * (ds2 - 2 * vx d * vx d)) (- mn * 2 * vx d * vy d) (mn * (ds2 - 2 * vx d * vx d)) (mn * 2 * vx d * vy d).
(* lcStif = 1 *)
Definition endK (D : dF) (i j : nat) : R :=
  match i, j with
  | 1, 1 => xu1 D | 1, 2 => xv1 D | 1, 4 => xu2 D | 1, 5 => xv2 D
  | 2, 1 => - yu1 D | 2, 2 => - yv1 D | 2, 4 => - yu2 D | 2, 5 => - yv2 D
  | 4, 1 => - xu1 D | 4, 2 => - xv1 D | 4, 4 => - xu2 D | 4, 5 => - xv2 D
  | 5, 1 => yu1 D | 5, 2 => yv1 D | 5, 4 => yu2 D | 5, 5 => yv2 D
  | _, _ => 0%R
  end%nat.
(* otherwise *)
Definition half (a : R) : R := 1 / 2 * a.
Definition endKsym (D : dF) (i j : nat) : R :=
  match i, j with
  | 1, 1 => xu1 D | 1, 2 => half (xv1 D - yu1 D)%R | 1, 4 => half (xu2 D - xu1 D)%R | 1, 5 => half (xv2 D + yu1 D)%R
  | 2, 1 => (- half (yu1 D - xv1 D))%R | 2, 2 => (- yv1 D)%R | 2, 4 => (- half (yu2 D + xv1 D))%R | 2, 5 => (- half (yv2 D - yv1 D))%R
  | 4, 1 => (- half (xu1 D - xu2 D))%R | 4, 2 => (- half (xv1 D + yu2 D))%R | 4, 4 => (- xu2 D)%R | 4, 5 => (- half (xv2 D - yu2 D))%R
  | 5, 1 => half (yu1 D + xv2 D)%R | 5, 2 => half (yv1 D - yv2 D)%R | 5, 4 => half (yu2 D - xv2 D)%R | 5, 5 => yv2 D
  | _, _ => 0%R
  end%nat.
