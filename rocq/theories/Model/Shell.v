(** Kirchhoff-Love shells.  Models Shell/KirchhoffLoveShell.C:63-342 and
    Shell/NLKirchhoffLoveShell.C:38-317.
    [dN a al] is fe.dNdX(a,al), [d2N a al be] is fe.d2NdX2(a,al,be).  Covariant base vectors are
    the columns of G.  H and Hn have the columns ,11 ,22 ,12 (IFEM's utl::Hessian and fe.H).
    A degree of freedom is numbered r = 3(a-1)+i.  The material is the plane-stress LinIsotropic
    of the shell solver (SIMKLShell.C:139,232).  The transformation to a local coordinate system
    is not modelled.  Vec3::normalize is modelled in Model/Rigid.v. *)
From Verif Require Import Lib.Base Lib.Vec3 Model.LinIsotropic Model.Rigid.

(* Curvature columns. *)
Record hess := mkH { h11 : v3; h22 : v3; h12 : v3 }.
(* Vec3 * Matrix with three columns *)
Definition vtimesH (n : v3) (H : hess) : v3 := V (vdot n (h11 H)) (vdot n (h22 H)) (vdot n (h12 H)).
(* Vec3 d; d(dir) = x; *)
Definition single (dir : nat) (x : R) : v3 :=
  match dir with 1%nat => V x 0 0 | 2%nat => V 0 x 0 | 3%nat => V 0 0 x | _ => vzero end.

(** ** KirchhoffLoveShell::getMetrics, l.152-199 *)
Definition gabOf (g1 g2 : v3) : v3 := V (vdot g1 g1) (vdot g2 g2) (vdot g1 g2).
Definition Tmat (g1 g2 : v3) : nat -> nat -> R :=
  let gab := gabOf g1 g2 in
  let invdet := 1 / (vx gab * vy gab - vz gab * vz gab) in
  let c11 := invdet * vy gab in let c12 := - invdet * vz gab in let c22 := invdet * vx gab in
  let g1c := vadd (vscal c11 g1) (vscal c12 g2) in
  let g2c := vadd (vscal c12 g1) (vscal c22 g2) in
  let e1 := snd (normalize g1) in let e2 := snd (normalize g2c) in
  let eg11 := vdot e1 g1c in let eg12 := vdot e1 g2c in
  let eg21 := vdot e2 g1c in let eg22 := vdot e2 g2c in
  fun i j => match i, j with
  | 1%nat, 1%nat => eg11 * eg11 | 1%nat, 2%nat => eg12 * eg12 | 1%nat, 3%nat => 2 * eg11 * eg12
  | 2%nat, 1%nat => eg21 * eg21 | 2%nat, 2%nat => eg22 * eg22 | 2%nat, 3%nat => 2 * eg21 * eg22
  | 3%nat, 1%nat => 2 * eg11 * eg21 | 3%nat, 2%nat => 2 * eg12 * eg22 | 3%nat, 3%nat => 2 * (eg11 * eg22 + eg12 * eg21)
  | _, _ => 0 end.
(* g3, its length (returned) and the normal n (l.159, 198) *)
Definition normal (g1 g2 : v3) : R * v3 := normalize (vcross g1 g2).

(** ** Constitutive matrices, l.92-108 *)
Definition formD (E nu t : R) (inv : bool) : res (mat * mat) :=
  let* C := cmatrix 2 true false inv E nu in
  let fm := t in let fb := fm * fm * fm / 12 in
  Ret (mkMat (rows C) (cols C) (fun i j => (if inv then 1 / fm else fm) * el C i j),
       mkMat (rows C) (cols C) (fun i j => (if inv then 1 / fb else fb) * el C i j)).

(* node and direction of degree of freedom r (NLKirchhoffLoveShell.C:197-198) *)
Definition nodeOf (r : nat) : nat := ((r - 1) / 3 + 1)%nat.
Definition dirOf (r : nat) : nat := ((r - 1) mod 3 + 1)%nat.

Section Element.
Variables (nenod : nat) (dN : nat -> nat -> R) (d2N : nat -> nat -> nat -> R).

(** ** Linear strain-displacement matrices, formBmatrix l.111-149, one column *)
Definition dEcol (g1 g2 : v3) (k dir : nat) : v3 :=
  V (dN k 1 * vc g1 dir) (dN k 2 * vc g2 dir) (1 / 2 * (dN k 1 * vc g2 dir + dN k 2 * vc g1 dir)).
Definition dKcol (g1 g2 : v3) (H : hess) (k dir : nat) : v3 :=
  let g3 := vcross g1 g2 in
  let '(lg3, n) := normal g1 g2 in
  let lg3_2 := lg3 * lg3 in
  let dg1 := single dir (dN k 1) in let dg2 := single dir (dN k 2) in
  let dg3 := vadd (vcross g1 dg2) (vcross dg1 g2) in
  let dn := vscal (/ lg3) (vsub dg3 (vscal (vdot g3 dg3 / lg3_2) g3)) in
  let bv := vtimesH dn H in
  V (- d2N k 1 1 * vc n dir - vx bv) (- d2N k 2 2 * vc n dir - vy bv) (- d2N k 1 2 * vc n dir - vz bv).
(* l.145-146: Bm = T dE_cu, Bb = T dK_cu *)
Definition Bm (g1 g2 : v3) (i r : nat) : R := sumf 3 (fun k => Tmat g1 g2 i k * vc (dEcol g1 g2 (nodeOf r) (dirOf r)) k).
Definition Bb (g1 g2 : v3) (H : hess) (i r : nat) : R := sumf 3 (fun k => Tmat g1 g2 i k * vc (dKcol g1 g2 H (nodeOf r) (dirOf r)) k).

(* evalK, l.63-89 *)
Definition evalK (E nu t detJxW : R) (g1 g2 : v3) (H : hess) (EK : nat -> nat -> R) : res (nat -> nat -> R) :=
  let* D := formD E nu t false in
  let dNca k j := sumf 3 (fun l => el (fst D) k l * Bm g1 g2 l j) in
  let dMca k j := sumf 3 (fun l => el (snd D) k l * Bb g1 g2 H l j) in
  let kem i j := sumf 3 (fun k => Bm g1 g2 k i * dNca k j) in
  let keb i j := sumf 3 (fun k => Bb g1 g2 H k i * dMca k j) in
  Ret (fun i j => EK i j + detJxW * kem i j + detJxW * keb i j).

(* evalSol, l.281-334: membrane forces and moments of the linear shell *)
Definition evalSol (E nu t : R) (g1 g2 : v3) (H : hess) (eV : nat -> R) : res ((nat -> R) * (nat -> R)) :=
  let* D := formD E nu t false in
  let epsilon k := sumf (3 * nenod) (fun r => Bm g1 g2 k r * eV r) in
  let kappa k := sumf (3 * nenod) (fun r => Bb g1 g2 H k r * eV r) in
  Ret (fun i => sumf 3 (fun k => el (fst D) i k * epsilon k),
       fun i => sumf 3 (fun k => el (snd D) i k * (-1 * kappa k))).

(** ** Nonlinear shell *)
(* NLKirchhoffLoveShell.C:46-49 and 273-277: base vectors and Hessian of nodal positions [x] *)
Definition gOf (x : nat -> R) (al : nat) : v3 :=
  V (sumf nenod (fun a => x (3 * (a - 1) + 1)%nat * dN a al)) (sumf nenod (fun a => x (3 * (a - 1) + 2)%nat * dN a al)) (sumf nenod (fun a => x (3 * (a - 1) + 3)%nat * dN a al)).
Definition hcol (x : nat -> R) (al be : nat) : v3 :=
  V (sumf nenod (fun a => x (3 * (a - 1) + 1)%nat * d2N a al be)) (sumf nenod (fun a => x (3 * (a - 1) + 2)%nat * d2N a al be)) (sumf nenod (fun a => x (3 * (a - 1) + 3)%nat * d2N a al be)).
Definition hessOf (x : nat -> R) : hess := mkH (hcol x 1 1) (hcol x 2 2) (hcol x 1 2).

Definition times3 (A : nat -> nat -> R) (v : v3) : v3 :=
  V (sumf 3 (fun k => A 1%nat k * vc v k)) (sumf 3 (fun k => A 2%nat k * vc v k)) (sumf 3 (fun k => A 3%nat k * vc v k)).

(* Strains, l.91-121: E_cu and K_cu in the curvilinear system; [def] is the deformed configuration (Gn,Hn) if any *)
Definition strains (G1 G2 : v3) (H0 : hess) (g1 g2 : v3) (Hn : hess) : v3 * v3 :=
  (vscal (1 / 2) (vsub (gabOf g1 g2) (gabOf G1 G2)), vsub (vtimesH (snd (normal G1 G2)) H0) (vtimesH (snd (normal g1 g2)) Hn)).

(* l.144-168: columns r of dg3, dn, dE_cu, dK_cu *)
Definition dg3col (g1 g2 : v3) (r : nat) : v3 :=
  let k := nodeOf r in let dg1 := single (dirOf r) (dN k 1) in let dg2 := single (dirOf r) (dN k 2) in
  V (vy dg1 * vz g2 - vz dg1 * vy g2 + vy g1 * vz dg2 - vz g1 * vy dg2)
    (vz dg1 * vx g2 - vx dg1 * vz g2 + vz g1 * vx dg2 - vx g1 * vz dg2)
    (vx dg1 * vy g2 - vy dg1 * vx g2 + vx g1 * vy dg2 - vy g1 * vx dg2).
Definition g3dg3 (g1 g2 : v3) (r : nat) : R := vdot (vcross g1 g2) (dg3col g1 g2 r).
Definition dncol (g1 g2 : v3) (r : nat) : v3 :=
  let lg3 := fst (normal g1 g2) in
  vsub (vscal (/ lg3) (dg3col g1 g2 r)) (vscal (g3dg3 g1 g2 r / (lg3 * lg3 * lg3)) (vcross g1 g2)).
Definition dKn (g1 g2 : v3) (H : hess) (r : nat) : v3 :=
  let k := nodeOf r in let dir := dirOf r in let n := snd (normal g1 g2) in let dbv := vtimesH (dncol g1 g2 r) H in
  V (- d2N k 1 1 * vc n dir - vx dbv) (- d2N k 2 2 * vc n dir - vy dbv) (- d2N k 1 2 * vc n dir - vz dbv).

(* l.200-204: second variation of the membrane strain *)
Definition ddE (r s : nat) : v3 :=
  let kr := nodeOf r in let ks := nodeOf s in
  if (dirOf r =? dirOf s)%nat then
    V (dN kr 1 * dN ks 1) (dN kr 2 * dN ks 2) (1 / 2 * (dN kr 1 * dN ks 2 + dN kr 2 * dN ks 1))
  else vzero.
(* l.208-214 *)
Definition ddg3 (r s : nat) : v3 :=
  let kr := nodeOf r in let ks := nodeOf s in
  let dirt := (6 - dirOf r - dirOf s)%nat in
  let ddir := (Z.of_nat (dirOf r) - Z.of_nat (dirOf s))%Z in
  if ((ddir =? -1) || (ddir =? 2))%Z%bool then single dirt (dN kr 1 * dN ks 2 - dN ks 1 * dN kr 2)
  else if ((ddir =? 1) || (ddir =? -2))%Z%bool then single dirt (- dN kr 1 * dN ks 2 + dN ks 1 * dN kr 2)
  else vzero.
(* l.215-224: second variations of the normal and of the curvature *)
Definition ddn (g1 g2 : v3) (r s : nat) : v3 :=
  let g3 := vcross g1 g2 in let lg3 := fst (normal g1 g2) in
  let lg3_3 := lg3 * lg3 * lg3 in let lg3_5 := lg3_3 * lg3 * lg3 in
  let C := - (vdot (ddg3 r s) g3 + vdot (dg3col g1 g2 r) (dg3col g1 g2 s)) / lg3_3 in
  let D := 3 * g3dg3 g1 g2 r * g3dg3 g1 g2 s / lg3_5 in
  vadd (vsub (vscal (/ lg3) (ddg3 r s))
             (vadd (vscal (g3dg3 g1 g2 s / lg3_3) (dg3col g1 g2 r)) (vscal (g3dg3 g1 g2 r / lg3_3) (dg3col g1 g2 s))))
       (vscal (C + D) g3).
Definition ddK (g1 g2 : v3) (H : hess) (r s : nat) : v3 :=
  let kr := nodeOf r in let ks := nodeOf s in let ddbv := vtimesH (ddn g1 g2 r s) H in
  let dr := vc (dncol g1 g2 s) (dirOf r) in let ds := vc (dncol g1 g2 r) (dirOf s) in
  V (- d2N kr 1 1 * dr - d2N ks 1 1 * ds - vx ddbv)
    (- d2N kr 2 2 * dr - d2N ks 2 2 * ds - vy ddbv)
    (- d2N kr 1 2 * dr - d2N ks 1 2 * ds - vz ddbv).

(* evalKandS, l.81-250.  [def] is (Gn,Hn), None before any deformation (l.96-101). *)
Definition evalKandS (E nu t detJxW : R) (G1 G2 : v3) (H0 : hess) (def : option (v3 * v3 * hess))
    (ES : nat -> R) (EK : nat -> nat -> R) : res ((nat -> R) * (nat -> nat -> R)) :=
  let* D := formD E nu t false in
  let T := Tmat G1 G2 in
  let '(g1, g2, Hn) := match def with None => (G1, G2, H0) | Some d => d end in
  let '(Ecu, Kcu) := strains G1 G2 H0 g1 g2 Hn in
  let Nca := times3 (el (fst D)) (times3 T Ecu) in
  let Mca := times3 (el (snd D)) (times3 T Kcu) in
  let dEca r := times3 T (dEcol g1 g2 (nodeOf r) (dirOf r)) in
  let dKca r := times3 T (dKn g1 g2 Hn r) in
  let ES' r := ES r - detJxW * vdot (dEca r) Nca - detJxW * vdot (dKca r) Mca in
  let low (f : nat -> nat -> v3) r s := if (s <=? r)%nat then f r s else f s r in
  let kem r s := vdot Nca (times3 T (low ddE r s)) + vdot (times3 (el (fst D)) (dEca r)) (dEca s) in
  let keb r s := vdot Mca (times3 T (low (ddK g1 g2 Hn) r s)) + vdot (times3 (el (snd D)) (dKca r)) (dKca s) in
  Ret (ES', fun r s => EK r s + detJxW * kem r s + detJxW * keb r s).

(* NLKirchhoffLoveShell::evalSol, l.285-310: n is overwritten by that of the deformed configuration
   before Bv is computed. *)
Definition evalSolNL (E nu t : R) (G1 G2 : v3) (H0 : hess) (g1 g2 : v3) (Hd : hess) : res (v3 * v3) :=
  let* D := formD E nu t false in
  let T := Tmat G1 G2 in
  let n := snd (normal g1 g2) in
  let Ecu := vscal (1 / 2) (vsub (gabOf g1 g2) (gabOf G1 G2)) in
  let Kcu := vsub (vtimesH n H0) (vtimesH n Hd) in
  Ret (times3 (el (fst D)) (times3 T Ecu), times3 (el (snd D)) (times3 T Kcu)).
End Element.

(* KirchhoffLoveShell::evalSol, l.259-275: surface stresses from the forces [s] and moments [sb];
   the surface isurf = -1 is labelled Bottom and isurf = 1 Top (l.391-395). *)
Definition surfaceStress (t : R) (s sb : nat -> R) (isurf : R) (i : nat) : R := (s i - isurf * sb i * 6 / t) / t.
