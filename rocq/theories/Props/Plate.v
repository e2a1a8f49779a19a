(** Kirchhoff-Love plates (C50, C54, C82, C83, C84). *)
From Coq Require Import List Arith Bool Reals Lra Lia.
From Coquelicot Require Import Coquelicot.
From Verif Require Import Lib.Base Lib.Writes Lib.Vec3 Spec.Plate Model.Plate Model.LineLoad Proofs.Plate Proofs.PlateLoad Proofs.LineLoad.
Import ListNotations.

(** ** C50.  [curvOf nen d2 w] are the second derivatives of the deflection with nodal values w,
    [bending] is the through-thickness integral of the layer energies (Spec/Plate.v). *)
Theorem C50_version1 : forall nen E nu T d2 detJxW EK w, 0 <= nu < 1/2 -> exists K U,
  evalK 2 E nu T d2 detJxW 1 EK = Ret K /\ bending E nu T (curvOf nen d2 w) U /\ quad nen K w = quad nen EK w + detJxW * U.
Proof. exact K1_energy. Qed.
Theorem C50_version2 : forall nen E nu T d2 detJxW EK w, 0 <= nu < 1/2 -> exists K,
  evalK 2 E nu T d2 detJxW 2 EK = Ret K /\ quad nen K w = quad nen EK w + detJxW * hessianForm (rigidity E nu T) (curvOf nen d2 w).
Proof. exact K2_energy. Qed.
Theorem C50_version3 : forall nen E nu T d2 detJxW EK w v, 0 <= nu < 1/2 -> v <> 1%nat -> v <> 2%nat -> exists K,
  evalK 2 E nu T d2 detJxW v EK = Ret K /\ quad nen K w = quad nen EK w + detJxW * laplaceForm (rigidity E nu T) (curvOf nen d2 w).
Proof. exact K3_energy. Qed.
Theorem C50_gaussian : forall E nu T c U, 0 <= nu < 1/2 -> bending E nu T c U ->
  U = laplaceForm (rigidity E nu T) c - 2 * (1 - nu) * rigidity E nu T * gaussian c /\
  U = hessianForm (rigidity E nu T) c + 2 * nu * rigidity E nu T * gaussian c.
Proof. exact bending_value. Qed.
Theorem C50_symmetric : forall nen E nu T d2 detJxW nsd v EK, nsd = 1%nat \/ nsd = 2%nat -> 0 <= nu < 1/2 -> symm nen EK ->
  exists K, evalK nsd E nu T d2 detJxW v EK = Ret K /\ symm nen K.
Proof. exact K_symm. Qed.
Theorem C50_nonneg : forall nen E nu T d2 detJxW v w, 0 <= nu < 1/2 -> 0 <= E -> 0 <= T -> 0 <= detJxW ->
  exists K, evalK 2 E nu T d2 detJxW v (fun _ _ => 0) = Ret K /\ 0 <= quad nen K w.
Proof. exact K_nonneg. Qed.
(** Only the linear deflections carry no energy in the full form. *)
Theorem C50_definite : forall E nu T c U, 0 <= nu < 1/2 -> 0 < E -> 0 < T -> bending E nu T c U -> U = 0 -> wxx c = 0 /\ wyy c = 0 /\ wxy c = 0.
Proof. exact bending_definite. Qed.
(** Case: one node with curvatures 1, 2 and twist 3; the twist energy tells the versions apart. *)
Example C50_case : let d2 (a i j : nat) := if (i =? j)%nat then INR i else 3 in let c := curvOf 1 d2 (fun _ => 1) in
  wxx c = 1 /\ wyy c = 2 /\ wxy c = 3 /\ hessianForm 1 c = 23 /\ laplaceForm 1 c = 9 /\ gaussian c = -7.
Proof. cbn. unfold hessianForm, laplaceForm, gaussian; cbn. repeat split; lra. Qed.

(** ** C54.  [total] sums the contributions of all elements; [Lu c a b] is the load integral along the
    grid line u = c from v = a to v = b, and [checker 2 c (a,b)], [checker 1 c (a,b)] are set up for a load
    along u = c and along v = c.  An interior line receives the whole load. *)
Theorem C54_interior_partial : forall Lu Lv us vs c a b, grid us -> grid vs -> (2 <= length us)%nat -> additive (Lu c) ->
  In c us -> In a vs -> In b vs -> a < b -> (exists l r, In l us /\ In r us /\ l < c /\ c < r) ->
  total (checker 2 c (a, b)) Lu Lv us vs = Lu c a b.
Proof. exact interior_NS. Qed.
Theorem C54_interior_EW_partial : forall Lu Lv us vs c a b, grid us -> grid vs -> (2 <= length vs)%nat -> additive (Lv c) ->
  In c vs -> In a us -> In b us -> a < b -> (exists l r, In l vs /\ In r vs /\ l < c /\ c < r) ->
  total (checker 1 c (a, b)) Lu Lv us vs = Lv c a b.
Proof. exact interior_EW. Qed.
(** On the patch boundary only one half arrives, whatever the load. *)
Theorem C54_boundary_partial : forall Lu Lv us vs c a b, grid us -> grid vs -> (2 <= length us)%nat -> additive (Lu c) ->
  In c us -> In a vs -> In b vs -> a < b -> c = hd 0 us \/ c = last us 0 ->
  total (checker 2 c (a, b)) Lu Lv us vs = Lu c a b / 2.
Proof. exact boundary_NS. Qed.
(** A line that is not a grid line loses the load altogether. *)
Theorem C54_off_grid_partial : forall Lu Lv us vs c a b, grid us -> ~ In c us -> a < b -> total (checker 2 c (a, b)) Lu Lv us vs = 0.
Proof. exact total_off. Qed.
Theorem C54_once_refuted : exists us vs c a b (L : R -> R -> R -> R), grid us /\ grid vs /\ additive (L c) /\ In c us /\ In a vs /\ In b vs /\ a < b /\
  total (checker 2 c (a, b)) L L us vs <> L c a b.
Proof. exact boundary_half. Qed.
Example C54_case : total (checker 2 1 (0, 2)) (fun _ a b => b - a) (fun _ a b => b - a) [0; 1; 2] [0; 1; 2] = 2.
Proof.
  assert (G : grid [0; 1; 2]) by (repeat constructor; lra). rewrite C54_interior_partial; try exact G; cbn; try lia; try lra; auto.
  - split; intros; lra.
  - exists 0, 2. cbn. repeat split; try lra; auto.
Qed.

(** ** C82: recovered moments and shear forces *)
Theorem C82_moments : forall nen E nu T d2 w, 0 <= nu < 1/2 -> exists m, moments 2 nen E nu T d2 w = Ret m /\
  isMoments E nu T (curvOf nen d2 w) (m 1%nat) (m 2%nat) (m 3%nat).
Proof. exact moments_int. Qed.
(** Moment equilibrium: the recovered shear forces are the divergence of the recovered moments;
    [shifted d2 d3 dir h] are the second derivatives at distance h in direction dir. *)
Theorem C82_shear : forall nen E nu T d2 d3 w, 0 <= nu < 1/2 -> (forall a, d3 a 1%nat 2%nat 1%nat = d3 a 1%nat 1%nat 2%nat) -> (forall a, d3 a 1%nat 2%nat 2%nat = d3 a 2%nat 2%nat 1%nat) ->
  exists m, (forall dir h, moments 2 nen E nu T (shifted d2 d3 dir h) w = Ret (m dir h)) /\
  forall m11_1 m12_1 m12_2 m22_2,
  is_derive (fun h => m 1%nat h 1%nat) 0 m11_1 -> is_derive (fun h => m 1%nat h 3%nat) 0 m12_1 ->
  is_derive (fun h => m 2%nat h 3%nat) 0 m12_2 -> is_derive (fun h => m 2%nat h 2%nat) 0 m22_2 ->
  shear 2 nen E nu T d3 w 1 = m11_1 + m12_2 /\ shear 2 nen E nu T d3 w 2 = m12_1 + m22_2.
Proof. exact shear_equil. Qed.
(** The other two formulations recover the second derivatives of the deflection, and the same moments follow from them. *)
Theorem C82_derivatives : forall nen E nu T d2 w, 0 <= nu < 1/2 -> let s := laplacian nen d2 w in
  exists m, moments 2 nen E nu T d2 w = Ret m /\ isMoments E nu T (mkCurv (s 1%nat) (s 2%nat) (s 3%nat)) (m 1%nat) (m 2%nat) (m 3%nat) /\
  curvOf nen d2 w = mkCurv (s 1%nat) (s 2%nat) (s 3%nat).
Proof.
  intros nen E nu T d2 w Hn s. destruct (C82_moments nen E nu T d2 w Hn) as [m [E1 H]]. exists m.
  assert (Q : curvOf nen d2 w = mkCurv (s 1%nat) (s 2%nat) (s 3%nat)).
  { unfold curvOf, s, laplacian. f_equal; apply sumf_ext; intros; try ring. }
  rewrite <- Q. auto.
Qed.
Example C82_case : exists m, moments 2 1 12 0 1 (fun _ i j => if (i =? j)%nat then 1 else 0) (fun _ => 1) = Ret m /\ m 1%nat = -1 /\ m 3%nat = 0.
Proof.
  destruct (moments_closed 1 12 0 1 (fun _ i j => if (i =? j)%nat then 1 else 0) (fun _ => 1) ltac:(lra)) as [m [E [E1 [_ E3]]]]. exists m. split; [exact E|].
  rewrite E1, E3. unfold rigidity, curvOf; cbn. split; field.
Qed.

(** ** C83: resultants of distributed load and mass *)
Theorem C83_load : forall isZero npv nenod N p detJW (grd : bool) ES sl, npv = 1%nat \/ npv = 3%nat -> isZero p = false ->
  rows ES = (npv * nenod)%nat -> (1 <= cols ES)%nat -> rows sl = 0%nat \/ (npv <= rows sl)%nat -> (1 <= cols sl)%nat ->
  exists ES' sl', formBodyForce isZero npv nenod N p detJW grd ES sl = Ret (ES', sl') /\ rows sl' = rows sl /\
  (forall a i, (1 <= a <= nenod)%nat -> (1 <= i <= npv)%nat ->
     el ES' (dof npv a i) 1%nat = el ES (dof npv a i) 1%nat + N a * (vc p (if (npv =? 1)%nat then 3%nat else i) * detJW)) /\
  (forall i, (1 <= i <= npv)%nat -> (i <= rows sl)%nat ->
     el sl' i 1%nat = el sl i 1%nat + (if grd then 0 else vc p (if (npv =? 1)%nat then 3%nat else i) * detJW)).
Proof. exact body_force. Qed.
Theorem C83_pressure : forall isZero rho g t press n (grd : bool),
  getPressure isZero rho g t press n grd = vadd (V 0 0 (if grd then 0 else rho * g * t)) (vscal (sumL (fun f => f) press) (if isZero n then V 0 0 1 else n)).
Proof. exact pressure_sum. Qed.
Theorem C83_kinetic : forall npv nenod N rho t dj EM, npv = 1%nat \/ npv = 3%nat -> rows EM = (npv * nenod)%nat -> cols EM = (npv * nenod)%nat ->
  exists EM', formMassMatrix npv nenod N rho t dj EM = Ret EM' /\ forall v,
  quad (npv * nenod) (el EM') v = quad (npv * nenod) (el EM) v + rho * t * dj * sumf npv (fun i => sumf nenod (fun a => N a * v (dof npv a i)) ^ 2).
Proof. exact mass_quad. Qed.
(** The nodal loads add up to the reported total when the shape functions do. *)
Theorem C83_resultant : forall isZero npv nenod N p detJW ES sl, npv = 1%nat \/ npv = 3%nat -> isZero p = false ->
  rows ES = (npv * nenod)%nat -> (1 <= cols ES)%nat -> (npv <= rows sl)%nat -> (1 <= cols sl)%nat -> sumf nenod N = 1 ->
  exists ES' sl', formBodyForce isZero npv nenod N p detJW false ES sl = Ret (ES', sl') /\
  forall i, (1 <= i <= npv)%nat -> sumf nenod (fun a => el ES' (dof npv a i) 1%nat - el ES (dof npv a i) 1%nat) = el sl' i 1%nat - el sl i 1%nat.
Proof. exact load_resultant. Qed.
Example C83_case : sumf 2 (fun _ => 1 / 2) = 1 /\ (fun v : v3 => false) (V 0 0 1) = false.
Proof. cbn. split; [lra|reflexivity]. Qed.

(** ** C84: the one-dimensional plate *)
Theorem C84_version1_partial : forall nen E nu T d2 detJxW EK w, exists K U,
  evalK 1 E nu T d2 detJxW 1 EK = Ret K /\ bendingBeam E T (wxx (curvOf nen d2 w)) U /\ quad nen K w = quad nen EK w + detJxW * U.
Proof. exact K1_beam. Qed.
Theorem C84_others_partial : forall nen E nu T d2 detJxW EK w v, 0 <= nu < 1/2 -> v <> 1%nat -> exists K,
  evalK 1 E nu T d2 detJxW v EK = Ret K /\ quad nen K w = quad nen EK w + detJxW * (rigidity E nu T * wxx (curvOf nen d2 w) ^ 2).
Proof. exact K2_beam. Qed.
Theorem C84_same_refuted : exists E nu T d2 K1 K2, 0 <= nu < 1/2 /\ evalK 1 E nu T d2 1 1 (fun _ _ => 0) = Ret K1 /\ evalK 1 E nu T d2 1 2 (fun _ _ => 0) = Ret K2 /\
  K1 1%nat 1%nat <> K2 1%nat 1%nat.
Proof. exact beam_versions. Qed.

Print Assumptions C50_version1.
Print Assumptions C50_version2.
Print Assumptions C50_version3.
Print Assumptions C50_gaussian.
Print Assumptions C50_symmetric.
Print Assumptions C50_nonneg.
Print Assumptions C50_definite.
Print Assumptions C54_interior_partial.
Print Assumptions C54_interior_EW_partial.
Print Assumptions C54_boundary_partial.
Print Assumptions C54_off_grid_partial.
Print Assumptions C54_once_refuted.
Print Assumptions C82_moments.
Print Assumptions C82_shear.
Print Assumptions C82_derivatives.
Print Assumptions C83_load.
Print Assumptions C83_pressure.
Print Assumptions C83_kinetic.
Print Assumptions C83_resultant.
Print Assumptions C84_version1_partial.
Print Assumptions C84_others_partial.
Print Assumptions C84_same_refuted.
