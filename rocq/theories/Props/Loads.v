(** Resultants of boundary stresses (C130), and agreement of nodal loads, total load and external energy (C131). *)
From Coq Require Import List Lia Lra.
From Verif.Lib Require Import Base Sums Vec3 Tensor3.
From Verif.Spec Require Import Loads.
From Verif.Model Require Import Loads.
From Verif.Proofs Require Import Loads.
Import ListNotations.
Local Open Scope R_scope.

(** ** C130 *)
(** Force and moment of the tractions on the boundary. *)
Definition pointForce (q : bpoint) : v3 := vscal (ipJW (bip q)) (cauchyTraction (bsig q) (ipn (bip q))).
Definition pointMoment (x0 : v3) (q : bpoint) : v3 := vcross (vsub (ipX (bip q)) x0) (pointForce q).

Theorem C130_space_partial : forall x0 l,
  (forall k, (k < 3)%nat -> boundaryForce false 3 (Some x0) l k = vc (vsum pointForce l) (S k)) /\
  (forall k, (k < 3)%nat -> boundaryForce false 3 (Some x0) l (3 + k) = vc (vsum (pointMoment x0) l) (S k)) /\
  (forall k, (k < 3)%nat -> boundaryForce false 3 None l k = vc (vsum pointForce l) (S k)) /\
  noComps 3 (Some x0) = 6%nat /\ noComps 3 None = 3%nat /\
  (forall k, (6 <= k)%nat -> boundaryForce false 3 (Some x0) l k = 0) /\ (forall k, (3 <= k)%nat -> boundaryForce false 3 None l k = 0).
Proof.
  assert (Fo : forall X0 l k, (k < 3)%nat -> boundaryForce false 3 X0 l k = vc (vsum pointForce l) (S k)).
  { intros X0 l k K. rewrite vsum_c. apply sumL_ext. intros q _. unfold forceEntry. destruct (Nat.ltb_spec k 3); [|lia].
    rewrite (traction_cauchy 3 q (or_introl eq_refl)) by lia. unfold pointForce. destruct k as [|[|[|k]]]; [| | |lia]; cbn; ring. }
  intros x0 l. split; [|split; [|split; [|split; [|split; [|split]]]]]; try reflexivity.
  - intros k K. apply Fo, K.
  - intros k K. rewrite vsum_c. apply sumL_ext. intros q _. unfold forceEntry. destruct (Nat.ltb_spec (3 + k) 3); [lia|].
    cbn [Nat.eqb]. destruct (Nat.ltb_spec (3 + k) (2 * 3)); [|lia]. replace (3 + k - 3)%nat with k by lia.
    assert (E : tractionOf false 3 q = cauchyTraction (bsig q) (ipn (bip q))).
    { apply v_ext; [apply (traction_cauchy 3 q (or_introl eq_refl) 1)|apply (traction_cauchy 3 q (or_introl eq_refl) 2)|apply (traction_cauchy 3 q (or_introl eq_refl) 3)]; lia. }
    rewrite E. unfold pointMoment, pointForce. destruct k as [|[|[|k]]]; [| | |lia]; unfold vcross, vscal; cbn [vc vx vy vz]; ring.
  - intros k K. apply Fo, K.
  - intros k K. unfold boundaryForce. rewrite <- (sumL_zero l). apply sumL_ext. intros q _. unfold forceEntry. destruct (Nat.ltb_spec k 3); [lia|]. cbn [Nat.eqb]. destruct (Nat.ltb_spec k (2 * 3)); [lia|reflexivity].
  - intros k K. unfold boundaryForce. rewrite <- (sumL_zero l). apply sumL_ext. intros q _. unfold forceEntry. destruct (Nat.ltb_spec k 3); [lia|reflexivity].
Qed.
Print Assumptions C130_space_partial.
Theorem C130_plane_partial : forall x0 l, (forall q, In q l -> vz (ipn (bip q)) = 0 /\ bsig q 3%nat 1%nat = 0 /\ bsig q 3%nat 2%nat = 0) ->
  (forall k X0, (k < 2)%nat -> boundaryForce false 2 X0 l k = vc (vsum pointForce l) (S k)) /\
  boundaryForce false 2 (Some x0) l 2 = vz (vsum (pointMoment x0) l) /\
  noComps 2 (Some x0) = 3%nat /\ noComps 2 None = 2%nat /\
  (forall k, (3 <= k)%nat -> boundaryForce false 2 (Some x0) l k = 0) /\ (forall k, (2 <= k)%nat -> boundaryForce false 2 None l k = 0).
Proof.
  intros x0 l Hz. split; [|split; [|split; [|split; [|split]]]]; try reflexivity.
  - intros k X0 K. rewrite vsum_c. apply sumL_ext. intros q Q. unfold forceEntry. destruct (Nat.ltb_spec k 2); [|lia].
    rewrite (traction_cauchy 2 q) by (try (right; split; [reflexivity|apply Hz, Q]); lia). unfold pointForce. destruct k as [|[|k]]; [| |lia]; cbn; ring.
  - change (vz (vsum (pointMoment x0) l)) with (vc (vsum (pointMoment x0) l) 3). rewrite vsum_c. apply sumL_ext. intros q Q. unfold forceEntry. cbn [Nat.ltb Nat.leb Nat.eqb].
    destruct (Hz q Q) as (Z & _).
    pose proof (traction_cauchy 2 q (or_intror (conj eq_refl Z)) 1 ltac:(lia)) as T1. pose proof (traction_cauchy 2 q (or_intror (conj eq_refl Z)) 2 ltac:(lia)) as T2. cbn [vc] in T1, T2.
    unfold pointMoment, pointForce, vcross, vscal. cbn [vc vx vy vz]. rewrite T1, T2. ring.
  - intros k K. unfold boundaryForce. rewrite <- (sumL_zero l). apply sumL_ext. intros q _. unfold forceEntry. destruct (Nat.ltb_spec k 2); [lia|]. cbn [Nat.eqb]. destruct (Nat.eqb_spec k 2); [lia|reflexivity].
  - intros k K. unfold boundaryForce. rewrite <- (sumL_zero l). apply sumL_ext. intros q _. unfold forceEntry. destruct (Nat.ltb_spec k 2); [lia|reflexivity].
Qed.
Print Assumptions C130_plane_partial.
(** Nodal forces have the same resultant, and on an isoparametric boundary the same moment. *)
Theorem C130_nodal : forall nn l, (forall q, In q l -> sumf nn (ipN (bip q)) = 1) ->
  (forall i, (1 <= i <= 3)%nat -> sumf nn (fun a => nodalForce false 3 l a i) = vc (vsum pointForce l) i) /\
  (forall (x : nat -> v3) x0, (forall q i, In q l -> vc (ipX (bip q)) i = sumf nn (fun a => vc (x a) i * ipN (bip q) a)) ->
   forall i, (1 <= i <= 3)%nat ->
   sumf nn (fun a => vc (vcross (vsub (x a) x0) (V (nodalForce false 3 l a 1) (nodalForce false 3 l a 2) (nodalForce false 3 l a 3))) i) = vc (vsum (pointMoment x0) l) i).
Proof.
  intros nn l U.
  assert (TC : forall q i, (1 <= i <= 3)%nat -> vc (tractionOf false 3 q) i * ipJW (bip q) = vc (pointForce q) i).
  { intros q i I. rewrite (traction_cauchy 3 q (or_introl eq_refl)) by exact I. unfold pointForce. assert (i = 1 \/ i = 2 \/ i = 3)%nat as [->|[->| ->]] by lia; cbn; ring. }
  assert (NF : forall a i, (1 <= i <= 3)%nat -> nodalForce false 3 l a i = sumL (fun q => vc (pointForce q) i * ipN (bip q) a) l).
  { intros a i I. apply sumL_ext. intros q _. rewrite <- (TC q i I). ring. }
  split.
  - intros i I. rewrite (sumf_eq nn _ (fun a => sumL (fun q => vc (pointForce q) i * ipN (bip q) a) l)) by (intros; apply NF, I).
    rewrite sumf_sumL, vsum_c. apply sumL_ext. intros q Q. rewrite sumf_mul, (U q Q). ring.
  - intros x x0 Hx i I.
    set (W := fun (j k : nat) a q => (vc (x a) j - vc x0 j) * (vc (pointForce q) k * ipN (bip q) a)).
    assert (SW : forall j k, (1 <= k <= 3)%nat -> forall a, (vc (x a) j - vc x0 j) * nodalForce false 3 l a k = sumL (W j k a) l).
    { intros j k K a. rewrite (NF a k K). unfold W. clear. induction l as [|q r IH]; [unfold sumL; cbn; ring|].
      change ((vc (x a) j - vc x0 j) * (vc (pointForce q) k * ipN (bip q) a + sumL (fun q => vc (pointForce q) k * ipN (bip q) a) r) =
        (vc (x a) j - vc x0 j) * (vc (pointForce q) k * ipN (bip q) a) + sumL (fun q => (vc (x a) j - vc x0 j) * (vc (pointForce q) k * ipN (bip q) a)) r). rewrite <- IH. ring. }
    assert (SP : forall j k q, In q l -> sumf nn (fun a => W j k a q) = (vc (ipX (bip q)) j - vc x0 j) * vc (pointForce q) k).
    { intros j k q Q. unfold W. rewrite (Hx q j Q).
      rewrite (sumf_eq nn _ (fun a => vc (pointForce q) k * (vc (x a) j * ipN (bip q) a) + (- vc x0 j * vc (pointForce q) k) * ipN (bip q) a)) by (intros; ring).
      rewrite sumf_plus, !sumf_mul, (U q Q). ring. }
    assert (CR : forall j k, (1 <= j <= 3)%nat -> (1 <= k <= 3)%nat -> sumf nn (fun a => (vc (x a) j - vc x0 j) * nodalForce false 3 l a k - (vc (x a) k - vc x0 k) * nodalForce false 3 l a j) =
       sumL (fun q => (vc (ipX (bip q)) j - vc x0 j) * vc (pointForce q) k - (vc (ipX (bip q)) k - vc x0 k) * vc (pointForce q) j) l).
    { intros j k J K. rewrite (sumf_eq nn _ (fun a => sumL (W j k a) l + (-1) * sumL (W k j a) l)) by (intros; rewrite <- !SW by assumption; ring).
      rewrite sumf_plus, sumf_mul, !sumf_sumL.
      rewrite (sumL_ext (fun q => sumf nn (fun a => W j k a q)) (fun q => (vc (ipX (bip q)) j - vc x0 j) * vc (pointForce q) k)) by (intros; apply SP; assumption).
      rewrite (sumL_ext (fun q => sumf nn (fun a => W k j a q)) (fun q => (vc (ipX (bip q)) k - vc x0 k) * vc (pointForce q) j)) by (intros; apply SP; assumption).
      clear. induction l as [|q r IH]; [unfold sumL; cbn; ring|].
      match goal with |- sumL ?f (q :: r) + -1 * sumL ?g (q :: r) = sumL ?h (q :: r) => change (f q + sumL f r + -1 * (g q + sumL g r) = h q + sumL h r) end.
      rewrite <- IH. ring. }
    rewrite vsum_c. assert (i = 1 \/ i = 2 \/ i = 3)%nat as [->|[->| ->]] by lia.
    + exact (CR 2%nat 3%nat ltac:(lia) ltac:(lia)).
    + exact (CR 3%nat 1%nat ltac:(lia) ltac:(lia)).
    + exact (CR 1%nat 2%nat ltac:(lia) ltac:(lia)).
Qed.
Print Assumptions C130_nodal.
(** With strains requested as results, the "forces" are made of strains. *)
Theorem C130_strain_refuted : exists l, boundaryForce true 3 None l 0 <> vx (vsum pointForce l) /\ vx (vsum pointForce l) = 2.
Proof.
  exists [mkBp (fun i j => if (Nat.eqb i 1 && Nat.eqb j 1)%bool then 2 else 0) (fun i j => if (Nat.eqb i 1 && Nat.eqb j 1)%bool then 1 else 0) (mkIp vzero (fun _ => 1) 1 (V 1 0 0))].
  unfold boundaryForce, sumL, forceEntry, tractionOf. cbn. unfold vscal, vadd. cbn. split; lra.
Qed.
Print Assumptions C130_strain_refuted.
(** In an axisymmetric body the axial force on a ring of radius r is 2 pi r times the integral along its section; it is reported without this factor. *)
Theorem C130_axisymmetric_refuted : exists q, let r := vx (ipX (bip q)) in 0 < r /\
  boundaryForce false 2 None [q] 1 <> 2 * PI * r * vy (pointForce q) /\ 2 * PI * r * vy (pointForce q) = 2 * PI.
Proof.
  exists (mkBp (fun i j => if (Nat.eqb i 2 && Nat.eqb j 2)%bool then 1 else 0) (fun _ _ => 0) (mkIp (V 1 0 0) (fun _ => 1) 1 (V 0 1 0))).
  pose proof PI_RGT_0 as P0. pose proof PI2_1 as P1.
  unfold boundaryForce, sumL, forceEntry, tractionOf, pointForce, cauchyTraction, vscal. cbn. split; [lra|]. split; lra.
Qed.
Print Assumptions C130_axisymmetric_refuted.
(** A unit square face under tension and shear, one point: force (2,1,0)/..., moment about the origin. *)
Example C130_case : let q := mkBp (fun i j => if (Nat.eqb i 1 && Nat.eqb j 1)%bool then 2 else if Nat.eqb (i + j) 3 then 1 else 0) (fun _ _ => 0) (mkIp (V 1 2 0) (fun _ => 1/2) 1 (V 1 0 0)) in
  map (boundaryForce false 2 (Some vzero) [q]) [0; 1; 2]%nat = [2; 1; -3] /\ sumf 2 (ipN (bip q)) = 1.
Proof.
  cbv zeta. split; [|cbn; lra]. unfold boundaryForce, sumL, forceEntry, tractionOf, vcross, vsub. cbn. repeat f_equal; ring.
Qed.

(** ** C131 *)
Theorem C131_total_partial : forall p nn l b i, lax2 p = false -> (forall q, In q (l ++ b) -> sumf nn (ipN q) = 1) ->
  sumf nn (fun a => loadVector p l b a i) = totalLoad p l b i.
Proof. intros. apply total_load; assumption. Qed.
Print Assumptions C131_total_partial.
(** Body loads also in axisymmetric bodies. *)
Theorem C131_total_body : forall p nn l i, (forall q, In q l -> sumf nn (ipN q) = 1) -> sumf nn (fun a => loadVector p l [] a i) = totalLoad p l [] i.
Proof. intros. apply total_body; assumption. Qed.
Print Assumptions C131_total_body.
Theorem C131_total_axisymmetric_refuted : exists p q, lax2 p = true /\ 0 < vx (ipX q) /\ ipN q 1%nat = 1 /\
  sumf 1 (fun a => loadVector p [] [q] a 2) = 2 * PI /\ totalLoad p [] [q] 2 = 1.
Proof.
  exists (mkLd 2 true vzero (fun _ => 0) None (Some (fun _ _ => V 0 1 0)) (fun _ => false)), (mkIp (V 1 0 0) (fun _ => 1) 1 (V 0 1 0)).
  unfold loadVector, totalLoad, sumL, bouES, bouSum, traction, weight. cbn. repeat split; lra.
Qed.
Print Assumptions C131_total_axisymmetric_refuted.
(** The total of the distributed loads, per unit volume gravity times density and the body force, per unit area the traction. *)
Theorem C131_resultant_partial : forall p l b i, (1 <= i <= 3)%nat -> lax2 p = false ->
  (forall q, In q l -> isZero p (bodyforce p (ipX q)) = true -> bodyforce p (ipX q) = vzero) ->
  totalLoad p l b i =
  sumL (fun q => (dens p (ipX q) * vc (grav p) i + match body p with Some g => vc (g (ipX q)) i | None => 0 end) * ipJW q) l
  + sumL (fun q => match trac p with Some t => vc (t (ipX q) (ipn q)) i | None => 0 end * ipJW q) b.
Proof.
  intros p l b i I A Z. unfold totalLoad. f_equal; apply sumL_ext; intros q Q.
  - assert (F : (dens p (ipX q) * vc (grav p) i + match body p with Some g => vc (g (ipX q)) i | None => 0 end) = vc (bodyforce p (ipX q)) i).
    { unfold bodyforce. assert (i = 1 \/ i = 2 \/ i = 3)%nat as [->|[->| ->]] by lia; destruct (body p); cbn; ring. }
    rewrite F. unfold bodySum. cbv zeta. destruct (isZero p _) eqn:E.
    + rewrite (Z q Q E). assert (i = 1 \/ i = 2 \/ i = 3)%nat as [->|[->| ->]] by lia; cbn; ring.
    + unfold weight. rewrite A. assert (i = 1 \/ i = 2 \/ i = 3)%nat as [->|[->| ->]] by lia; cbn; ring.
  - unfold bouSum, traction. destruct (trac p); [reflexivity|]. assert (i = 1 \/ i = 2 \/ i = 3)%nat as [->|[->| ->]] by lia; cbn; ring.
Qed.
Print Assumptions C131_resultant_partial.
(** The external energy is the work of the nodal loads. *)
Theorem C131_energy_partial : forall p nn (U : nat -> nat -> R) l b, (ldim p = 2 \/ ldim p = 3)%nat ->
  (trac p <> None \/ body p <> None \/ dens p vzero <> 0 \/ forall X, dens p X = 0) ->
  (forall q, In q l -> isZero p (bodyforce p (ipX q)) = true -> bodyforce p (ipX q) = vzero) ->
  sumf nn (fun a => sumf (ldim p) (fun i => loadVector p l b a i * U a i)) = externalEnergy p nn U l b.
Proof. intros. apply energy_work; assumption. Qed.
Print Assumptions C131_energy_partial.
(** Gravity with a density which is zero at the origin: the loads act, but the energy is not accounted for. *)
Theorem C131_energy_density_refuted : exists p q (U : nat -> nat -> R), (forall v, isZero p v = true -> v = vzero) /\
  sumf 1 (fun a => sumf (ldim p) (fun i => loadVector p [q] [] a i * U a i)) = 1 /\ externalEnergy p 1 U [q] [] = 0.
Proof.
  exists (mkLd 2 false (V 0 1 0) (fun X => vx X) None None (fun _ => false)), (mkIp (V 1 0 0) (fun _ => 1) 1 vzero), (fun _ _ => 1).
  split; [discriminate|]. unfold loadVector, externalEnergy, sumL, bodyES, bodyEnergy, haveLoads, weight, bodyforce, vscal. cbn.
  destruct (Req_EM_T 0 0); [|lra]. destruct (Req_EM_T 1 0); [lra|]. split; lra.
Qed.
Print Assumptions C131_energy_density_refuted.
(** Body loads below the tolerance of Vec3::isZero (1e-6, whatever the units) are left out of the load vector, but not of the energy. *)
Theorem C131_small_refuted : exists tol p q (U : nat -> nat -> R), 0 < tol /\ (forall v, isZero p v = true <-> Rabs (vx v) < tol /\ Rabs (vy v) < tol /\ Rabs (vz v) < tol) /\
  vy (bodyforce p (ipX q)) <> 0 /\ loadVector p [q] [] 1 2 = 0 /\ externalEnergy p 1 U [q] [] <> 0.
Proof.
  set (t := 1 / 1000000).
  set (z := fun v => if Rlt_dec (Rabs (vx v)) t then if Rlt_dec (Rabs (vy v)) t then if Rlt_dec (Rabs (vz v)) t then true else false else false else false).
  assert (A0 : Rabs (1 * 0) = 0) by (rewrite Rmult_0_r; apply Rabs_R0).
  assert (A1 : Rabs (1 * (t / 2)) = t / 2) by (rewrite Rmult_1_l; apply Rabs_right; unfold t; lra).
  exists t, (mkLd 2 false (V 0 (t / 2) 0) (fun X => 1) None None z), (mkIp (V 1 0 0) (fun _ => 1) 1 vzero), (fun _ _ => 1).
  split; [unfold t; lra|]. split; [|split; [|split]].
  - intros v. cbn [isZero]. unfold z. destruct (Rlt_dec (Rabs (vx v)) t), (Rlt_dec (Rabs (vy v)) t), (Rlt_dec (Rabs (vz v)) t); split; try tauto; discriminate.
  - unfold bodyforce, vscal. cbn. unfold t. lra.
  - unfold loadVector, sumL, bodyES, bodyforce, vscal. cbn [fold_right body dens grav vx vy vz ipX]. cbv zeta. cbn [isZero]. unfold z. cbn [vx vy vz]. rewrite A0, A1.
    destruct (Rlt_dec 0 t); [|unfold t in *; lra]. destruct (Rlt_dec (t / 2) t); [|unfold t in *; lra]. ring.
  - unfold externalEnergy, sumL, bodyEnergy, haveLoads, weight, bodyforce, vscal, dispAt. cbn. destruct (Req_EM_T 0 0); [|lra].
    destruct (Req_EM_T (t / 2) 0); [unfold t in *; lra|]. destruct (Req_EM_T 1 0); [lra|]. unfold vdot. cbn. unfold t. lra.
Qed.
Print Assumptions C131_small_refuted.
(** A body under gravity and with a traction meets the hypotheses. *)
Example C131_case : let p := mkLd 2 false (V 0 (-10) 0) (fun _ => 2) None (Some (fun _ n => n)) (fun _ => false) in let q := mkIp (V 1 1 0) (fun _ => 1/2) 3 (V 1 0 0) in
  (forall r, In r ([q] ++ [q]) -> sumf 2 (ipN r) = 1) /\ totalLoad p [q] [q] 1 = 3 /\ totalLoad p [q] [q] 2 = -60.
Proof.
  cbv zeta. split; [intros r [<-|[<-|[]]]; cbn; lra|]. unfold totalLoad, sumL, bodySum, bouSum, traction, weight, bodyforce, vscal. cbn. split; lra.
Qed.
