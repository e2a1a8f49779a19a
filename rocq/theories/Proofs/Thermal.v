From Coq Require Import FunctionalExtensionality.
From Verif.Lib Require Import Base Sums.
From Verif.Spec Require Import Hooke Thermal.
From Verif.Model Require Import LinIsotropic Thermal.
From Verif.Proofs Require Import LinIsotropic.

Ltac open_t := unfold recovered, stress; open_c; cbv [sub_normal isnormal Nat.eqb Nat.leb andb negb orb].
Ltac open_s := cbv [thermo hooke trace symt lame1 lame2 kron Nat.eqb mv sumf].

Lemma thermal_1d E nu Eq eT e ps ax :
  exists s, recovered 1 ps ax E nu Eq eT e = Ret (s, None) /\ s 1%nat = E * (e 1%nat - eT).
Proof. destruct ps, ax; open_t; eexists; (split; [reflexivity|]); cbv [mv sumf]; ring. Qed.

Lemma thermal_3d E nu Eq eT (e : nat -> R) ps ax :
  0 <= nu < 1/2 ->
  exists s, recovered 3 ps ax E nu Eq eT e = Ret (s, None) /\
    let T := thermo E nu eT
               (symt (e 1%nat) (e 2%nat) (e 3%nat) (e 4%nat / 2) (e 5%nat / 2) (e 6%nat / 2)) in
    s 1%nat = T 1%nat 1%nat /\ s 2%nat = T 2%nat 2%nat /\ s 3%nat = T 3%nat 3%nat /\
    s 4%nat = T 1%nat 2%nat /\ s 5%nat = T 2%nat 3%nat /\ s 6%nat = T 1%nat 3%nat.
Proof.
  intros Hn.
  destruct ps, ax; open_t; eexists; (split; [reflexivity|]); open_s; repeat split; field; lra.
Qed.

Lemma thermal_pstress E nu Eq eT (e : nat -> R) :
  0 <= nu < 1/2 -> 0 < E ->
  exists s, recovered 2 true false E nu Eq eT e = Ret (s, None) /\
    forall ezz,
    let T := thermo E nu eT (symt (e 1%nat) (e 2%nat) ezz (e 3%nat / 2) 0 0) in
    T 3%nat 3%nat = 0 ->
    s 1%nat = T 1%nat 1%nat /\ s 2%nat = T 2%nat 2%nat /\ s 3%nat = T 1%nat 2%nat.
Proof.
  intros Hn HE.
  destruct (stress_pstress E nu (sub_normal 2 false e eT) false Hn) as (s & Hs & HT).
  exists s. split; [unfold recovered; cbn [Nat.eqb andb orb negb]; rewrite Hs; reflexivity|].
  intros ezz. cbn zeta in HT. specialize (HT (ezz - eT)).
  revert HT. open_s. cbv [sub_normal isnormal Nat.eqb Nat.leb andb]. intros HT Hz.
  destruct HT as (h1 & h2 & h3); [|exact HE|].
  - rewrite <- Hz. ring.
  - rewrite h1, h2, h3. repeat split; ring.
Qed.

Lemma thermal_axi E nu Eq eT (e : nat -> R) :
  0 <= nu < 1/2 ->
  exists s, recovered 2 true true E nu Eq eT e = Ret (s, None) /\
    let T := thermo E nu eT (symt (e 1%nat) (e 2%nat) (e 3%nat) (e 4%nat / 2) 0 0) in
    s 1%nat = T 1%nat 1%nat /\ s 2%nat = T 2%nat 2%nat /\ s 3%nat = T 3%nat 3%nat /\
    s 4%nat = T 1%nat 2%nat.
Proof.
  intros Hn. open_t; eexists; (split; [reflexivity|]); open_s; repeat split; field; lra.
Qed.

(** Plane strain: the in-plane stress misses the term of the constrained out-of-plane expansion. *)
Lemma thermal_pstrain_error E nu Eq eT (e : nat -> R) :
  0 <= nu < 1/2 ->
  exists s z, recovered 2 false false E nu Eq eT e = Ret (s, Some z) /\
    let T := thermo E nu eT (symt (e 1%nat) (e 2%nat) 0 (e 3%nat / 2) 0 0) in
    s 1%nat = T 1%nat 1%nat + lame1 E nu * eT /\ s 2%nat = T 2%nat 2%nat + lame1 E nu * eT /\
    s 3%nat = T 1%nat 2%nat.
Proof.
  intros Hn. open_t; do 2 eexists; (split; [reflexivity|]); open_s; repeat split; field; lra.
Qed.

(** Axisymmetric with isPlaneStrain(): hoop stress is off by E*eT. *)
Lemma thermal_axi_error E nu eT (e : nat -> R) :
  0 <= nu < 1/2 ->
  exists s, recovered 2 false true E nu E eT e = Ret (s, None) /\
    let T := thermo E nu eT (symt (e 1%nat) (e 2%nat) (e 3%nat) (e 4%nat / 2) 0 0) in
    s 3%nat = T 3%nat 3%nat - E * eT.
Proof.
  intros Hn. open_t; eexists; (split; [reflexivity|]); open_s; repeat split; field; lra.
Qed.

(** Discrete consistency: internal force of the recovered stress = K u - S_thermal. *)
Lemma bt_c_linear n (C B : nat -> nat -> R) nd (u : nat -> R) (e0 : nat -> R) a :
  sumf n (fun r => B r a * mv n C (fun i => mv nd B u i - e0 i) r) =
  sumf nd (fun b => sumf n (fun r => B r a * sumf n (fun q => C r q * B q b)) * u b)
  - sumf n (fun r => B r a * mv n C e0 r).
Proof.
  transitivity (sumf n (fun r => B r a * mv n C (mv nd B u) r) - sumf n (fun r => B r a * mv n C e0 r)).
  - rewrite <- sumf_minus. apply sumf_ext; intros r _. unfold mv at 1 3 5.
    rewrite <- Rmult_minus_distr_l. f_equal. rewrite <- sumf_minus. apply sumf_ext; intros; ring.
  - f_equal.
    transitivity (sumf nd (fun b => sumf n (fun r => B r a * sumf n (fun q => C r q * B q b) * u b))).
    + rewrite sumf_swap. apply sumf_ext; intros r _.
      transitivity (B r a * sumf nd (fun b => sumf n (fun q => C r q * B q b) * u b)).
      2:{ rewrite <- sumf_scal. apply sumf_ext; intros; ring. }
      f_equal. unfold mv.
      transitivity (sumf n (fun q => sumf nd (fun b => C r q * B q b * u b))).
      { apply sumf_ext; intros q _. rewrite <- sumf_scal. apply sumf_ext; intros; ring. }
      rewrite sumf_swap. apply sumf_ext; intros b _. rewrite <- sumf_scal_r. reflexivity.
    + apply sumf_ext; intros b _. rewrite <- sumf_scal_r. reflexivity.
Qed.

Lemma thermal_consistent nsd ps ax E nu Eq eT B nd u detJW :
  dim_ok nsd -> 0 <= nu < 1/2 -> (ax = true -> ps = true) ->
  exists C s z, cmatrix nsd ps ax false E nu = Ret C /\
    recovered nsd ps ax E nu Eq eT (mv nd B u) = Ret (s, z) /\
    forall a, sumf (nst nsd ax) (fun r => B r a * s r) * detJW =
      sumf nd (fun b => sumf (nst nsd ax) (fun r => B r a * sumf (nst nsd ax) (fun q => el C r q * B q b)) * u b) * detJW
      - thermal_load nsd ax (el C) B eT detJW a.
Proof.
  intros Hd Hn Hax.
  destruct (cmatrix_total nsd ps ax false E nu Hd Hn) as (C & HC & _).
  unfold recovered, stress. rewrite HC. cbn [bind].
  assert (Hf : forall a, sumf (nst nsd ax) (fun r => B r a * mv (nst nsd ax) (el C) (sub_normal nsd ax (mv nd B u) eT) r) * detJW =
      sumf nd (fun b => sumf (nst nsd ax) (fun r => B r a * sumf (nst nsd ax) (fun q => el C r q * B q b)) * u b) * detJW
      - thermal_load nsd ax (el C) B eT detJW a).
  { intros a.
    rewrite (sumf_ext _ _ (fun r => B r a * mv (nst nsd ax) (el C) (fun i => mv nd B u i - (if isnormal nsd ax i then eT else 0)) r)).
    2:{ intros r _. f_equal. unfold mv at 1 3. apply sumf_ext; intros q _. f_equal.
        unfold sub_normal. destruct (isnormal nsd ax q); ring. }
    rewrite bt_c_linear, Rmult_minus_distr_r. f_equal.
    unfold thermal_load. rewrite <- sumf_scal_r. apply sumf_ext; intros r _.
    rewrite Rmult_assoc. f_equal. unfold mv. rewrite <- sumf_scal_r. apply sumf_ext; intros q _.
    destruct (isnormal nsd ax q); ring. }
  dims Hd; destruct ps, ax; try (discriminate (Hax eq_refl)); cbn [Nat.eqb andb negb orb bind];
    do 3 eexists; (split; [reflexivity|]); (split; [reflexivity|]); exact Hf.
Qed.

(** A heated body: 80 K, alpha=1.2e-5, in each of the modes covered. *)
Example thermal_nonzero : thermal_strain (Some 100) (Some 20) (fun _ => 12/1000000) <> 0 /\ 0 <= 3/10 < 1/2.
Proof. cbn. split; [|split]; lra. Qed.

Lemma pstrain_refuted : forall E nu eT (e : nat -> R),
  0 < E -> 0 < nu < 1/2 -> eT <> 0 ->
  exists s z, recovered 2 false false E nu E eT e = Ret (s, Some z) /\
    s 1%nat <> thermo E nu eT (symt (e 1%nat) (e 2%nat) 0 (e 3%nat / 2) 0 0) 1%nat 1%nat.
Proof.
  intros E nu eT e HE Hn Ht.
  destruct (thermal_pstrain_error E nu E eT e) as (s & z & H & h1 & _); [lra|].
  exists s, z. split; [exact H|]. rewrite h1. intros Hc.
  assert (H0 : lame1 E nu * eT = 0) by lra.
  apply Rmult_integral in H0 as [H0|H0]; [|contradiction].
  unfold lame1 in H0. assert (0 < E * nu / ((1 + nu) * (1 - 2 * nu))); [|lra].
  apply Rdiv_lt_0_compat; nra.
Qed.

Lemma axi_refuted : forall E nu eT, 0 < E -> 0 <= nu < 1/2 -> eT <> 0 ->
  exists s, recovered 2 false true E nu E eT (fun i => if (i <=? 3)%nat then eT else 0) = Ret (s, None) /\ s 3%nat <> 0.
Proof.
  intros E nu eT HE Hn Ht.
  destruct (thermal_axi_error E nu eT (fun i => if (i <=? 3)%nat then eT else 0) Hn) as (s & H & h3).
  exists s. split; [exact H|]. rewrite h3. cbv [thermo hooke trace symt lame1 lame2 kron Nat.eqb Nat.leb].
  replace (_ - E * eT) with (- (E * eT)) by (field; lra). nra.
Qed.

(** Free expansion from the reference temperature. *)
Lemma free_expansion E nu Eq alpha T T0 nsd ps ax (e : nat -> R) : 0 <= nu < 1/2 -> (1 <= nsd <= 3)%nat -> (nsd = 2%nat -> ps = true) ->
  (forall i, (1 <= i <= nst nsd ax)%nat -> e i = if isnormal nsd ax i then alpha T * (T - match T0 with Some t => t | None => 0 end) else 0) ->
  exists s, recovered nsd ps ax E nu Eq (thermal_strain (Some T) T0 alpha) e = Ret (s, None) /\
    forall i, (1 <= i <= nst nsd ax)%nat -> s i = 0.
Proof.
  intros Hn Hd Hp He. unfold thermal_strain. set (eT := alpha T * _) in *. clearbody eT.
  assert (Z : forall i, (1 <= i <= nst nsd ax)%nat -> sub_normal nsd ax e eT i = 0).
  { intros i Hi. unfold sub_normal. rewrite (He i Hi). destruct (isnormal nsd ax i); ring. }
  assert (C : nsd = 1%nat \/ nsd = 2%nat \/ nsd = 3%nat) by lia.
  assert (V : forall C, mv (nst nsd ax) C (sub_normal nsd ax e eT) = fun i => 0).
  { intros M. apply functional_extensionality. intros i. unfold mv. apply sumf_0. intros j Hj. rewrite Z by exact Hj. ring. }
  destruct C as [->|[->| ->]]; [| rewrite (Hp eq_refl) |]; destruct ax; try destruct ps; unfold recovered, stress; open_c; rewrite V;
    cbv [Nat.eqb andb negb orb]; eexists; (split; [reflexivity|reflexivity]).
Qed.

(** Plane strain: the recovered stresses satisfy the plane strain condition of thermo-elasticity. *)
Lemma pstrain_zz E nu eT (e : nat -> R) : 0 <= nu < 1/2 -> E <> 0 ->
  exists s z, recovered 2 false false E nu E eT e = Ret (s, Some z) /\
    (z - nu * (s 1%nat + s 2%nat)) / E + eT = 0 /\ s 3%nat = lame2 E nu * e 3%nat.
Proof. intros Hn HE. open_t; do 2 eexists; (split; [reflexivity|]); open_s; split; field; lra. Qed.
