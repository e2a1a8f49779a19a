(** Properties C01-C06: the linear isotropic material. *)
From Coq Require Import SpecFloat.
From Verif.Lib Require Import Base.
From Verif.Spec Require Import Hooke Thermal.
From Verif.Model Require Import LinIsotropic Thermal NuGuard.
From Verif.Proofs Require Import LinIsotropic Thermal NuGuard.

Theorem C01_stiffness_spd : forall nsd ps ax E nu,
  (1 <= nsd <= 3)%nat -> 0 < E -> 0 <= nu < 1/2 ->
  exists C, cmatrix nsd ps ax false E nu = Ret C /\
    rows C = nst nsd ax /\ cols C = nst nsd ax /\
    symm (nst nsd ax) (el C) /\
    (forall x, vnz (nst nsd ax) x -> 0 < quad (nst nsd ax) (el C) x).
Proof. exact stiffness_spd. Qed.
Print Assumptions C01_stiffness_spd.

Theorem C02_inverse : forall nsd ps ax E nu,
  (1 <= nsd <= 3)%nat -> 0 < E -> 0 <= nu < 1/2 ->
  exists C D, cmatrix nsd ps ax false E nu = Ret C /\ cmatrix nsd ps ax true E nu = Ret D /\
    rows C = rows D /\ cols C = cols D /\
    forall i j, (1 <= i <= rows C)%nat -> (1 <= j <= cols C)%nat ->
      mm (rows C) (el C) (el D) i j = kron i j /\ mm (rows C) (el D) (el C) i j = kron i j.
Proof. exact inverse_ok. Qed.
Print Assumptions C02_inverse.

Theorem C03_hooke_3d : forall E nu (e : nat -> R) ps ax sig4, 0 <= nu < 1/2 ->
  exists s, stress 3 ps ax sig4 E nu e = Ret (s, None) /\
    let T := hooke (lame1 E nu) (lame2 E nu)
               (symt (e 1%nat) (e 2%nat) (e 3%nat) (e 4%nat / 2) (e 5%nat / 2) (e 6%nat / 2)) in
    s 1%nat = T 1%nat 1%nat /\ s 2%nat = T 2%nat 2%nat /\ s 3%nat = T 3%nat 3%nat /\
    s 4%nat = T 1%nat 2%nat /\ s 5%nat = T 2%nat 3%nat /\ s 6%nat = T 1%nat 3%nat.
Proof. exact stress_3d. Qed.
Print Assumptions C03_hooke_3d.

Theorem C03_hooke_axisymmetric : forall E nu (e : nat -> R) ps sig4, 0 <= nu < 1/2 ->
  exists s, stress 2 ps true sig4 E nu e = Ret (s, None) /\
    let T := hooke (lame1 E nu) (lame2 E nu)
               (symt (e 1%nat) (e 2%nat) (e 3%nat) (e 4%nat / 2) 0 0) in
    s 1%nat = T 1%nat 1%nat /\ s 2%nat = T 2%nat 2%nat /\ s 3%nat = T 3%nat 3%nat /\
    s 4%nat = T 1%nat 2%nat.
Proof. exact stress_axi. Qed.
Print Assumptions C03_hooke_axisymmetric.

Theorem C03_hooke_plane_strain : forall E nu (e : nat -> R) sig4, 0 <= nu < 1/2 ->
  exists s z, stress 2 false false sig4 E nu e = Ret (s, z) /\
    let T := hooke (lame1 E nu) (lame2 E nu)
               (symt (e 1%nat) (e 2%nat) 0 (e 3%nat / 2) 0 0) in
    s 1%nat = T 1%nat 1%nat /\ s 2%nat = T 2%nat 2%nat /\ s 3%nat = T 1%nat 2%nat /\
    z = (if sig4 then Some (T 3%nat 3%nat) else None).
Proof. exact stress_pstrain. Qed.
Print Assumptions C03_hooke_plane_strain.

Theorem C03_hooke_plane_stress : forall E nu (e : nat -> R) sig4, 0 <= nu < 1/2 ->
  exists s, stress 2 true false sig4 E nu e = Ret (s, None) /\
    forall ezz,
    let T := hooke (lame1 E nu) (lame2 E nu)
               (symt (e 1%nat) (e 2%nat) ezz (e 3%nat / 2) 0 0) in
    T 3%nat 3%nat = 0 -> 0 < E ->
    s 1%nat = T 1%nat 1%nat /\ s 2%nat = T 2%nat 2%nat /\ s 3%nat = T 1%nat 2%nat.
Proof. exact stress_pstress. Qed.
Print Assumptions C03_hooke_plane_stress.

Theorem C03_hooke_1d : forall E nu (e : nat -> R) ps ax sig4,
  exists s, stress 1 ps ax sig4 E nu e = Ret (s, None) /\ s 1%nat = E * e 1%nat.
Proof. exact stress_1d. Qed.
Print Assumptions C03_hooke_1d.

Theorem C03_lame : forall E nu, 0 <= nu < 1/2 -> lame E nu = Ret (lame1 E nu, lame2 E nu).
Proof. exact lame_spec. Qed.
Print Assumptions C03_lame.

(** C04.  Full statement: [forall nu, binary64 nu -> (evaluate_ok nsd nu = true <-> admissible nu)] for nsd 2,3.
    False: NaN passes the guard. *)
Theorem C04_nan_refuted : exists nu, binary64 nu /\ ~ admissible nu /\
  (forall nsd, evaluate_ok nsd nu = true) /\ lame_ok nu = true.
Proof. exact nan_refuted. Qed.
Print Assumptions C04_nan_refuted.

Theorem C04_guard_partial : forall nsd nu, (2 <= nsd)%nat -> binary64 nu -> nu <> S754_nan ->
  (evaluate_ok nsd nu = true <-> admissible nu) /\ (lame_ok nu = true <-> admissible nu).
Proof. exact guard_partial. Qed.
Print Assumptions C04_guard_partial.

(** C05.  Full statement: getStiffness = E_evaluate for every source.  False with a stiffness field. *)
Theorem C05_field_refuted : exists (s : Esource R) X age, 0 < E_evaluate s X age /\ getStiffness s X age < 0.
Proof. exact queries_field_differ. Qed.
Print Assumptions C05_field_refuted.

Theorem C05_queries_partial : forall Pt (s : Esource Pt) X age nu t, Efield s = None ->
  getStiffness s X age = E_evaluate s X age /\
  getPlateStiffness s nu X t age = E_evaluate s X age * t^3 / (12 * (1 - nu^2)).
Proof. exact @queries_agree_no_field. Qed.
Print Assumptions C05_queries_partial.

(** C06.  Full statement: recovered stress = [thermo] in every mode.  False in plane strain, and in axisymmetric
    mode when the material is not flagged plane stress. *)
Theorem C06_plane_strain_refuted : forall E nu eT (e : nat -> R),
  0 < E -> 0 < nu < 1/2 -> eT <> 0 ->
  exists s z, recovered 2 false false E nu E eT e = Ret (s, Some z) /\
    s 1%nat <> thermo E nu eT (symt (e 1%nat) (e 2%nat) 0 (e 3%nat / 2) 0 0) 1%nat 1%nat.
Proof. exact pstrain_refuted. Qed.
Print Assumptions C06_plane_strain_refuted.

Theorem C06_axisymmetric_refuted : forall E nu eT, 0 < E -> 0 <= nu < 1/2 -> eT <> 0 ->
  (* free expansion *)
  exists s, recovered 2 false true E nu E eT (fun i => if (i <=? 3)%nat then eT else 0) = Ret (s, None) /\ s 3%nat <> 0.
Proof. exact axi_refuted. Qed.
Print Assumptions C06_axisymmetric_refuted.

Theorem C06_3d_partial : forall E nu Eq eT (e : nat -> R) ps ax, 0 <= nu < 1/2 ->
  exists s, recovered 3 ps ax E nu Eq eT e = Ret (s, None) /\
    let T := thermo E nu eT
               (symt (e 1%nat) (e 2%nat) (e 3%nat) (e 4%nat / 2) (e 5%nat / 2) (e 6%nat / 2)) in
    s 1%nat = T 1%nat 1%nat /\ s 2%nat = T 2%nat 2%nat /\ s 3%nat = T 3%nat 3%nat /\
    s 4%nat = T 1%nat 2%nat /\ s 5%nat = T 2%nat 3%nat /\ s 6%nat = T 1%nat 3%nat.
Proof. exact thermal_3d. Qed.
Print Assumptions C06_3d_partial.

Theorem C06_plane_stress_partial : forall E nu Eq eT (e : nat -> R), 0 <= nu < 1/2 -> 0 < E ->
  exists s, recovered 2 true false E nu Eq eT e = Ret (s, None) /\
    forall ezz,
    let T := thermo E nu eT (symt (e 1%nat) (e 2%nat) ezz (e 3%nat / 2) 0 0) in
    T 3%nat 3%nat = 0 ->
    s 1%nat = T 1%nat 1%nat /\ s 2%nat = T 2%nat 2%nat /\ s 3%nat = T 1%nat 2%nat.
Proof. exact thermal_pstress. Qed.
Print Assumptions C06_plane_stress_partial.

Theorem C06_axisymmetric_partial : forall E nu Eq eT (e : nat -> R), 0 <= nu < 1/2 ->
  exists s, recovered 2 true true E nu Eq eT e = Ret (s, None) /\
    let T := thermo E nu eT (symt (e 1%nat) (e 2%nat) (e 3%nat) (e 4%nat / 2) 0 0) in
    s 1%nat = T 1%nat 1%nat /\ s 2%nat = T 2%nat 2%nat /\ s 3%nat = T 3%nat 3%nat /\
    s 4%nat = T 1%nat 2%nat.
Proof. exact thermal_axi. Qed.
Print Assumptions C06_axisymmetric_partial.

(** Free expansion from the reference temperature (zero if none is given) causes no stress, except in plane strain. *)
Theorem C06_free_expansion_partial : forall E nu Eq alpha T T0 nsd ps ax (e : nat -> R), 0 <= nu < 1/2 -> (1 <= nsd <= 3)%nat ->
  (nsd = 2%nat -> ps = true) ->
  (forall i, (1 <= i <= nst nsd ax)%nat -> e i = if isnormal nsd ax i then alpha T * (T - match T0 with Some t => t | None => 0 end) else 0) ->
  exists s, recovered nsd ps ax E nu Eq (thermal_strain (Some T) T0 alpha) e = Ret (s, None) /\
    forall i, (1 <= i <= nst nsd ax)%nat -> s i = 0.
Proof. exact free_expansion. Qed.
Print Assumptions C06_free_expansion_partial.
(** Without a temperature there is no thermal strain. *)
Theorem C06_no_temperature_partial : forall T0 alpha, thermal_strain None T0 alpha = 0.
Proof. reflexivity. Qed.
Print Assumptions C06_no_temperature_partial.

(** In plane strain the recovered stresses, although not the right ones, satisfy the law for the suppressed strain. *)
Theorem C06_plane_strain_zz_partial : forall E nu eT (e : nat -> R), 0 <= nu < 1/2 -> E <> 0 ->
  exists s z, recovered 2 false false E nu E eT e = Ret (s, Some z) /\
    (z - nu * (s 1%nat + s 2%nat)) / E + eT = 0 /\ s 3%nat = lame2 E nu * e 3%nat.
Proof. exact pstrain_zz. Qed.
Print Assumptions C06_plane_strain_zz_partial.

(** In all modes but the one above, the recovered in-plane stresses are those the element equations
    (stiffness B^T C B, thermal load B^T C eps_T) balance. *)
Theorem C06_load_consistent : forall nsd ps ax E nu Eq eT B nd u detJW,
  (1 <= nsd <= 3)%nat -> 0 <= nu < 1/2 -> (ax = true -> ps = true) ->
  exists C s z, cmatrix nsd ps ax false E nu = Ret C /\
    recovered nsd ps ax E nu Eq eT (mv nd B u) = Ret (s, z) /\
    forall a, sumf (nst nsd ax) (fun r => B r a * s r) * detJW =
      sumf nd (fun b => sumf (nst nsd ax) (fun r => B r a * sumf (nst nsd ax) (fun q => el C r q * B q b)) * u b) * detJW
      - thermal_load nsd ax (el C) B eT detJW a.
Proof. exact thermal_consistent. Qed.
Print Assumptions C06_load_consistent.
