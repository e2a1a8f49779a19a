From Coquelicot Require Import Coquelicot.
From Verif Require Import Lib.Base Lib.Sums Lib.Writes Lib.Congruence Lib.Script Lib.Vec3 Model.Beam Spec.Beam Proofs.Beam.

(** ** Integrals *)
Lemma poly_int : forall L a0 a1 a2 a3 a4 a5 a6,
  is_RInt (fun x => a0 + a1 * x + a2 * x ^ 2 + a3 * x ^ 3 + a4 * x ^ 4 + a5 * x ^ 5 + a6 * x ^ 6) 0 L
    (a0 * L + a1 * L ^ 2 / 2 + a2 * L ^ 3 / 3 + a3 * L ^ 4 / 4 + a4 * L ^ 5 / 5 + a5 * L ^ 6 / 6 + a6 * L ^ 7 / 7).
Proof.
  intros. set (F := fun x => a0 * x + a1 * x ^ 2 / 2 + a2 * x ^ 3 / 3 + a3 * x ^ 4 / 4 + a4 * x ^ 5 / 5 + a5 * x ^ 6 / 6 + a6 * x ^ 7 / 7).
  replace (a0 * L + _ + _ + _ + _ + _ + _) with (minus (F L) (F 0)) by (unfold F, minus, plus, opp; cbn; field).
  apply (is_RInt_derive (V := R_CompleteNormedModule) F).
  - intros x _. unfold F. auto_derive; [trivial|field].
  - intros x _. apply (ex_derive_continuous (V := R_NormedModule)). auto_derive. trivial.
Qed.

Lemma int_as : forall f L I a0 a1 a2 a3 a4 a5 a6,
  (forall x, f x = a0 + a1 * x + a2 * x ^ 2 + a3 * x ^ 3 + a4 * x ^ 4 + a5 * x ^ 5 + a6 * x ^ 6) ->
  I = a0 * L + a1 * L ^ 2 / 2 + a2 * L ^ 3 / 3 + a3 * L ^ 4 / 4 + a4 * L ^ 5 / 5 + a5 * L ^ 6 / 6 + a6 * L ^ 7 / 7 ->
  is_RInt f 0 L I.
Proof. intros f L I a0 a1 a2 a3 a4 a5 a6 H ->. apply (is_RInt_ext (fun x => a0 + a1 * x + a2 * x ^ 2 + a3 * x ^ 3 + a4 * x ^ 4 + a5 * x ^ 5 + a6 * x ^ 6)); [intros; now rewrite H|apply poly_int]. Qed.

Lemma bend_int EI Al L w1 t1 w2 t2 w : L <> 0 -> 1 + Al <> 0 -> beamField Al L w1 t1 w2 t2 w ->
  is_RInt (bendDensity EI Al L w) 0 L
    (EI / L * ((t2 - t1) * (t2 - t1)) + 12 * EI / (L ^ 3 * (1 + Al)) * (((w2 - w1) - L / 2 * (t1 + t2)) * ((w2 - w1) - L / 2 * (t1 + t2)))).
Proof.
  intros HL HA [<- [<- [<- <-]]]. destruct w as [a b c d]. unfold bendDensity, shear, slope, defl, curv, third. cbn [c0 c1 c2 c3].
  apply (int_as _ _ _ (EI * (2 * c) ^ 2 + EI * (Al * L ^ 2 / 12) * (6 * d) ^ 2) (EI * 24 * c * d) (EI * 36 * d ^ 2) 0 0 0 0); [intros; ring|]. field. auto.
Qed.

Lemma slope_int N Al L w1 t1 w2 t2 w : L <> 0 -> 1 + Al <> 0 -> beamField Al L w1 t1 w2 t2 w ->
  is_RInt (fun x => N * slope w x ^ 2) 0 L
    (N / L * ((w2 - w1) * (w2 - w1) + L ^ 2 / 12 * ((t2 - t1) * (t2 - t1)) +
       1 / 5 / (1 + Al) ^ 2 * (((w2 - w1) - L / 2 * (t1 + t2)) * ((w2 - w1) - L / 2 * (t1 + t2))))).
Proof.
  intros HL HA [<- [<- [<- <-]]]. destruct w as [a b c d]. unfold bendDensity, shear, slope, defl, curv, third. cbn [c0 c1 c2 c3].
  apply (int_as _ _ _ (N * b ^ 2) (N * 4 * b * c) (N * (4 * c ^ 2 + 6 * b * d)) (N * 12 * c * d) (N * 9 * d ^ 2) 0 0); [intros; ring|]. field. auto.
Qed.

Definition hermite (rA I L w1 t1 w2 t2 : R) : R :=
  (rA * L * 13 / 35 + I * 6 / 5 / L) * (w1 * w1 + w2 * w2) + 2 * (rA * L * 9 / 70 - I * 6 / 5 / L) * w1 * w2 +
  (rA * L ^ 3 / 105 + I * L * 2 / 15) * (t1 * t1 + t2 * t2) - 2 * (rA * L ^ 3 / 140 + I * L / 30) * t1 * t2 +
  2 * (rA * L ^ 2 * 11 / 210 + I / 10) * (w1 * t1 - w2 * t2) + 2 * (rA * L ^ 2 * 13 / 420 - I / 10) * (w2 * t1 - w1 * t2).

Lemma mass_int rA I L w1 t1 w2 t2 w : L <> 0 -> beamField 0 L w1 t1 w2 t2 w ->
  is_RInt (fun x => rA * defl w x ^ 2 + I * slope w x ^ 2) 0 L (hermite rA I L w1 t1 w2 t2).
Proof.
  intros HL [<- [<- [<- <-]]]. destruct w as [a b c d]. unfold shear, slope, defl, curv, third, hermite. cbn [c0 c1 c2 c3].
  apply (int_as _ _ _ (rA * a ^ 2 + I * b ^ 2) (rA * 2 * a * b + I * 4 * b * c) (rA * (b ^ 2 + 2 * a * c) + I * (4 * c ^ 2 + 6 * b * d))
    (rA * (2 * a * d + 2 * b * c) + I * 12 * c * d) (rA * (c ^ 2 + 2 * b * d) + I * 9 * d ^ 2) (rA * 2 * c * d) (rA * d ^ 2)); [intros; ring|]. field. auto.
Qed.

Lemma linear_int c L a b : L <> 0 -> is_RInt (fun x => c * linear L a b x ^ 2) 0 L (c * L / 3 * (a * a + a * b + b * b)).
Proof. intros HL. unfold linear. apply (int_as _ _ _ (c * a ^ 2) (2 * c * a * (b - a) / L) (c * ((b - a) / L) ^ 2) 0 0 0 0); [intros; field; auto|field; auto]. Qed.
Lemma const_int (c L : R) : is_RInt (fun _ : R => c) 0 L (c * L).
Proof. apply (int_as _ _ _ c 0 0 0 0 0 0); [intros; ring|field]. Qed.

(** The field exists and is unique. *)
Theorem beamField_exists Al L w1 t1 w2 t2 : L <> 0 -> 1 + Al <> 0 -> exists! w, beamField Al L w1 t1 w2 t2 w.
Proof.
  intros HL HA.
  set (g := (w2 - w1) - L / 2 * (t1 + t2)).
  set (d := - 2 * g / (L ^ 3 * (1 + Al))).
  exists (mkCubic w1 (t1 - Al * L ^ 2 / 2 * d) ((t2 - t1 - 3 * d * L ^ 2) / (2 * L)) d). split.
  - unfold beamField, defl, slope, shear, third. cbn [c0 c1 c2 c3]. repeat split; try (subst d; subst g; field; auto).
  - intros [a b c e] [H1 [H2 [H3 H4]]]. unfold defl, slope, shear, third in *. cbn [c0 c1 c2 c3] in *.
    assert (E : e = d). { subst d g w1 w2 t1 t2. field. auto. }
    rewrite <- E. assert (Ea : w1 = a) by (rewrite <- H1; ring). assert (Eb : t1 - Al * L ^ 2 / 2 * e = b) by (rewrite <- H2; field).
    assert (Ec : (t2 - t1 - 3 * e * L ^ 2) / (2 * L) = c) by (rewrite <- H2, <- H4; field; auto). now rewrite Ea, Eb, Ec.
Qed.

(** ** Stiffness *)
Definition atCentre (Sy Sz : R) (u : nat -> R) : nat -> R := if skewed Sy Sz then shearV Sy Sz u else u.

Lemma stiffness_bil L EA GIt EIy EIz Aly Alz Sy Sz v u : L <> 0 -> 1 + Aly <> 0 -> 1 + Alz <> 0 ->
  bil 12 (stiffness L EA GIt EIy EIz Aly Alz Sy Sz) v u =
  let v := atCentre Sy Sz v in let u := atCentre Sy Sz u in
  EA / L * (dax v * dax u) + GIt / L * (dtw v * dtw u) +
  EIy / L * (dkz v * dkz u) + 12 * EIy / (L ^ 3 * (1 + Aly)) * (dgy L v * dgy L u) +
  EIz / L * (dky v * dky u) + 12 * EIz / (L ^ 3 * (1 + Alz)) * (dgz L v * dgz L u).
Proof.
  intros HL Hy Hz. unfold stiffness, atCentre. destruct (skewed Sy Sz).
  - rewrite app_assoc, exec_app, shear_bil, stiff_bil by assumption. reflexivity.
  - rewrite app_nil_r, stiff_bil by assumption. reflexivity.
Qed.

Theorem stiffness_symm L EA GIt EIy EIz Aly Alz Sy Sz : L <> 0 -> 1 + Aly <> 0 -> 1 + Alz <> 0 -> symm 12 (stiffness L EA GIt EIy EIz Aly Alz Sy Sz).
Proof. intros HL Hy Hz. apply bil_symm. intros u v. rewrite !stiffness_bil by assumption. cbn zeta. ring. Qed.

Theorem stiffness_energy L EA GIt EIy EIz Aly Alz Sy Sz u wy wz : L <> 0 -> 1 + Aly <> 0 -> 1 + Alz <> 0 ->
  let s := atCentre Sy Sz u in
  beamField Aly L (s 2%nat) (s 6%nat) (s 8%nat) (s 12%nat) wy -> beamField Alz L (s 3%nat) (- s 5%nat) (s 9%nat) (- s 11%nat) wz ->
  is_RInt (fun x => EA * ((s 7%nat - s 1%nat) / L) ^ 2 + GIt * ((s 10%nat - s 4%nat) / L) ^ 2 + bendDensity EIy Aly L wy x + bendDensity EIz Alz L wz x) 0 L
    (quad 12 (stiffness L EA GIt EIy EIz Aly Alz Sy Sz) u).
Proof.
  intros HL Hy Hz s By Bz. rewrite bil_quad, stiffness_bil by assumption. fold s. cbn zeta.
  assert (Iy := bend_int EIy Aly L _ _ _ _ wy HL Hy By). assert (Iz := bend_int EIz Alz L _ _ _ _ wz HL Hz Bz).
  assert (Ia := const_int (EA * ((s 7%nat - s 1%nat) / L) ^ 2 + GIt * ((s 10%nat - s 4%nat) / L) ^ 2) L).
  assert (I1 := is_RInt_plus _ _ _ _ _ _ (is_RInt_plus _ _ _ _ _ _ Ia Iy) Iz).
  replace (EA / L * _ + _ + _ + _ + _ + _) with (plus (plus ((EA * ((s 7%nat - s 1%nat) / L) ^ 2 + GIt * ((s 10%nat - s 4%nat) / L) ^ 2) * L)
    (EIy / L * ((s 12%nat - s 6%nat) * (s 12%nat - s 6%nat)) + 12 * EIy / (L ^ 3 * (1 + Aly)) * (((s 8%nat - s 2%nat) - L / 2 * (s 6%nat + s 12%nat)) * ((s 8%nat - s 2%nat) - L / 2 * (s 6%nat + s 12%nat)))))
    (EIz / L * ((- s 11%nat - - s 5%nat) * (- s 11%nat - - s 5%nat)) + 12 * EIz / (L ^ 3 * (1 + Alz)) * (((s 9%nat - s 3%nat) - L / 2 * (- s 5%nat + - s 11%nat)) * ((s 9%nat - s 3%nat) - L / 2 * (- s 5%nat + - s 11%nat))))); [exact I1|].
  unfold plus; cbn [AbelianGroup.class ]. unfold dax, dtw, dkz, dgy, dky, dgz. cbn. field. auto.
Qed.

Theorem stiffness_psd L EA GIt EIy EIz Aly Alz Sy Sz u : 0 < L -> 0 <= Aly -> 0 <= Alz -> 0 <= EA -> 0 <= GIt -> 0 <= EIy -> 0 <= EIz ->
  0 <= quad 12 (stiffness L EA GIt EIy EIz Aly Alz Sy Sz) u.
Proof.
  intros HL Hy Hz H1 H2 H3 H4. rewrite bil_quad, stiffness_bil by lra. cbn zeta. set (s := atCentre Sy Sz u).
  assert (L3 : 0 < L ^ 3) by (apply pow_lt; lra).
  repeat apply Rplus_le_le_0_compat; apply Rmult_le_pos; try apply Rle_0_sqr;
  (apply Rmult_le_pos; [lra|apply Rlt_le, Rinv_0_lt_compat; try nra; apply Rmult_lt_0_compat; lra]).
Qed.
