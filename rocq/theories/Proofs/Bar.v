From Coquelicot Require Import Coquelicot.
From Verif Require Import Lib.Base Lib.Sums Lib.Vec3 Model.Bar Spec.Bar.

Definition kindOf (m : measure) : nat := match m with Green => 0 | Log => 1 | _ => 2 end.

Lemma unit_dot v : 0 < vlen v -> vdot (unit v) (unit v) = 1.
Proof. intros H. unfold unit. rewrite vdot_scal_l, vdot_scal_r, <- vlen_sq. field. lra. Qed.

(** Path r + t h. *)
Definition path (r h : v3) (t : R) : v3 := vadd r (vscal t h).
Lemma path0 r h : path r h 0 = r. Proof. destruct r as [a b c], h as [d e f]. unfold path, vadd, vscal; cbn. f_equal; ring. Qed.

Lemma len_derive r h : 0 < vlen r -> is_derive (fun t => vlen (path r h t)) 0 (vdot (unit r) h).
Proof.
  intros H. assert (P : 0 < vdot r r). { rewrite <- vlen_sq. nra. }
  unfold unit. rewrite vdot_scal_l. unfold vlen in *. destruct r as [a b c], h as [d e f]. unfold path, vadd, vscal, vdot in *; cbn [vx vy vz] in *.
  assert (Z : (a + 0 * d) * (a + 0 * d) + (b + 0 * e) * (b + 0 * e) + (c + 0 * f) * (c + 0 * f) = a * a + b * b + c * c) by ring.
  auto_derive; rewrite ?Z; [exact P|]. field. lra.
Qed.

Lemma comp_derive (f : R -> R) r h d : 0 < vlen r -> is_derive f (vlen r) d -> is_derive (fun t => f (vlen (path r h t))) 0 (d * vdot (unit r) h).
Proof.
  intros H D. replace (d * vdot (unit r) h) with (scal (vdot (unit r) h) d) by (unfold scal; cbn; unfold mult; cbn; ring).
  apply (is_derive_comp f (fun t => vlen (path r h t))); [rewrite path0; exact D|now apply len_derive].
Qed.

(** Axial force is the derivative of the energy with respect to the length. *)
Lemma force_of_energy m k L0 L : 0 < L0 -> 0 < L -> is_derive (fun l => L0 * (k / 2 * strainOf (kindOf m) (l / L0) ^ 2)) L (axialForce m k L0 L).
Proof.
  intros H0 HL. assert (P : 0 < L / L0) by (apply Rmult_lt_0_compat; [lra|now apply Rinv_0_lt_compat]).
  destruct m; unfold strainOf, kindOf, axialForce, getStrain; auto_derive; try easy; try (exact P); try change (L * / L0) with (L / L0); try field; try lra; repeat split; try lra.
Qed.

Theorem force_gradient m k L0 r h : 0 < L0 -> 0 < vlen r ->
  is_derive (fun t => barEnergy (kindOf m) k L0 (path r h t)) 0 (axialForce m k L0 (vlen r) * vdot (unit r) h).
Proof. intros H0 H. unfold barEnergy. apply (comp_derive (fun l => L0 * (k / 2 * strainOf (kindOf m) (l / L0) ^ 2))); [exact H|]. now apply force_of_energy. Qed.

(** The tangent: derivative of the force vector. *)
Definition forceSlope (m : measure) (k L0 L : R) : R :=
  match m with
  | Green => kmNom m k L0 L + kgNom m k true L0 L
  | Log => kmNom m k L0 L - kgNom m k true L0 L
  | _ => kmNom m k L0 L
  end.
Lemma force_slope m k L0 L : 0 < L0 -> 0 < L -> is_derive (axialForce m k L0) L (forceSlope m k L0 L).
Proof.
  intros H0 HL. assert (P : 0 < L / L0) by (apply Rmult_lt_0_compat; [lra|now apply Rinv_0_lt_compat]).
  destruct m; unfold axialForce, forceSlope, kmNom, kgNom, getStrain; auto_derive; try (change (L * / L0) with (L / L0)); try (repeat split; try lra; try exact P; fail); try field; try lra; try (repeat split; lra).
Qed.
Lemma kg_force m k L0 L : 0 < L0 -> 0 < L -> kgNom m k true L0 L = axialForce m k L0 L / L.
Proof. intros H0 HL. destruct m; unfold kgNom, axialForce; field; try lra; repeat split; lra. Qed.

Lemma force_vec_derive m k L0 r h i : 0 < L0 -> 0 < vlen r -> (1 <= i <= 3)%nat ->
  is_derive (fun t => axialForce m k L0 (vlen (path r h t)) * vc (unit (path r h t)) i) 0
    (forceSlope m k L0 (vlen r) * vdot (unit r) h * vc (unit r) i +
     kgNom m k true L0 (vlen r) * (vc h i - vdot (unit r) h * vc (unit r) i)).
Proof.
  intros H0 H Hi.
  assert (D1 := comp_derive (axialForce m k L0) r h _ H (force_slope m k L0 (vlen r) H0 H)).
  assert (D2 := comp_derive (fun l => / l) r h (- / (vlen r * vlen r)) H ltac:(auto_derive; [lra|field; lra])).
  assert (D3 : is_derive (fun t => vc (path r h t) i) 0 (vc h i)).
  { destruct r as [a b c], h as [d e f]. assert (i = 1 \/ i = 2 \/ i = 3)%nat as E by lia. destruct E as [-> | [-> | ->]]; unfold path, vadd, vscal, vc; cbn; auto_derive; try easy; ring. }
  assert (D4 := is_derive_mult _ _ _ _ _ D2 D3 Rmult_comm).
  assert (D := is_derive_mult _ _ _ _ _ D1 D4 Rmult_comm). cbn in D.
  assert (U : forall v, vc (unit v) i = / vlen v * vc v i).
  { intros v. unfold unit. destruct v as [a b c]. assert (i = 1 \/ i = 2 \/ i = 3)%nat as E by lia. destruct E as [-> | [-> | ->]]; reflexivity. }
  refine (is_derive_ext _ _ _ _ (fun t => f_equal (Rmult (axialForce m k L0 (vlen (path r h t)))) (eq_sym (U (path r h t)))) _). rename D into D'.
  rewrite !path0 in D'.
  match type of D' with is_derive _ _ ?v => match goal with |- is_derive _ _ ?w => replace w with v; [exact D'|] end end.
  rewrite kg_force by assumption. rewrite U. field. lra.
Qed.

(** Axes completing the bar direction. *)
Lemma localAxes_ok X : vdot X X = 1 -> let '(Y, Z) := localAxes X in
  vdot X Y = 0 /\ vdot X Z = 0 /\ vdot Y Z = 0 /\ vdot Y Y = 1 /\ vdot Z Z = 1.
Proof.
  intros HX. unfold localAxes. destruct (Rlt_dec (Rabs (vy X)) (Rabs (vz X))) as [C|C].
  - set (y := V _ _ _). assert (Dy : vdot X y = 0) by (destruct X as [a b c]; unfold vdot, y; cbn; ring).
    assert (Ny : 0 < vlen y).
    { apply sqrt_lt_R0. assert (P := vdot_pos y). destruct P as [P|P]; [exact P|]. exfalso.
      assert (vz X <> 0) by (intros E; rewrite E, Rabs_R0 in C; assert (Q := Rabs_pos (vy X)); lra).
      destruct X as [a b c]. unfold y, vdot in P; cbn in *. assert (a * a + c * c = 0) by nra. nra. }
    assert (U1 : vdot X (unit y) = 0) by (unfold unit; rewrite vdot_scal_r, Dy; ring). assert (U2 := unit_dot y Ny).
    split; [exact U1|]. split; [apply cross_dot_l|]. split; [apply cross_dot_r|]. split; [exact U2|]. rewrite lagrange, HX, U1, U2. ring.
  - set (z := V _ _ _). assert (Dz : vdot X z = 0) by (destruct X as [a b c]; unfold vdot, z; cbn; ring).
    assert (Nz : 0 < vlen z).
    { apply sqrt_lt_R0. assert (P := vdot_pos z). destruct P as [P|P]; [exact P|]. exfalso.
      destruct X as [a b c]. unfold z, vdot in *; cbn in *. assert (a * a + b * b = 0) by nra. assert (b = 0) by nra. subst b.
      rewrite Rabs_R0 in C. assert (c = 0). { assert (Q := Rabs_pos c). assert (Rabs c = 0) by lra. destruct (Req_dec c 0) as [Ec|Ec]; [assumption|]. apply Rabs_no_R0 in Ec. lra. } nra. }
    assert (U1 : vdot X (unit z) = 0) by (unfold unit; rewrite vdot_scal_r, Dz; ring). assert (U2 := unit_dot z Nz).
    split; [apply cross_dot_r|]. split; [exact U1|]. split; [rewrite vdot_sym; apply cross_dot_l|]. split; [|exact U2].
    rewrite lagrange, HX, U2, (vdot_sym (unit z) X), U1. ring.
Qed.

(** Three orthonormal vectors resolve the identity. *)
Lemma resolution X Y Z h : vdot X X = 1 -> vdot Y Y = 1 -> vdot Z Z = 1 -> vdot X Y = 0 -> vdot X Z = 0 -> vdot Y Z = 0 ->
  vadd (vscal (vdot Y h) Y) (vscal (vdot Z h) Z) = vsub h (vscal (vdot X h) X).
Proof.
  intros X1 Y1 Z1 XY XZ YZ.
  set (d := vsub (vsub h (vscal (vdot X h) X)) (vadd (vscal (vdot Y h) Y) (vscal (vdot Z h) Z))).
  assert (dX : vdot d X = 0) by (unfold d; rewrite !vdot_sub_l, vdot_add_l, !vdot_scal_l, X1, (vdot_sym Y X), XY, (vdot_sym Z X), XZ, (vdot_sym h X); ring).
  assert (dY : vdot d Y = 0) by (unfold d; rewrite !vdot_sub_l, vdot_add_l, !vdot_scal_l, Y1, XY, (vdot_sym Z Y), YZ, (vdot_sym h Y); ring).
  assert (dZ : vdot d Z = 0) by (unfold d; rewrite !vdot_sub_l, vdot_add_l, !vdot_scal_l, Z1, XZ, YZ, (vdot_sym h Z); ring).
  assert (N : vdot (vcross X Y) (vcross X Y) = 1) by (rewrite lagrange, X1, Y1, XY; ring).
  (* d is orthogonal to X and Y, so parallel to X x Y; and Z too *)
  assert (P : forall w, vdot w X = 0 -> vdot w Y = 0 -> w = vscal (vdot w (vcross X Y)) (vcross X Y)).
  { intros w WX WY. assert (T : vcross w (vcross X Y) = vzero) by (rewrite triple, WX, WY; destruct X as [a b c], Y as [a' b' c']; unfold vsub, vscal, vzero; cbn; f_equal; ring).
    assert (T2 : vcross (vcross X Y) (vcross w (vcross X Y)) = vsub (vscal 1 w) (vscal (vdot w (vcross X Y)) (vcross X Y))) by (rewrite triple, N, (vdot_sym (vcross X Y) w); reflexivity).
    rewrite T in T2. set (n := vcross X Y) in *. clearbody n. destruct n as [a b c], w as [x y z]. unfold vcross, vsub, vscal, vzero, vdot in *; cbn in *. injection T2 as E1 E2 E3. f_equal; lra. }
  assert (Pz := P Z ltac:(rewrite vdot_sym; exact XZ) ltac:(rewrite vdot_sym; exact YZ)). assert (Pd := P d dX dY).
  assert (Q : vdot Z (vcross X Y) * vdot Z (vcross X Y) = 1).
  { rewrite Pz in Z1. rewrite vdot_scal_l, vdot_scal_r, N in Z1. lra. }
  assert (D0 : vdot d (vcross X Y) = 0). { rewrite Pz in dZ. rewrite vdot_scal_r in dZ. assert (vdot Z (vcross X Y) <> 0) by (intros E; rewrite E in Q; lra). nra. }
  rewrite D0 in Pd. unfold d in Pd. destruct X as [a b c], Y as [a' b' c'], Z as [a'' b'' c''], h as [x y z]. unfold vadd, vsub, vscal, vdot in *; cbn in *. injection Pd as E1 E2 E3. f_equal; lra.
Qed.

Lemma vc_lin a b k i : vc (vadd a b) i = vc a i + vc b i /\ vc (vsub a b) i = vc a i - vc b i /\ vc (vscal k a) i = k * vc a i.
Proof. destruct a as [a1 a2 a3], b as [b1 b2 b3]. do 3 (destruct i as [|i]; [repeat split|]). repeat split. Qed.

Lemma sum3_kron i f : (1 <= i <= 3)%nat -> sumf 3 (fun j => kron i j * f j) = f i.
Proof. intros Hi. assert (i = 1 \/ i = 2 \/ i = 3)%nat as E by lia. destruct E as [-> | [-> | ->]]; unfold kron; cbn [sumf Nat.eqb]; ring. Qed.
Lemma sum3_vc a b : sumf 3 (fun j => vc a j * vc b j) = vdot a b.
Proof. unfold vdot, vc. cbn [sumf]. ring. Qed.

(* action of the geometric 3x3 block *)
Lemma kij_mv m k L0 r h i : 0 < L0 -> 0 < vlen r -> (1 <= i <= 3)%nat ->
  sumf 3 (fun j => kij m k L0 (vlen r) (unit r) i j * vc h j) =
  (forceSlope m k L0 (vlen r) - kmNom m k L0 (vlen r)) * vdot (unit r) h * vc (unit r) i +
  kgNom m k true L0 (vlen r) * (vc h i - vdot (unit r) h * vc (unit r) i).
Proof.
  intros H0 H Hi. assert (U := unit_dot r H). set (X := unit r) in *. set (L := vlen r) in *.
  destruct m; unfold kij, forceSlope.
  - rewrite (sumf_ext 3 _ (fun j => kgNom Green k true L0 L * (kron i j * vc h j))) by (intros; unfold kron; destruct (i =? _)%nat; ring).
    rewrite sumf_scal, sum3_kron by assumption. ring.
  - rewrite (sumf_ext 3 _ (fun j => kgNom Log k true L0 L * (kron i j * vc h j) + (- 2 * kgNom Log k true L0 L * vc X i) * (vc X j * vc h j))) by (intros; ring).
    rewrite sumf_plus, !sumf_scal, sum3_kron, sum3_vc by assumption. ring.
  - rewrite (sumf_ext 3 _ (fun j => kgNom Eng k true L0 L * (kron i j * vc h j) + (- kgNom Eng k true L0 L * vc X i) * (vc X j * vc h j))) by (intros; ring).
    rewrite sumf_plus, !sumf_scal, sum3_kron, sum3_vc by assumption. ring.
  - destruct (Req_EM_T L L0) as [E|E].
    + assert (G : kgNom Other k true L0 L = 0). { unfold kgNom, getStrain. rewrite E. replace (L0 / L0) with 1 by (field; lra). unfold Rdiv. ring. }
      rewrite G. cbn [sumf]. ring.
    + assert (A := localAxes_ok X U). destruct (localAxes X) as [Y Z]. destruct A as [XY [XZ [YZ [YY ZZ]]]].
      rewrite (sumf_ext 3 _ (fun j => kgNom Other k true L0 L * vc Y i * (vc Y j * vc h j) + kgNom Other k true L0 L * vc Z i * (vc Z j * vc h j))) by (intros; ring).
      rewrite sumf_plus, !sumf_scal, !sum3_vc.
      assert (Q := f_equal (fun v => vc v i) (resolution X Y Z h U YY ZZ XY XZ YZ)). cbn beta in Q.
      destruct (vc_lin (vscal (vdot Y h) Y) (vscal (vdot Z h) Z) 0 i) as [E1 _]. rewrite E1 in Q.
      destruct (vc_lin h (vscal (vdot X h) X) 0 i) as [_ [E2 _]]. rewrite E2 in Q.
      destruct (vc_lin Y Y (vdot Y h) i) as [_ [_ E3]]. destruct (vc_lin Z Z (vdot Z h) i) as [_ [_ E4]]. destruct (vc_lin X X (vdot X h) i) as [_ [_ E5]]. rewrite E3, E4, E5 in Q.
      transitivity (kgNom Other k true L0 L * (vdot Y h * vc Y i + vdot Z h * vc Z i)); [ring|]. rewrite Q. ring.
Qed.

Lemma km11_mv m k L0 r h i : 0 < L0 -> 0 < vlen r -> (1 <= i <= 3)%nat ->
  sumf 3 (fun j => km11 m k Same L0 (vlen r) (unit r) i j * vc h j) =
  forceSlope m k L0 (vlen r) * vdot (unit r) h * vc (unit r) i + kgNom m k true L0 (vlen r) * (vc h i - vdot (unit r) h * vc (unit r) i).
Proof.
  intros H0 H Hi. assert (G := kij_mv m k L0 r h i H0 H Hi). unfold km11. destruct (Req_EM_T (kgNom m k true L0 (vlen r)) 0) as [E|E].
  - rewrite (sumf_ext 3 _ (fun j => kmNom m k L0 (vlen r) * vc (unit r) i * (vc (unit r) j * vc h j))) by (intros; ring).
    rewrite sumf_scal, sum3_vc. assert (F : forceSlope m k L0 (vlen r) = kmNom m k L0 (vlen r)) by (unfold forceSlope; destruct m; rewrite ?E; ring). rewrite F, E. ring.
  - rewrite (sumf_ext 3 _ (fun j => kmNom m k L0 (vlen r) * vc (unit r) i * (vc (unit r) j * vc h j) + kij m k L0 (vlen r) (unit r) i j * vc h j)) by (intros; ring).
    rewrite sumf_plus, sumf_scal, sum3_vc, G. ring.
Qed.

(** Six components: ends moving along [h1], [h2]. *)
Definition six (h1 h2 : v3) (i : nat) : R := if (i <=? 3)%nat then vc h1 i else vc h2 (i - 3).
Lemma mat_mv m k w L0 L X h1 h2 i : (1 <= i <= 6)%nat ->
  mv 6 (matKm m k w L0 L X) (six h1 h2) i = (if (i <=? 3)%nat then -1 else 1) * sumf 3 (fun j => km11 m k w L0 L X (third3 i) j * vc (vsub h2 h1) j).
Proof.
  intros Hi. destruct h1 as [a b c], h2 as [d e f].
  assert (i = 1 \/ i = 2 \/ i = 3 \/ i = 4 \/ i = 5 \/ i = 6)%nat as E by lia. clear Hi. unfold mv, matKm.
  repeat destruct E as [-> | E]; try subst i; unfold sgn, six, third3, vsub, vc; cbn [sumf Nat.leb Nat.sub Nat.modulo Nat.divmod snd andb orb vx vy vz]; ring.
Qed.

Theorem bar_tangent m k L0 P1 P2 h1 h2 i : 0 < L0 -> 0 < vlen (vsub P2 P1) -> (1 <= i <= 6)%nat ->
  let r := vsub P2 P1 in
  is_derive (fun t => barForce m k L0 (vlen (vsub (path P2 h2 t) (path P1 h1 t))) (unit (vsub (path P2 h2 t) (path P1 h1 t))) i) 0
    (- mv 6 (matKm m k Same L0 (vlen r) (unit r)) (six h1 h2) i).
Proof.
  intros H0 H Hi r.
  assert (Pth : forall t, vsub (path P2 h2 t) (path P1 h1 t) = path r (vsub h2 h1) t) by (intros t; unfold path, r; veq).
  assert (Hi3 : (1 <= third3 i <= 3)%nat) by (unfold third3; assert (Q := Nat.mod_upper_bound (i - 1) 3 ltac:(lia)); lia).
  assert (D := force_vec_derive m k L0 r (vsub h2 h1) (third3 i) H0 H Hi3).
  rewrite <- (km11_mv m k L0 r (vsub h2 h1) (third3 i) H0 H Hi3) in D.
  rewrite mat_mv by assumption. fold r. unfold barForce. destruct (Nat.leb_spec i 3).
  - match goal with |- is_derive _ _ ?v => replace v with (sumf 3 (fun j => km11 m k Same L0 (vlen r) (unit r) (third3 i) j * vc (vsub h2 h1) j)) by ring end.
    refine (is_derive_ext _ _ _ _ _ D). intros t. cbn beta. now rewrite Pth.
  - replace (- (1 * _)) with (opp (sumf 3 (fun j => km11 m k Same L0 (vlen r) (unit r) (third3 i) j * vc (vsub h2 h1) j))) by (unfold opp; cbn; ring).
    assert (D' := is_derive_opp _ _ _ D).
    refine (is_derive_ext _ _ _ _ _ D'). intros t. cbn beta. rewrite Pth. reflexivity.
Qed.

Theorem bar_energy m k L0 P1 P2 h1 h2 : 0 < L0 -> 0 < vlen (vsub P2 P1) ->
  let r := vsub P2 P1 in
  is_derive (fun t => barEnergy (kindOf m) k L0 (vsub (path P2 h2 t) (path P1 h1 t))) 0 (- sumf 6 (fun i => barForce m k L0 (vlen r) (unit r) i * six h1 h2 i)).
Proof.
  intros H0 H r.
  assert (Pth : forall t, vsub (path P2 h2 t) (path P1 h1 t) = path r (vsub h2 h1) t) by (intros t; unfold path, r; veq).
  assert (D := force_gradient m k L0 r (vsub h2 h1) H0 H).
  replace (- sumf 6 _) with (axialForce m k L0 (vlen r) * vdot (unit r) (vsub h2 h1)).
  - refine (is_derive_ext _ _ _ _ _ D). intros t. cbn beta. now rewrite Pth.
  - destruct h1 as [a b c], h2 as [d e f]. unfold barForce, six, third3, vdot, vsub, vc; cbn [sumf Nat.leb Nat.sub Nat.modulo Nat.divmod snd vx vy vz]. ring.
Qed.

(** Equilibrium: no resultant force, no moment. *)
Theorem bar_equilibrium m k L0 L X i : (1 <= i <= 3)%nat -> barForce m k L0 L X i + barForce m k L0 L X (i + 3)%nat = 0.
Proof.
  intros Hi. assert (i = 1 \/ i = 2 \/ i = 3)%nat as E by lia. destruct E as [-> | [-> | ->]]; unfold barForce, third3; cbn; ring.
Qed.

(** Objectivity: an isometry of the ends turns the forces. *)
Definition app3 (Q : nat -> nat -> R) (v : v3) : v3 :=
  V (sumf 3 (fun j => Q 1%nat j * vc v j)) (sumf 3 (fun j => Q 2%nat j * vc v j)) (sumf 3 (fun j => Q 3%nat j * vc v j)).
Definition isometry (Q : nat -> nat -> R) : Prop := forall a b, vdot (app3 Q a) (app3 Q b) = vdot a b.
Theorem bar_objective m k L0 Q r i : isometry Q -> (1 <= i <= 3)%nat ->
  barForce m k L0 (vlen (app3 Q r)) (unit (app3 Q r)) i = sumf 3 (fun j => Q i j * barForce m k L0 (vlen r) (unit r) j).
Proof.
  intros HQ Hi. assert (E : vlen (app3 Q r) = vlen r) by (unfold vlen; now rewrite HQ). rewrite E.
  assert (i = 1 \/ i = 2 \/ i = 3)%nat as Ei by lia. unfold unit. rewrite E.
  destruct Ei as [-> | [-> | ->]]; unfold barForce, third3, app3, vscal, vc; cbn [sumf Nat.leb Nat.sub Nat.modulo Nat.divmod snd vx vy vz]; ring.
Qed.

(** Translation invariance. *)
Theorem km_translation m k w L0 L X a i : (1 <= i <= 6)%nat -> mv 6 (matKm m k w L0 L X) (six a a) i = 0.
Proof.
  intros Hi. rewrite mat_mv by assumption. destruct a as [x y z]. unfold vsub, vc. cbn [sumf vx vy vz]. ring.
Qed.
Theorem km_symm m k w L0 L X : symm 6 (matKm m k w L0 L X).
Proof.
  intros i j Hi Hj. unfold matKm. assert (E1 : sgn i j = sgn j i). { unfold sgn. destruct (Nat.leb_spec i 3); destruct (Nat.leb_spec j 3); destruct (Nat.leb_spec 4 i); destruct (Nat.leb_spec 4 j); cbn; try reflexivity; lia. }
  rewrite E1. f_equal. set (a := third3 i). set (b := third3 j). clearbody a b. unfold km11.
  assert (G : kij m k L0 L X a b = kij m k L0 L X b a).
  { unfold kij. destruct m; [rewrite Nat.eqb_sym; reflexivity| | |].
    - unfold kron. rewrite Nat.eqb_sym. ring.
    - unfold kron. rewrite Nat.eqb_sym. ring.
    - destruct (if Req_EM_T L L0 then (vzero, vzero) else localAxes X) as [Y Z]. ring. }
  rewrite G. destruct w; try ring. destruct (Req_EM_T _ _); ring.
Qed.

(* a separately stored geometric matrix is not translation invariant *)
Theorem kg_translation_fails : exists k L0 L X a i, mv 6 (matKg Eng k L0 L X) (six a a) i <> 0.
Proof.
  exists 1, 1, 2, (V 1 0 0), (V 1 0 0), 1%nat. unfold mv, matKg, kgNom, getStrain.
  destruct (Req_EM_T (1 * (2 / 1 - 1) / 2) 0) as [E|E]; [lra|].
  unfold sgn, six, third3, matKm, km11, kij, kgNom, getStrain, kmNom, kron, vc; cbn [sumf Nat.leb Nat.eqb Nat.sub Nat.modulo Nat.divmod snd andb orb vx vy vz].
  repeat (destruct (Rlt_dec 0 1) as [_|B]; [|lra]); repeat (destruct (Rlt_dec 0 (-1)) as [B|_]; [lra|]). unfold sgn, third3; cbn [Nat.leb Nat.sub Nat.modulo Nat.divmod snd andb orb]. lra.
Qed.
(* its diagonal blocks are the geometric part of the tangent *)
Theorem kg_diagonal m k L0 L X i j : (1 <= i <= 3)%nat -> (1 <= j <= 3)%nat -> kgNom m k true L0 L <> 0 ->
  matKg m k L0 L X i j = kij m k L0 L X i j /\ matKg m k L0 L X (i + 3)%nat (j + 3)%nat = kij m k L0 L X i j.
Proof.
  intros Hi Hj HG. unfold matKg. destruct (Req_EM_T _ _) as [E|_]; [contradiction|].
  assert (i = 1 \/ i = 2 \/ i = 3)%nat as Ei by lia. assert (j = 1 \/ j = 2 \/ j = 3)%nat as Ej by lia.
  destruct Ei as [-> | [-> | ->]]; destruct Ej as [-> | [-> | ->]]; unfold sgn, third3; cbn [Nat.leb Nat.add Nat.sub Nat.modulo Nat.divmod snd andb orb];
  (destruct (Rlt_dec 0 1) as [_|B]; [split; reflexivity|lra]).
Qed.

(** ** Mass *)
Theorem bar_mass_lumped lm L0 h1 h2 i : (1 <= i <= 6)%nat -> mv 6 (barMass lm true L0) (six h1 h2) i = 1 / 2 * lm * L0 * six h1 h2 i.
Proof.
  intros Hi. assert (i = 1 \/ i = 2 \/ i = 3 \/ i = 4 \/ i = 5 \/ i = 6)%nat as E by lia. unfold mv, barMass.
  repeat destruct E as [-> | E]; try subst i; cbn [sumf Nat.eqb]; ring.
Qed.
(* force on node a in direction i for a uniform acceleration; the sum over both nodes *)
Theorem bar_mass_cons lm L0 a i : (1 <= i <= 3)%nat ->
  mv 6 (barMass lm false L0) (six a a) i + mv 6 (barMass lm false L0) (six a a) (i + 3)%nat =
  lm * L0 * vc a i + 2 / 3 * lm * L0 * (vx a + vy a + vz a - vc a i).
Proof.
  intros Hi. assert (i = 1 \/ i = 2 \/ i = 3)%nat as E by lia. destruct a as [x y z]. unfold mv, barMass.
  destruct E as [-> | [-> | ->]]; unfold six, vc; cbn [sumf Nat.eqb Nat.leb Nat.sub Nat.add vx vy vz]; field.
Qed.
Theorem bar_gravity lm L0 g i : (1 <= i <= 3)%nat -> barGravity lm L0 g i + barGravity lm L0 g (i + 3)%nat = lm * L0 * vc g i.
Proof. intros Hi. assert (i = 1 \/ i = 2 \/ i = 3)%nat as E by lia. destruct E as [-> | [-> | ->]]; unfold barGravity, third3, vc; cbn; field. Qed.

(** ** Reduction to fewer components per node *)
Lemma shrink_list npv : forall l b,
  (forall p, In p l -> (1 <= snd p <= npv)%nat) -> (npv <= 3)%nat ->
  (forall l1 p l2, l = l1 ++ p :: l2 -> forall q, In q l1 -> (npv * fst q + snd q < npv * fst p + snd p)%nat) ->
  (forall n, (forall p, In p l -> n <> npv * fst p + snd p)%nat -> fold_left (shrinkStep npv) l b n = b n) /\
  (forall p, In p l -> fold_left (shrinkStep npv) l b (npv * fst p + snd p)%nat = b (3 * fst p + snd p)%nat).
Proof.
  induction l as [|[a i] l IH] using rev_ind; intros b R N O; [split; [reflexivity|intros p []]|].
  destruct (IH b) as [I1 I2].
  { intros p Hp. apply R. apply in_or_app. now left. } { exact N. }
  { intros l1 p l2 E q Hq. apply (O l1 p (l2 ++ [(a, i)])); [|exact Hq]. rewrite E, <- app_assoc. reflexivity. }
  rewrite fold_left_app. cbn [fold_left]. set (c := fold_left (shrinkStep npv) l b) in *.
  assert (Ra : (1 <= i <= npv)%nat) by (apply (R (a, i)); apply in_or_app; right; now left).
  assert (Lt : forall q, In q l -> (npv * fst q + snd q < npv * a + i)%nat) by (intros q Hq; apply (O l (a, i) [] eq_refl q Hq)).
  split.
  - intros n Hn. unfold shrinkStep. destruct (Nat.eqb_spec n (npv * a + i)) as [E|E].
    + exfalso. apply (Hn (a, i)); [apply in_or_app; right; now left|exact E].
    + apply I1. intros p Hp. apply Hn. apply in_or_app. now left.
  - intros p Hp. apply in_app_or in Hp. unfold shrinkStep. destruct Hp as [Hp|[<-|[]]].
    + destruct (Nat.eqb_spec (npv * fst p + snd p) (npv * a + i)) as [E|E]; [specialize (Lt p Hp); lia|]. now apply I2.
    + cbn [fst snd]. rewrite Nat.eqb_refl. apply I1. intros q Hq. specialize (Lt q Hq). nia.
Qed.

Theorem shrink_vec npv nen b a i : (1 <= npv <= 2)%nat -> (a < nen)%nat -> (1 <= i <= npv)%nat -> shrinkVec npv nen b (npv * a + i)%nat = b (3 * a + i)%nat.
Proof.
  intros Hn Ha Hi. unfold shrinkVec. set (l := flat_map _ _).
  assert (Rng : forall p, In p l -> (1 <= fst p < nen)%nat /\ (1 <= snd p <= npv)%nat).
  { intros p Hp. apply in_flat_map in Hp. destruct Hp as [c [Hc Hp]]. apply in_seq in Hc. apply in_map_iff in Hp. destruct Hp as [d [<- Hd]]. apply in_seq in Hd. cbn. lia. }
  assert (Ord : forall l1 p l2, l = l1 ++ p :: l2 -> forall q, In q l1 -> (npv * fst q + snd q < npv * fst p + snd p)%nat).
  { clear - Hn. subst l. generalize 1%nat at 2. generalize (nen - 1)%nat. intros k. induction k as [|k IH]; intros s l1 p l2 E q Hq.
    - destruct l1; discriminate.
    - cbn [seq flat_map] in E.
      assert (Rng2 : forall p, In p (flat_map (fun a => map (fun i => (a, i)) (seq 1 npv)) (seq (S s) k)) -> (s < fst p)%nat /\ (1 <= snd p <= npv)%nat).
      { intros p' Hp. apply in_flat_map in Hp. destruct Hp as [c [Hc Hp]]. apply in_seq in Hc. apply in_map_iff in Hp. destruct Hp as [d [<- Hd]]. apply in_seq in Hd. cbn. lia. }
      assert (npv = 1 \/ npv = 2)%nat as EN by lia. destruct EN as [-> | ->]; cbn [seq map app] in E.
      + destruct l1 as [|x1 l1]; [destruct Hq|]. injection E as <- E. destruct Hq as [<-|Hq]; [|apply (IH (S s) l1 p l2 E q Hq)].
        assert (In p (flat_map (fun a => map (fun i => (a, i)) (seq 1 1)) (seq (S s) k))) as Q by (cbn [seq map] in *; rewrite E; apply in_or_app; right; now left).
        apply Rng2 in Q. cbn [fst snd]. lia.
      + destruct l1 as [|x1 l1]; [destruct Hq|]. injection E as <- E. destruct l1 as [|x2 l1].
        * injection E as <- E. destruct Hq as [<-|[]]. cbn [fst snd]. lia.
        * injection E as <- E. assert (In p (flat_map (fun a => map (fun i => (a, i)) (seq 1 2)) (seq (S s) k))) as Q by (cbn [seq map] in *; rewrite E; apply in_or_app; right; now left).
          apply Rng2 in Q. destruct Hq as [<-|[<-|Hq]]; [cbn [fst snd]; lia|cbn [fst snd]; lia|apply (IH (S s) l1 p l2 E q Hq)]. }
  destruct (shrink_list npv l b (fun p Hp => proj2 (Rng p Hp)) ltac:(lia) Ord) as [S1 S2].
  destruct (Nat.eq_dec a 0) as [->|Na].
  - replace (3 * 0 + i)%nat with (npv * 0 + i)%nat by lia. apply S1. intros p Hp E. apply Rng in Hp. nia.
  - apply (S2 (a, i)). unfold l. apply in_flat_map. exists a. split; [apply in_seq; lia|]. apply in_map_iff. exists i. split; [reflexivity|apply in_seq; lia].
Qed.
Theorem shrink_mat npv A a b i j : (1 <= npv)%nat -> (1 <= i <= npv)%nat -> (1 <= j <= npv)%nat -> shrinkMat npv A (npv * a + i)%nat (npv * b + j)%nat = A (3 * a + i)%nat (3 * b + j)%nat.
Proof.
  intros Hn Hi Hj. unfold shrinkMat.
  assert (Q : forall a i, (1 <= i <= npv)%nat -> ((npv * a + i - 1) / npv = a /\ (npv * a + i - 1) mod npv = i - 1)%nat).
  { clear - Hn. intros a i Hi. replace (npv * a + i - 1)%nat with (i - 1 + a * npv)%nat by lia. rewrite Nat.div_add, Nat.mod_add by lia. rewrite Nat.div_small, Nat.mod_small by lia. lia. }
  destruct (Q a i Hi) as [-> ->]. destruct (Q b j Hj) as [-> ->]. f_equal; lia.
Qed.
