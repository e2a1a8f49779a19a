From Coquelicot Require Import Coquelicot.
From Verif Require Import Lib.Base Lib.Sums Lib.Vec3 Model.Cable.

(** ** Derivatives of vector functions *)
Definition vderive (f : R -> v3) (t : R) (d : v3) : Prop :=
  is_derive (fun s => vx (f s)) t (vx d) /\ is_derive (fun s => vy (f s)) t (vy d) /\ is_derive (fun s => vz (f s)) t (vz d).

Lemma val_derive (f : R -> R) t (a b : R) : a = b -> is_derive f t a -> is_derive f t b. Proof. now intros ->. Qed.
Lemma mul_derive (f g : R -> R) t a b : is_derive f t a -> is_derive g t b -> is_derive (fun s => f s * g s) t (a * g t + f t * b).
Proof. intros F G. exact (is_derive_mult f g t a b F G Rmult_comm). Qed.
Lemma add_derive (f g : R -> R) t a b : is_derive f t a -> is_derive g t b -> is_derive (fun s => f s + g s) t (a + b).
Proof. intros F G. exact (is_derive_plus f g t a b F G). Qed.
Lemma sub_derive (f g : R -> R) t a b : is_derive f t a -> is_derive g t b -> is_derive (fun s => f s - g s) t (a - b).
Proof. intros F G. exact (is_derive_minus f g t a b F G). Qed.

Lemma const_derive (c t : R) : is_derive (fun _ : R => c) t 0. Proof. apply @is_derive_const. Qed.

Lemma dot_derive f g t a b : vderive f t a -> vderive g t b -> is_derive (fun s => vdot (f s) (g s)) t (vdot a (g t) + vdot (f t) b).
Proof.
  intros [F1 [F2 F3]] [G1 [G2 G3]]. unfold vdot.
  eapply val_derive; [|exact (add_derive _ _ _ _ _ (add_derive _ _ _ _ _ (mul_derive _ _ _ _ _ F1 G1) (mul_derive _ _ _ _ _ F2 G2)) (mul_derive _ _ _ _ _ F3 G3))]. cbn. ring.
Qed.
Lemma cross_derive f g t a b : vderive f t a -> vderive g t b -> vderive (fun s => vcross (f s) (g s)) t (vadd (vcross a (g t)) (vcross (f t) b)).
Proof.
  intros [F1 [F2 F3]] [G1 [G2 G3]]. unfold vcross, vadd. split; [|split]; cbn [vx vy vz].
  - eapply val_derive; [|exact (sub_derive _ _ _ _ _ (mul_derive _ _ _ _ _ F2 G3) (mul_derive _ _ _ _ _ F3 G2))]. cbn. ring.
  - eapply val_derive; [|exact (sub_derive _ _ _ _ _ (mul_derive _ _ _ _ _ F3 G1) (mul_derive _ _ _ _ _ F1 G3))]. cbn. ring.
  - eapply val_derive; [|exact (sub_derive _ _ _ _ _ (mul_derive _ _ _ _ _ F1 G2) (mul_derive _ _ _ _ _ F2 G1))]. cbn. ring.
Qed.
Lemma scal_derive f g t a b : is_derive f t a -> vderive g t b -> vderive (fun s => vscal (f s) (g s)) t (vadd (vscal a (g t)) (vscal (f t) b)).
Proof.
  intros F [G1 [G2 G3]]. unfold vscal, vadd. split; [|split]; cbn [vx vy vz].
  - exact (mul_derive _ _ _ _ _ F G1).
  - exact (mul_derive _ _ _ _ _ F G2).
  - exact (mul_derive _ _ _ _ _ F G3).
Qed.
Lemma sqrt_derive (f : R -> R) t a : 0 < f t -> is_derive f t a -> is_derive (fun s => sqrt (f s)) t (a / (2 * sqrt (f t))).
Proof.
  intros P F. assert (Q := sqrt_lt_R0 _ P). assert (D : is_derive sqrt (f t) (/ (2 * sqrt (f t)))) by (auto_derive; [exact P|field; lra]).
  eapply val_derive; [|exact (is_derive_comp sqrt f t _ _ D F)]. unfold scal; cbn. unfold mult; cbn. reflexivity.
Qed.
Definition unitOf (v : v3) : v3 := vscal (/ vlen v) v.
(** Derivative of the length and of the unit vector. *)
Lemma len_derive f t d : vderive f t d -> 0 < vlen (f t) -> is_derive (fun s => vlen (f s)) t (vdot (unitOf (f t)) d).
Proof.
  intros F P. assert (Q : 0 < vdot (f t) (f t)) by (rewrite <- vlen_sq; nra). unfold vlen at 1.
  eapply val_derive; [|apply (sqrt_derive _ t _ Q (dot_derive _ _ _ _ _ F F))]. fold (vlen (f t)). unfold unitOf. rewrite vdot_scal_l, (vdot_sym d). field. lra.
Qed.
Lemma inv_derive (f : R -> R) t a : 0 < f t -> is_derive f t a -> is_derive (fun s => / f s) t (- a / (f t * f t)).
Proof.
  intros P F. assert (D : is_derive Rinv (f t) (- / (f t * f t))) by (auto_derive; [lra|field; lra]).
  eapply val_derive; [|exact (is_derive_comp Rinv f t _ _ D F)]. unfold scal; cbn. unfold mult; cbn. field. lra.
Qed.
Definition dUnit (f d : v3) : v3 := vscal (/ vlen f) (vsub d (vscal (vdot (unitOf f) d) (unitOf f))).
Lemma unit_derive f t d : vderive f t d -> 0 < vlen (f t) -> vderive (fun s => unitOf (f s)) t (dUnit (f t) d).
Proof.
  intros F P. assert (L := len_derive f t d F P). assert (I := inv_derive _ t _ P L).
  assert (S := scal_derive _ _ _ _ _ I F). unfold unitOf at 1.
  destruct S as [S1 [S2 S3]]. unfold dUnit. set (k := vdot (unitOf (f t)) d) in *. clearbody k. unfold unitOf, vadd, vsub, vscal in *. cbn [vx vy vz] in *.
  split; [|split]; (eapply val_derive; [|first [exact S1|exact S2|exact S3]]); cbn; field; lra.
Qed.
Lemma vderive_ext_loc f g t d : locally t (fun s => f s = g s) -> vderive f t d -> vderive g t d.
Proof.
  intros E [F1 [F2 F3]]. split; [|split].
  - apply (is_derive_ext_loc (fun s => vx (f s))); [|exact F1]. revert E. apply filter_imp. now intros s ->.
  - apply (is_derive_ext_loc (fun s => vy (f s))); [|exact F2]. revert E. apply filter_imp. now intros s ->.
  - apply (is_derive_ext_loc (fun s => vz (f s))); [|exact F3]. revert E. apply filter_imp. now intros s ->.
Qed.

(** ** Nodal displacements *)
Definition unitVec (i : nat) : v3 := V (kron 1 i) (kron 2 i) (kron 3 i).
(* displacement number (a,i) increased by t *)
Definition bump (eV : nat -> nat -> R) (a i : nat) (t : R) : nat -> nat -> R :=
  fun b j => if ((b =? a) && (j =? i))%nat%bool then eV b j + t else eV b j.
Lemma sum_bump nen d eV a i j t : (1 <= a <= nen)%nat ->
  sumf nen (fun b => d b * bump eV a i t b j) = sumf nen (fun b => d b * eV b j) + t * (kron j i * d a).
Proof.
  intros Ha. rewrite (sumf_ext nen _ (fun b => d b * eV b j + (t * kron j i * d a) * kron b a)).
  - rewrite sumf_plus, sumf_scal. rewrite (sumf_ext nen (fun b => kron b a) (fun b => kron b a * 1)) by (intros; ring).
    rewrite (sumf_kron nen a (fun _ => 1)) by assumption. ring.
  - intros b _. unfold bump, kron. destruct (Nat.eqb_spec b a) as [->|]; destruct (Nat.eqb_spec j i); cbn [andb]; ring.
Qed.
Lemma current_bump nen d v eV a i t : (1 <= a <= nen)%nat ->
  current nen d v (bump eV a i t) = vadd (current nen d v eV) (vscal t (vscal (d a) (unitVec i))).
Proof.
  intros Ha. unfold current. rewrite !sum_bump by assumption. unfold vadd, vscal, unitVec; cbn [vx vy vz]. f_equal; ring.
Qed.
Lemma line_derive v w : vderive (fun t => vadd v (vscal t w)) 0 w.
Proof. destruct v as [a b c], w as [d e f]. unfold vadd, vscal. split; [|split]; cbn; auto_derive; try easy; ring. Qed.

(** ** The code's derivative formulas as vectors *)
Lemma eps_cross u w k : (1 <= k <= 3)%nat -> vc (vcross u w) k = sumf 3 (fun l => sumf 3 (fun i => eps3 k l i * vc u l * vc w i)).
Proof.
  intros Hk. assert (k = 1 \/ k = 2 \/ k = 3)%nat as E by lia. destruct u as [a b c], w as [d e f].
  destruct E as [-> | [-> | ->]]; unfold eps3, vcross, vc; cbn [sumf vx vy vz INR]; field.
Qed.
Lemma vc_unitVec i j : (1 <= j <= 3)%nat -> vc (unitVec i) j = kron j i.
Proof. intros H. assert (j = 1 \/ j = 2 \/ j = 3)%nat as E by lia. destruct E as [-> | [-> | ->]]; reflexivity. Qed.

Section Formulas.
Variables (dN ddN : nat -> R) (dx ddx : v3) (ax : axes).
(* direction of dof (a,i) *)
Definition dbV (a i : nat) : v3 := vadd (vcross (vscal (dN a) (unitVec i)) ddx) (vcross dx (vscal (ddN a) (unitVec i))).
Lemma db_vec a k i : (1 <= k <= 3)%nat -> (1 <= i <= 3)%nat -> db dN ddN dx ddx a k i = vc (dbV a i) k.
Proof.
  intros Hk Hi. assert (k = 1 \/ k = 2 \/ k = 3)%nat as E by lia. assert (i = 1 \/ i = 2 \/ i = 3)%nat as F by lia.
  unfold db, dbV, unitVec, kron.
  destruct E as [-> | [-> | ->]]; destruct F as [-> | [-> | ->]]; unfold eps3, vcross, vadd, vscal, vc; cbn [sumf vx vy vz INR Nat.eqb]; field.
Qed.
Lemma dot_sum u f k0 : (forall k, (1 <= k <= 3)%nat -> f k = vc k0 k) -> sumf 3 (fun k => vc u k * f k) = vdot u k0.
Proof. intros H. rewrite (sumf_ext 3 _ (fun k => vc u k * vc k0 k)) by (intros; now rewrite H). unfold vdot, vc. cbn [sumf]. ring. Qed.
Definition duV (u : v3) (len : R) (d : v3) : v3 := vscal (/ len) (vsub d (vscal (vdot u d) u)).
Lemma vc_duV u len d k : vc (duV u len d) k = (vc d k - vc u k * vdot u d) / len.
Proof. destruct u as [a b c], d as [d e f]. unfold duV, vscal, vsub, vc, Rdiv; cbn. do 3 (destruct k as [|k]; [cbn; ring|]). cbn. ring. Qed.
Definition dbUnitV (a i : nat) : v3 := duV (bU ax) (bLen ax) (dbV a i).
Lemma dbUnit_vec a k i : (1 <= k <= 3)%nat -> (1 <= i <= 3)%nat -> dbUnit dN ddN dx ddx ax a k i = vc (dbUnitV a i) k.
Proof.
  intros Hk Hi. unfold dbUnit, dbUnitV, dbNormal. rewrite vc_duV, db_vec, (dot_sum _ _ (dbV a i)) by (intros; try apply db_vec; assumption). reflexivity.
Qed.
Definition dnV (a i : nat) : v3 := vadd (vcross (dbUnitV a i) dx) (vcross (bU ax) (vscal (dN a) (unitVec i))).
Lemma dn_vec a k i : (1 <= k <= 3)%nat -> (1 <= i <= 3)%nat -> dn dN ddN dx ddx ax a k i = vc (dnV a i) k.
Proof.
  intros Hk Hi. unfold dn, dnV.
  rewrite (sumf_ext 3 _ (fun l => eps3 k l i * vc (bU ax) l * dN a + sumf 3 (fun o => eps3 k o l * vc (dbUnitV a i) o * vc dx l))).
  2:{ intros l Hl. f_equal. apply sumf_ext. intros o Ho. rewrite dbUnit_vec by assumption. reflexivity. }
  generalize (dbUnitV a i). intros w. assert (k = 1 \/ k = 2 \/ k = 3)%nat as E by lia. assert (i = 1 \/ i = 2 \/ i = 3)%nat as F by lia.
  unfold unitVec, kron.
  destruct E as [-> | [-> | ->]]; destruct F as [-> | [-> | ->]]; unfold eps3, vcross, vadd, vscal, vc; cbn [sumf vx vy vz INR Nat.eqb]; field.
Qed.
Definition dnUnitV (a i : nat) : v3 := duV (nU ax) (nLen ax) (dnV a i).
Lemma dnUnit_vec a k i : (1 <= k <= 3)%nat -> (1 <= i <= 3)%nat -> dnUnit dN ddN dx ddx ax a k i = vc (dnUnitV a i) k.
Proof.
  intros Hk Hi. unfold dnUnit, dnUnitV, dnNormal. rewrite vc_duV, dn_vec, (dot_sum _ _ (dnV a i)) by (intros; try apply dn_vec; assumption). reflexivity.
Qed.
End Formulas.

(** ** Exactness of the first derivatives *)
Section Exact.
Variables (straight : v3 -> v3 -> option v3) (dN ddN : nat -> R) (nen : nat) (dX ddX : v3) (eV : nat -> nat -> R).
Notation dxOf v := (current nen dN dX v).
Notation ddxOf v := (current nen ddN ddX v).
Hypothesis curved : 1 / 10 ^ 12 < vlen (vcross (dxOf eV) (ddxOf eV)).
Let B := vcross (dxOf eV) (ddxOf eV).
Let ax := axesOf B (dxOf eV).

Lemma Bpos : 0 < vlen B.
Proof. assert (0 < 1 / 10 ^ 12) by (apply Rmult_lt_0_compat; [lra|apply Rinv_0_lt_compat, pow_lt; lra]). unfold B. lra. Qed.
Lemma bU_unit : bU ax = unitOf B.
Proof. unfold ax, axesOf, unitOf. cbn [bU]. unfold Rdiv. rewrite Rmult_1_l. reflexivity. Qed.
Lemma nU_unit : nU ax = unitOf (vcross (unitOf B) (dxOf eV)).
Proof. rewrite <- bU_unit. reflexivity. Qed.
Lemma unit_norm v : 0 < vlen v -> vdot (unitOf v) (unitOf v) = 1.
Proof. intros P. unfold unitOf. rewrite vdot_scal_l, vdot_scal_r, <- vlen_sq. field. lra. Qed.
Lemma npos : 0 < vlen (vcross (unitOf B) (dxOf eV)).
Proof.
  assert (O : vdot B (dxOf eV) = 0) by (rewrite vdot_sym; apply cross_dot_l).
  assert (Q : vdot (vcross (unitOf B) (dxOf eV)) (vcross (unitOf B) (dxOf eV)) = vdot (dxOf eV) (dxOf eV)).
  { rewrite lagrange, unit_norm by apply Bpos. unfold unitOf. rewrite vdot_scal_l, O. ring. }
  unfold vlen. apply sqrt_lt_R0. rewrite Q. destruct (vdot_pos (dxOf eV)) as [P|P]; [exact P|]. exfalso.
  assert (Bp := Bpos). assert (G : vdot B B = vdot (dxOf eV) (dxOf eV) * vdot (ddxOf eV) (ddxOf eV) - vdot (dxOf eV) (ddxOf eV) * vdot (dxOf eV) (ddxOf eV)) by (unfold B; apply lagrange).
  rewrite <- P in G. rewrite <- vlen_sq in G. assert (R0 := Rle_0_sqr (vdot (dxOf eV) (ddxOf eV))). unfold Rsqr in R0. nra.
Qed.

Section Dof.
Variables (a i : nat).
Hypothesis (Ha : (1 <= a <= nen)%nat) (Hi : (1 <= i <= 3)%nat).
Notation u := (bump eV a i).
Lemma dx_derive : vderive (fun t => dxOf (u t)) 0 (vscal (dN a) (unitVec i)).
Proof. apply (vderive_ext_loc (fun t => vadd (dxOf eV) (vscal t (vscal (dN a) (unitVec i))))); [|apply line_derive]. apply filter_forall. intros t. now rewrite current_bump. Qed.
Lemma ddx_derive : vderive (fun t => ddxOf (u t)) 0 (vscal (ddN a) (unitVec i)).
Proof. apply (vderive_ext_loc (fun t => vadd (ddxOf eV) (vscal t (vscal (ddN a) (unitVec i))))); [|apply line_derive]. apply filter_forall. intros t. now rewrite current_bump. Qed.
Lemma u0 : forall b j, u 0 b j = eV b j.
Proof. intros b j. unfold bump. destruct (_ && _)%bool; ring. Qed.
Lemma current0 d v : current nen d v (u 0) = current nen d v eV.
Proof. rewrite current_bump by assumption. destruct (current nen d v eV) as [p q r]. unfold vadd, vscal; cbn. f_equal; ring. Qed.

Lemma B_derive : vderive (fun t => vcross (dxOf (u t)) (ddxOf (u t))) 0 (dbV dN ddN (dxOf eV) (ddxOf eV) a i).
Proof. assert (D := cross_derive _ _ _ _ _ dx_derive ddx_derive). cbn beta in D. rewrite !current0 in D. exact D. Qed.

Lemma stays_curved : locally 0 (fun t => 1 / 10 ^ 12 < vlen (vcross (dxOf (u t)) (ddxOf (u t)))).
Proof.
  assert (D := len_derive _ _ _ B_derive). cbn beta in D. rewrite !current0 in D. specialize (D Bpos).
  assert (C : continuous (fun t => vlen (vcross (dxOf (u t)) (ddxOf (u t)))) 0) by (apply (ex_derive_continuous (K := R_AbsRing) (V := R_NormedModule)); eexists; exact D).
  apply C. apply (open_gt (1 / 10 ^ 12)). rewrite !current0. exact curved.
Qed.
(* the branch of evalLocalAxes taken near the configuration *)
Lemma axes_near : locally 0 (fun t => evalLocalAxes straight (dxOf (u t)) (ddxOf (u t)) = Some (axesOf (vcross (dxOf (u t)) (ddxOf (u t))) (dxOf (u t)))).
Proof. assert (S := stays_curved). revert S. apply filter_imp. intros t H. unfold evalLocalAxes. destruct (Rlt_dec _ _); [lra|reflexivity]. Qed.

Definition bUnitOf t := unitOf (vcross (dxOf (u t)) (ddxOf (u t))).
Definition nUnitOf t := unitOf (vcross (bUnitOf t) (dxOf (u t))).
Lemma bU_derive : vderive bUnitOf 0 (dbUnitV dN ddN (dxOf eV) (ddxOf eV) ax a i).
Proof.
  assert (D := unit_derive _ _ _ B_derive). cbn beta in D. rewrite !current0 in D. specialize (D Bpos).
  unfold dbUnitV, duV. rewrite bU_unit. exact D.
Qed.
Lemma b0 : bUnitOf 0 = unitOf B. Proof. unfold bUnitOf. rewrite !current0. reflexivity. Qed.
Lemma n_derive : vderive (fun t => vcross (bUnitOf t) (dxOf (u t))) 0 (dnV dN ddN (dxOf eV) (ddxOf eV) ax a i).
Proof.
  assert (D := cross_derive _ _ _ _ _ bU_derive dx_derive). cbn beta in D. rewrite b0, current0 in D. unfold dnV. rewrite bU_unit. exact D.
Qed.
Lemma nU_derive : vderive nUnitOf 0 (dnUnitV dN ddN (dxOf eV) (ddxOf eV) ax a i).
Proof.
  assert (D := unit_derive _ _ _ n_derive). cbn beta in D. rewrite b0, current0 in D. specialize (D npos).
  unfold dnUnitV, duV. rewrite nU_unit. replace (nLen ax) with (vlen (vcross (unitOf B) (dxOf eV))) by (unfold ax, axesOf; cbn [nLen]; fold (bU ax); rewrite <- bU_unit; reflexivity). exact D.
Qed.

(** The unit normal used by the code. *)
Theorem normal_exact : forall k, (1 <= k <= 3)%nat ->
  is_derive (fun t => match evalLocalAxes straight (dxOf (u t)) (ddxOf (u t)) with Some x => vc (nU x) k | None => 0 end) 0
    (dnUnit dN ddN (dxOf eV) (ddxOf eV) ax a k i).
Proof.
  intros k Hk. rewrite dnUnit_vec by assumption.
  apply (is_derive_ext_loc (fun t => vc (nUnitOf t) k)).
  - assert (S := axes_near). revert S. apply filter_imp. intros t ->. unfold nUnitOf, bUnitOf, axesOf, unitOf. cbn [nU]. unfold Rdiv. rewrite Rmult_1_l. reflexivity.
  - destruct nU_derive as [D1 [D2 D3]]. assert (k = 1 \/ k = 2 \/ k = 3)%nat as E by lia. destruct E as [-> | [-> | ->]]; assumption.
Qed.

Theorem strain_exact : is_derive (fun t => axialStrain dX (dxOf (u t))) 0 (deps dN (dxOf eV) a i).
Proof.
  unfold axialStrain. assert (D := dot_derive _ _ _ _ _ dx_derive dx_derive). cbn beta in D. rewrite !current0 in D.
  assert (D' := sub_derive _ _ _ _ _ D (const_derive (vdot dX dX) 0)). 
  eapply val_derive; [|exact (mul_derive _ _ _ _ _ (const_derive (1 / 2) 0) D')]. unfold deps.
  assert (i = 1 \/ i = 2 \/ i = 3)%nat as E by lia. generalize (dxOf eV). intros [p q r]. unfold vdot, vscal, unitVec, kron. destruct E as [-> | [-> | ->]]; cbn; field.
Qed.

Theorem curvature_exact NU :
  is_derive (fun t => match evalLocalAxes straight (dxOf (u t)) (ddxOf (u t)) with Some x => curvature ddX NU (ddxOf (u t)) (nU x) | None => 0 end) 0
    (dkappa dN ddN (dxOf eV) (ddxOf eV) ax a i).
Proof.
  apply (is_derive_ext_loc (fun t => vdot (ddxOf (u t)) (nUnitOf t) - vdot ddX NU)).
  - assert (S := axes_near). revert S. apply filter_imp. intros t ->. unfold curvature, nUnitOf, bUnitOf, axesOf, unitOf. cbn [nU]. unfold Rdiv. rewrite Rmult_1_l. reflexivity.
  - assert (D := dot_derive _ _ _ _ _ ddx_derive nU_derive). cbn beta in D. unfold nUnitOf at 2 in D. rewrite b0, !current0, <- nU_unit in D.
    eapply val_derive; [|exact (sub_derive _ _ _ _ _ D (const_derive (vdot ddX NU) 0))].
    unfold dkappa. rewrite (dot_sum (ddxOf eV) _ (dnUnitV dN ddN (dxOf eV) (ddxOf eV) ax a i)) by (intros; apply dnUnit_vec; assumption).
    assert (Q : vdot (vscal (ddN a) (unitVec i)) (nU ax) = ddN a * vc (nU ax) i).
    { assert (i = 1 \/ i = 2 \/ i = 3)%nat as E by lia. destruct (nU ax) as [p q r]. unfold vdot, vscal, unitVec, kron. destruct E as [-> | [-> | ->]]; cbn; ring. }
    rewrite Q. ring.
Qed.

(** Internal forces: gradient of the strain energy at the point. *)
Definition pointEnergy (EA EI JW : R) (NU : v3) (w : nat -> nat -> R) : R :=
  match evalLocalAxes straight (dxOf w) (ddxOf w) with
  | Some x => JW * (EA / 2 * axialStrain dX (dxOf w) ^ 2 + EI / 2 * curvature ddX NU (ddxOf w) (nU x) ^ 2)
  | None => 0
  end.
Theorem force_exact EA EI detJxW out A0 : evalLocalAxes straight dX ddX = Some A0 ->
  evalPoint straight dN ddN nen EA EI detJxW dX ddX eV = Ret out ->
  is_derive (fun t => pointEnergy EA EI (detJxW / vdot dX dX ^ 2) (nU A0) (u t)) 0 (- pS out a i).
Proof.
  intros E0 E. unfold evalPoint in E. rewrite E0 in E.
  assert (Ax : evalLocalAxes straight (dxOf eV) (ddxOf eV) = Some ax) by (unfold evalLocalAxes; destruct (Rlt_dec _ _); [lra|reflexivity]).
  rewrite Ax in E. injection E as <-. cbn [pS].
  assert (Ds := strain_exact). assert (Dk := curvature_exact (nU A0)).
  apply (is_derive_ext_loc (fun t => detJxW / vdot dX dX ^ 2 * (EA / 2 * (axialStrain dX (dxOf (u t)) * axialStrain dX (dxOf (u t))) +
    EI / 2 * (match evalLocalAxes straight (dxOf (u t)) (ddxOf (u t)) with Some x => curvature ddX (nU A0) (ddxOf (u t)) (nU x) | None => 0 end *
              match evalLocalAxes straight (dxOf (u t)) (ddxOf (u t)) with Some x => curvature ddX (nU A0) (ddxOf (u t)) (nU x) | None => 0 end)))).
  - assert (S := axes_near). revert S. apply filter_imp. intros t S. unfold pointEnergy. rewrite S. match goal with |- @eq _ ?x ?y => change (@eq R x y) end. ring.
  - assert (D1 := mul_derive _ _ _ _ _ Ds Ds). assert (D2 := mul_derive _ _ _ _ _ Dk Dk).
    assert (D3 := add_derive _ _ _ _ _ (mul_derive _ _ _ _ _ (const_derive (EA / 2) 0) D1) (mul_derive _ _ _ _ _ (const_derive (EI / 2) 0) D2)).
    eapply val_derive; [|exact (mul_derive _ _ _ _ _ (const_derive (detJxW / vdot dX dX ^ 2) 0) D3)].
    cbv beta. rewrite !current0, Ax. replace (vx dX * vx dX + vy dX * vy dX + vz dX * vz dX) with (vdot dX dX) by reflexivity.
    change (vscal (/ vlen (vcross (vscal (1 / vlen B) B) (dxOf eV))) (vcross (vscal (1 / vlen B) B) (dxOf eV))) with (nU ax).
    unfold Rdiv. cbn [pow]. rewrite ?Rmult_1_r, Rinv_mult. generalize (/ vdot dX dX). intros g. field.
Qed.

Theorem ddeps_exact b j : (1 <= b <= nen)%nat -> (1 <= j <= 3)%nat -> is_derive (fun t => deps dN (dxOf (u t)) b j) 0 (ddeps dN a b i j).
Proof.
  intros Hb Hj. unfold deps, ddeps. destruct dx_derive as [D1 [D2 D3]].
  assert (C : is_derive (fun _ : R => dN b) 0 0) by apply @is_derive_const.
  assert (i = 1 \/ i = 2 \/ i = 3)%nat as E by lia. assert (j = 1 \/ j = 2 \/ j = 3)%nat as F by lia.
  destruct F as [-> | [-> | ->]];
  (eapply val_derive; [|first [exact (mul_derive _ _ _ _ _ C D1)|exact (mul_derive _ _ _ _ _ C D2)|exact (mul_derive _ _ _ _ _ C D3)]]);
  destruct E as [-> | [-> | ->]]; unfold vscal, unitVec, kron; cbn; ring.
Qed.
End Dof.
End Exact.

(** ** Tangent: the material part is symmetric and positive semi-definite. *)
Theorem cable_Km straight dN ddN nen EA EI detJxW dX ddX eV out :
  0 <= EA -> 0 <= EI -> 0 <= detJxW -> evalPoint straight dN ddN nen EA EI detJxW dX ddX eV = Ret out ->
  (forall a i b j, pKm out a i b j = pKm out b j a i) /\
  forall w, 0 <= sumf nen (fun a => sumf 3 (fun i => sumf nen (fun b => sumf 3 (fun j => w a i * pKm out a i b j * w b j)))).
Proof.
  intros HA HI HJ E. unfold evalPoint in E.
  destruct (evalLocalAxes straight dX ddX) as [A0|]; [|discriminate].
  destruct (evalLocalAxes straight _ _) as [ax|]; [|discriminate]. injection E as <-. cbn [pKm]. split; [intros; ring|]. intros w.
  set (dx := current nen dN dX eV). set (ddx := current nen ddN ddX eV).
  set (g2 := 1 / (vx dX * vx dX + vy dX * vy dX + vz dX * vz dX)). assert (P : 0 <= g2 * g2 * detJxW) by (apply Rmult_le_pos; [apply Rle_0_sqr|exact HJ]).
  set (p := EA * (g2 * g2 * detJxW)). set (q := EI * (g2 * g2 * detJxW)).
  assert (Pp : 0 <= p) by (apply Rmult_le_pos; assumption). assert (Pq : 0 <= q) by (apply Rmult_le_pos; assumption).
  set (f := sumf nen (fun a => sumf 3 (fun i => w a i * deps dN dx a i))). set (g := sumf nen (fun a => sumf 3 (fun i => w a i * dkappa dN ddN dx ddx ax a i))).
  assert (Q : forall h : nat -> nat -> R, sumf nen (fun a => sumf 3 (fun i => sumf nen (fun b => sumf 3 (fun j => (w a i * h a i) * (w b j * h b j))))) =
     sumf nen (fun a => sumf 3 (fun i => w a i * h a i)) * sumf nen (fun a => sumf 3 (fun i => w a i * h a i))).
  { intros h. rewrite <- sumf_scal_r. apply sumf_ext. intros a _. rewrite <- sumf_scal_r. apply sumf_ext. intros i _. rewrite <- sumf_scal. apply sumf_ext. intros b _. rewrite <- sumf_scal. reflexivity. }
  replace (sumf nen _) with (p * (f * f) + q * (g * g)); [assert (F := Rle_0_sqr f); assert (G := Rle_0_sqr g); unfold Rsqr in *; nra|].
  unfold f, g. rewrite <- !Q, <- !sumf_scal, <- sumf_plus. apply sumf_ext. intros a _. rewrite <- !sumf_scal, <- sumf_plus. apply sumf_ext. intros i _.
  rewrite <- !sumf_scal, <- sumf_plus. apply sumf_ext. intros b _. rewrite <- !sumf_scal, <- sumf_plus. apply sumf_ext. intros j _. ring.
Qed.

(** ** The curvature part of the geometric stiffness is not the second derivative. *)
Definition w0 : nat -> R := fun _ => 0.
Definition w1 : nat -> R := fun _ => 1.
Definition rest : nat -> nat -> R := fun _ _ => 0.
Lemma vlen_val v l : 0 <= l -> vdot v v = l * l -> vlen v = l.
Proof. intros H E. unfold vlen. rewrite E. apply sqrt_square, H. Qed.
Lemma wit_axes straight r : 0 < r -> forall x, (1 + x) * (1 + x) + 1 = / r * / r ->
  evalLocalAxes straight (current 1 w0 (V 0 0 1) (bump rest 1 1 x)) (current 1 w1 (V 1 1 0) (bump rest 1 1 x)) =
  Some (mkAxes (V (- r) ((1 + x) * r) 0) (V ((1 + x) * r) r 0) (/ r) 1).
Proof.
  intros Hr x Hx. rewrite !current_bump by lia. unfold current, rest, vadd, vscal, unitVec, kron, w0, w1; cbn [sumf vx vy vz Nat.eqb].
  assert (Pr := Rinv_0_lt_compat _ Hr).
  unfold evalLocalAxes, vcross; cbn [vx vy vz].
  match goal with |- context [vlen ?v] => assert (L : vlen v = / r) by (apply vlen_val; [lra|unfold vdot; cbn [vx vy vz]; rewrite <- Hx; ring]) end.
  rewrite L. destruct (Rlt_dec (/ r) (1 / 10 ^ 12)) as [H|_].
  - exfalso. assert (1 <= / r * / r) by (rewrite <- Hx; assert (Sq := Rle_0_sqr (1 + x)); unfold Rsqr in Sq; lra). assert (1 / 10 ^ 12 < 1) by (assert (1 < 10 ^ 12) by (apply Rlt_pow_R1; [lra|lia]); apply (Rmult_lt_reg_r (10 ^ 12)); [lra|unfold Rdiv; rewrite Rmult_1_l, Rinv_l; lra]). nra.
  - assert (Hx' : ((1 + x) * (1 + x) + 1) * (r * r) = 1) by (rewrite Hx; field; lra).
    unfold axesOf. rewrite L. unfold vscal, vcross; cbn [vx vy vz].
    match goal with |- context [vlen ?v] => assert (M : vlen v = 1) by (apply vlen_val; [lra|unfold vdot; cbn [vx vy vz]; transitivity (((1 + x) * (1 + x) + 1) * (r * r)); [field; lra|lra]]) end.
    rewrite M. f_equal. f_equal; f_equal; field; lra.
Qed.
Lemma eps_val k l i : (1 <= k <= 3)%nat -> (1 <= l <= 3)%nat -> (1 <= i <= 3)%nat ->
  eps3 k l i = match k, l, i with 1%nat, 2%nat, 3%nat | 2%nat, 3%nat, 1%nat | 3%nat, 1%nat, 2%nat => 1 | 1%nat, 3%nat, 2%nat | 3%nat, 2%nat, 1%nat | 2%nat, 1%nat, 3%nat => - 1 | _, _, _ => 0 end.
Proof.
  intros H1 H2 H3. assert (k = 1 \/ k = 2 \/ k = 3)%nat as E by lia. assert (l = 1 \/ l = 2 \/ l = 3)%nat as F by lia. assert (i = 1 \/ i = 2 \/ i = 3)%nat as G by lia.
  destruct E as [-> | [-> | ->]]; destruct F as [-> | [-> | ->]]; destruct G as [-> | [-> | ->]]; unfold eps3; cbn [INR]; field.
Qed.
Section Witness.
Variables (y r : R).
Hypothesis (Hr : 0 < r) (E : y * y * (r * r) = 1 - r * r).
Let dx := V 0 0 1.
Let ddx := V y 1 0.
Let ax := mkAxes (V (- r) (y * r) 0) (V (y * r) r 0) (/ r) 1.
Lemma wit_dbV : dbV w0 w1 dx ddx 1 1 = V 0 1 0.
Proof. unfold dbV, dx, ddx, w0, w1, unitVec, kron, vadd, vscal, vcross; cbn [vx vy vz Nat.eqb]. f_equal; ring. Qed.
Lemma wit_dbU : dbUnitV w0 w1 dx ddx ax 1 1 = V (y * r ^ 3) (r ^ 3) 0.
Proof.
  unfold dbUnitV. rewrite wit_dbV. unfold duV, ax, vdot, vsub, vscal; cbn [vx vy vz bU bLen]. rewrite Rinv_inv. f_equal; try ring.
  transitivity (r * (1 - y * y * (r * r))); [ring|rewrite E; ring].
Qed.
Lemma wit_dnV : dnV w0 w1 dx ddx ax 1 1 = V (r ^ 3) (- y * r ^ 3) 0.
Proof. unfold dnV. rewrite wit_dbU. unfold dx, ax, w0, unitVec, kron, vadd, vscal, vcross; cbn [vx vy vz bU Nat.eqb]. f_equal; ring. Qed.
Lemma wit_dnU : dnUnitV w0 w1 dx ddx ax 1 1 = V (r ^ 3) (- y * r ^ 3) 0.
Proof. unfold dnUnitV. rewrite wit_dnV. unfold duV, ax, vdot, vsub, vscal; cbn [vx vy vz nU nLen]. rewrite Rinv_1. f_equal; ring. Qed.
Lemma wit_dkappa : dkappa w0 w1 dx ddx ax 1 1 = y * r.
Proof.
  unfold dkappa. rewrite (dot_sum _ _ (dnUnitV w0 w1 dx ddx ax 1 1)) by (intros; apply dnUnit_vec; lia). rewrite wit_dnU.
  unfold w1, ddx, ax, vc, vdot; cbn [vx vy vz nU]. ring.
Qed.
Hypothesis Hy : y = 1.
Lemma wit_rr : r * r = 1 / 2. Proof. rewrite Hy in E. lra. Qed.
Lemma wit_dbN : dbNormal w0 w1 dx ddx ax 1 1 = r.
Proof.
  unfold dbNormal. rewrite (dot_sum _ _ (dbV w0 w1 dx ddx 1 1)) by (intros; apply db_vec; lia). rewrite wit_dbV. unfold ax, vdot; cbn [vx vy vz bU]. rewrite Hy. ring.
Qed.
Lemma wit_dnN : dnNormal w0 w1 dx ddx ax 1 1 = 0.
Proof.
  unfold dnNormal. rewrite (dot_sum _ _ (dnV w0 w1 dx ddx ax 1 1)) by (intros; apply dn_vec; lia). rewrite wit_dnV. unfold ax, vdot; cbn [vx vy vz nU]. ring.
Qed.
Lemma wit_ddb k : ddb w0 w1 1 1 k 1 1 = 0. Proof. unfold ddb, w0. ring. Qed.
Lemma wit_db k : (1 <= k <= 3)%nat -> db w0 w1 dx ddx 1 k 1 = vc (V 0 1 0) k. Proof. intros. rewrite db_vec by lia. now rewrite wit_dbV. Qed.
Lemma wit_dn k : (1 <= k <= 3)%nat -> dn w0 w1 dx ddx ax 1 k 1 = vc (V (r ^ 3) (- y * r ^ 3) 0) k. Proof. intros. rewrite dn_vec by lia. now rewrite wit_dnV. Qed.
Lemma rinv : / r = 2 * r. Proof. assert (H := wit_rr). apply (Rmult_eq_reg_l r); [|lra]. rewrite Rinv_r by lra. lra. Qed.
Lemma r3 : r ^ 3 = r / 2. Proof. assert (H := wit_rr). replace (r ^ 3) with (r * r * r) by ring. rewrite H. field. Qed.
Lemma wit_ddbN : ddbNormal w0 w1 dx ddx ax 1 1 1 1 = r / 2.
Proof.
  unfold ddbNormal. cbn [sumf]. rewrite !wit_ddb, !wit_db by lia. unfold bin, vc, ax; cbn [vx vy vz bU bLen]. rewrite Hy, rinv.
  assert (H := wit_rr). unfold Rdiv. rewrite !Rinv_mult, rinv. 
  match goal with |- ?l = _ => ring_simplify l end. replace (r ^ 7) with (r * (r * r) * (r * r) * (r * r)) by ring. rewrite H. field.
Qed.
Lemma wit_ddbU k : (1 <= k <= 3)%nat -> ddbUnit w0 w1 dx ddx ax 1 1 k 1 1 = vc (V (- r / 4) (- 3 * r / 4) 0) k.
Proof.
  intros Hk. unfold ddbUnit. rewrite wit_ddb, wit_dbN, wit_ddbN, !wit_db by lia. unfold bin, ax; cbn [bU bLen]. rewrite Hy, rinv.
  assert (H := wit_rr). assert (k = 1 \/ k = 2 \/ k = 3)%nat as K by lia.
  destruct K as [-> | [-> | ->]]; unfold vc; cbn [vx vy vz]; unfold Rdiv; rewrite !Rinv_mult, rinv;
    (match goal with |- ?l = _ => ring_simplify l end); try replace (r ^ 7) with (r * (r * r) * (r * r) * (r * r)) by ring; try replace (r ^ 5) with (r * (r * r) * (r * r)) by ring; try replace (r ^ 3) with (r * (r * r)) by ring; rewrite ?H; field.
Qed.
Lemma wit_ddn k : (1 <= k <= 3)%nat -> ddn w0 w1 dx ddx ax 1 1 k 1 1 = vc (V (- 3 * r / 4) (r / 4) 0) k.
Proof.
  intros Hk. unfold ddn. cbn [sumf]. rewrite !wit_ddbU by lia. unfold w0. rewrite !eps_val by lia. assert (k = 1 \/ k = 2 \/ k = 3)%nat as K by lia.
  destruct K as [-> | [-> | ->]]; unfold vc, dx; cbn [vx vy vz]; field.
Qed.
Lemma wit_ddnN : ddnNormal w0 w1 dx ddx ax 1 1 1 1 = - 1 / 8.
Proof.
  unfold ddnNormal. cbn [sumf]. rewrite !wit_ddn, !wit_dn by lia. unfold nn, vc, ax; cbn [vx vy vz nU nLen]. rewrite Hy, r3. assert (H := wit_rr).
  match goal with |- ?l = _ => replace l with (- (r * r) / 2 + (r * r) / 2 - (r * r) * (r * r) / 2) by field end. rewrite H. field.
Qed.
Lemma wit_ddkappa : ddkappa w0 w1 dx ddx ax 1 1 1 1 = r / 2 + r / 4.
Proof.
  unfold ddkappa, ddnUnit. cbn [sumf]. rewrite wit_dnN, wit_ddnN, !wit_ddn, !wit_dn, !dnUnit_vec, wit_dnU by lia. unfold nn, w1, ddx, vc, ax; cbn [vx vy vz nU nLen]. rewrite Hy, r3. field.
Qed.
End Witness.

(** The curvature part of the geometric stiffness differs from the derivative of the curvature gradient. *)
Theorem geometric_wrong straight : exists (dN ddN : nat -> R) (dX ddX : v3) (ax : axes),
  let cfg t := bump rest 1 1 t in
  evalLocalAxes straight (current 1 dN dX rest) (current 1 ddN ddX rest) = Some ax /\
  (forall l, is_derive (fun t => match evalLocalAxes straight (current 1 dN dX (cfg t)) (current 1 ddN ddX (cfg t)) with
                       | Some x => dkappa dN ddN (current 1 dN dX (cfg t)) (current 1 ddN ddX (cfg t)) x 1 1 | None => 0 end) 0 l ->
             l <> ddkappa dN ddN (current 1 dN dX rest) (current 1 ddN ddX rest) ax 1 1 1 1).
Proof.
  set (s := fun t => / sqrt ((1 + t) * (1 + t) + 1)).
  assert (Pos : forall t, 0 < sqrt ((1 + t) * (1 + t) + 1)) by (intros t; apply sqrt_lt_R0; assert (Q := Rle_0_sqr (1 + t)); unfold Rsqr in Q; lra).
  assert (S0 : forall t, 0 < s t) by (intros t; apply Rinv_0_lt_compat, Pos).
  assert (S1 : forall t, (1 + t) * (1 + t) + 1 = / s t * / s t).
  { intros t. unfold s. rewrite Rinv_inv, sqrt_sqrt; [ring|]. assert (Q := Rle_0_sqr (1 + t)); unfold Rsqr in Q; lra. }
  assert (S2 : forall t, (1 + t) * (1 + t) * (s t * s t) = 1 - s t * s t).
  { intros t. replace ((1 + t) * (1 + t)) with (/ s t * / s t - 1) by (rewrite <- S1; ring). assert (P := S0 t). field. lra. }
  exists w0, w1, (V 0 0 1), (V 1 1 0), (mkAxes (V (- s 0) ((1 + 0) * s 0) 0) (V ((1 + 0) * s 0) (s 0) 0) (/ s 0) 1). cbn zeta.
  assert (C0 : forall t, current 1 w0 (V 0 0 1) (bump rest 1 1 t) = V 0 0 1).
  { intros t. unfold current, w0; cbn [sumf vx vy vz]. f_equal; ring. }
  assert (C1 : forall t, current 1 w1 (V 1 1 0) (bump rest 1 1 t) = V (1 + t) 1 0).
  { intros t. unfold current, w1, bump, rest; cbn [sumf vx vy vz Nat.eqb andb]. f_equal; ring. }
  assert (R0 : forall d v, current 1 d v rest = current 1 d v (bump rest 1 1 0)) by (intros d v; unfold current, bump, rest; cbn [sumf Nat.eqb andb]; f_equal; ring).
  split.
  { rewrite !R0. apply wit_axes; [apply S0|apply S1]. }
  intros l Hl. rewrite !R0, C0, C1. rewrite (wit_ddkappa (1 + 0) (s 0)) by (try apply S0; try apply S2; ring).
  assert (D : is_derive (fun t => (1 + t) * s t) 0 l).
  { revert Hl. apply is_derive_ext. intros t. rewrite (wit_axes straight (s t) (S0 t) t (S1 t)), C0, C1. apply wit_dkappa. apply S2. }
  assert (D' : is_derive (fun t => (1 + t) * s t) 0 (s 0 / 2)).
  { unfold s. auto_derive.
    - split; [|split; [|easy]]; [lra|]. apply Rgt_not_eq, Pos.
    - assert (P := Pos 0). assert (Sq : sqrt ((1 + 0) * (1 + 0) + 1) * sqrt ((1 + 0) * (1 + 0) + 1) = 2) by (rewrite sqrt_sqrt; lra). set (q := sqrt _) in *. clearbody q.
      replace (/ (q * q)) with (/ 2) by now rewrite Sq. field_simplify; [|lra|lra]. replace (q ^ 3) with (q * q * q) by ring. rewrite ?Sq. field. lra. }
  rewrite <- (is_derive_unique _ _ _ D), (is_derive_unique _ _ _ D'). assert (P := S0 0). lra.
Qed.

(** ** End moment *)
Definition planar (X1 X2 : v3) : Prop := vz X1 = vz X2.
Definition shift (e : nat) (t : R) (X1 X2 : v3) : v3 * v3 :=
  match e with
  | 1%nat => (V (vx X1 + t) (vy X1) (vz X1), X2) | 2%nat => (V (vx X1) (vy X1 + t) (vz X1), X2)
  | 4%nat => (X1, V (vx X2 + t) (vy X2) (vz X2)) | 5%nat => (X1, V (vx X2) (vy X2 + t) (vz X2))
  | _ => (X1, X2)
  end.
Definition isDof (e : nat) : Prop := (e = 1 \/ e = 2 \/ e = 4 \/ e = 5)%nat.

Lemma vdot_zero v : vdot v v = 0 -> v = vzero.
Proof. destruct v as [a b c]. unfold vdot, vzero; cbn [vx vy vz]. intros H. assert (a = 0 /\ b = 0 /\ c = 0) as (-> & -> & ->) by (split; [|split]; nra). reflexivity. Qed.
Theorem end_force xi M X1 X2 : planar X1 X2 -> vsub X2 X1 <> vzero ->
  let f := endForce xi M X1 X2 in
  f 1%nat + f 4%nat = 0 /\ f 2%nat + f 5%nat = 0 /\
  (forall c, (vx X1 - vx c) * f 2%nat - (vy X1 - vy c) * f 1%nat + ((vx X2 - vx c) * f 5%nat - (vy X2 - vy c) * f 4%nat) = xi * M).
Proof.
  intros P N f. unfold f, endForce; cbn zeta. split; [ring|]. split; [ring|]. intros c.
  assert (D : vdot (vsub X2 X1) (vsub X2 X1) <> 0).
  { intros H. apply N. apply vdot_zero. exact H. }
  unfold vdot, vsub in *; cbn [vx vy vz] in *. unfold planar in P. rewrite P in *. field. exact D.
Qed.
(* the columns of the x-displacements have the sign of +xi, those of the y-displacements that of -xi *)
Definition colSign (j : nat) : R := match j with 1%nat | 4%nat => 1 | _ => - 1 end.
Theorem end_derive xi M X1 X2 i j : vsub X2 X1 <> vzero -> planar X1 X2 -> isDof i -> isDof j ->
  is_derive (fun t => endForce xi M (fst (shift j t X1 X2)) (snd (shift j t X1 X2)) i) 0 (xi * colSign j * endK (endDeriv M X1 X2) i j).
Proof.
  intros N P Hi Hj. assert (D : vdot (vsub X2 X1) (vsub X2 X1) <> 0) by (intros H; apply N; apply vdot_zero; exact H).
  destruct X1 as [x1 y1 z1], X2 as [x2 y2 z2]. unfold planar in P. cbn in P. subst z2. unfold vdot, vsub in D; cbn in D.
  destruct Hi as [-> | [-> | [-> | ->]]]; destruct Hj as [-> | [-> | [-> | ->]]];
  unfold shift, endForce, endK, endDeriv, vdot, vsub, colSign; cbn [fst snd vx vy vz xu1 xv1 xu2 xv2 yu1 yv1 yu2 yv2];
  (auto_derive; [intros H; apply D; rewrite <- H; ring|field; intros H; apply D; rewrite <- H; ring]).
Qed.
(* required load stiffness: minus the derivative of the load *)
Definition loadStiffness (xi M : R) (X1 X2 : v3) (i j : nat) (k : R) : Prop :=
  is_derive (fun t => endForce xi M (fst (shift j t X1 X2)) (snd (shift j t X1 X2)) i) 0 (- k).
Theorem end_stiffness xi M X1 X2 i j : vsub X2 X1 <> vzero -> planar X1 X2 -> isDof i -> isDof j ->
  xi * colSign j = - 1 -> loadStiffness xi M X1 X2 i j (endK (endDeriv M X1 X2) i j).
Proof. intros N P Hi Hj E. unfold loadStiffness. eapply val_derive; [|apply (end_derive xi M X1 X2 i j N P Hi Hj)]. rewrite E. ring. Qed.
Theorem end_stiffness_wrong xi : xi = 1 \/ xi = - 1 -> exists M X1 X2 i j, vsub X2 X1 <> vzero /\ planar X1 X2 /\ isDof i /\ isDof j /\
  ~ loadStiffness xi M X1 X2 i j (endK (endDeriv M X1 X2) i j).
Proof.
  intros Hx. set (j := if Req_EM_T xi 1 then 1%nat else 2%nat). exists 1, (V 0 0 0), (V 1 (1 + 1) 0), j, j.
  assert (N : vsub (V 1 (1 + 1) 0) (V 0 0 0) <> vzero) by (unfold vsub, vzero; cbn; intros E; injection E; intros; lra).
  assert (J : isDof j) by (unfold isDof, j; destruct (Req_EM_T xi 1); auto).
  split; [exact N|]. split; [reflexivity|]. split; [exact J|]. split; [exact J|]. intros L. unfold loadStiffness in L.
  assert (D := end_derive xi 1 _ _ j j N eq_refl J J). apply is_derive_unique in L. apply is_derive_unique in D. rewrite L in D. clear L. revert D.
  unfold j, endK, endDeriv, colSign, vdot, vsub; cbn [vx vy vz]. destruct (Req_EM_T xi 1) as [->|]; cbn [xu1 yv1]; [|destruct Hx as [?| ->]; [contradiction|]]; intros D; field_simplify in D; lra.
Qed.
(** Out of the plane the couple is smaller than the given moment. *)
Theorem end_moment_skew : exists M X1 X2, vsub X2 X1 <> vzero /\ let f := endForce 1 M X1 X2 in
  vx (vsub X2 X1) * f 5%nat - vy (vsub X2 X1) * f 4%nat = M / 2 /\ M <> 0.
Proof.
  exists 1, (V 0 0 0), (V 1 0 1). split; [unfold vsub, vzero; cbn; intros E; injection E; intros; lra|]. cbn zeta.
  unfold endForce, vdot, vsub; cbn [vx vy vz]. split; [field|lra].
Qed.
Theorem end_sym D i j : isDof i -> isDof j -> endKsym D i j = (endK D i j + endK D j i) / 2.
Proof.
  intros Hi Hj. destruct Hi as [-> | [-> | [-> | ->]]]; destruct Hj as [-> | [-> | [-> | ->]]]; unfold endKsym, endK, half; field.
Qed.

(** ** Recovered forces: a reparametrisation of the same curve changes them. *)
Theorem recovered_scale straight dN ddN nen EA EI dX ddX eV c p : 0 < c ->
  1 / 10 ^ 12 <= vlen (vcross dX ddX) -> 1 / 10 ^ 12 <= vlen (vcross (current nen dN dX eV) (current nen ddN ddX eV)) ->
  1 <= c ->
  recovered straight dN ddN nen EA EI dX ddX eV = Ret p ->
  recovered straight (fun a => c * dN a) (fun a => c * c * ddN a) nen EA EI (vscal c dX) (vscal (c * c) ddX) eV = Ret (c * c * fst p, c * c * snd p).
Proof.
  intros Hc H1 H2 H3 E.
  assert (Cur : forall d v k, current nen (fun a => k * d a) (vscal k v) eV = vscal k (current nen d v eV)).
  { intros d v k. unfold current, vscal; cbn [vx vy vz].
    assert (Q : forall i, sumf nen (fun a => k * d a * eV a i) = k * sumf nen (fun a => d a * eV a i)).
    { intros i. rewrite <- sumf_scal. apply sumf_ext. intros; ring. }
    rewrite !Q. f_equal; ring. }
  assert (Len : forall k v, 0 <= k -> vlen (vscal k v) = k * vlen v).
  { intros k v Hk. apply vlen_val; [apply Rmult_le_pos; [exact Hk|apply sqrt_pos]|]. rewrite vdot_scal_l, vdot_scal_r, <- vlen_sq. ring. }
  assert (Cr : forall u w, vcross (vscal c u) (vscal (c * c) w) = vscal (c * c * c) (vcross u w)) by (intros; veq).
  assert (C3 : 1 <= c * c * c) by (assert (1 <= c * c) by nra; nra).
  assert (Pe : 0 < 1 / 10 ^ 12) by (apply Rmult_lt_0_compat; [lra|apply Rinv_0_lt_compat, pow_lt; lra]).
  assert (Ax : forall u w, 1 / 10 ^ 12 <= vlen (vcross u w) -> exists x x', evalLocalAxes straight u w = Some x /\ evalLocalAxes straight (vscal c u) (vscal (c * c) w) = Some x' /\ nU x' = nU x).
  { intros u w H. exists (axesOf (vcross u w) u), (axesOf (vcross (vscal c u) (vscal (c * c) w)) (vscal c u)). unfold evalLocalAxes.
    split; [destruct (Rlt_dec _ _); [lra|reflexivity]|]. split.
    - destruct (Rlt_dec _ _) as [G|]; [|reflexivity]. exfalso. rewrite Cr, Len in G by lra. nra.
    - unfold axesOf; cbn [nU]. rewrite Cr, Len by lra. set (l := vlen (vcross u w)) in *. assert (Pl : 0 < l) by lra.
      assert (B : vscal (1 / (c * c * c * l)) (vscal (c * c * c) (vcross u w)) = vscal (1 / l) (vcross u w)) by (unfold vscal; cbn [vx vy vz]; f_equal; field; repeat split; lra).
      rewrite B. set (b := vscal (1 / l) (vcross u w)).
      assert (Cn : vcross b (vscal c u) = vscal c (vcross b u)) by veq. rewrite Cn, Len by lra.
      assert (Z : 0 < vlen (vcross b u)).
      { unfold vlen. apply sqrt_lt_R0. rewrite lagrange.
        assert (bu : vdot b u = 0) by (unfold b; rewrite vdot_scal_l, (vdot_sym _ u), cross_dot_l; ring).
        assert (bb : vdot b b = 1) by (unfold b; rewrite vdot_scal_l, vdot_scal_r, <- vlen_sq; fold l; field; lra). rewrite bu, bb.
        destruct (vdot_pos u) as [P|P]; [lra|]. exfalso. assert (L2 : l * l = vdot u u * vdot w w - vdot u w * vdot u w) by (unfold l; rewrite vlen_sq; apply lagrange). rewrite <- P in L2. assert (Q := Rle_0_sqr (vdot u w)). unfold Rsqr in Q. nra. }
      unfold vscal; cbn [vx vy vz]. f_equal; field; lra. }
  destruct (Ax _ _ H1) as (x & x' & E1 & E2 & E3). destruct (Ax _ _ H2) as (z & z' & F1 & F2 & F3).
  unfold recovered in *. cbn zeta in *. rewrite E1, F1 in E. injection E as <-. rewrite (Cur dN dX c), (Cur ddN ddX (c * c)), E2, F2, E3, F3.
  cbn [fst snd]. do 2 f_equal; rewrite ?vdot_scal_l, ?vdot_scal_r; ring.
Qed.
