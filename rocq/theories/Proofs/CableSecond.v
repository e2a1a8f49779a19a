(** Second derivatives of the cable's curvature: exact where binormal and normal are along coordinate axes. *)
From Coquelicot Require Import Coquelicot.
From Verif Require Import Lib.Base Lib.Sums Lib.Vec3 Model.Cable Proofs.Cable.

Lemma vc_derive f t d k : vderive f t d -> is_derive (fun s => vc (f s) k) t (vc d k).
Proof. intros [A [B C]]. destruct k as [|[|[|k]]]; assumption. Qed.
Lemma add_vderive f g t a b : vderive f t a -> vderive g t b -> vderive (fun s => vadd (f s) (g s)) t (vadd a b).
Proof. intros [A [B C]] [A' [B' C']]. split; [|split]; cbn; now apply add_derive. Qed.
Lemma sub_vderive f g t a b : vderive f t a -> vderive g t b -> vderive (fun s => vsub (f s) (g s)) t (vsub a b).
Proof. intros [A [B C]] [A' [B' C']]. split; [|split]; cbn; now apply sub_derive. Qed.
Lemma const_vderive v t : vderive (fun _ => v) t (V 0 0 0).
Proof. split; [|split]; apply const_derive. Qed.
Lemma val_vderive f t a b : a = b -> vderive f t a -> vderive f t b. Proof. now intros ->. Qed.

(** Derivative of [duV]. *)
Definition ddu (u : v3) (len : R) (d u1 : v3) (l1 : R) (d1 : v3) : v3 :=
  vadd (vscal (- l1 / (len * len)) (vsub d (vscal (vdot u d) u)))
       (vscal (/ len) (vsub d1 (vadd (vscal (vdot u1 d + vdot u d1) u) (vscal (vdot u d) u1)))).
Lemma duV_derive u len d t u1 l1 d1 : vderive u t u1 -> is_derive len t l1 -> vderive d t d1 -> 0 < len t ->
  vderive (fun s => duV (u s) (len s) (d s)) t (ddu (u t) (len t) (d t) u1 l1 d1).
Proof.
  intros U L D P. unfold duV, ddu.
  exact (scal_derive _ _ _ _ _ (inv_derive _ _ _ P L) (sub_vderive _ _ _ _ _ D (scal_derive _ _ _ _ _ (dot_derive _ _ _ _ _ U D) U))).
Qed.
(** Vectors along a coordinate axis. *)
Definition aligned (u : v3) : Prop := exists p, forall k, (1 <= k <= 3)%nat -> k <> p -> vc u k = 0.
Lemma aligned_cases u : aligned u -> u = V (vx u) 0 0 \/ u = V 0 (vy u) 0 \/ u = V 0 0 (vz u).
Proof.
  intros [p H]. destruct u as [x y z]. assert (H1 := H 1%nat). assert (H2 := H 2%nat). assert (H3 := H 3%nat). unfold vc in *; cbn in *.
  destruct (Nat.eq_dec p 1) as [->|]; [left; rewrite H2, H3 by lia; reflexivity|].
  destruct (Nat.eq_dec p 2) as [->|]; [right; left; rewrite H1, H3 by lia; reflexivity|].
  right; right. rewrite H1, H2 by lia. reflexivity.
Qed.
(** The formula of the code for the second derivative of a unit vector. *)
Definition codeNormal (u : v3) (len : R) (da db d1 : v3) : R :=
  sumf 3 (fun k => (vc d1 k * (vc u k * len) + vc da k * vc db k - vc u k * len * vc da k * (vc u k * len) * vc db k / (len * len)) / len).
Definition codeUnit (u : v3) (len : R) (da db d1 : v3) (k : nat) : R :=
  vc d1 k / len - vc da k * vdot u db / (len * len) - vc db k * vdot u da / (len * len) -
  vc u k * len * (codeNormal u len da db d1 - vdot u da * vdot u db * 2 / len) / (len * len).
Lemma codeNormal_val u len da db d1 : aligned u -> 0 < len ->
  codeNormal u len da db d1 = vdot u d1 + (vdot da db - vdot u da * vdot u db) / len.
Proof.
  intros A P. unfold codeNormal. cbn [sumf].
  transitivity (vdot u d1 + (vdot da db - (vx u * vx u * (vx da * vx db) + vy u * vy u * (vy da * vy db) + vz u * vz u * (vz da * vz db))) / len).
  - unfold vdot, vc. field. lra.
  - f_equal. f_equal. f_equal. unfold vdot. apply aligned_cases in A. destruct A as [E|[E|E]]; rewrite E; cbn [vx vy vz]; ring.
Qed.
Lemma second_unit u len da db d1 k : aligned u -> 0 < len -> (1 <= k <= 3)%nat ->
  vc (ddu u len db (duV u len da) (vdot u da) d1) k = codeUnit u len da db d1 k.
Proof.
  intros A P Hk. unfold codeUnit. rewrite codeNormal_val by assumption.
  assert (Q : vdot (duV u len da) db = (vdot da db - vdot u da * vdot u db) / len).
  { unfold duV, Rdiv. rewrite vdot_scal_l. unfold vdot, vsub, vscal; cbn [vx vy vz]. ring. }
  unfold ddu. rewrite Q.
  assert (C : forall s x y, vc (vadd (vscal s x) y) k = s * vc x k + vc y k) by (intros; destruct k as [|[|[|k]]]; reflexivity).
  assert (C0 : forall s x, vc (vscal s x) k = s * vc x k) by (intros; destruct k as [|[|[|k]]]; reflexivity).
  assert (C1 : forall x y, vc (vsub x y) k = vc x k - vc y k) by (intros; destruct k as [|[|[|k]]]; reflexivity).
  rewrite C, C0, !C1, C, !C0, vc_duV.
  generalize (vc u k) (vc da k) (vc db k) (vc d1 k) (vdot u da) (vdot u db) (vdot u d1) (vdot da db). intros. field. lra.
Qed.

Section Second.
Variables (straight : v3 -> v3 -> option v3) (dN ddN : nat -> R) (nen : nat) (dX ddX : v3) (eV : nat -> nat -> R).
Notation dxOf v := (current nen dN dX v).
Notation ddxOf v := (current nen ddN ddX v).
Hypothesis curved : 1 / 10 ^ 12 < vlen (vcross (dxOf eV) (ddxOf eV)).
Let B := vcross (dxOf eV) (ddxOf eV).
Let ax := axesOf B (dxOf eV).
Variables (a i b j : nat).
Hypothesis (Ha : (1 <= a <= nen)%nat) (Hi : (1 <= i <= 3)%nat) (Hb : (1 <= b <= nen)%nat) (Hj : (1 <= j <= 3)%nat).
Notation u := (bump eV a i).
Let dx := dxOf eV.
Let ddx := ddxOf eV.
Let axT t := axesOf (vcross (dxOf (u t)) (ddxOf (u t))) (dxOf (u t)).
Let da k := vscal (dN a) (unitVec k).
Let dda k := vscal (ddN a) (unitVec k).

Lemma axT0 : axT 0 = ax. Proof. unfold axT. rewrite !current0 by assumption. reflexivity. Qed.

(* binormal *)
Definition ddbV : v3 := vadd (vcross (vscal (dN b) (unitVec j)) (dda i)) (vcross (da i) (vscal (ddN b) (unitVec j))).
Lemma dbV_derive : vderive (fun t => dbV dN ddN (dxOf (u t)) (ddxOf (u t)) b j) 0 ddbV.
Proof.
  unfold dbV. assert (D1 := dx_derive dN nen dX eV a i Ha). assert (D2 := ddx_derive ddN nen ddX eV a i Ha).
  eapply val_vderive; [|exact (add_vderive _ _ _ _ _ (cross_derive _ _ _ _ _ (const_vderive (vscal (dN b) (unitVec j)) 0) D2)
                                 (cross_derive _ _ _ _ _ D1 (const_vderive (vscal (ddN b) (unitVec j)) 0)))].
  cbv beta. rewrite !current0 by assumption. unfold ddbV, da, dda. generalize (dxOf eV) (ddxOf eV). intros [p q r] [s t w].
  unfold unitVec, vadd, vcross, vscal; cbn [vx vy vz]. f_equal; ring.
Qed.
Lemma ddb_vec k : (1 <= k <= 3)%nat -> ddb dN ddN a b k i j = vc ddbV k.
Proof.
  intros Hk. assert (k = 1 \/ k = 2 \/ k = 3)%nat as E by lia. assert (i = 1 \/ i = 2 \/ i = 3)%nat as F by lia. assert (j = 1 \/ j = 2 \/ j = 3)%nat as G by lia.
  unfold ddb, ddbV, da, dda, unitVec, kron.
  destruct E as [-> | [-> | ->]]; destruct F as [-> | [-> | ->]]; destruct G as [-> | [-> | ->]]; unfold eps3, vcross, vadd, vscal, vc; cbn [vx vy vz INR Nat.eqb]; field.
Qed.
Theorem binormal_second k : (1 <= k <= 3)%nat ->
  is_derive (fun t => db dN ddN (dxOf (u t)) (ddxOf (u t)) b k j) 0 (ddb dN ddN a b k i j).
Proof.
  intros Hk. rewrite ddb_vec by assumption.
  apply (is_derive_ext (fun t => vc (dbV dN ddN (dxOf (u t)) (ddxOf (u t)) b j) k)); [intros t; symmetry; now apply db_vec|].
  apply vc_derive, dbV_derive.
Qed.

Hypothesis (Ab : aligned (bU ax)) (An : aligned (nU ax)).
Lemma bLenT t : bLen (axT t) = vlen (vcross (dxOf (u t)) (ddxOf (u t))). Proof. reflexivity. Qed.
Lemma bUT t : bU (axT t) = bUnitOf dN ddN nen dX ddX eV a i t.
Proof. unfold axT, axesOf, bUnitOf, unitOf. cbn [bU]. unfold Rdiv. now rewrite Rmult_1_l. Qed.
Lemma bU_derive' : vderive (fun t => bU (axT t)) 0 (dbUnitV dN ddN dx ddx ax a i).
Proof. apply (vderive_ext_loc (bUnitOf dN ddN nen dX ddX eV a i)); [apply filter_forall; intros t; symmetry; apply bUT|]. exact (bU_derive dN ddN nen dX ddX eV curved a i Ha). Qed.
Lemma bLen_derive : is_derive (fun t => bLen (axT t)) 0 (vdot (bU ax) (dbV dN ddN dx ddx a i)).
Proof.
  assert (D := len_derive _ _ _ (B_derive dN ddN nen dX ddX eV a i Ha)). cbn beta in D. rewrite !current0 in D by assumption. specialize (D (Bpos dN ddN nen dX ddX eV curved)).
  replace (bU ax) with (unitOf B) by (symmetry; exact (bU_unit dN ddN nen dX ddX eV)). exact D.
Qed.
Lemma bLen_pos : 0 < bLen ax. Proof. exact (Bpos dN ddN nen dX ddX eV curved). Qed.
Lemma dot_sum' (w : v3) f k0 : (forall k, (1 <= k <= 3)%nat -> f k = vc k0 k) -> sumf 3 (fun k => vc w k * f k) = vdot w k0.
Proof. apply dot_sum. Qed.
Definition ddbUnitV : v3 := ddu (bU ax) (bLen ax) (dbV dN ddN dx ddx b j) (dbUnitV dN ddN dx ddx ax a i) (vdot (bU ax) (dbV dN ddN dx ddx a i)) ddbV.
Lemma dbUnitV_derive : vderive (fun t => dbUnitV dN ddN (dxOf (u t)) (ddxOf (u t)) (axT t) b j) 0 ddbUnitV.
Proof.
  assert (D := duV_derive _ _ _ _ _ _ _ bU_derive' bLen_derive dbV_derive). cbn beta in D. rewrite axT0, !current0 in D by assumption. exact (D bLen_pos).
Qed.
Lemma ddbUnit_vec k : (1 <= k <= 3)%nat -> ddbUnit dN ddN dx ddx ax a b k i j = vc ddbUnitV k.
Proof.
  intros Hk. unfold ddbUnitV, dbUnitV. rewrite second_unit by (assumption || apply bLen_pos). unfold ddbUnit, codeUnit, dbNormal.
  rewrite !(dot_sum _ _ (dbV dN ddN dx ddx b j)) by (intros; now apply db_vec). rewrite !(dot_sum _ _ (dbV dN ddN dx ddx a i)) by (intros; now apply db_vec).
  rewrite ddb_vec, !db_vec by assumption. unfold bin at 1. f_equal. f_equal. f_equal. f_equal.
  unfold ddbNormal, codeNormal. apply sumf_ext. intros l Hl. rewrite ddb_vec, !db_vec by assumption. unfold bin. reflexivity.
Qed.

(* normal *)
Lemma nUT t : nU (axT t) = nUnitOf dN ddN nen dX ddX eV a i t.
Proof. unfold nUnitOf. rewrite <- bUT. reflexivity. Qed.
Lemma nU_derive' : vderive (fun t => nU (axT t)) 0 (dnUnitV dN ddN dx ddx ax a i).
Proof. apply (vderive_ext_loc (nUnitOf dN ddN nen dX ddX eV a i)); [apply filter_forall; intros t; symmetry; apply nUT|]. exact (nU_derive dN ddN nen dX ddX eV curved a i Ha). Qed.
Lemma nLenT t : nLen (axT t) = vlen (vcross (bUnitOf dN ddN nen dX ddX eV a i t) (dxOf (u t))).
Proof. rewrite <- bUT. reflexivity. Qed.
Lemma nLen_val : nLen ax = vlen (vcross (unitOf B) dx).
Proof. unfold ax at 1, axesOf; cbn [nLen]. fold ax. change (vscal (1 / vlen B) B) with (bU ax). replace (bU ax) with (unitOf B) by (symmetry; exact (bU_unit dN ddN nen dX ddX eV)). reflexivity. Qed.
Lemma nLen_pos : 0 < nLen ax.
Proof. rewrite nLen_val. exact (npos dN ddN nen dX ddX eV curved). Qed.
Lemma nLen_derive : is_derive (fun t => nLen (axT t)) 0 (vdot (nU ax) (dnV dN ddN dx ddx ax a i)).
Proof.
  assert (D := len_derive _ _ _ (n_derive dN ddN nen dX ddX eV curved a i Ha)). cbn beta in D. rewrite b0, !current0 in D by assumption. specialize (D (npos dN ddN nen dX ddX eV curved)).
  apply (is_derive_ext (fun t => vlen (vcross (bUnitOf dN ddN nen dX ddX eV a i t) (dxOf (u t))))); [intros t; symmetry; apply nLenT|].
  replace (nU ax) with (unitOf (vcross (unitOf B) dx)) by (symmetry; exact (nU_unit dN ddN nen dX ddX eV)). exact D.
Qed.
Definition ddnV : v3 :=
  vadd (vadd (vcross ddbUnitV dx) (vcross (dbUnitV dN ddN dx ddx ax b j) (da i))) (vcross (dbUnitV dN ddN dx ddx ax a i) (vscal (dN b) (unitVec j))).
Lemma dnV_derive : vderive (fun t => dnV dN ddN (dxOf (u t)) (ddxOf (u t)) (axT t) b j) 0 ddnV.
Proof.
  assert (D1 := dx_derive dN nen dX eV a i Ha).
  assert (D := add_vderive _ _ _ _ _ (cross_derive _ _ _ _ _ dbUnitV_derive D1) (cross_derive _ _ _ _ _ bU_derive' (const_vderive (vscal (dN b) (unitVec j)) 0))).
  cbv beta in D. rewrite axT0, !current0 in D by assumption. unfold dnV at 1. eapply val_vderive; [|exact D]. unfold ddnV, da. f_equal. 
  generalize (vcross (dbUnitV dN ddN dx ddx ax a i) (vscal (dN b) (unitVec j))) (bU ax). intros [p q r] [s t w]. unfold vadd, vcross; cbn [vx vy vz]. f_equal; ring.
Qed.
Lemma ddn_vec k : (1 <= k <= 3)%nat -> ddn dN ddN dx ddx ax a b k i j = vc ddnV k.
Proof.
  intros Hk. unfold ddn, ddnV.
  rewrite (sumf_ext 3 _ (fun o => eps3 k o j * vc (dbUnitV dN ddN dx ddx ax a i) o * dN b + eps3 k o i * vc (dbUnitV dN ddN dx ddx ax b j) o * dN a +
                   sumf 3 (fun l => eps3 k o l * vc ddbUnitV o * vc dx l))).
  2:{ intros o Ho. rewrite !dbUnit_vec by assumption. f_equal. apply sumf_ext. intros l Hl. now rewrite ddbUnit_vec. }
  generalize (dbUnitV dN ddN dx ddx ax a i) (dbUnitV dN ddN dx ddx ax b j) ddbUnitV. intros v1 v2 v4.
  assert (k = 1 \/ k = 2 \/ k = 3)%nat as E by lia. assert (i = 1 \/ i = 2 \/ i = 3)%nat as F by lia. assert (j = 1 \/ j = 2 \/ j = 3)%nat as G by lia.
  unfold da, unitVec, kron.
  destruct E as [-> | [-> | ->]]; destruct F as [-> | [-> | ->]]; destruct G as [-> | [-> | ->]]; unfold eps3, vcross, vadd, vscal, vc; cbn [sumf vx vy vz INR Nat.eqb]; field.
Qed.
Definition ddnUnitV : v3 := ddu (nU ax) (nLen ax) (dnV dN ddN dx ddx ax b j) (dnUnitV dN ddN dx ddx ax a i) (vdot (nU ax) (dnV dN ddN dx ddx ax a i)) ddnV.
Lemma dnUnitV_derive : vderive (fun t => dnUnitV dN ddN (dxOf (u t)) (ddxOf (u t)) (axT t) b j) 0 ddnUnitV.
Proof.
  assert (D := duV_derive _ _ _ _ _ _ _ nU_derive' nLen_derive dnV_derive). cbn beta in D. rewrite axT0, !current0 in D by assumption. exact (D nLen_pos).
Qed.
Lemma ddnUnit_vec k : (1 <= k <= 3)%nat -> ddnUnit dN ddN dx ddx ax a b k i j = vc ddnUnitV k.
Proof.
  intros Hk. unfold ddnUnitV, dnUnitV. rewrite second_unit by (assumption || apply nLen_pos). unfold ddnUnit, codeUnit, dnNormal.
  rewrite !(dot_sum _ _ (dnV dN ddN dx ddx ax b j)) by (intros; now apply dn_vec). rewrite !(dot_sum _ _ (dnV dN ddN dx ddx ax a i)) by (intros; now apply dn_vec).
  rewrite ddn_vec, !dn_vec by assumption. unfold nn at 1. f_equal. f_equal. f_equal. f_equal.
  unfold ddnNormal, codeNormal. apply sumf_ext. intros l Hl. rewrite ddn_vec, !dn_vec by assumption. unfold nn. reflexivity.
Qed.

Theorem curvature_second :
  is_derive (fun t => match evalLocalAxes straight (dxOf (u t)) (ddxOf (u t)) with Some x => dkappa dN ddN (dxOf (u t)) (ddxOf (u t)) x b j | None => 0 end) 0
    (ddkappa dN ddN dx ddx ax a b i j).
Proof.
  apply (is_derive_ext_loc (fun t => ddN b * vc (nU (axT t)) j + vdot (ddxOf (u t)) (dnUnitV dN ddN (dxOf (u t)) (ddxOf (u t)) (axT t) b j))).
  - assert (S := axes_near straight dN ddN nen dX ddX eV curved a i Ha). revert S. apply filter_imp. intros t ->. fold (axT t). unfold dkappa.
    rewrite (dot_sum (ddxOf (u t)) _ (dnUnitV dN ddN (dxOf (u t)) (ddxOf (u t)) (axT t) b j)) by (intros; now apply dnUnit_vec). reflexivity.
  - assert (D1 := ddx_derive ddN nen ddX eV a i Ha).
    assert (D := add_derive _ _ _ _ _ (mul_derive _ _ _ _ _ (const_derive (ddN b) 0) (vc_derive _ _ _ j nU_derive')) (dot_derive _ _ _ _ _ D1 dnUnitV_derive)).
    cbv beta in D. rewrite axT0, !current0 in D by assumption. eapply val_derive; [|exact D]. unfold ddkappa.
    rewrite (dot_sum ddx _ ddnUnitV) by (intros; now apply ddnUnit_vec). rewrite !dnUnit_vec by assumption. fold dx ddx.
    replace (vdot (vscal (ddN a) (unitVec i)) (dnUnitV dN ddN dx ddx ax b j)) with (ddN a * vc (dnUnitV dN ddN dx ddx ax b j) i); [match goal with |- @eq _ ?x ?y => change (@eq R x y) end; ring|].
    assert (i = 1 \/ i = 2 \/ i = 3)%nat as E by lia. generalize (dnUnitV dN ddN dx ddx ax b j). intros [p q r]. unfold vdot, vscal, unitVec, kron. destruct E as [-> | [-> | ->]]; cbn; ring.
Qed.

(** The whole tangent. *)
Theorem tangent_second EA EI detJxW out : evalPoint straight dN ddN nen EA EI detJxW dX ddX eV = Ret out ->
  is_derive (fun t => match evalPoint straight dN ddN nen EA EI detJxW dX ddX (u t) with Ret o => pS o b j | _ => 0 end) 0
    (- (pKm out a i b j + pKg out a i b j)).
Proof.
  intros E. unfold evalPoint in E. destruct (evalLocalAxes straight dX ddX) as [A0|] eqn:E0; [|discriminate].
  assert (Ax : evalLocalAxes straight (dxOf eV) (ddxOf eV) = Some ax) by (unfold evalLocalAxes; destruct (Rlt_dec _ _); [lra|reflexivity]).
  rewrite Ax in E. injection E as <-. cbn [pKm pKg].
  set (JW := 1 / (vx dX * vx dX + vy dX * vy dX + vz dX * vz dX) * (1 / (vx dX * vx dX + vy dX * vy dX + vz dX * vz dX)) * detJxW).
  assert (Ds := strain_exact dN nen dX eV a i Ha Hi). assert (Dk := curvature_exact straight dN ddN nen dX ddX eV curved a i Ha Hi (nU A0)).
  assert (Dss := ddeps_exact dN nen dX eV a i Ha Hi b j Hb Hj). assert (Dkk := curvature_second).
  set (kap t := match evalLocalAxes straight (dxOf (u t)) (ddxOf (u t)) with Some x => curvature ddX (nU A0) (ddxOf (u t)) (nU x) | None => 0 end) in Dk.
  set (dkap t := match evalLocalAxes straight (dxOf (u t)) (ddxOf (u t)) with Some x => dkappa dN ddN (dxOf (u t)) (ddxOf (u t)) x b j | None => 0 end) in Dkk.
  apply (is_derive_ext_loc (fun t => deps dN (dxOf (u t)) b j * (- (EA * JW) * axialStrain dX (dxOf (u t))) + dkap t * (- (EI * JW) * kap t))).
  - assert (S := axes_near straight dN ddN nen dX ddX eV curved a i Ha). revert S. apply filter_imp. intros t S. unfold evalPoint. rewrite E0, S. cbn [pS].
    unfold dkap, kap. rewrite S. match goal with |- @eq _ ?x ?y => change (@eq R x y) end. fold JW. ring.
  - assert (D := add_derive _ _ _ _ _ (mul_derive _ _ _ _ _ Dss (mul_derive _ _ _ _ _ (const_derive (- (EA * JW)) 0) Ds))
                   (mul_derive _ _ _ _ _ Dkk (mul_derive _ _ _ _ _ (const_derive (- (EI * JW)) 0) Dk))).
    eapply val_derive; [|exact D]. cbv beta. unfold kap, dkap. rewrite !current0, Ax by assumption. fold dx ddx.
    change (current nen dN dX eV) with dx. change (current nen ddN ddX eV) with ddx. fold B. fold ax.
    match goal with |- @eq _ ?x ?y => change (@eq R x y) end. change (axesOf (vcross dx ddx) dx) with ax. change (vscal (/ vlen (vcross (vscal (1 / vlen B) B) dx)) (vcross (vscal (1 / vlen B) B) dx)) with (nU ax). ring.
Qed.
End Second.
