(** First and second variations of the nonlinear shell (C53). *)
From Coquelicot Require Import Coquelicot.
From Verif Require Import Lib.Base Lib.Sums Lib.Writes Lib.Congruence Lib.Vec3 Model.LinIsotropic Model.Rigid Model.Shell.
From Verif Require Import Proofs.LinIsotropic Proofs.Cable Proofs.Plate Proofs.Shell.

Lemma cval f t a b : a = b -> vderive f t a -> vderive f t b. Proof. now intros ->. Qed.
Lemma vadd_derive f g t a b : vderive f t a -> vderive g t b -> vderive (fun s => vadd (f s) (g s)) t (vadd a b).
Proof. intros [F1 [F2 F3]] [G1 [G2 G3]]. split; [|split]; cbn [vadd vx vy vz]; apply add_derive; assumption. Qed.
Lemma vsub_derive f g t a b : vderive f t a -> vderive g t b -> vderive (fun s => vsub (f s) (g s)) t (vsub a b).
Proof. intros [F1 [F2 F3]] [G1 [G2 G3]]. split; [|split]; cbn [vsub vx vy vz]; apply sub_derive; assumption. Qed.
Lemma vconst_derive c t : vderive (fun _ => c) t vzero.
Proof. split; [|split]; cbn [vzero vx vy vz]; apply const_derive. Qed.
Lemma cscal_derive k f t a : vderive f t a -> vderive (fun s => vscal k (f s)) t (vscal k a).
Proof. intros F. eapply cval; [|exact (scal_derive _ _ _ _ _ (const_derive k t) F)]. destruct a, (f t). unfold vadd, vscal; cbn. f_equal; ring. Qed.
Lemma V_derive f g h t a b c : is_derive f t a -> is_derive g t b -> is_derive h t c -> vderive (fun s => V (f s) (g s) (h s)) t (V a b c).
Proof. now split; [|split]. Qed.
Lemma times3_derive A f t a : vderive f t a -> vderive (fun s => times3 A (f s)) t (times3 A a).
Proof.
  intros [F1 [F2 F3]].
  assert (Q : forall i, is_derive (fun s => sumf 3 (fun k => A i k * vc (f s) k)) t (sumf 3 (fun k => A i k * vc a k))).
  { intros i. cbn [sumf vc]. eapply val_derive; [|exact (add_derive _ _ _ _ _ (add_derive _ _ _ _ _ (add_derive _ _ _ _ _ (const_derive 0 t) (mul_derive _ _ _ _ _ (const_derive (A i 1%nat) t) F1)) (mul_derive _ _ _ _ _ (const_derive (A i 2%nat) t) F2)) (mul_derive _ _ _ _ _ (const_derive (A i 3%nat) t) F3))]. cbn. ring. }
  unfold times3. apply V_derive; apply Q.
Qed.

(** Derivative of the first variation of the unit vector. *)
Definition dn0 (c d : v3) : v3 := vsub (vscal (/ vlen c) d) (vscal (vdot c d / (vlen c * vlen c * vlen c)) c).
Definition ddn0 (c d e dd : v3) : v3 := (* variations d (r) and e (s) of c, second variation dd *)
  let l := vlen c in let l3 := l * l * l in
  vadd (vsub (vscal (/ l) dd) (vadd (vscal (vdot c e / l3) d) (vscal (vdot c d / l3) e)))
       (vscal (- (vdot dd c + vdot d e) / l3 + 3 * vdot c d * vdot c e / (l3 * l * l)) c).
Lemma unit_dn0 c d : 0 < vlen c -> dUnit c d = dn0 c d.
Proof.
  intros P. unfold dUnit, dn0, unitOf. rewrite vdot_scal_l. set (l := vlen c) in *. clearbody l. generalize (vdot c d). intros z. destruct c, d. unfold vscal, vsub; cbn. f_equal; field; lra.
Qed.
Lemma dn0_derive c d t e dd : vderive c t e -> vderive d t dd -> 0 < vlen (c t) -> vderive (fun s => dn0 (c s) (d s)) t (ddn0 (c t) (d t) e dd).
Proof.
  intros C D P. assert (L := len_derive c t e C P). assert (I := inv_derive _ t _ P L).
  assert (CD := dot_derive _ _ _ _ _ C D).
  assert (L3 := mul_derive _ _ _ _ _ (mul_derive _ _ _ _ _ L L) L). cbn beta in L3.
  assert (P3 : 0 < vlen (c t) * vlen (c t) * vlen (c t)) by (apply Rmult_lt_0_compat; [apply Rmult_lt_0_compat|]; assumption).
  assert (I3 := inv_derive (fun s => vlen (c s) * vlen (c s) * vlen (c s)) t _ P3 L3).
  assert (Q := mul_derive _ _ _ _ _ CD I3). cbn beta in Q.
  assert (W := vsub_derive _ _ _ _ _ (scal_derive _ _ _ _ _ I D) (scal_derive _ _ _ _ _ Q C)). cbn beta in W.
  unfold dn0, Rdiv. revert W. apply cval. unfold ddn0.
  assert (U : vdot (unitOf (c t)) e = vdot (c t) e / vlen (c t)) by (unfold unitOf; rewrite vdot_scal_l; field; lra). rewrite U.
  set (l := vlen (c t)) in *. rewrite (vdot_sym e (d t)), (vdot_sym dd (c t)).
  generalize (vdot (c t) e) (vdot (c t) (d t)) (vdot (d t) e) (vdot (c t) dd). intros ce cd de cdd. clearbody l. clear U.
  generalize (c t) (d t). intros c0 d0. destruct c0 as [c1 c2 c3], d0 as [d1 d2 d3], e as [e1 e2 e3], dd as [f1 f2 f3]. unfold vadd, vsub, vscal; cbn [vx vy vz].
  f_equal; field; lra.
Qed.

Section V.
Variables (nen : nat) (dN : nat -> nat -> R) (d2N : nat -> nat -> nat -> R).
Definition bumpF (x : nat -> R) (s : nat) (t : R) : nat -> R := fun r => if (r =? s)%nat then x r + t else x r.
Notation p r := (sgl dN r 1).
Notation q r := (sgl dN r 2).
Lemma sum_bumpF (c : nat -> R) x s t i : (1 <= s <= 3 * nen)%nat -> (1 <= i <= 3)%nat ->
  sumf nen (fun a => bumpF x s t (3 * (a - 1) + i)%nat * c a) = sumf nen (fun a => x (3 * (a - 1) + i)%nat * c a) + t * (kron i (dirOf s) * c (nodeOf s)).
Proof.
  intros Hs Hi. destruct (dof_split s nen Hs) as [Hn E]. assert (Hd := dirOf_range s).
  rewrite (sumf_ext nen _ (fun a => x (3 * (a - 1) + i)%nat * c a + kron a (nodeOf s) * (t * (kron i (dirOf s) * c a)))).
  - rewrite sumf_plus, (sumf_kron nen (nodeOf s) (fun a => t * (kron i (dirOf s) * c a))) by assumption. reflexivity.
  - intros a Ha. unfold bumpF. change (3 * (a - 1) + i)%nat with (dof 3 a i). rewrite <- E at 1. rewrite eqb_dof by lia. unfold kron.
    destruct (a =? nodeOf s)%nat, (i =? dirOf s)%nat; cbn [andb]; ring.
Qed.
Lemma V_bump (c : nat -> R) x s t : (1 <= s <= 3 * nen)%nat ->
  V (sumf nen (fun a => bumpF x s t (3 * (a - 1) + 1)%nat * c a)) (sumf nen (fun a => bumpF x s t (3 * (a - 1) + 2)%nat * c a)) (sumf nen (fun a => bumpF x s t (3 * (a - 1) + 3)%nat * c a)) =
  vadd (V (sumf nen (fun a => x (3 * (a - 1) + 1)%nat * c a)) (sumf nen (fun a => x (3 * (a - 1) + 2)%nat * c a)) (sumf nen (fun a => x (3 * (a - 1) + 3)%nat * c a)))
       (vscal t (single (dirOf s) (c (nodeOf s)))).
Proof.
  intros Hs. rewrite !sum_bumpF by (assumption || lia). assert (H := dirOf_range s). unfold vadd, vscal, kron. cases3 (dirOf s) H; cbn; f_equal; ring.
Qed.
Lemma g_bump x s t al : (1 <= s <= 3 * nen)%nat -> gOf nen dN (bumpF x s t) al = vadd (gOf nen dN x al) (vscal t (sgl dN s al)).
Proof. intros Hs. apply (V_bump (fun a => dN a al) x s t Hs). Qed.
Lemma h_bump x s t al be : (1 <= s <= 3 * nen)%nat -> hcol nen d2N (bumpF x s t) al be = vadd (hcol nen d2N x al be) (vscal t (sgl2 d2N s al be)).
Proof. intros Hs. apply (V_bump (fun a => d2N a al be) x s t Hs). Qed.

Section At.
Variables (x : nat -> R) (s : nat).
Hypothesis Hs : (1 <= s <= 3 * nen)%nat.
Notation G t al := (gOf nen dN (bumpF x s t) al).
Notation g1 := (gOf nen dN x 1).
Notation g2 := (gOf nen dN x 2).
Lemma bump0 al : G 0 al = gOf nen dN x al.
Proof. rewrite g_bump by assumption. destruct (gOf nen dN x al), (sgl dN s al). unfold vadd, vscal; cbn. f_equal; ring. Qed.
Lemma bump0h al be : hcol nen d2N (bumpF x s 0) al be = hcol nen d2N x al be.
Proof. rewrite h_bump by assumption. destruct (hcol nen d2N x al be), (sgl2 d2N s al be). unfold vadd, vscal; cbn. f_equal; ring. Qed.
Lemma vderive_ext f g t d : (forall u, f u = g u) -> vderive f t d -> vderive g t d.
Proof. intros E. apply vderive_ext_loc. exists (mkposreal 1 Rlt_0_1). intros; apply E. Qed.
Lemma G_derive al : vderive (fun t => G t al) 0 (sgl dN s al).
Proof. eapply vderive_ext; [intros; symmetry; apply g_bump, Hs|]. apply line_derive. Qed.
Lemma H_derive al be : vderive (fun t => hcol nen d2N (bumpF x s t) al be) 0 (sgl2 d2N s al be).
Proof. eapply vderive_ext; [intros; symmetry; apply h_bump, Hs|]. apply line_derive. Qed.

(* membrane strain *)
Lemma E_derive G1 G2 : vderive (fun t => vscal (1 / 2) (vsub (gabOf (G t 1) (G t 2)) (gabOf G1 G2))) 0 (varE g1 g2 (dofVar dN d2N s)).
Proof.
  assert (D1 := G_derive 1). assert (D2 := G_derive 2).
  assert (A := V_derive _ _ _ _ _ _ _ (dot_derive _ _ _ _ _ D1 D1) (dot_derive _ _ _ _ _ D2 D2) (dot_derive _ _ _ _ _ D1 D2)). cbn beta in A.
  assert (B := cscal_derive (1 / 2) _ _ _ (vsub_derive _ _ _ _ _ A (vconst_derive (gabOf G1 G2) 0))). revert B. apply cval.
  rewrite !bump0. unfold varE, dofVar; cbn [p1 p2]. rewrite (vdot_sym (p s) g1), (vdot_sym (q s) g2), (vdot_sym (p s) g2). unfold vscal, vsub, vzero; cbn [vx vy vz]. f_equal; field.
Qed.
Lemma dE_derive r : vderive (fun t => varE (G t 1) (G t 2) (dofVar dN d2N r)) 0 (V (vdot (p s) (p r)) (vdot (q s) (q r)) (1 / 2 * (vdot (q s) (p r) + vdot (p s) (q r)))).
Proof.
  assert (D1 := G_derive 1). assert (D2 := G_derive 2). unfold varE, dofVar; cbn [p1 p2].
  assert (K := fun v => vconst_derive v 0).
  assert (A1 := dot_derive _ _ _ _ _ D1 (K (p r))). assert (A2 := dot_derive _ _ _ _ _ D2 (K (q r))).
  assert (A3 := add_derive _ _ _ _ _ (dot_derive _ _ _ _ _ D2 (K (p r))) (dot_derive _ _ _ _ _ D1 (K (q r)))).
  assert (A4 := mul_derive _ _ _ _ _ (const_derive (1 / 2) 0) A3). cbn beta in *.
  assert (W := V_derive _ _ _ _ _ _ _ A1 A2 A4). revert W. apply cval.
  assert (Z : forall v, vdot v vzero = 0) by (intros; vring). rewrite !Z. f_equal; ring.
Qed.
Lemma ddE_sym r : ddE dN r s = V (vdot (p s) (p r)) (vdot (q s) (q r)) (1 / 2 * (vdot (q s) (p r) + vdot (p s) (q r))).
Proof.
  clear - dN. unfold ddE, sgl. assert (Hr := dirOf_range r). assert (Hd := dirOf_range s).
  set (kr := nodeOf r). set (ks := nodeOf s). cases3 (dirOf r) Hr; cases3 (dirOf s) Hd; cbn [Nat.eqb]; unfold vdot, vzero; cbn [single vx vy vz]; f_equal; ring.
Qed.
(* normal *)
Hypothesis reg : epsZ < vlen (vcross g1 g2).
Notation C t := (vcross (G t 1) (G t 2)).
Lemma C0 : C 0 = vcross g1 g2. Proof. now rewrite !bump0. Qed.
Lemma C_derive : vderive (fun t => C t) 0 (varG3 g1 g2 (dofVar dN d2N s)).
Proof. assert (W := cross_derive _ _ _ _ _ (G_derive 1) (G_derive 2)). revert W. apply cval. rewrite !bump0. reflexivity. Qed.
Lemma pos0 : 0 < vlen (vcross g1 g2). Proof. assert (Z := epsZ_pos). lra. Qed.
Lemma regular_near : locally 0 (fun t => epsZ < vlen (C t)).
Proof.
  assert (L := len_derive (fun t => C t) 0 _ C_derive). cbn beta in L. rewrite C0 in L. specialize (L pos0).
  assert (CT : continuous (fun t => vlen (C t)) 0) by (apply (ex_derive_continuous (fun t => vlen (C t))); eexists; exact L).
  assert (OP : locally (vlen (C 0)) (fun y => epsZ < y)) by (apply (open_gt epsZ); rewrite C0; exact reg).
  exact (CT _ OP).
Qed.
Lemma normal_unit a b : epsZ < vlen (vcross a b) -> snd (normal a b) = unitOf (vcross a b).
Proof. intros P. unfold normal, normalize; cbn [snd]. destruct (Rle_dec _ _); [lra|reflexivity]. Qed.
Lemma N_derive : vderive (fun t => snd (normal (G t 1) (G t 2))) 0 (varN g1 g2 (dofVar dN d2N s)).
Proof.
  apply (vderive_ext_loc (fun t => unitOf (C t))).
  - generalize regular_near. apply filter_imp. intros t Ht. symmetry. now apply normal_unit.
  - assert (P : 0 < vlen (C 0)) by (rewrite C0; apply pos0). assert (W := unit_derive _ _ _ C_derive P). cbn beta in W. rewrite C0 in W. revert W. apply cval.
    rewrite unit_dn0 by apply pos0. reflexivity.
Qed.
Lemma varN_dn0 a b d : varN a b d = dn0 (vcross a b) (varG3 a b d). Proof. reflexivity. Qed.
Lemma ddg3_vec r : ddg3 dN r s = vadd (vcross (p r) (q s)) (vcross (p s) (q r)).
Proof.
  clear - dN. unfold ddg3, sgl. assert (Hr := dirOf_range r). assert (Hd := dirOf_range s).
  set (kr := nodeOf r). set (ks := nodeOf s). cases3 (dirOf r) Hr; cases3 (dirOf s) Hd; cbn; unfold vadd, vcross, vzero; cbn [vx vy vz]; f_equal; ring.
Qed.
Lemma dG3_derive r : vderive (fun t => varG3 (G t 1) (G t 2) (dofVar dN d2N r)) 0 (ddg3 dN r s).
Proof.
  assert (D1 := G_derive 1). assert (D2 := G_derive 2). unfold varG3, dofVar; cbn [p1 p2].
  assert (W := vadd_derive _ _ _ _ _ (cross_derive _ _ _ _ _ (vconst_derive (p r) 0) D2) (cross_derive _ _ _ _ _ D1 (vconst_derive (q r) 0))). cbn beta in W. revert W. apply cval.
  rewrite ddg3_vec. generalize (p r) (q r) (p s) (q s) (G 0 1) (G 0 2). intros [] [] [] [] [] []. unfold vadd, vcross, vzero; cbn. f_equal; ring.
Qed.
Lemma ddn_vec a b r : ddn dN a b r s = ddn0 (vcross a b) (varG3 a b (dofVar dN d2N r)) (varG3 a b (dofVar dN d2N s)) (ddg3 dN r s).
Proof. unfold ddn, ddn0, g3dg3. rewrite !(dg3_var dN d2N). reflexivity. Qed.
Lemma dn_derive r : vderive (fun t => varN (G t 1) (G t 2) (dofVar dN d2N r)) 0 (ddn dN g1 g2 r s).
Proof.
  rewrite ddn_vec. assert (P : 0 < vlen (C 0)) by (rewrite C0; apply pos0).
  assert (W := dn0_derive _ _ _ _ _ C_derive (dG3_derive r) P). cbn beta in W. rewrite C0, !bump0 in W. exact W.
Qed.
(* curvature *)
Lemma K_derive B0 : vderive (fun t => vsub B0 (vtimesH (snd (normal (G t 1) (G t 2))) (hessOf nen d2N (bumpF x s t)))) 0
  (varK (snd (normal g1 g2)) g1 g2 (hessOf nen d2N x) (dofVar dN d2N s)).
Proof.
  assert (N := N_derive). unfold vtimesH, hessOf; cbn [h11 h22 h12].
  assert (A := V_derive _ _ _ _ _ _ _ (dot_derive _ _ _ _ _ N (H_derive 1 1)) (dot_derive _ _ _ _ _ N (H_derive 2 2)) (dot_derive _ _ _ _ _ N (H_derive 1 2))). cbn beta in A.
  assert (W := vsub_derive _ _ _ _ _ (vconst_derive B0 0) A). revert W. apply cval. rewrite !bump0, !bump0h.
  unfold varK, dofVar; cbn [q11 q22 q12 h11 h22 h12]. unfold vsub, vzero; cbn [vx vy vz]. f_equal; ring.
Qed.
Lemma dK_derive r : vderive (fun t => varK (snd (normal (G t 1) (G t 2))) (G t 1) (G t 2) (hessOf nen d2N (bumpF x s t)) (dofVar dN d2N r)) 0
  (ddK dN d2N g1 g2 (hessOf nen d2N x) r s).
Proof.
  assert (N := N_derive). assert (M := dn_derive r). unfold varK, hessOf; cbn [h11 h22 h12].
  assert (Q : forall v (h : R -> v3) w, vderive h 0 w -> is_derive (fun t => - vdot (snd (normal (G t 1) (G t 2))) v - vdot (varN (G t 1) (G t 2) (dofVar dN d2N r)) (h t)) 0
     (- vdot (varN g1 g2 (dofVar dN d2N s)) v - (vdot (ddn dN g1 g2 r s) (h 0) + vdot (varN g1 g2 (dofVar dN d2N r)) w))).
  { intros v h w Hh. assert (A := dot_derive _ _ _ _ _ N (vconst_derive v 0)). assert (B := dot_derive _ _ _ _ _ M Hh). cbn beta in A, B.
    assert (A' := mul_derive _ _ _ _ _ (const_derive (-1) 0) A). cbn beta in A'. assert (W := sub_derive _ _ _ _ _ A' B). cbn beta in W.
    apply (is_derive_ext (fun t => -1 * vdot (snd (normal (G t 1) (G t 2))) v - vdot (varN (G t 1) (G t 2) (dofVar dN d2N r)) (h t))); [intros; req; ring|].
    revert W. apply val_derive. rewrite !bump0. assert (Z : forall u, vdot u vzero = 0) by (intros; vring). rewrite Z. ring. }
  assert (W := V_derive _ _ _ _ _ _ _ (Q (sgl2 d2N r 1 1) _ _ (H_derive 1 1)) (Q (sgl2 d2N r 2 2) _ _ (H_derive 2 2)) (Q (sgl2 d2N r 1 2) _ _ (H_derive 1 2))).
  cbn beta in W. revert W. apply cval. rewrite !bump0h. unfold ddK, vtimesH; cbn [vx vy vz h11 h22 h12]. rewrite !(dn_var dN d2N). unfold sgl2.
  assert (Hr := dirOf_range r). assert (Hd := dirOf_range s). rewrite !dot_single by assumption. f_equal; ring.
Qed.
End At.

(** ** Symmetry of the second variations *)
Lemma ddE_symm r s : ddE dN r s = ddE dN s r.
Proof. unfold ddE. rewrite Nat.eqb_sym. destruct (dirOf s =? dirOf r)%nat; [f_equal; ring|reflexivity]. Qed.
Lemma ddg3_symm r s : ddg3 dN r s = ddg3 dN s r.
Proof. rewrite !ddg3_vec. destruct (p r), (q r), (p s), (q s). unfold vadd, vcross; cbn. f_equal; ring. Qed.
Lemma ddn_symm g1 g2 r s : ddn dN g1 g2 r s = ddn dN g1 g2 s r.
Proof.
  rewrite !ddn_vec, (ddg3_symm r s). unfold ddn0. generalize (ddg3 dN s r) (varG3 g1 g2 (dofVar dN d2N r)) (varG3 g1 g2 (dofVar dN d2N s)) (vcross g1 g2). intros dd a b c.
  rewrite (vdot_sym a b). generalize (vdot dd c) (vdot b a) (vdot c a) (vdot c b) (vlen c). intros z1 z2 z3 z4 l. destruct dd, a, b, c. unfold vadd, vsub, vscal, Rdiv; cbn. f_equal; ring.
Qed.
Lemma ddK_symm g1 g2 H r s : ddK dN d2N g1 g2 H r s = ddK dN d2N g1 g2 H s r.
Proof. unfold ddK. rewrite (ddn_symm g1 g2 r s). f_equal; ring. Qed.
End V.

(** ** Internal force vector and tangent *)
Lemma D_symm E nu t D a b : 0 <= nu < 1/2 -> formD E nu t false = Ret D ->
  vdot a (times3 (el (fst D)) b) = vdot (times3 (el (fst D)) a) b /\ vdot a (times3 (el (snd D)) b) = vdot (times3 (el (snd D)) a) b.
Proof.
  intros Hn HD. destruct (formD_total E nu t Hn) as [D' [HD' [E1 E2]]]. rewrite HD in HD'. injection HD' as <-.
  unfold times3, vdot; cbn [sumf vx vy vz]. rewrite !E1, !E2 by lia. unfold closed2. destruct a, b; cbn. split; ring.
Qed.
Section T.
Variables (nen : nat) (dN : nat -> nat -> R) (d2N : nat -> nat -> nat -> R) (E nu th dj : R) (G1 G2 : v3) (H0 : hess).
(* result of evalKandS at nodal positions x, from cleared arrays *)
Definition atPos (x : nat -> R) : res ((nat -> R) * (nat -> nat -> R)) :=
  evalKandS dN d2N E nu th dj G1 G2 H0 (Some (gOf nen dN x 1, gOf nen dN x 2, hessOf nen d2N x)) (fun _ => 0) (fun _ _ => 0).
Definition forceAt (x : nat -> R) (r : nat) : R := match atPos x with Ret (Sv, _) => Sv r | _ => 0 end.
Lemma tangent_exact x r s : 0 <= nu < 1/2 -> (1 <= r <= 3 * nen)%nat -> (1 <= s <= 3 * nen)%nat -> epsZ < vlen (vcross (gOf nen dN x 1) (gOf nen dN x 2)) ->
  exists Sv K, atPos x = Ret (Sv, K) /\ is_derive (fun t => - forceAt (bumpF x s t) r) 0 (K r s).
Proof.
  intros Hn Hr Hs reg. destruct (formD_total E nu th Hn) as [D [HD _]]. unfold forceAt, atPos, evalKandS. rewrite HD. cbn [bind].
  do 2 eexists. split; [reflexivity|]. cbv zeta. unfold strains. cbn [fst snd].
  set (T := Tmat G1 G2). set (Dm := el (fst D)). set (Db := el (snd D)). set (Bv := vtimesH (snd (normal G1 G2)) H0).
  assert (LE : (if (s <=? r)%nat then ddE dN r s else ddE dN s r) = ddE dN r s) by (destruct (s <=? r)%nat; [reflexivity|apply ddE_symm]).
  assert (LK : forall a b H, (if (s <=? r)%nat then ddK dN d2N a b H r s else ddK dN d2N a b H s r) = ddK dN d2N a b H r s) by (intros; destruct (s <=? r)%nat; [reflexivity|apply ddK_symm]).
  rewrite LE, LK. clear LE LK. rewrite !(dE_var dN d2N), !dKn_var.
  assert (A1 := times3_derive Dm _ _ _ (times3_derive T _ _ _ (E_derive nen dN d2N x s Hs G1 G2))).
  assert (A2 := times3_derive T _ _ _ (dE_derive nen dN d2N x s Hs r)). rewrite <- ddE_sym in A2.
  assert (A3 := times3_derive Db _ _ _ (times3_derive T _ _ _ (K_derive nen dN d2N x s Hs reg Bv))).
  assert (A4 := times3_derive T _ _ _ (dK_derive nen dN d2N x s Hs reg r)).
  assert (W := add_derive _ _ _ _ _ (mul_derive _ _ _ _ _ (const_derive dj 0) (dot_derive _ _ _ _ _ A2 A1)) (mul_derive _ _ _ _ _ (const_derive dj 0) (dot_derive _ _ _ _ _ A4 A3))). cbn beta in W.
  match type of W with is_derive ?f _ _ => apply (is_derive_ext f) end.
  { intros t. req. rewrite (dE_var dN d2N), dKn_var. unfold T, Dm, Db, Bv. ring. }
  revert W. apply val_derive. rewrite !(bump0 nen dN x s Hs).
  assert (HH : hessOf nen d2N (bumpF x s 0) = hessOf nen d2N x) by (unfold hessOf; now rewrite !(bump0h nen d2N x s Hs)). rewrite HH.
  destruct (D_symm E nu th D (times3 T (varE (gOf nen dN x 1) (gOf nen dN x 2) (dofVar dN d2N r))) (times3 T (varE (gOf nen dN x 1) (gOf nen dN x 2) (dofVar dN d2N s))) Hn HD) as [S1 _].
  set (n := snd (normal (gOf nen dN x 1) (gOf nen dN x 2))).
  destruct (D_symm E nu th D (times3 T (varK n (gOf nen dN x 1) (gOf nen dN x 2) (hessOf nen d2N x) (dofVar dN d2N r))) (times3 T (varK n (gOf nen dN x 1) (gOf nen dN x 2) (hessOf nen d2N x) (dofVar dN d2N s))) Hn HD) as [_ S2].
  fold Dm in S1. fold Db in S2. rewrite <- S1, <- S2.
  rewrite !(vdot_sym (times3 T (ddE dN r s))), !(vdot_sym (times3 T (ddK dN d2N (gOf nen dN x 1) (gOf nen dN x 2) (hessOf nen d2N x) r s))). ring.
Qed.
End T.
