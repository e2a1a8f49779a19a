(** C144: the linear continuum element is the linear elastic problem of the interpolated fields.
    C145: the stabilisation term at interfaces. *)
From Verif Require Import Lib.Base Lib.Sums Lib.Writes Lib.Tensor3 Spec.Hooke Spec.Continuum Model.Continuum Model.LinIsotropic
  Proofs.Continuum Proofs.ContinuumK Proofs.ContinuumAxi Model.LinElement Spec.LinElement Proofs.LinElement.
Import ListNotations.

Lemma sumL_zero {A} (l : list A) : sumL (fun _ => 0) l = 0.
Proof. induction l as [|x l IH]; [reflexivity|]. change (0 + sumL (fun _ : A => 0) l = 0). rewrite IH. ring. Qed.
Lemma sum_atZ {A} pos s (f : A -> R) l : sumL (fun p => atZ pos s (f p)) l = atZ pos s (sumL f l).
Proof. unfold atZ. destruct (_ =? _)%Z; [reflexivity|]. apply sumL_zero. Qed.
Lemma sum_atN {A} pos s (f : A -> R) l : sumL (fun p => atN pos s (f p)) l = atN pos s (sumL f l).
Proof. unfold atN. destruct (_ =? _)%nat; [reflexivity|]. apply sumL_zero. Qed.

(** Everything the element adds, for all displacements, extraction functions and positions of the results. *)
Theorem C144_element : forall k n s ps vecs st,
  isKind k n s -> (forall p, In p ps -> validPt k p) -> (1 <= n)%nat -> k <> AxiSolid \/ (eKg s <= 0)%Z ->
  validVecs k n s ps vecs -> sized (sdim k * n) st ->
  let u := field (nth 0 vecs None) in let z := field (nth 1 vecs None) in
  exists st', linElement s ps vecs st = Ret st' /\ sized (sdim k * n) st' /\
    (forall a v w, (1 <= a)%nat -> bilin (sdim k * n) (el (lA st' a)) v w = bilin (sdim k * n) (el (lA st a)) v w
       + (atZ (eKm s) a (aForm k n ps v w) + atZ (eKg s) a (gForm k n ps u v w) + atZ (eM s) a (mForm k n ps v w))) /\
    (forall a v, (1 <= a)%nat -> lwork (sdim k * n) (bvec (lB st') a) v = lwork (sdim k * n) (bvec (lB st) a) v
       + (atN (iS s) a (- aForm k n ps u v) + atN (eS s) a (fForm k n ps v + if hasT s then tForm k n ps v else 0)
          + atN (dS s) a (if (2 <=? dS s)%nat then aForm k n ps z v else 0))).
Proof.
  intros k n s ps vecs st HK HV Hn HA HW S u z.
  destruct (element_ok k n s ps vecs HK HV Hn HA HW st S) as [st' [E [S' [GA GB]]]].
  exists st'. split; [exact E|]. split; [exact S'|]. split.
  - intros a v w Ha. rewrite GA by assumption. f_equal. unfold ptA. rewrite !sumL_plus, !sum_atZ. reflexivity.
  - intros a v Ha. rewrite GB by assumption. f_equal. unfold ptB. rewrite !sumL_plus, !sum_atN.
    f_equal; [f_equal|].
    + f_equal. unfold aForm. fold u. rewrite <- (Rmult_1_l (sumL (fun p => vol k p * _) ps)), Ropp_mult_distr_l, <- sumL_scal. apply sumL_ext. intros. ring.
    + f_equal. rewrite sumL_plus. f_equal. destruct (hasT s); [reflexivity|]. apply sumL_zero.
    + f_equal. destruct (2 <=? dS s)%nat; [reflexivity|]. apply sumL_zero.
Qed.

(** Entries from the bilinear form. *)
Definition unit (i j : nat) : R := kron i j.
Lemma bilin_unit N A i j : (1 <= i <= N)%nat -> (1 <= j <= N)%nat -> bilin N A (unit i) (unit j) = A i j.
Proof.
  intros Hi Hj. unfold bilin, mv, unit. rewrite (sumf_pick N i _ (A i j)); [reflexivity|exact Hi| |].
  - intros q _ Hq. unfold kron. destruct (Nat.eqb_spec i q); [congruence|]. ring.
  - rewrite (sumf_pick N j _ (A i j)); [unfold kron; rewrite Nat.eqb_refl; ring|exact Hj| |].
    + intros q _ Hq. unfold kron. destruct (Nat.eqb_spec j q); [congruence|]. ring.
    + unfold kron. rewrite Nat.eqb_refl. ring.
Qed.
Lemma aForm_sym k n ps u v : aForm k n ps u v = aForm k n ps v u.
Proof. unfold aForm. apply sumL_ext. intros p _. rewrite density_sym. reflexivity. Qed.
Lemma mForm_sym k n ps u v : mForm k n ps u v = mForm k n ps v u.
Proof. unfold mForm. apply sumL_ext. intros p _. f_equal. apply sumf_ext. intros. ring. Qed.
Lemma sumf_swap_grad d (f g : nat -> nat -> R) (h : nat -> nat -> R) c : (forall i j, h i j = h j i) ->
  sumf d (fun i => sumf d (fun j => f c i * h i j * g c j)) = sumf d (fun i => sumf d (fun j => g c i * h i j * f c j)).
Proof. intros H. rewrite sumf_swap. apply sumf_ext. intros i _. apply sumf_ext. intros j _. rewrite (H j i). ring. Qed.
Lemma hooke_sym k n p u i j : hookeOf k p (strainOf k n p u) i j = hookeOf k p (strainOf k n p u) j i.
Proof.
  unfold hookeOf, hooke. f_equal; [unfold kron; rewrite (Nat.eqb_sym i j); reflexivity|]. f_equal.
  unfold strainOf. rewrite (andb_comm (i <=? sdim k)%nat), (andb_comm (j <=? sdim k)%nat (i <=? sdim k)%nat), (andb_comm (i <=? sdim k)%nat).
  destruct (_ && _)%bool; [f_equal; ring|]. rewrite <- !andb_assoc, (andb_comm (i =? 3)%nat). reflexivity.
Qed.

(** All matrices stay symmetric. *)
Theorem C144_symmetric : forall k n s ps vecs st st',
  isKind k n s -> (forall p, In p ps -> validPt k p) -> (1 <= n)%nat -> k <> AxiSolid \/ (eKg s <= 0)%Z ->
  validVecs k n s ps vecs -> sized (sdim k * n) st -> linElement s ps vecs st = Ret st' ->
  forall a, (1 <= a)%nat -> symm (sdim k * n) (el (lA st a)) -> symm (sdim k * n) (el (lA st' a)).
Proof.
  intros k n s ps vecs st st' HK HV Hn HA HW S E a Ha Sy i j Hi Hj.
  destruct (C144_element k n s ps vecs st HK HV Hn HA HW S) as [st1 [E1 [_ [GA _]]]]. rewrite E in E1. injection E1 as <-.
  rewrite <- !(bilin_unit (sdim k * n) (el (lA st' a))) by assumption. rewrite !GA by assumption.
  rewrite !(bilin_unit (sdim k * n) (el (lA st a))) by assumption. rewrite (Sy i j Hi Hj), (aForm_sym k n ps (unit i)), (mForm_sym k n ps (unit i)).
  do 3 f_equal. f_equal. unfold gForm. apply sumL_ext. intros p _. f_equal. apply sumf_ext. intros c _.
  apply (sumf_swap_grad (sdim k) (gradient (sdim k) n (pG p) (unit i)) (gradient (sdim k) n (pG p) (unit j))). intros. apply hooke_sym.
Qed.

(** The strain energy is never negative and vanishes only without strains. *)
Lemma density_pos k p A : 0 < pE p -> 0 <= pNu p < 1 / 2 -> 0 <= density k p A A /\ (density k p A A = 0 -> eq3 A (fun _ _ => 0)).
Proof.
  intros HE Hn. unfold density. set (lam := lamOf k (pE p) (pNu p)). set (mu := lame2 (pE p) (pNu p)).
  assert (Hm : 0 < mu) by (unfold mu, lame2; apply Rdiv_lt_0_compat; lra).
  assert (H1 : 0 <= lame1 (pE p) (pNu p)) by (unfold lame1; apply Rmult_le_pos; [nra|left; apply Rinv_0_lt_compat; nra]).
  assert (Hl : 0 <= lam).
  { unfold lam, lamOf. destruct k; try exact H1. fold mu. apply Rmult_le_pos; [|left; apply Rinv_0_lt_compat; lra]. apply Rmult_le_pos; lra. }
  assert (Ht : 0 <= lam * tr3 A * tr3 A) by (rewrite Rmult_assoc; apply Rmult_le_pos; [exact Hl|nra]).
  assert (Q : forall x : R, 0 <= x * x) by (intros; nra).
  assert (D : 0 <= ddot3 A A) by (unfold ddot3; repeat apply Rplus_le_le_0_compat; apply Q).
  split; [nra|]. intros Z. assert (Z2 : ddot3 A A = 0) by nra. unfold ddot3 in Z2.
  pose proof (Q (A 1 1)%nat). pose proof (Q (A 1 2)%nat). pose proof (Q (A 1 3)%nat). pose proof (Q (A 2 1)%nat). pose proof (Q (A 2 2)%nat). pose proof (Q (A 2 3)%nat). pose proof (Q (A 3 1)%nat). pose proof (Q (A 3 2)%nat). pose proof (Q (A 3 3)%nat).
  assert (sq : forall x : R, x * x = 0 -> x = 0) by (intros x Hx; apply Rmult_integral in Hx; tauto).
  intros i j Hi Hj. idx i; idx j; apply sq; lra.
Qed.
Lemma vol_pos k p : validPt k p -> 0 < pW p -> 0 < vol k p.
Proof.
  intros V Hw. unfold vol. destruct (isAx k) eqn:A; [|exact Hw]. pose proof (vpAx k p V A). pose proof epsR_pos. pose proof PI_RGT_0.
  apply Rmult_lt_0_compat; [|exact Hw]. apply Rmult_lt_0_compat; lra.
Qed.
Theorem C144_positive : forall k n ps u, (forall p, In p ps -> validPt k p /\ 0 < pE p /\ 0 < pW p) ->
  0 <= aForm k n ps u u /\ (aForm k n ps u u = 0 <-> forall p, In p ps -> eq3 (strainOf k n p u) (fun _ _ => 0)).
Proof.
  intros k n ps u H. unfold aForm.
  assert (P : forall p, In p ps -> 0 < vol k p /\ 0 <= density k p (strainOf k n p u) (strainOf k n p u)).
  { intros p Hp. destruct (H p Hp) as [V [HE HW]]. split; [apply vol_pos; assumption|]. apply density_pos; [exact HE|apply (vpNu k p V)]. }
  assert (P' : forall p, In p ps -> 0 <= vol k p * density k p (strainOf k n p u) (strainOf k n p u)).
  { intros p Hp. destruct (P p Hp). apply Rmult_le_pos; lra. }
  split; [apply sumL_nonneg; exact P'|]. split.
  - intros Z p Hp. destruct (H p Hp) as [V [HE HW]]. apply (density_pos k p _ HE (vpNu k p V)).
    assert (X : forall l, (forall q, In q l -> 0 <= vol k q * density k q (strainOf k n q u) (strainOf k n q u)) -> sumL (fun q => vol k q * density k q (strainOf k n q u) (strainOf k n q u)) l = 0 ->
      forall q, In q l -> vol k q * density k q (strainOf k n q u) (strainOf k n q u) = 0).
    { clear. induction l as [|x l IH]; intros Hl Z q Hq; [destruct Hq|].
      change (vol k x * density k x (strainOf k n x u) (strainOf k n x u) + sumL (fun q => vol k q * density k q (strainOf k n q u) (strainOf k n q u)) l = 0) in Z.
      pose proof (Hl x (or_introl eq_refl)). pose proof (sumL_nonneg (fun q => vol k q * density k q (strainOf k n q u) (strainOf k n q u)) l (fun q Hq => Hl q (or_intror Hq))).
      destruct Hq as [<-|Hq]; [lra|]. apply IH; auto; [intros; apply Hl; right; assumption|lra]. }
    pose proof (X ps P' Z p Hp) as Y. destruct (P p Hp) as [Vp _]. apply Rmult_integral in Y. destruct Y; [lra|assumption].
  - intros Z. rewrite (sumL_ext _ (fun _ => 0)); [apply sumL_zero|]. intros p Hp. rewrite density_zero by auto. ring.
Qed.

(** Rigid motions have no strains: they need no forces, and none result from them. *)
Lemma rigid_strain k n X p u : k <> AxiSolid -> rigid (sdim k) X u -> complete (sdim k) n X p -> eq3 (strainOf k n p u) (fun _ _ => 0).
Proof.
  intros Ka [c [W [HW Hu]]] [C0 C1].
  assert (G : forall i j, (1 <= i <= sdim k)%nat -> (1 <= j <= sdim k)%nat -> gradient (sdim k) n (pG p) u i j = W i j).
  { intros i j Hi Hj. unfold gradient.
    rewrite (sumf_ext n _ (fun a => c i * pG p a j + sumf (sdim k) (fun m => W i m * (X a m * pG p a j)))).
    - rewrite sumf_plus, sumf_scal, C0, sumf_swap by assumption.
      rewrite (sumf_pick (sdim k) j _ (W i j)); [ring|exact Hj| |].
      + intros m Hm Nm. rewrite sumf_scal, C1 by assumption. unfold kron. destruct (Nat.eqb_spec m j); [congruence|]. ring.
      + rewrite sumf_scal, C1 by assumption. unfold kron. rewrite Nat.eqb_refl. ring.
    - intros a _. rewrite Hu by assumption. rewrite Rmult_plus_distr_r. f_equal. rewrite <- sumf_scal_r. apply sumf_ext. intros m _. ring. }
  intros i j Hi Hj. unfold strainOf. assert (A : isAx k = false) by (destruct k; try reflexivity; congruence). rewrite A. cbn [andb].
  destruct (Nat.leb_spec i (sdim k)), (Nat.leb_spec j (sdim k)); cbn [andb]; try reflexivity.
  rewrite !G by lia. rewrite (HW i j) by lia. lra.
Qed.
Lemma aForm_zero k n ps u v : (forall p, In p ps -> eq3 (strainOf k n p u) (fun _ _ => 0)) -> aForm k n ps u v = 0.
Proof. intros Z. unfold aForm. rewrite (sumL_ext _ (fun _ => 0)); [apply sumL_zero|]. intros p Hp. rewrite density_zero by auto. ring. Qed.
Theorem C144_rigid : forall k n X ps u v, k <> AxiSolid -> rigid (sdim k) X u -> (forall p, In p ps -> complete (sdim k) n X p) ->
  aForm k n ps u v = 0 /\ aForm k n ps v u = 0.
Proof.
  intros k n X ps u v Ka Hr Hc. assert (Z : aForm k n ps u v = 0) by (apply aForm_zero; intros p Hp; apply (rigid_strain k n X); auto).
  split; [exact Z|]. rewrite aForm_sym. exact Z.
Qed.
(** In axisymmetric elements the axial translation. *)
Theorem C144_rigid_axial : forall n ps c v, (forall p, In p ps -> forall j, (1 <= j <= 2)%nat -> sumf n (fun a => pG p a j) = 0) ->
  let u := fun i => if Nat.even i then c else 0 in aForm AxiSolid n ps u v = 0.
Proof.
  intros n ps c v H u. apply aForm_zero. intros p Hp.
  assert (U1 : forall a, (1 <= a)%nat -> u (2 * (a - 1) + 1)%nat = 0) by (intros a _; unfold u; rewrite Nat.add_1_r, Nat.even_succ, Nat.odd_mul; reflexivity).
  assert (U2 : forall a, (1 <= a)%nat -> u (2 * (a - 1) + 2)%nat = c) by (intros a _; unfold u; rewrite Nat.even_add, Nat.even_mul; reflexivity).
  assert (G1 : forall j, gradient 2 n (pG p) u 1 j = 0) by (intros; unfold gradient; apply sumf_0; intros a Ha; rewrite U1 by lia; ring).
  assert (G2 : forall j, (1 <= j <= 2)%nat -> gradient 2 n (pG p) u 2 j = 0).
  { intros j Hj. unfold gradient. rewrite (sumf_ext n _ (fun a => c * pG p a j)) by (intros a Ha; rewrite U2 by lia; ring). rewrite sumf_scal, H by assumption. ring. }
  assert (I1 : interp 2 n (pN p) u 1 = 0) by (unfold interp; apply sumf_0; intros a Ha; rewrite U1 by lia; ring).
  intros i j Hi Hj. unfold strainOf. cbn [sdim isAx]. idx i; idx j; cbn [Nat.leb andb Nat.eqb]; rewrite ?G1, ?G2, ?I1 by lia; lra.
Qed.

(** Internal forces are minus the stiffness times the displacements. *)
Theorem C144_forces : forall k n s ps vecs st st',
  isKind k n s -> (forall p, In p ps -> validPt k p) -> (1 <= n)%nat -> (eKg s <= 0)%Z -> (0 < eKm s)%Z -> eM s <> eKm s ->
  (1 <= iS s)%nat -> eS s <> iS s -> dS s <> iS s ->
  validVecs k n s ps vecs -> sized (sdim k * n) st -> linElement s ps vecs st = Ret st' ->
  (forall i j, el (lA st (Z.to_nat (eKm s))) i j = 0) -> (forall i, el (bvec (lB st) (iS s)) i 1%nat = 0) ->
  forall i, (1 <= i <= sdim k * n)%nat -> el (bvec (lB st') (iS s)) i 1%nat = - mv (sdim k * n) (el (lA st' (Z.to_nat (eKm s)))) (field (nth 0 vecs None)) i.
Proof.
  intros k n s ps vecs st st' HK HV Hn Hg Hk Hm Hi1 He1 Hd1 HW S E ZA ZB i Hi. set (N := (sdim k * n)%nat) in *.
  destruct (C144_element k n s ps vecs st HK HV Hn (or_intror Hg) HW S) as [st1 [E1 [_ [GA GB]]]]. rewrite E in E1. injection E1 as <-. fold N in GA, GB.
  assert (LW : forall b, lwork N b (unit i) = el b i 1%nat).
  { intros b. unfold lwork. apply (sumf_pick N i); [exact Hi| |]; [intros q _ Nq; unfold unit, kron; destruct (Nat.eqb_spec i q); [congruence|ring]|unfold unit, kron; rewrite Nat.eqb_refl; ring]. }
  assert (BW : forall A w, bilin N A (unit i) w = mv N A w i).
  { intros A w. unfold bilin. apply (sumf_pick N i); [exact Hi| |]; [intros q _ Nq; unfold unit, kron; destruct (Nat.eqb_spec i q); [congruence|ring]|unfold unit, kron; rewrite Nat.eqb_refl; ring]. }
  rewrite <- LW, <- BW, GB, GA by lia. rewrite LW, ZB, BW.
  unfold atN, atZ. rewrite Nat.eqb_refl, Z2Nat.id, Z.eqb_refl by lia.
  destruct (Nat.eqb_spec (eS s) (iS s)); [congruence|]. destruct (Nat.eqb_spec (dS s) (iS s)); [congruence|].
  destruct (Z.eqb_spec (eKg s) (eKm s)); [exfalso; lia|]. destruct (Z.eqb_spec (eM s) (eKm s)); [congruence|].
  unfold mv at 1. rewrite (sumf_0 N) by (intros; rewrite ZA; ring). rewrite (aForm_sym k n ps (unit i)). ring.
Qed.

(** *** The threshold *)
(** Strains of which no component exceeds 1e-16 give no internal forces at all. *)
Lemma eng_pairs k e r : ofKind k e -> (1 <= r <= nsk k)%nat -> (forall i j, (1 <= i <= 3)%nat -> (1 <= j <= 3)%nat -> Rabs (engineering k e i j) <= epsR) -> Rabs (engv k e r) <= epsR.
Proof.
  intros _ Hr H. unfold engv. assert (R3 : forall i j, vp k r = (i, j) -> (1 <= i <= 3)%nat /\ (1 <= j <= 3)%nat) by (intros i j; destruct k; cbn [nsk] in Hr; idx r; try (exfalso; lia); cbn; intros Q; injection Q as <- <-; lia).
  destruct (vp k r) as [i j]. destruct (R3 i j eq_refl). apply H; assumption.
Qed.
Definition forceOnly (k : solid) (n : nat) : lset := mkLset (sdim k) (isAx k) (match k with PlaneStress => true | _ => false end) n 0 0 0 1 0 0 false.
Lemma forceOnly_kind k n : isKind k n (forceOnly k n).
Proof. repeat split. destruct k; exact I || reflexivity. Qed.
Theorem C144_threshold : forall k n p u st, validPt k p -> (1 <= n)%nat -> sized (sdim k * n) st ->
  (forall i j, (1 <= i <= 3)%nat -> (1 <= j <= 3)%nat -> Rabs (engineering k (strainOf k n p u) i j) <= epsR) ->
  linElement (forceOnly k n) [p] [Some u] st = Ret st.
Proof.
  intros k n p u st V Hn S H. pose proof (forceOnly_kind k n) as HK.
  destruct (bmat_ok k n (forceOnly k n) p HK V) as [B [EB HB]]. destruct (cmat_ok k n (forceOnly k n) p HK V) as [C [EC _]].
  assert (Z : zeroStrain (forceOnly k n) (mv (sdim k * n) (el B) u) = true).
  { apply zeroStrain_iff. intros r Hr. rewrite (nst_kind k n _ HK) in Hr. rewrite HB by assumption. apply eng_pairs; auto. apply strain_kind. }
  assert (P : ptState (forceOnly k n) p (Some u) = Ret (B, mv (sdim k * n) (el B) u, (C, mv (nst (sdim k) (isAx k)) (el C) (mv (sdim k * n) (el B) u)))).
  { unfold ptState. cbn [needStrains forceOnly eKm eKg iS isSome Z.ltb Nat.ltb Nat.leb andb orb]. unfold kinem. rewrite EB. cbn [bind snd]. unfold matEval. rewrite EC. reflexivity. }
  cbn [linElement]. unfold evalIntLin. cbn [nth]. rewrite P. cbn [bind]. rewrite Z. reflexivity.
Qed.

(** A triangle with nodes (0,0), (1,0), (0,1), unit modulus. *)
Definition triG (a j : nat) : R := match a, j with 1%nat, _ => -1 | 2%nat, 1%nat => 1 | 3%nat, 2%nat => 1 | _, _ => 0 end.
Definition tri : lpt := mkLpt (fun _ => 1 / 3) triG 1 (1 / 2) 1 0 0 (fun _ => 0) true 0.
Definition pull (x : R) (i : nat) : R := if (i =? 3)%nat then x else 0.
Lemma tri_valid k : k <> AxiSolid -> validPt k tri.
Proof. intros Hk. split; [cbn; lra| |intros; reflexivity]. intros A. destruct k; try discriminate. congruence. Qed.
Lemma tri_strain x : eq3 (strainOf PlaneStress 3 tri (pull x)) (fun i j => if ((i =? 1) && (j =? 1))%nat%bool then x else 0).
Proof. intros i j Hi Hj. unfold strainOf, gradient, tri, pull. cbn [sdim isAx pG pN pX]. idx i; idx j; cbn; lra. Qed.
Lemma tri_aForm x y : aForm PlaneStress 3 [tri] (pull x) (pull y) = x * y / 2.
Proof.
  unfold aForm, sumL, fold_right. rewrite (density_ext PlaneStress tri _ _ _ _ (tri_strain x) (tri_strain y)).
  unfold density, vol, lamOf, lame1, lame2, tr3, ddot3, tri. cbn. field.
Qed.
Definition blank : lst := mkLst (fun _ => zeros 6 6) (mkLoads (fun _ => zeros 6 1) (fun _ => 0) 0).
Lemma blank_sized : sized (sdim PlaneStress * 3) blank.
Proof. split; intros s; split; reflexivity. Qed.

(** Forces below the threshold are lost: the displacements have strain energy, but the element has no forces. *)
Theorem C144_threshold_refuted : exists k n p u st, validPt k p /\ (1 <= n)%nat /\ sized (sdim k * n) st /\ 0 < aForm k n [p] u u /\
  linElement (forceOnly k n) [p] [Some u] st = Ret st /\ (forall v, lwork (sdim k * n) (bvec (lB st) 1) v = 0).
Proof.
  exists PlaneStress, 3%nat, tri, (pull epsR), blank. pose proof epsR_pos as He.
  split; [apply tri_valid; discriminate|]. split; [lia|]. split; [exact blank_sized|].
  split; [rewrite tri_aForm; apply Rdiv_lt_0_compat; [nra|lra]|].
  split; [|intros v; unfold lwork, blank; apply sumf_0; intros; cbn; ring].
  apply C144_threshold; [apply tri_valid; discriminate|lia|exact blank_sized|].
  intros i j Hi Hj. unfold engineering. rewrite !tri_strain by assumption. rewrite Rabs_right; idx i; idx j; cbn; lra.
Qed.

(** *** The extraction function *)
(** In an element outside its domain, the displacements take its place (they are integrated as if they were the extraction function). *)
Theorem C144_outside : forall s ps u st, (0 < eKm s)%Z ->
  linElement s ps [Some u; None] st = linElement s ps [Some u; Some u] st.
Proof.
  intros s ps u st Hk. revert st. induction ps as [|p ps IH]; intros st; [reflexivity|]. cbn [linElement].
  assert (E : evalIntLin s p [Some u; None] st = evalIntLin s p [Some u; Some u] st).
  { unfold evalIntLin. cbn [nth]. destruct (ptState s p (Some u)) as [| |[[B eps] [C sg]]] eqn:P; [reflexivity|reflexivity|]. cbn [bind].
    destruct (stepKg _ _ _ _ _ _) as [| |st2]; [reflexivity|reflexivity|]. cbn [bind].
    destruct (stepM _ _ _) as [| |st3]; [reflexivity|reflexivity|]. cbn [bind].
    destruct (stepExt _ _ _ _ _) as [| |st5]; [reflexivity|reflexivity|]. cbn [bind].
    unfold stepDual. cbn [nth length]. destruct (_ || _)%bool; [reflexivity|].
    unfold ptState, needStrains in P. apply Z.ltb_lt in Hk. rewrite Hk in P. cbn [orb] in P.
    unfold kinem in *. destruct (if lax s then _ else _) as [| |B']; try discriminate. cbn [bind fst snd] in *.
    destruct (matEval s p (mv (lnsd s * lnen s) (el B') u)) as [| |m] eqn:M; try discriminate. cbn [bind] in P. injection P as <- <- _. rewrite M. reflexivity. }
  rewrite E. destruct (evalIntLin s p [Some u; Some u] st) as [| |st1]; [reflexivity|reflexivity|]. cbn [bind]. apply IH.
Qed.
Definition staticSet : lset := mkLset 2 false true 3 1 0 0 0 1 2 false.
(** So the dual load vector is not zero outside the domain when displacements are given. *)
Theorem C144_outside_refuted : exists s ps u st st', isKind PlaneStress 3 s /\ (forall p, In p ps -> validPt PlaneStress p) /\
  dS s = 2%nat /\ sized 6 st /\ (forall v, lwork 6 (bvec (lB st) (dS s)) v = 0) /\
  linElement s ps [Some u; None] st = Ret st' /\ lwork 6 (bvec (lB st') (dS s)) u <> 0.
Proof.
  assert (HK : isKind PlaneStress 3 staticSet) by (repeat split).
  assert (HV : forall p, In p [tri] -> validPt PlaneStress p) by (intros p [<-|[]]; apply tri_valid; discriminate).
  assert (HW : validVecs PlaneStress 3 staticSet [tri] [Some (pull 1); Some (pull 1)]).
  { assert (Sn : seenAll PlaneStress 3 [tri] (pull 1)).
    { intros p [<-|[]]. right. exists 1%nat, 1%nat. split; [lia|]. split; [lia|]. unfold engineering. cbn [Nat.eqb]. rewrite tri_strain by lia. cbn. rewrite Rabs_R1. generalize epsR_lt1. lra. }
    split; [exact Sn|]. split; [exact Sn|]. intros. discriminate. }
  destruct (C144_element PlaneStress 3 staticSet [tri] [Some (pull 1); Some (pull 1)] blank HK HV ltac:(lia) ltac:(right; cbn; lia) HW blank_sized) as [st' [E [_ [_ GB]]]].
  exists staticSet, [tri], (pull 1), blank, st'. split; [exact HK|]. split; [exact HV|]. split; [reflexivity|]. split; [exact blank_sized|].
  assert (Z : forall v, lwork 6 (bvec (lB blank) 2) v = 0) by (intros v; unfold lwork, blank; apply sumf_0; intros; cbn; ring).
  split; [exact Z|]. split; [rewrite C144_outside by (cbn; lia); exact E|].
  change (sdim PlaneStress * 3)%nat with 6%nat in GB. change (dS staticSet) with 2%nat. rewrite (GB 2%nat (pull 1)) by lia. rewrite Z.
  unfold atN. cbn [iS eS dS staticSet Nat.eqb Nat.leb field nth]. rewrite tri_aForm. lra.
Qed.
(** In every mode, with any other vectors, the displacements of the element are its part of the first solution vector. *)
Theorem C144_displacements : forall (A B : Type) (g : A -> B) m dom fld sols, nth 0 (initVecs g m dom fld sols) None = option_map g (nth 0 sols None).
Proof.
  intros A B g m dom fld [|x r]; [reflexivity|]. unfold initVecs. destruct (trimEmpty r) as [|y r']; [reflexivity|]. cbn [pickVecs nth].
  destruct x as [x|]; [|reflexivity]. destruct m; reflexivity.
Qed.
(** In a static assembly with the extraction function as second solution, an element gets the values if its centre is in the domain. *)
Theorem C144_vectors : forall (A B : Type) (g : A -> B) u z rest dom fld, trimEmpty rest = [] ->
  initVecs g Mstatic dom fld (u :: Some z :: rest) = [option_map g u; if match dom with Some b => b | None => false end then Some (g z) else None] /\
  nth 0 (initVecs g Mstatic dom fld (u :: Some z :: rest)) None = option_map g u.
Proof.
  intros A B g u z rest dom fld T. unfold initVecs. cbn [trimEmpty]. rewrite T. cbn [pickVecs haveValues Nat.eqb].
  destruct u; cbn; (split; reflexivity).
Qed.
(** In norm integration and recovery, solution [i] counted from zero is used if the domain of extraction function [i] contains the centre. *)
Theorem C144_vectors_norms : forall (A B : Type) (g : A -> B) u zs dom fld i z, nth_error zs i = Some (Some z) ->
  nth (S i) (initVecs g Mrecovery dom fld (u :: zs)) None = (if nth i fld false then Some (g z) else None).
Proof.
  intros A B g u zs dom fld i z H.
  assert (T : forall (l : list (option A)) j, nth_error l j = Some (Some z) -> nth_error (trimEmpty l) j = Some (Some z)).
  { induction l as [|x l IH]; intros [|j] Hj; try discriminate; cbn [nth_error trimEmpty] in *.
    - injection Hj as ->. reflexivity.
    - specialize (IH j Hj). destruct x as [x|]; [exact IH|]. destruct (trimEmpty l); [destruct j; discriminate|exact IH]. }
  specialize (T zs i H).
  assert (P : forall (l : list (option A)) j m, nth_error l j = Some (Some z) ->
    nth j (pickVecs g (haveValues Mrecovery dom fld) m l) None = (if haveValues Mrecovery dom fld (m + j) then Some (g z) else None)).
  { induction l as [|x l IH]; intros [|j] m Hj; try discriminate; cbn [nth_error pickVecs nth] in *.
    - injection Hj as ->. rewrite Nat.add_0_r. reflexivity.
    - rewrite (IH j (S m) Hj). replace (m + S j)%nat with (S m + j)%nat by lia. reflexivity. }
  unfold initVecs. destruct (trimEmpty zs) as [|y r] eqn:Ty; [destruct i; discriminate|].
  rewrite (P (u :: y :: r) (S i) 0%nat) by exact T. cbn [haveValues Nat.ltb Nat.leb Nat.add Nat.sub]. rewrite Nat.sub_0_r. reflexivity.
Qed.

(** A strained triangle with all results at once: stiffness, forces and dual loads. *)
Example C144_case : exists st', linElement (mkLset 2 false true 3 1 0 2 1 3 2 false) [tri] [Some (pull 1); Some (pull 2)] blank = Ret st' /\
  bilin 6 (el (lA st' 1)) (pull 1) (pull 1) = 1 / 2 /\ lwork 6 (bvec (lB st') 1) (pull 1) = - (1 / 2) /\ lwork 6 (bvec (lB st') 2) (pull 1) = 1.
Proof.
  set (s := mkLset 2 false true 3 1 0 2 1 3 2 false).
  assert (HK : isKind PlaneStress 3 s) by (repeat split).
  assert (HV : forall p, In p [tri] -> validPt PlaneStress p) by (intros p [<-|[]]; apply tri_valid; discriminate).
  assert (Sn : forall x, 1 <= x -> seenAll PlaneStress 3 [tri] (pull x)).
  { intros x Hx p [<-|[]]. right. exists 1%nat, 1%nat. split; [lia|]. split; [lia|]. unfold engineering. cbn [Nat.eqb]. rewrite tri_strain by lia. cbn. rewrite Rabs_right by lra. generalize epsR_lt1. lra. }
  destruct (C144_element PlaneStress 3 s [tri] [Some (pull 1); Some (pull 2)] blank HK HV ltac:(lia) ltac:(right; cbn; lia)) as [st' [E [_ [GA GB]]]]; [|exact blank_sized|].
  { split; [apply Sn; lra|]. split; [apply Sn; lra|]. intros. discriminate. }
  change (sdim PlaneStress * 3)%nat with 6%nat in GA, GB.
  assert (Z : forall a v, lwork 6 (bvec (lB blank) a) v = 0) by (intros a v; unfold lwork, blank; apply sumf_0; intros; cbn; ring).
  assert (ZA : forall a v w, bilin 6 (el (lA blank a)) v w = 0) by (intros a v w; unfold bilin, mv, blank; apply sumf_0; intros; cbn; ring).
  exists st'. split; [exact E|]. rewrite (GA 1%nat), (GB 1%nat), (GB 2%nat), !Z, ZA by lia.
  unfold atN, atZ. cbn [iS eS dS eKm eKg eM s Nat.eqb Z.eqb Z.of_nat Pos.of_succ_nat Pos.succ Pos.eqb Nat.leb field nth]. rewrite !tri_aForm. repeat split; lra.
Qed.
Definition triX (a j : nat) : R := match a, j with 2%nat, 1%nat => 1 | 3%nat, 2%nat => 1 | _, _ => 0 end.
Definition spin (i : nat) : R := match i with 4%nat => 1 | 5%nat => -1 | _ => 0 end.
(** A rotation of the triangle meets the hypotheses of the rigid motions. *)
Example C144_rigid_case : complete 2 3 triX tri /\ rigid 2 triX spin /\ spin 4 = 1 /\ forall v, aForm PlaneStress 3 [tri] spin v = 0.
Proof.
  assert (C : complete 2 3 triX tri).
  { split; [intros j Hj|intros i j Hi Hj; idx i]; idx j; unfold sumf, kron; cbn; lra. }
  assert (D : rigid 2 triX spin).
  { exists (fun _ => 0), (fun i j => match i, j with 1%nat, 2%nat => -1 | 2%nat, 1%nat => 1 | _, _ => 0 end). split.
    - intros i j Hi Hj. idx i; idx j; lra.
    - intros a i Hi. destruct a as [|[|[|[|a]]]]; idx i; unfold sumf; cbn; try lra.
      all: replace (a + S (S (S (a + 0))))%nat with (S (S (S (2 * a)))) by lia; cbn; try lra; destruct a; cbn; lra. }
  split; [exact C|]. split; [exact D|]. split; [reflexivity|]. intros v.
  apply (C144_rigid PlaneStress 3 triX [tri] spin v); [discriminate|exact D|]. intros p [<-|[]]. exact C.
Qed.

(** ** C145: interfaces *)
(** The face of the element a point is on: the first parameter that has reached one of its ends. *)
Inductive onFace (xi : nat -> R) : nat -> bool -> Prop :=
| OnFace (d : nat) (up : bool) : (1 <= d <= 3)%nat -> xi d = (if up then 1 else -1) -> (forall c, (1 <= c < d)%nat -> xi c <> 1 /\ xi c <> -1) -> onFace xi d up.
Lemma face_ok xi d up : onFace xi d up -> faceDir xi = Some (d, up).
Proof.
  intros [d0 up0 Hd Hx Hc]. unfold faceDir.
  assert (F : forall (P : Prop) (x : {P} + {~ P}) (A : Type) (a b : A), ~ P -> (if x then a else b) = b) by (intros P [x|x] A a b H; [contradiction|reflexivity]).
  assert (T : forall (P : Prop) (x : {P} + {~ P}) (A : Type) (a b : A), P -> (if x then a else b) = a) by (intros P [x|x] A a b H; [reflexivity|contradiction]).
  idx d0; repeat (rewrite F by (first [apply (Hc 1%nat); lia | apply (Hc 2%nat); lia]));
    (destruct up0; [rewrite F by lra; rewrite T by assumption | rewrite T by assumption]; reflexivity).
Qed.
Lemma face_none xi : (forall c, (1 <= c <= 3)%nat -> xi c <> 1 /\ xi c <> -1) -> faceDir xi = None.
Proof.
  intros H. unfold faceDir. repeat match goal with |- context [Req_EM_T ?a ?b] => destruct (Req_EM_T a b) as [Q|_]; [exfalso; first [apply (H 1%nat) in Q | apply (H 2%nat) in Q | apply (H 3%nat) in Q]; [exact Q|lia]|] end. reflexivity.
Qed.
(** The stabilisation of the supplied functions [N], of size [h] across the interface and degree [p]:
    gamma E h^(2p+1) times the product of the interpolated values, positive at the upper end of the parameter and negative at the lower. *)
Definition jumpForm (d n : nat) (up : bool) (h : R) (deg : nat) (gam : R) (p : lpt) (v w : nat -> R) : R :=
  (if up then 1 else -1) * (gam * pE p * h ^ (2 * deg + 1) * pW p * sumf d (fun i => interp d n (pN p) v i * interp d n (pN p) w i)).

Theorem C145_term : forall d n s xi hs deg gam p st dir up, lnsd s = d -> lnen s = n -> lax s = false -> (0 < eKm s)%Z -> sized (d * n) st -> onFace xi dir up ->
  exists st', evalIface s xi hs deg gam p st = Ret st' /\ sized (d * n) st' /\
    (forall a v w, (1 <= a)%nat -> bilin (d * n) (el (lA st' a)) v w = bilin (d * n) (el (lA st a)) v w + atZ (eKm s) a (jumpForm d n up (hs dir) deg gam p v w)) /\
    lB st' = lB st.
Proof.
  intros d n s xi hs deg gam p st dir up Hd Hn Hax HK S HF. unfold evalIface.
  destruct (Z.ltb_spec (eKm s) 0); [lia|]. destruct (Z.eqb_spec (eKm s) 0); [lia|]. rewrite Hax, (face_ok xi dir up HF), Hd, Hn.
  set (c := if up then hs dir ^ (2 * deg + 1) * (pE p * gam) * pW p else - (hs dir ^ (2 * deg + 1) * (pE p * gam) * pW p)).
  set (K0 := lA st (Z.to_nat (eKm s))).
  assert (D0 : rows K0 = (d * n)%nat /\ cols K0 = (d * n)%nat) by apply S. destruct D0 as [D1 D2].
  destruct (run_add_ok (loop n (fun a => loop n (fun b => loop d (fun i => [(dof d a i, dof d b i, c * pN p a * pN p b)])))) K0) as [K [E [R1 [R2 V]]]].
  { intros i j v Hv. apply In_loop in Hv. destruct Hv as [a [Ha Hv]]. apply In_loop in Hv. destruct Hv as [b [Hb Hv]]. apply In_loop in Hv. destruct Hv as [e [He [Hv|[]]]].
    injection Hv as <- <- _. apply inb_true; rewrite ?D1, ?D2; apply dof_range; lia. }
  rewrite E. cbn [bind]. eexists. split; [reflexivity|].
  destruct (grows_setA (d * n) st (eKm s) K (jumpForm d n up (hs dir) deg gam p)) as [G1 [G2 G3]]; [exact S|exact HK|congruence|congruence| |].
  { intros v w. fold K0. change bilin with bil. rewrite (mass_point_bil d n (el K0) (el K) (pN p) c v w).
    - change bil with bilin. unfold jumpForm, c. f_equal. destruct up; ring.
    - intros a b m k Ha Hb Hm Hk. rewrite V, hitsum_diag by assumption. reflexivity. }
  split; [exact G1|]. split; [exact G2|reflexivity].
Qed.
(** The term is symmetric, and of one sign for each face. *)
Theorem C145_sign : forall d n up h deg gam p v w, 0 <= h -> 0 <= pE p -> 0 <= gam -> 0 <= pW p ->
  jumpForm d n up h deg gam p v w = jumpForm d n up h deg gam p w v /\ (if up then 0 <= jumpForm d n up h deg gam p v v else jumpForm d n up h deg gam p v v <= 0).
Proof.
  intros d n up h deg gam p v w H1 H2 H3 H4. unfold jumpForm. split; [do 2 f_equal; apply sumf_ext; intros; ring|].
  assert (P : 0 <= gam * pE p * h ^ (2 * deg + 1) * pW p * sumf d (fun i => interp d n (pN p) v i * interp d n (pN p) v i)).
  { repeat apply Rmult_le_pos; try assumption; [apply pow_le; assumption|]. apply sumf_nonneg. intros i _. exact (Rle_0_sqr (interp d n (pN p) v i)). }
  destruct up; lra.
Qed.
(** The outcomes without a term. *)
Theorem C145_outcome : forall s xi hs deg gam p st,
  ((eKm s < 0)%Z -> evalIface s xi hs deg gam p st = Ret st) /\
  (eKm s = 0%Z -> evalIface s xi hs deg gam p st = Rejected) /\
  ((0 < eKm s)%Z -> lax s = true \/ (forall c, (1 <= c <= 3)%nat -> xi c <> 1 /\ xi c <> -1) -> evalIface s xi hs deg gam p st = Rejected).
Proof.
  intros s xi hs deg gam p st. unfold evalIface. split; [|split].
  - intros H. destruct (Z.ltb_spec (eKm s) 0); [reflexivity|lia].
  - intros ->. reflexivity.
  - intros H D. destruct (Z.ltb_spec (eKm s) 0); [lia|]. destruct (Z.eqb_spec (eKm s) 0); [lia|]. destruct (lax s); [reflexivity|].
    destruct D as [D|D]; [discriminate|]. rewrite (face_none xi D). reflexivity.
Qed.
(** "Stabilising never lowers the stiffness of an element" is false of what is added at a lower face. *)
Theorem C145_energy_refuted : exists d n s xi hs deg gam p st st' v, lax s = false /\ (0 < eKm s)%Z /\ sized (d * n) st /\ 0 < gam /\ 0 < pE p /\ 0 < pW p /\ (forall c, 0 < hs c) /\
  evalIface s xi hs deg gam p st = Ret st' /\ bilin (d * n) (el (lA st' (Z.to_nat (eKm s)))) v v < bilin (d * n) (el (lA st (Z.to_nat (eKm s)))) v v.
Proof.
  destruct (C145_term 2 3 staticSet (fun c => if (c =? 1)%nat then -1 else 0) (fun _ => 1) 1 1 tri blank 1 false) as [st' [E [_ [G _]]]]; try reflexivity; [exact blank_sized| |].
  { apply OnFace; [lia|reflexivity|]. intros; lia. }
  exists 2%nat, 3%nat, staticSet, (fun c => if (c =? 1)%nat then -1 else 0), (fun _ => 1), 1%nat, 1, tri, blank, st', (pull 1).
  split; [reflexivity|]. split; [reflexivity|]. split; [exact blank_sized|]. split; [lra|]. split; [cbn; lra|]. split; [cbn; lra|]. split; [intros; lra|]. split; [exact E|].
  change (Z.to_nat (eKm staticSet)) with 1%nat. rewrite (G 1%nat) by lia. unfold atZ. cbn [eKm staticSet Z.of_nat Pos.of_succ_nat Z.eqb Pos.eqb].
  enough (jumpForm 2 3 false 1 1 1 tri (pull 1) (pull 1) < 0) by lra. unfold jumpForm, interp, sumf. cbn. lra.
Qed.
Example C145_case : exists st', evalIface staticSet (fun c => if (c =? 2)%nat then 1 else 0) (fun _ => 1 / 2) 1 2 tri blank = Ret st' /\ bilin 6 (el (lA st' 1)) (pull 3) (pull 3) = 1 / 8.
Proof.
  destruct (C145_term 2 3 staticSet (fun c => if (c =? 2)%nat then 1 else 0) (fun _ => 1 / 2) 1 2 tri blank 2 true) as [st' [E [_ [G _]]]]; try reflexivity; [exact blank_sized| |].
  { apply OnFace; [lia|reflexivity|]. intros c Hc. replace c with 1%nat by lia. cbn. lra. }
  exists st'. split; [exact E|]. change 6%nat with (2 * 3)%nat. rewrite (G 1%nat) by lia.
  assert (Z : bilin (2 * 3) (el (lA blank 1)) (pull 3) (pull 3) = 0) by (unfold bilin, mv, blank; apply sumf_0; intros; cbn; ring).
  rewrite Z. unfold atZ. cbn [eKm staticSet Z.of_nat Pos.of_succ_nat Z.eqb Pos.eqb]. unfold jumpForm, interp, sumf. cbn. lra.
Qed.

Print Assumptions C144_displacements.
Print Assumptions C144_element.
Print Assumptions C144_symmetric.
Print Assumptions C144_positive.
Print Assumptions C144_rigid.
Print Assumptions C144_rigid_axial.
Print Assumptions C144_forces.
Print Assumptions C144_threshold.
Print Assumptions C144_threshold_refuted.
Print Assumptions C144_outside.
Print Assumptions C144_outside_refuted.
Print Assumptions C144_vectors.
Print Assumptions C144_vectors_norms.
Print Assumptions C145_term.
Print Assumptions C145_sign.
Print Assumptions C145_outcome.
Print Assumptions C145_energy_refuted.
