From Verif Require Import Lib.Base Lib.Sums Lib.Writes Lib.Congruence Model.Continuum Spec.Continuum Proofs.Continuum.

Lemma vpair_range d v : (d = 2 \/ d = 3)%nat -> (1 <= v <= nvoigt d)%nat ->
  (1 <= fst (vpair d v) <= d)%nat /\ (1 <= snd (vpair d v) <= d)%nat.
Proof. intros [-> | ->] Hv; unfold nvoigt in Hv; cbn in Hv; idx v; try (exfalso; lia); cbn; lia. Qed.

Lemma cauchyGreen_ext d F F' i j : (forall k, (1 <= k <= d)%nat -> F k i = F' k i) -> (forall k, (1 <= k <= d)%nat -> F k j = F' k j) ->
  cauchyGreen d F i j = cauchyGreen d F' i j.
Proof. intros H1 H2. apply sumf_ext. intros k Hk. rewrite H1, H2 by assumption. reflexivity. Qed.

Lemma greenVoigt_ext d F F' v : (d = 2 \/ d = 3)%nat -> (1 <= v <= nvoigt d)%nat ->
  (forall i j, (1 <= i <= d)%nat -> (1 <= j <= d)%nat -> F i j = F' i j) -> greenVoigt d F v = greenVoigt d F' v.
Proof.
  intros Hd Hv H. unfold greenVoigt. destruct (vpair_range d v Hd Hv) as [Hp Hq].
  destruct (vpair d v) as [p q]. cbn [fst snd] in *.
  destruct (p =? q)%nat; (rewrite (cauchyGreen_ext d F F'); [reflexivity| |]); intros k Hk; apply H; assumption.
Qed.

Lemma bnl_ext d F F' G v i a : (d = 2 \/ d = 3)%nat -> (1 <= v <= nvoigt d)%nat -> (1 <= i <= d)%nat ->
  (forall i j, (1 <= i <= d)%nat -> (1 <= j <= d)%nat -> F i j = F' i j) -> bnl d F G v i a = bnl d F' G v i a.
Proof.
  intros Hd Hv Hi H. unfold bnl. destruct (vpair_range d v Hd Hv) as [Hp Hq].
  destruct (vpair d v) as [p q]. cbn [fst snd] in *. rewrite !H by assumption. reflexivity.
Qed.

(** Everything [kinematicsTL] returns. *)
Lemma kin_ok d n N G r u : (d = 2 \/ d = 3)%nat -> (1 <= n)%nat ->
  exists F E B, kinematicsTL (plane d n N G r) (d * n) u = Ret (F, E, B) /\
    (forall i j, (1 <= i <= d)%nat -> (1 <= j <= d)%nat -> el F i j = kron i j + gradient d n G u i j) /\
    (forall v, (1 <= v <= nvoigt d)%nat -> el E v 1 = greenVoigt d (el F) v) /\
    rows B = nvoigt d /\ cols B = (d * n)%nat /\
    (forall v a i, (1 <= v <= nvoigt d)%nat -> (1 <= a <= n)%nat -> (1 <= i <= d)%nat -> el B v (dof d a i) = bnl d (el F) G v i a).
Proof.
  intros Hd Hn. unfold kinematicsTL.
  destruct (Nat.eqb_spec (d * n) 0) as [E0|_]; [exfalso; destruct Hd as [-> | ->]; lia|].
  destruct (defgrad_ok d n N G r u true) as [H [EH [RH [CH eH]]]]; [lia|lia|]. rewrite EH. cbn [bind].
  destruct (green_ok d n N G r H Hd) as [E [EE eE]]. rewrite EE. cbn [bind].
  unfold nDF. cbn [axi plane nsd]. change (mkElm d false n d N G r) with (plane d n N G r).
  destruct (run_add_ok (loop d (fun i => [(i, i, 1)])) H) as [F [EF [RF [CF eF]]]].
  { intros i j v Hv. inl Hv. inw Hv. apply inb_true; lia. }
  rewrite EF. cbn [bind].
  destruct (bnl_ok d n N G r F Hd) as [B [EB [RB [CB eB]]]]. rewrite EB. cbn [bind].
  assert (HF : forall i j, (1 <= i <= d)%nat -> (1 <= j <= d)%nat -> el F i j = kron i j + el H i j).
  { intros i j Hi Hj. rewrite eF, hitsum_unit by assumption. ring. }
  exists F, E, B. split; [reflexivity|]. split; [|split; [|split; [|split]]]; try assumption.
  - intros i j Hi Hj. rewrite HF, eH by assumption. ring.
  - intros v Hv. rewrite eE by assumption. apply greenVoigt_ext; try assumption. intros i j Hi Hj. symmetry. apply HF; assumption.
Qed.

(** [B d] in terms of the gradient of the increment. *)
Lemma bnl_mv d n B F G dl v : (d = 2 \/ d = 3)%nat ->
  (forall a i, (1 <= a <= n)%nat -> (1 <= i <= d)%nat -> B v (dof d a i) = bnl d F G v i a) ->
  mv (d * n) B dl v = sumf d (fun i => let '(p, q) := vpair d v in
    if (p =? q)%nat then F i p * gradient d n G dl i p else F i p * gradient d n G dl i q + F i q * gradient d n G dl i p).
Proof.
  intros Hd HB. unfold mv. rewrite sumf_dof, sumf_swap. apply sumf_ext. intros i Hi.
  unfold bnl in HB. destruct (vpair d v) as [p q]. unfold gradient.
  destruct (p =? q)%nat.
  - rewrite <- sumf_scal. apply sumf_ext. intros a Ha. rewrite HB by assumption. unfold dof. ring.
  - rewrite <- !sumf_scal, <- sumf_plus. apply sumf_ext. intros a Ha. rewrite HB by assumption. unfold dof. ring.
Qed.

Lemma green_incr d F h v : (d = 2 \/ d = 3)%nat -> (1 <= v <= nvoigt d)%nat ->
  greenVoigt d (fun i j => F i j + h i j) v = greenVoigt d F v
   + sumf d (fun i => let '(p, q) := vpair d v in
      if (p =? q)%nat then F i p * h i p else F i p * h i q + F i q * h i p) + quadVoigt d h v.
Proof.
  intros [-> | ->] Hv; unfold nvoigt in Hv; cbn in Hv; idx v; try (exfalso; lia);
    unfold greenVoigt, quadVoigt, cauchyGreen; cbn; field.
Qed.

Lemma gradient_plus d n G u w i j : gradient d n G (fun k => u k + w k) i j = gradient d n G u i j + gradient d n G w i j.
Proof. unfold gradient. rewrite <- sumf_plus. apply sumf_ext. intros a _. ring. Qed.

Lemma green_zero_iff d F : (d = 2 \/ d = 3)%nat ->
  (forall v, (1 <= v <= nvoigt d)%nat -> greenVoigt d F v = 0) <-> isometry d F.
Proof.
  intros Hd. split.
  - intros H i j Hi Hj.
    assert (Sy : forall i j, cauchyGreen d F i j = cauchyGreen d F j i).
    { intros. unfold cauchyGreen. apply sumf_ext. intros. ring. }
    destruct Hd as [-> | ->]; unfold nvoigt in H; cbn in H.
    + pose proof (H 1%nat ltac:(lia)) as H1. pose proof (H 2%nat ltac:(lia)) as H2. pose proof (H 3%nat ltac:(lia)) as H3.
      unfold greenVoigt in *. cbn [vpair Nat.eqb] in *.
      idx i; idx j; try (exfalso; lia); unfold kron; cbn [Nat.eqb]; try lra. rewrite Sy. lra.
    + pose proof (H 1%nat ltac:(lia)) as H1. pose proof (H 2%nat ltac:(lia)) as H2. pose proof (H 3%nat ltac:(lia)) as H3.
      pose proof (H 4%nat ltac:(lia)) as H4. pose proof (H 5%nat ltac:(lia)) as H5. pose proof (H 6%nat ltac:(lia)) as H6.
      unfold greenVoigt in *. cbn [vpair Nat.eqb] in *.
      idx i; idx j; try (exfalso; lia); unfold kron; cbn [Nat.eqb]; first [lra | rewrite Sy; lra].
  - intros H v Hv. unfold greenVoigt. destruct (vpair_range d v Hd Hv) as [Hp Hq].
    assert (Hne : (fst (vpair d v) =? snd (vpair d v))%nat = false -> fst (vpair d v) <> snd (vpair d v)) by (intros; apply Nat.eqb_neq; assumption).
    destruct (vpair d v) as [p q]. cbn [fst snd] in *. destruct (Nat.eqb_spec p q) as [->|Hn].
    + rewrite H by assumption. unfold kron. rewrite Nat.eqb_refl. field.
    + rewrite H by assumption. unfold kron. destruct (Nat.eqb_spec p q); [contradiction|reflexivity].
Qed.

Theorem tl_strain_and_B d n N G r u : (d = 2 \/ d = 3)%nat -> (1 <= n)%nat ->
  exists F E B, kinematicsTL (plane d n N G r) (d * n) u = Ret (F, E, B) /\
    (forall i j, (1 <= i <= d)%nat -> (1 <= j <= d)%nat -> el F i j = kron i j + gradient d n G u i j) /\
    (forall v, (1 <= v <= nvoigt d)%nat -> el E v 1 = greenVoigt d (el F) v) /\
    ((forall v, (1 <= v <= nvoigt d)%nat -> el E v 1 = 0) <-> isometry d (el F)) /\
    (forall dl, exists F' E' B', kinematicsTL (plane d n N G r) (d * n) (fun k => u k + dl k) = Ret (F', E', B') /\
      forall v, (1 <= v <= nvoigt d)%nat ->
        el E' v 1 = el E v 1 + mv (d * n) (el B) dl v + quadVoigt d (gradient d n G dl) v).
Proof.
  intros Hd Hn. destruct (kin_ok d n N G r u Hd Hn) as [F [E [B [K [eF [eE [RB [CB eB]]]]]]]].
  exists F, E, B. split; [exact K|]. split; [exact eF|]. split; [exact eE|]. split.
  - rewrite <- (green_zero_iff d (el F) Hd). split; intros H v Hv; [rewrite <- eE|rewrite eE]; auto.
  - intros dl. destruct (kin_ok d n N G r (fun k => u k + dl k) Hd Hn) as [F' [E' [B' [K' [eF' [eE' _]]]]]].
    exists F', E', B'. split; [exact K'|]. intros v Hv. rewrite eE', eE by assumption.
    rewrite (bnl_mv d n (el B) (el F) G dl v Hd) by (intros; apply eB; assumption).
    rewrite <- (green_incr d (el F) (gradient d n G dl) v Hd Hv).
    apply greenVoigt_ext; try assumption. intros i j Hi Hj. rewrite eF', eF by assumption. rewrite gradient_plus. ring.
Qed.

(** The initial state uses the linear matrix, which is the nonlinear one for zero displacement. *)
Theorem tl_initial d n N G r : (d = 2 \/ d = 3)%nat -> (1 <= n)%nat ->
  exists F0 E0 B0 F E B, kinematicsTL (plane d n N G r) 0 (fun _ => 0) = Ret (F0, E0, B0) /\
    kinematicsTL (plane d n N G r) (d * n) (fun _ => 0) = Ret (F, E, B) /\
    (forall v k, (1 <= v <= nvoigt d)%nat -> (1 <= k <= d * n)%nat -> el B0 v k = el B v k) /\
    (forall v, (1 <= v <= nvoigt d)%nat -> el E0 v 1 = 0 /\ el E v 1 = 0).
Proof.
  intros Hd Hn. destruct (kin_ok d n N G r (fun _ => 0) Hd Hn) as [F [E [B [K [eF [eE [RB [CB eB]]]]]]]].
  destruct (blin_ok d n N G r Hd) as [B0 [EB0 [_ [_ eB0]]]].
  assert (HI : forall i j, (1 <= i <= d)%nat -> (1 <= j <= d)%nat -> el F i j = kron i j).
  { intros i j Hi Hj. rewrite eF by assumption. unfold gradient. rewrite sumf_0; [ring|]. intros. ring. }
  unfold kinematicsTL at 1. cbn [Nat.eqb axi plane]. change (mkElm d false n d N G r) with (plane d n N G r). rewrite EB0. cbn [bind].
  do 3 eexists. exists F, E, B. split; [reflexivity|]. split; [exact K|]. split.
  - intros v k Hv Hk. apply dof_surj in Hk. destruct Hk as [a [i [Ha [Hi ->]]]]. rewrite eB0, eB by assumption.
    apply bnl_ext; try assumption. intros; symmetry; apply HI; assumption.
  - intros v Hv. split; [reflexivity|]. rewrite eE by assumption.
    rewrite (greenVoigt_ext d (el F) kron v Hd Hv HI).
    apply (proj2 (green_zero_iff d kron Hd)); [|assumption].
    intros i j Hi Hj. unfold cauchyGreen.
    rewrite (sumf_kron d i (fun k => kron k j)) by assumption. reflexivity.
Qed.

(** ** Internal forces *)
Lemma stress_contr d F Sv (g : nat -> R) : (d = 2 \/ d = 3)%nat ->
  sumf d (fun i => sumf d (fun j => g i * F j * stressTensor d Sv i j))
  = sumf (nvoigt d) (fun v => (let '(p, q) := vpair d v in if (p =? q)%nat then F p * g p else F p * g q + F q * g p) * Sv v).
Proof. intros [-> | ->]; unfold stressTensor, nvoigt; cbn; ring. Qed.

Theorem internal_forces_agree d n N G r u F E B Sv w ES : (d = 2 \/ d = 3)%nat -> (1 <= n)%nat ->
  kinematicsTL (plane d n N G r) (d * n) u = Ret (F, E, B) -> rows ES = (d * n)%nat -> cols ES = 1%nat ->
  exists ES', intForceTensor (plane d n N G r) F (stressTensor d Sv) w ES = Ret ES' /\
    forall k, (1 <= k <= d * n)%nat -> el ES' k 1 = el ES k 1 + intForceB (nvoigt d) (el B) Sv w k.
Proof.
  intros Hd Hn K R1 C1. destruct (kin_ok d n N G r u Hd Hn) as [F1 [E1 [B1 [K1 [eF [eE [RB [CB eB]]]]]]]].
  rewrite K in K1. injection K1 as <- <- <-.
  unfold intForceTensor. cbn [nsd nen dN plane].
  match goal with |- exists E, run_add ?m ?ws = _ /\ _ => destruct (run_add_ok ws m) as [ES' [EE [RR [CC ee]]]] end.
  { intros i j v Hv. inl Hv. inw Hv. apply inb_true; [rewrite R1; apply dof_range; assumption|lia]. }
  exists ES'. split; [exact EE|]. intros k Hk. rewrite ee. f_equal.
  apply dof_surj in Hk. destruct Hk as [a [i [Ha [Hi ->]]]]. rewrite (hitsum_vec n d (fun a k => (- sumf d (fun i0 => sumf d (fun j => G a i0 * el F k j * stressTensor d Sv i0 j))) * w)) by assumption.
  rewrite (stress_contr d (fun j => el F i j) Sv (G a) Hd). unfold intForceB.
  rewrite <- sumf_opp, <- sumf_scal_r. apply sumf_ext. intros v Hv. rewrite eB by assumption. unfold bnl.
  destruct (vpair d v) as [p q]. destruct (p =? q)%nat; ring.
Qed.

(** ** Stiffness kernels *)
Lemma kernel_ok d n km EK : rows EK = (d * n)%nat -> cols EK = (d * n)%nat ->
  exists EK', kernel d n km EK = Ret EK' /\ rows EK' = rows EK /\ cols EK' = cols EK /\
    forall a b m k, (1 <= a <= n)%nat -> (1 <= b <= n)%nat -> (1 <= m <= d)%nat -> (1 <= k <= d)%nat ->
      el EK' (dof d a m) (dof d b k) = el EK (dof d a m) (dof d b k) + (if (a <=? b)%nat then km a b m k else km b a k m).
Proof.
  intros HR HC. unfold kernel.
  match goal with |- exists E, run_add ?m ?ws = _ /\ _ => destruct (run_add_ok ws m) as [EK' [EE [RR [CC ee]]]] end.
  { intros i j v Hv. apply In_loop in Hv. destruct Hv as [a [Ha Hv]]. apply In_loop_from in Hv. destruct Hv as [b [Hb Hv]].
    apply In_loop in Hv. destruct Hv as [m [Hm Hv]]. apply In_loop in Hv. destruct Hv as [k [Hk Hv]].
    destruct Hv as [Hv|Hv].
    - apply wr_inj in Hv. destruct Hv as [<- [<- _]]. apply inb_true; rewrite ?HR, ?HC; apply dof_range; lia.
    - destruct (a <? b)%nat; [|destruct Hv]. destruct Hv as [Hv|[]]. apply wr_inj in Hv. destruct Hv as [<- [<- _]].
      apply inb_true; rewrite ?HR, ?HC; apply dof_range; lia. }
  exists EK'. split; [exact EE|]. split; [exact RR|]. split; [exact CC|].
  intros a0 b0 m0 k0 Ha Hb Hm Hk. rewrite ee. f_equal. rewrite hitsum_loop.
  set (lo := Nat.min a0 b0). set (hi := Nat.max a0 b0).
  assert (W : forall a b m k, (1 <= a <= n)%nat -> (a <= b <= n)%nat -> (1 <= m <= d)%nat -> (1 <= k <= d)%nat ->
    hitsum (dof d a0 m0) (dof d b0 k0) ((dof d a m, dof d b k, km a b m k) :: (if (a <? b)%nat then [(dof d b k, dof d a m, km a b m k)] else []))
    = (if ((a0 =? a) && (b0 =? b) && ((m0 =? m) && (k0 =? k)))%nat%bool then km a b m k else 0)
    + (if ((a <? b) && ((a0 =? b) && (b0 =? a)) && ((m0 =? k) && (k0 =? m)))%nat%bool then km a b m k else 0)).
  { intros a b m k Ra Rb Rm Rk. change ((dof d a m, dof d b k, km a b m k) :: ?l) with ([(dof d a m, dof d b k, km a b m k)] ++ l).
    rewrite hitsum_app, hitsum_one, !eqb_dof by lia. f_equal.
    - destruct (Nat.eqb a0 a), (Nat.eqb b0 b), (Nat.eqb m0 m), (Nat.eqb k0 k); reflexivity.
    - destruct (a <? b)%nat; [|reflexivity]. rewrite hitsum_one, !eqb_dof by lia.
      destruct (Nat.eqb a0 b), (Nat.eqb b0 a), (Nat.eqb m0 k), (Nat.eqb k0 m); reflexivity. }
  apply (sumf_pick n lo); [unfold lo; lia| |].
  - intros a Ra Na. rewrite hitsum_loop_from by lia. apply sumf_0. intros b Rb. destruct (Nat.leb_spec a b) as [L|L]; [|reflexivity].
    rewrite hitsum_loop. apply sumf_0. intros m Rm. rewrite hitsum_loop. apply sumf_0. intros k Rk. rewrite W by lia.
    assert (X1 : ((a0 =? a) && (b0 =? b) = false)%nat%bool).
    { apply andb_false_iff. destruct (Nat.eqb_spec a0 a), (Nat.eqb_spec b0 b); auto. exfalso. unfold lo in Na. lia. }
    assert (X2 : ((a0 =? b) && (b0 =? a) = false)%nat%bool).
    { apply andb_false_iff. destruct (Nat.eqb_spec a0 b), (Nat.eqb_spec b0 a); auto. exfalso. unfold lo in Na. lia. }
    rewrite X1, X2. rewrite andb_false_r. cbn [andb]. ring.
  - rewrite hitsum_loop_from by (unfold lo; lia). apply (sumf_pick n hi); [unfold hi; lia| |].
    + intros b Rb Nb. destruct (Nat.leb_spec lo b) as [L|L]; [|reflexivity].
      rewrite hitsum_loop. apply sumf_0. intros m Rm. rewrite hitsum_loop. apply sumf_0. intros k Rk. rewrite W by (unfold lo in *; lia).
      assert (X1 : ((a0 =? lo) && (b0 =? b) = false)%nat%bool).
      { apply andb_false_iff. destruct (Nat.eqb_spec a0 lo), (Nat.eqb_spec b0 b); auto. exfalso. unfold lo, hi in *. lia. }
      assert (X2 : ((a0 =? b) && (b0 =? lo) = false)%nat%bool).
      { apply andb_false_iff. destruct (Nat.eqb_spec a0 b), (Nat.eqb_spec b0 lo); auto. exfalso. unfold lo, hi in *. lia. }
      rewrite X1, X2. rewrite andb_false_r. cbn [andb]. ring.
    + destruct (Nat.leb_spec lo hi) as [_|L]; [|unfold lo, hi in L; lia].
      destruct (Nat.leb_spec a0 b0) as [L|L].
      * assert (lo = a0 /\ hi = b0) as [-> ->] by (unfold lo, hi; lia).
        rewrite hitsum_loop. apply (sumf_pick d m0); [exact Hm| |].
        -- intros m Rm Nm. rewrite hitsum_loop. apply sumf_0. intros k Rk. rewrite W by lia.
           destruct (Nat.eqb_spec m0 m); [congruence|]. rewrite !andb_false_r.
           destruct (Nat.ltb_spec a0 b0), (Nat.eqb_spec a0 b0); cbn [andb]; try ring. exfalso; lia.
        -- rewrite hitsum_loop. apply (sumf_pick d k0); [exact Hk| |].
           ++ intros k Rk Nk. rewrite W by lia. destruct (Nat.eqb_spec k0 k); [congruence|]. rewrite !andb_false_r.
              destruct (Nat.ltb_spec a0 b0), (Nat.eqb_spec a0 b0); cbn [andb]; try ring. exfalso; lia.
           ++ rewrite W by lia. rewrite !Nat.eqb_refl. cbn [andb].
              destruct (Nat.ltb_spec a0 b0), (Nat.eqb_spec a0 b0); cbn [andb]; try ring. exfalso; lia.
      * assert (lo = b0 /\ hi = a0) as [-> ->] by (unfold lo, hi; lia).
        rewrite hitsum_loop. apply (sumf_pick d k0); [exact Hk| |].
        -- intros m Rm Nm. rewrite hitsum_loop. apply sumf_0. intros k Rk. rewrite W by lia.
           destruct (Nat.eqb_spec k0 m); [congruence|]. rewrite !andb_false_r.
           destruct (Nat.eqb_spec a0 b0); cbn [andb]; try ring. exfalso; lia.
        -- rewrite hitsum_loop. apply (sumf_pick d m0); [exact Hm| |].
           ++ intros k Rk Nk. rewrite W by lia. destruct (Nat.eqb_spec m0 k); [congruence|]. rewrite !andb_false_r. cbn [andb].
              destruct (Nat.eqb_spec a0 b0); cbn [andb]; try ring. exfalso; lia.
           ++ rewrite W by lia. rewrite !Nat.eqb_refl. cbn [andb].
              destruct (Nat.ltb_spec b0 a0), (Nat.eqb_spec a0 b0); cbn [andb]; try ring; exfalso; lia.
Qed.
