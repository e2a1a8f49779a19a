From Verif.Lib Require Import Base Tensor3.
From Verif.Spec Require Import Hooke HyperElastic.
From Verif.Model Require Import LinIsotropic NeoHooke.
From Coquelicot Require Import Coquelicot.

(** * Volumetric laws *)
Lemma ln_abs J : 0 < J -> ln (Rabs J) = ln J.
Proof. intros; rewrite Rabs_pos_eq; [reflexivity|lra]. Qed.

Lemma is_derive_eq_pos (f g : R -> R) J l :
  0 < J -> (forall x, 0 < x -> f x = g x) -> is_derive f J l -> is_derive g J l.
Proof.
  intros HJ He Hf. apply (is_derive_ext_loc f); [|exact Hf].
  exists (mkposreal _ HJ). intros y Hy. apply He.
  unfold ball, AbsRing_ball, abs, minus, plus, opp in Hy; cbn in Hy.
  unfold AbsRing_ball, abs, minus, plus, opp in Hy; cbn in Hy.
  apply Rabs_def2 in Hy. lra.
Qed.

Lemma vol_first iv K J : (1 <= iv <= 3)%nat -> 0 < J -> is_derive (volU iv K) J (volUp iv K J).
Proof.
  intros Hi HJ. idx iv; unfold volU, volUp.
  - apply (is_derive_eq_pos (fun J => 1/4 * K * (J * J - 1 - 2 * ln J))); [assumption| |].
    { intros x Hx; rewrite ln_abs by assumption; reflexivity. }
    auto_derive; [assumption|field; lra].
  - auto_derive; [trivial|field].
  - apply (is_derive_eq_pos (fun J => 1/2 * K * ln J * ln J)); [assumption| |].
    { intros x Hx; rewrite ln_abs by assumption; reflexivity. }
    rewrite ln_abs by assumption. auto_derive; [auto|field; lra].
Qed.

Lemma vol_second iv K J : (1 <= iv <= 3)%nat -> 0 < J -> is_derive (volUp iv K) J (volUpp iv K J).
Proof.
  intros Hi HJ. idx iv; unfold volUpp, volUp.
  - auto_derive; [lra|field; lra].
  - auto_derive; [trivial|field].
  - apply (is_derive_eq_pos (fun J => K * ln J / J)); [assumption| |].
    { intros x Hx; rewrite ln_abs by assumption; reflexivity. }
    rewrite ln_abs by assumption. auto_derive; [repeat split; lra|field; lra].
Qed.

Lemma vol4_first K J : 0 < J -> is_derive (volU 4 K) J (2 * K * (1 - 1 / J)).
Proof.
  intros HJ. unfold volU. apply (is_derive_eq_pos (fun J => 2 * K * (J - 1 - ln J))); [assumption| |].
  { intros x Hx; rewrite ln_abs by assumption; reflexivity. }
  auto_derive; [lra|field; lra].
Qed.

Lemma vol4_wrong K J : K <> 0 -> 0 < J -> ~ is_derive (volU 4 K) J (volUp 4 K J).
Proof.
  intros HK HJ H.
  pose proof (is_derive_unique _ _ _ H) as E1. pose proof (is_derive_unique _ _ _ (vol4_first K J HJ)) as E2.
  rewrite E2 in E1. unfold volUp in E1.
  assert (K / J = 0) by (apply (Rplus_eq_reg_l (2 * K * (1 - 1/J))); rewrite E1 at 2; field; lra).
  apply HK. apply (Rmult_eq_reg_r (/ J)); [|apply Rinv_neq_0_compat; lra]. unfold Rdiv in H0. lra.
Qed.

(** * Closed forms *)
Ltac red_n := cbv [stdNeoHooke modNeoHooke loop madd mget mset zeros inb upd2 bind rows cols el
  addn nnorm straceV sumf Nat.eqb Nat.leb Nat.add andb orb negb].

(** Closed form of the standard material in 3D. *)
Lemma std_total m J b : exists C,
  stdNeoHooke m 3 6 J b =
    Ret (volU (iVOL m) (Bmod m) J + Smod m * (1/2 * (b 1%nat + b 2%nat + b 3%nat) - 3/2 - ln (Rabs J)),
         addn 3 6 (fun i => b i * (Smod m / J)) (volUp (iVOL m) (Bmod m) J - Smod m / J), mkMat 6 6 C)
  /\ forall i j, (1 <= i <= 6)%nat -> (1 <= j <= 6)%nat ->
     C i j = let P := volUp (iVOL m) (Bmod m) J in let c3 := volUpp (iVOL m) (Bmod m) J * J in
             (if (i <=? 3)%nat && (j <=? 3)%nat then c3 + P else 0)
             + (if Nat.eqb i j then (if (i <=? 3)%nat then 2 else 1) * (Smod m / J - P) else 0).
Proof.
  eexists. split.
  - unfold stdNeoHooke. red_n. rewrite Rplus_0_l. reflexivity.
  - intros i j Hi Hj. idx i; idx j; cbv [Nat.eqb Nat.leb andb]; ring.
Qed.

Lemma mod_total m J b : exists U S C,
  modNeoHooke m 3 6 J b = Ret (U, S, mkMat 6 6 C) /\
  let p := Rpower J (-2/3) in let ic := p * (b 1%nat + b 2%nat + b 3%nat) / 3 in
  let d := fun i => p * b i - (if (i <=? 3)%nat then ic else 0) in
  let P := volUp (iVOL m) (Bmod m) J in let c3 := volUpp (iVOL m) (Bmod m) J * J in
  U = volU (iVOL m) (Bmod m) J + 3/2 * Smod m * (ic - 1) /\
  (forall i, (1 <= i <= 6)%nat -> S i = d i * (Smod m / J) + (if (i <=? 3)%nat then P else 0)) /\
  forall i j, (1 <= i <= 6)%nat -> (1 <= j <= 6)%nat ->
    C i j = (1/J) * (- (Smod m * 2 / 3) * ((if (j <=? 3)%nat then d i else 0) + (if (i <=? 3)%nat then d j else 0)))
            + (if ((i <=? 3) && (j <=? 3))%nat%bool then c3 + P - 2/3 * Smod m * ic / J else 0)
            + (if Nat.eqb i j then (if (i <=? 3)%nat then 2 else 1) * (Smod m * ic / J - P) else 0).
Proof.
  do 3 eexists. split; [|cbv zeta; split; [|split]].
  - unfold modNeoHooke. red_n. reflexivity.
  - unfold Rdiv; ring.
  - intros i Hi. idx i; cbv [Nat.leb]; unfold Rdiv; ring.
  - intros i j Hi Hj. idx i; idx j; cbv [Nat.eqb Nat.leb andb]; unfold Rdiv; ring.
Qed.

(** * Evaluation in 3D *)
Definition is_ok {A} (r : res A) : Prop := match r with Ret _ => True | _ => False end.

Lemma neo_std m F : mVER m = 1%nat -> det3 F <> 0 ->
  neoEvaluate m F = stdNeoHooke m 3 6 (det3 F) (tovoigt (mul3 F (trn F))).
Proof. intros H1 H2. unfold neoEvaluate. rewrite H1. destruct (Req_EM_T (det3 F) 0); [contradiction|reflexivity]. Qed.
Lemma neo_mod m F : mVER m = 2%nat -> det3 F <> 0 ->
  neoEvaluate m F = modNeoHooke m 3 6 (det3 F) (tovoigt (mul3 F (trn F))).
Proof. intros H1 H2. unfold neoEvaluate. rewrite H1. destruct (Req_EM_T (det3 F) 0); [contradiction|reflexivity]. Qed.

(** Results of an evaluation (only meaningful when it returns). *)
Definition neoW (m : neo) (F : t3) : R := match neoEvaluate m F with Ret (u, _, _) => u | _ => 0 end.
Definition neoSig (m : neo) (F : t3) : t3 := match neoEvaluate m F with Ret (_, s, _) => unvoigt s | _ => fun _ _ => 0 end.
Definition neoC (m : neo) (F : t3) : nat -> nat -> R := match neoEvaluate m F with Ret (_, _, c) => el c | _ => fun _ _ => 0 end.

Definition ver_ok (m : neo) : Prop := mVER m = 1%nat \/ mVER m = 2%nat.

(** Closed forms of the tensor results. *)
Definition bten (F : t3) : t3 := mul3 F (trn F).

Lemma std_closed m F : mVER m = 1%nat -> det3 F <> 0 ->
  neoW m F = volU (iVOL m) (Bmod m) (det3 F) + Smod m * (1/2 * tr3 (bten F) - 3/2 - ln (Rabs (det3 F))) /\
  (forall i j, (1 <= i <= 3)%nat -> (1 <= j <= 3)%nat ->
   neoSig m F i j = Smod m / det3 F * (bten F i j - kron i j) + volUp (iVOL m) (Bmod m) (det3 F) * kron i j).
Proof.
  intros Hv HJ. unfold neoW, neoSig. rewrite (neo_std m F Hv HJ).
  destruct (std_total m (det3 F) (tovoigt (mul3 F (trn F)))) as (C & -> & _).
  split; [unfold tr3, bten; cbn [tovoigt]; reflexivity|].
  intros i j Hi Hj. idx i; idx j; cbv [unvoigt voigt addn nnorm Nat.eqb Nat.leb andb tovoigt bten mul3 trn kron]; ring.
Qed.

Lemma mod_closed m F : mVER m = 2%nat -> det3 F <> 0 ->
  let p := Rpower (det3 F) (-2/3) in
  neoW m F = volU (iVOL m) (Bmod m) (det3 F) + 3/2 * Smod m * (p * tr3 (bten F) / 3 - 1) /\
  (forall i j, (1 <= i <= 3)%nat -> (1 <= j <= 3)%nat ->
   neoSig m F i j = Smod m / det3 F * (p * (bten F i j - tr3 (bten F) / 3 * kron i j))
                    + volUp (iVOL m) (Bmod m) (det3 F) * kron i j).
Proof.
  intros Hv HJ p. unfold neoW, neoSig. rewrite (neo_mod m F Hv HJ).
  destruct (mod_total m (det3 F) (tovoigt (mul3 F (trn F)))) as (U & S & C & -> & HU & HS & _).
  cbv zeta in HS, HU. fold p in HS, HU. split; [exact HU|].
  intros i j Hi Hj. unfold unvoigt. rewrite HS; [|idx i; idx j; cbn; lia].
  idx i; idx j; cbv [voigt Nat.eqb Nat.leb andb tovoigt bten mul3 trn kron tr3]; field; assumption.
Qed.

(** * Objectivity *)
Definition rotation (Q : t3) : Prop := eq3 (mul3 Q (trn Q)) kron /\ eq3 (mul3 (trn Q) Q) kron /\ det3 Q = 1.
Definition rotate (Q A : t3) : t3 := mul3 Q (mul3 A (trn Q)).

Lemma rot_b Q F i j : bten (mul3 Q F) i j = rotate Q (bten F) i j.
Proof. unfold bten, rotate, mul3, trn; ring. Qed.

Lemma rot_tr Q A : rotation Q -> tr3 (rotate Q A) = tr3 A.
Proof.
  intros (_ & H & _).
  assert (E : tr3 (rotate Q A) =
    A 1%nat 1%nat * mul3 (trn Q) Q 1%nat 1%nat + A 1%nat 2%nat * mul3 (trn Q) Q 2%nat 1%nat + A 1%nat 3%nat * mul3 (trn Q) Q 3%nat 1%nat +
    A 2%nat 1%nat * mul3 (trn Q) Q 1%nat 2%nat + A 2%nat 2%nat * mul3 (trn Q) Q 2%nat 2%nat + A 2%nat 3%nat * mul3 (trn Q) Q 3%nat 2%nat +
    A 3%nat 1%nat * mul3 (trn Q) Q 1%nat 3%nat + A 3%nat 2%nat * mul3 (trn Q) Q 2%nat 3%nat + A 3%nat 3%nat * mul3 (trn Q) Q 3%nat 3%nat)
    by (unfold tr3, rotate, mul3, trn; ring).
  rewrite E, !H by lia. unfold tr3, kron; cbn [Nat.eqb]; ring.
Qed.

Lemma rotate_affine Q A B a c : rotation Q -> (forall i j, (1 <= i <= 3)%nat -> (1 <= j <= 3)%nat -> B i j = a * A i j + c * kron i j) ->
  forall i j, (1 <= i <= 3)%nat -> (1 <= j <= 3)%nat -> rotate Q B i j = a * rotate Q A i j + c * kron i j.
Proof.
  intros (H & _) HB i j Hi Hj. rewrite <- (H i j Hi Hj). unfold rotate, mul3.
  rewrite !HB by lia. unfold mul3, trn, kron; cbn [Nat.eqb]. ring.
Qed.

Lemma objective m F Q : ver_ok m -> det3 F <> 0 -> rotation Q ->
  neoW m (mul3 Q F) = neoW m F /\ eq3 (neoSig m (mul3 Q F)) (rotate Q (neoSig m F)).
Proof.
  intros Hv HJ HQ. assert (HD : det3 (mul3 Q F) = det3 F) by (rewrite det3_mul; destruct HQ as (_ & _ & ->); ring).
  assert (HJ' : det3 (mul3 Q F) <> 0) by (rewrite HD; assumption).
  assert (HT : tr3 (bten (mul3 Q F)) = tr3 (bten F)).
  { rewrite <- (rot_tr Q (bten F) HQ). unfold tr3. rewrite !rot_b. reflexivity. }
  destruct Hv as [Hv|Hv].
  - destruct (std_closed m F Hv HJ) as [W1 S1]. destruct (std_closed m _ Hv HJ') as [W2 S2].
    rewrite W1, W2, HD, HT. split; [reflexivity|]. intros i j Hi Hj.
    rewrite (S2 i j Hi Hj), HD, rot_b.
    rewrite (rotate_affine Q (bten F) (neoSig m F) (Smod m / det3 F) (volUp (iVOL m) (Bmod m) (det3 F) - Smod m / det3 F) HQ) by
      (auto; intros a c Ha Hc; rewrite S1 by auto; ring). ring.
  - destruct (mod_closed m F Hv HJ) as [W1 S1]. destruct (mod_closed m _ Hv HJ') as [W2 S2].
    rewrite W1, W2, HD, HT. split; [reflexivity|]. intros i j Hi Hj.
    rewrite (S2 i j Hi Hj), HD, HT, rot_b.
    set (p := Rpower (det3 F) (-2/3)) in *.
    rewrite (rotate_affine Q (bten F) (neoSig m F) (Smod m / det3 F * p)
       (volUp (iVOL m) (Bmod m) (det3 F) - Smod m / det3 F * p * (tr3 (bten F) / 3)) HQ) by
      (auto; intros a c Ha Hc; rewrite S1 by auto; ring). ring.
Qed.

(** * Reference state *)
Lemma det_kron : det3 kron = 1.
Proof. unfold det3, kron; cbn; ring. Qed.
Lemma b_kron i j : (1 <= i <= 3)%nat -> (1 <= j <= 3)%nat -> bten kron i j = kron i j.
Proof. intros Hi Hj. idx i; idx j; unfold bten, mul3, trn, kron; cbn; ring. Qed.
Lemma rpower1 x : Rpower 1 x = 1.
Proof. unfold Rpower. rewrite ln_1, Rmult_0_r, exp_0. reflexivity. Qed.

Lemma reference_sig m i j : ver_ok m -> (1 <= i <= 3)%nat -> (1 <= j <= 3)%nat ->
  neoSig m kron i j = volUp (iVOL m) (Bmod m) 1 * kron i j.
Proof.
  intros Hv Hi Hj. pose proof det_kron as HD.
  destruct Hv as [Hv|Hv].
  - destruct (std_closed m kron Hv) as [_ S1]; [lra|]. rewrite S1, HD, b_kron by assumption. field.
  - destruct (mod_closed m kron Hv) as [_ S1]; [lra|]. rewrite S1, HD, b_kron by assumption.
    unfold tr3. rewrite !b_kron, rpower1 by lia. unfold kron at 2 3 4; cbn [Nat.eqb]. field.
Qed.

Lemma volUp_1 iv K : (1 <= iv <= 3)%nat -> volUp iv K 1 = 0.
Proof. intros H. idx iv; unfold volUp; rewrite ?Rabs_R1, ?ln_1; field. Qed.
Lemma volUpp_1 iv K : (1 <= iv <= 3)%nat -> volUpp iv K 1 = K.
Proof. intros H. idx iv; unfold volUpp; rewrite ?Rabs_R1, ?ln_1; field. Qed.

Lemma reference_zero m : ver_ok m -> (1 <= iVOL m <= 3)%nat -> eq3 (neoSig m kron) (fun _ _ => 0).
Proof. intros Hv Hi i j Ha Hb. rewrite reference_sig, volUp_1 by assumption. ring. Qed.

(** Tangent at the reference state: Hooke's matrix with the Lame constants (lambda, mu). *)
Lemma reference_tangent m : ver_ok m -> (1 <= iVOL m <= 3)%nat ->
  forall i j, (1 <= i <= 6)%nat -> (1 <= j <= 6)%nat ->
  neoC m kron i j =
    (if ((i <=? 3) && (j <=? 3))%nat%bool then (if Nat.eqb (mVER m) 1 then Bmod m else Bmod m - 2/3 * Smod m) else 0)
    + (if Nat.eqb i j then (if (i <=? 3)%nat then 2 else 1) * Smod m else 0).
Proof.
  intros Hv Hi i j Ha Hb. pose proof det_kron as HD. unfold neoC.
  destruct Hv as [Hv|Hv].
  - rewrite (neo_std m kron Hv) by lra.
    destruct (std_total m (det3 kron) (tovoigt (mul3 kron (trn kron)))) as (C & -> & HC).
    cbn [el]. rewrite HC by assumption. cbv zeta. rewrite HD, volUp_1, volUpp_1, Hv by assumption.
    destruct (i <=? 3)%nat, (j <=? 3)%nat, (Nat.eqb i j); cbn; field.
  - rewrite (neo_mod m kron Hv) by lra.
    destruct (mod_total m (det3 kron) (tovoigt (mul3 kron (trn kron)))) as (U & S & C & -> & _ & _ & HC).
    cbn [el]. rewrite HC by assumption. cbv zeta. rewrite HD, volUp_1, volUpp_1, rpower1, Hv by assumption.
    idx i; idx j; cbv [Nat.eqb Nat.leb andb tovoigt mul3 trn kron]; field.
Qed.

Lemma tangent_symm m F : symm 6 (neoC m F).
Proof.
  intros i j Hi Hj. unfold neoC, neoEvaluate.
  destruct (Req_EM_T (det3 F) 0); [reflexivity|].
  destruct (mVER m) as [|[|[|k]]]; try reflexivity.
  - destruct (std_total m (det3 F) (tovoigt (mul3 F (trn F)))) as (C & -> & HC). cbn [el].
    rewrite !HC by assumption. cbv zeta. rewrite (Nat.eqb_sym j i), (andb_comm (j <=? 3)%nat).
    destruct (Nat.eqb_spec i j) as [->|]; reflexivity.
  - destruct (mod_total m (det3 F) (tovoigt (mul3 F (trn F)))) as (U & S & C & -> & _ & _ & HC). cbn [el].
    rewrite !HC by assumption. cbv zeta. rewrite (Nat.eqb_sym j i), (andb_comm (j <=? 3)%nat).
    destruct (Nat.eqb_spec i j) as [->|]; [reflexivity|].
    rewrite (Rplus_comm (if (j <=? 3)%nat then _ else 0)). reflexivity.
Qed.

(** * Stress and tangent as derivatives *)
Lemma det_rate L F : is_derive (fun t => det3 (superpose L F t)) 0 (det3 F * tr3 L).
Proof.
  unfold superpose, det3, mul3, tr3, kron; cbn [Nat.eqb].
  auto_derive; [repeat split|ring].
Qed.

Lemma det_at0 L F : det3 (superpose L F 0) = det3 F.
Proof. unfold superpose, det3, mul3, kron; cbn [Nat.eqb]; ring. Qed.

Lemma b_at0 L F i j : (1 <= i <= 3)%nat -> (1 <= j <= 3)%nat -> bten (superpose L F 0) i j = bten F i j.
Proof. intros Hi Hj. idx i; idx j; unfold bten, superpose, mul3, trn, kron; cbn [Nat.eqb]; ring. Qed.

Lemma b_rate L F i j : (1 <= i <= 3)%nat -> (1 <= j <= 3)%nat ->
  is_derive (fun t => bten (superpose L F t) i j) 0 (mul3 L (bten F) i j + mul3 (bten F) (trn L) i j).
Proof.
  intros Hi Hj. idx i; idx j; unfold bten, superpose, mul3, trn, kron; cbn [Nat.eqb];
    (auto_derive; [repeat split|ring]).
Qed.

Lemma det_pos_near L F : 0 < det3 F -> locally 0 (fun t => 0 < det3 (superpose L F t)).
Proof.
  intros HF.
  assert (Hc : continuous (fun t => det3 (superpose L F t)) 0)
    by (apply (ex_derive_continuous (fun t => det3 (superpose L F t)) 0); eexists; apply det_rate).
  apply (Hc (fun u => 0 < u)). apply (open_gt 0). rewrite det_at0. exact HF.
Qed.

Lemma ln_abs_derive x : 0 < x -> is_derive (fun y => ln (Rabs y)) x (/ x).
Proof.
  intros Hx. apply (is_derive_eq_pos ln); [assumption| |].
  - intros y Hy; rewrite ln_abs by assumption; reflexivity.
  - auto_derive; [assumption|field; lra].
Qed.

Lemma rpow_derive x a : 0 < x -> is_derive (fun y => Rpower y a) x (a * Rpower x a / x).
Proof.
  intros Hx. unfold Rpower. auto_derive; [assumption|field; lra].
Qed.

Lemma std_W_chain iv K mu (J Ic : R -> R) (dJ dIc : R) :
  (1 <= iv <= 3)%nat -> 0 < J 0 -> is_derive J 0 dJ -> is_derive Ic 0 dIc ->
  is_derive (fun t => volU iv K (J t) + mu * (1/2 * Ic t - 3/2 - ln (Rabs (J t)))) 0
            (volUp iv K (J 0) * dJ + mu * (1/2 * dIc - dJ / J 0)).
Proof.
  intros Hi HJ dj di. pose proof (vol_first iv K (J 0) Hi HJ) as dv. 
  set (g := fun y => ln (Rabs y)). assert (dl : is_derive g (J 0) (/ J 0)) by exact (ln_abs_derive _ HJ). change (fun t => volU iv K (J t) + mu * (1/2 * Ic t - 3/2 - ln (Rabs (J t))))
    with (fun t => volU iv K (J t) + mu * (1/2 * Ic t - 3/2 - g (J t))).
  clearbody g.
  auto_derive.
  - repeat split; try (eexists; eassumption).
  - rewrite (is_derive_unique (fun x : R => J x) _ _ dj), (is_derive_unique (fun x : R => Ic x) _ _ di),
      (is_derive_unique (fun x : R => g x) _ _ dl), (is_derive_unique (fun x : R => volU iv K x) _ _ dv).
    field. lra.
Qed.

Lemma mod_W_chain iv K mu (J Ic : R -> R) (dJ dIc : R) :
  (1 <= iv <= 3)%nat -> 0 < J 0 -> is_derive J 0 dJ -> is_derive Ic 0 dIc ->
  is_derive (fun t => volU iv K (J t) + 3/2 * mu * (Rpower (J t) (-2/3) * Ic t / 3 - 1)) 0
            (volUp iv K (J 0) * dJ + mu/2 * Rpower (J 0) (-2/3) * (dIc - 2/3 * Ic 0 * dJ / J 0)).
Proof.
  intros Hi HJ dj di. pose proof (vol_first iv K (J 0) Hi HJ) as dv. 
  set (g := fun y => Rpower y (-2/3)).
  assert (dl : is_derive g (J 0) (-2/3 * g (J 0) / J 0)) by exact (rpow_derive _ (-2/3) HJ).
  change (Rpower (J 0) (-2/3)) with (g (J 0)) in *.
  change (fun t => volU iv K (J t) + 3/2 * mu * (Rpower (J t) (-2/3) * Ic t / 3 - 1))
    with (fun t => volU iv K (J t) + 3/2 * mu * (g (J t) * Ic t / 3 - 1)).
  clearbody g.
  auto_derive.
  - repeat split; try (eexists; eassumption).
  - rewrite (is_derive_unique (fun x : R => J x) _ _ dj), (is_derive_unique (fun x : R => Ic x) _ _ di),
      (is_derive_unique (fun x : R => g x) _ _ dl), (is_derive_unique (fun x : R => volU iv K x) _ _ dv).
    field. lra.
Qed.

Lemma tr_b_rate L F : is_derive (fun t => tr3 (bten (superpose L F t))) 0 (2 * ddot3 (bten F) L).
Proof.
  unfold tr3.
  replace (2 * ddot3 (bten F) L) with
    ((mul3 L (bten F) 1%nat 1%nat + mul3 (bten F) (trn L) 1%nat 1%nat) +
     (mul3 L (bten F) 2%nat 2%nat + mul3 (bten F) (trn L) 2%nat 2%nat) +
     (mul3 L (bten F) 3%nat 3%nat + mul3 (bten F) (trn L) 3%nat 3%nat))
    by (unfold ddot3, bten, mul3, trn; ring).
  apply (is_derive_plus (V := R_NormedModule) (fun t => bten (superpose L F t) 1%nat 1%nat + bten (superpose L F t) 2%nat 2%nat)).
  - apply (is_derive_plus (V := R_NormedModule)); apply b_rate; lia.
  - apply b_rate; lia.
Qed.

Lemma ddot_sig A B L a c : (forall i j, (1 <= i <= 3)%nat -> (1 <= j <= 3)%nat -> B i j = a * A i j + c * kron i j) ->
  ddot3 B L = a * ddot3 A L + c * tr3 L.
Proof. intros HB. unfold ddot3. rewrite !HB by lia. unfold kron, tr3; cbn [Nat.eqb]; ring. Qed.

Lemma hyperelastic m F : ver_ok m -> (1 <= iVOL m <= 3)%nat -> 0 < det3 F ->
  energy_conjugate (neoW m) F (neoSig m F).
Proof.
  intros Hv Hi HF L. pose proof (det_pos_near L F HF) as Hn.
  assert (H0 : 0 < det3 (superpose L F 0)) by (rewrite det_at0; exact HF).
  assert (HFn : det3 F <> 0) by lra.
  assert (Htr0 : tr3 (bten (superpose L F 0)) = tr3 (bten F)) by (unfold tr3; rewrite !b_at0 by lia; reflexivity).
  destruct Hv as [Hv|Hv].
  - eapply is_derive_ext_loc.
    + eapply filter_imp; [|exact Hn]. intros t Ht. symmetry. apply (std_closed m (superpose L F t) Hv). lra.
    + destruct (std_closed m F Hv HFn) as [_ HS].
      rewrite (ddot_sig (bten F) (neoSig m F) L (Smod m / det3 F) (volUp (iVOL m) (Bmod m) (det3 F) - Smod m / det3 F))
        by (intros; rewrite HS by assumption; ring).
      replace (det3 F * _) with
        (volUp (iVOL m) (Bmod m) (det3 (superpose L F 0)) * (det3 F * tr3 L)
          + Smod m * (1/2 * (2 * ddot3 (bten F) L) - (det3 F * tr3 L) / det3 (superpose L F 0))).
      2:{ rewrite det_at0. field. assumption. }
      apply (std_W_chain (iVOL m) (Bmod m) (Smod m) (fun t => det3 (superpose L F t)) (fun t => tr3 (bten (superpose L F t))));
        auto using det_rate, tr_b_rate.
  - eapply is_derive_ext_loc.
    + eapply filter_imp; [|exact Hn]. intros t Ht. symmetry. apply (mod_closed m (superpose L F t) Hv). lra.
    + destruct (mod_closed m F Hv HFn) as [_ HS].
      set (p := Rpower (det3 F) (-2/3)) in *.
      rewrite (ddot_sig (bten F) (neoSig m F) L (Smod m / det3 F * p) (volUp (iVOL m) (Bmod m) (det3 F) - Smod m / det3 F * p * (tr3 (bten F) / 3)))
        by (intros; rewrite HS by assumption; ring).
      replace (det3 F * _) with
        (volUp (iVOL m) (Bmod m) (det3 (superpose L F 0)) * (det3 F * tr3 L)
          + Smod m / 2 * Rpower (det3 (superpose L F 0)) (-2/3) * (2 * ddot3 (bten F) L - 2/3 * tr3 (bten (superpose L F 0)) * (det3 F * tr3 L) / det3 (superpose L F 0))).
      2:{ rewrite det_at0, Htr0. fold p. field. assumption. }
      apply (mod_W_chain (iVOL m) (Bmod m) (Smod m) (fun t => det3 (superpose L F t)) (fun t => tr3 (bten (superpose L F t))));
        auto using det_rate, tr_b_rate.
Qed.

Lemma std_tau_chain iv K mu k (J b : R -> R) (dJ db : R) :
  (1 <= iv <= 3)%nat -> 0 < J 0 -> is_derive J 0 dJ -> is_derive b 0 db ->
  is_derive (fun t => J t * (mu / J t * (b t - k) + volUp iv K (J t) * k)) 0
            (mu * db + (volUp iv K (J 0) + J 0 * volUpp iv K (J 0)) * dJ * k).
Proof.
  intros Hi HJ dj di. pose proof (vol_second iv K (J 0) Hi HJ) as dv.
  auto_derive.
  - repeat split; try (eexists; eassumption); lra.
  - rewrite (is_derive_unique (fun x : R => J x) _ _ dj), (is_derive_unique (fun x : R => b x) _ _ di),
      (is_derive_unique (fun x : R => volUp iv K x) _ _ dv).
    field. lra.
Qed.

Lemma mod_tau_chain iv K mu k (J b Ic : R -> R) (dJ db dIc : R) :
  (1 <= iv <= 3)%nat -> 0 < J 0 -> is_derive J 0 dJ -> is_derive b 0 db -> is_derive Ic 0 dIc ->
  is_derive (fun t => J t * (mu / J t * (Rpower (J t) (-2/3) * (b t - Ic t / 3 * k)) + volUp iv K (J t) * k)) 0
            (mu * Rpower (J 0) (-2/3) * (db - dIc / 3 * k - 2/3 * dJ / J 0 * (b 0 - Ic 0 / 3 * k))
             + (volUp iv K (J 0) + J 0 * volUpp iv K (J 0)) * dJ * k).
Proof.
  intros Hi HJ dj di dc. pose proof (vol_second iv K (J 0) Hi HJ) as dv.
  set (g := fun y => Rpower y (-2/3)).
  assert (dl : is_derive g (J 0) (-2/3 * g (J 0) / J 0)) by exact (rpow_derive _ (-2/3) HJ).
  change (Rpower (J 0) (-2/3)) with (g (J 0)).
  change (fun t => J t * (mu / J t * (Rpower (J t) (-2/3) * (b t - Ic t / 3 * k)) + volUp iv K (J t) * k))
    with (fun t => J t * (mu / J t * (g (J t) * (b t - Ic t / 3 * k)) + volUp iv K (J t) * k)).
  clearbody g.
  auto_derive.
  - repeat split; try (eexists; eassumption); lra.
  - rewrite (is_derive_unique (fun x : R => J x) _ _ dj), (is_derive_unique (fun x : R => b x) _ _ di),
      (is_derive_unique (fun x : R => Ic x) _ _ dc), (is_derive_unique (fun x : R => g x) _ _ dl),
      (is_derive_unique (fun x : R => volUp iv K x) _ _ dv).
    field. lra.
Qed.

Lemma std_C m F : mVER m = 1%nat -> det3 F <> 0 ->
  forall i j, (1 <= i <= 6)%nat -> (1 <= j <= 6)%nat ->
   neoC m F i j = let P := volUp (iVOL m) (Bmod m) (det3 F) in let c3 := volUpp (iVOL m) (Bmod m) (det3 F) * det3 F in
             (if (i <=? 3)%nat && (j <=? 3)%nat then c3 + P else 0)
             + (if Nat.eqb i j then (if (i <=? 3)%nat then 2 else 1) * (Smod m / det3 F - P) else 0).
Proof.
  intros Hv HJ i j Hi Hj. unfold neoC. rewrite (neo_std m F Hv HJ).
  destruct (std_total m (det3 F) (tovoigt (mul3 F (trn F)))) as (C & -> & HC). cbn [el]. apply HC; assumption.
Qed.

Lemma mod_C m F : mVER m = 2%nat -> det3 F <> 0 ->
  forall i j, (1 <= i <= 6)%nat -> (1 <= j <= 6)%nat ->
  let p := Rpower (det3 F) (-2/3) in let ic := p * tr3 (bten F) / 3 in
  let d := fun i => p * tovoigt (bten F) i - (if (i <=? 3)%nat then ic else 0) in
  let P := volUp (iVOL m) (Bmod m) (det3 F) in let c3 := volUpp (iVOL m) (Bmod m) (det3 F) * det3 F in
    neoC m F i j = (1/det3 F) * (- (Smod m * 2 / 3) * ((if (j <=? 3)%nat then d i else 0) + (if (i <=? 3)%nat then d j else 0)))
            + (if ((i <=? 3) && (j <=? 3))%nat%bool then c3 + P - 2/3 * Smod m * ic / det3 F else 0)
            + (if Nat.eqb i j then (if (i <=? 3)%nat then 2 else 1) * (Smod m * ic / det3 F - P) else 0).
Proof.
  intros Hv HJ i j Hi Hj. unfold neoC. rewrite (neo_mod m F Hv HJ).
  destruct (mod_total m (det3 F) (tovoigt (mul3 F (trn F)))) as (U & S & C & -> & _ & _ & HC). cbn [el]. apply HC; assumption.
Qed.

Lemma consistent_tangent m F : ver_ok m -> (1 <= iVOL m <= 3)%nat -> 0 < det3 F ->
  spatial_tangent (neoSig m) F (neoC m F).
Proof.
  intros Hv Hi HF D HD i j Hi3 Hj3. pose proof (det_pos_near D F HF) as Hn.
  assert (H0 : 0 < det3 (superpose D F 0)) by (rewrite det_at0; exact HF).
  assert (HFn : det3 F <> 0) by lra.
  assert (Htr0 : tr3 (bten (superpose D F 0)) = tr3 (bten F)) by (unfold tr3; rewrite !b_at0 by lia; reflexivity).
  assert (Hb : forall a c, bten F a c = bten F c a) by (intros; unfold bten, mul3, trn; ring).
  destruct Hv as [Hv|Hv].
  - eapply is_derive_ext_loc.
    { eapply filter_imp; [|exact Hn]. intros t Ht. symmetry.
      destruct (std_closed m (superpose D F t) Hv) as [_ HS]; [lra|]. rewrite (HS i j Hi3 Hj3). reflexivity. }
    destruct (std_closed m F Hv HFn) as [_ HS].
    pose proof (std_tau_chain (iVOL m) (Bmod m) (Smod m) (kron i j) (fun t => det3 (superpose D F t))
      (fun t => bten (superpose D F t) i j) _ _ Hi H0 (det_rate D F) (b_rate D F i j Hi3 Hj3)) as H.
    cbv beta in H. rewrite det_at0 in H.
    match type of H with is_derive _ _ ?v => match goal with |- is_derive _ _ ?w => replace w with v; [exact H|] end end.
    clear H. unfold apply6, unvoigt, mv, mul3. cbn [sumf].
    rewrite !HS by lia.
    rewrite !(std_C m F Hv HFn) by (idx i; idx j; cbn; lia).
    cbv zeta. generalize (volUp (iVOL m) (Bmod m) (det3 F)) as P. generalize (volUpp (iVOL m) (Bmod m) (det3 F)) as Q.
    unfold trn. idx i; idx j; cbv [voigt tovoigt Nat.leb Nat.eqb andb kron tr3]; intros;
      rewrite ?(HD 2%nat 1%nat), ?(HD 3%nat 1%nat), ?(HD 3%nat 2%nat); field; assumption.
  - eapply is_derive_ext_loc.
    { eapply filter_imp; [|exact Hn]. intros t Ht. symmetry.
      destruct (mod_closed m (superpose D F t) Hv) as [_ HS]; [lra|]. rewrite (HS i j Hi3 Hj3). reflexivity. }
    destruct (mod_closed m F Hv HFn) as [_ HS].
    pose proof (mod_tau_chain (iVOL m) (Bmod m) (Smod m) (kron i j) (fun t => det3 (superpose D F t))
      (fun t => bten (superpose D F t) i j) (fun t => tr3 (bten (superpose D F t))) _ _ _ Hi H0
      (det_rate D F) (b_rate D F i j Hi3 Hj3) (tr_b_rate D F)) as H.
    cbv beta in H. rewrite det_at0, Htr0, b_at0 in H by assumption.
    match type of H with is_derive _ _ ?v => match goal with |- is_derive _ _ ?w => replace w with v; [exact H|] end end.
    clear H. unfold apply6, unvoigt, mv, mul3. cbn [sumf].
    rewrite !HS by lia.
    rewrite !(mod_C m F Hv HFn) by (idx i; idx j; cbn; lia).
    cbv zeta. generalize (volUp (iVOL m) (Bmod m) (det3 F)) as P. generalize (volUpp (iVOL m) (Bmod m) (det3 F)) as Q.
    generalize (Rpower (det3 F) (-2/3)) as p.
    unfold trn, ddot3, tr3. clear HS Htr0. set (b := bten F) in *. clearbody b.
    idx i; idx j; cbv [voigt tovoigt Nat.leb Nat.eqb andb kron tr3]; intros;
      rewrite ?(HD 2%nat 1%nat), ?(HD 3%nat 1%nat), ?(HD 3%nat 2%nat), ?(Hb 2%nat 1%nat), ?(Hb 3%nat 1%nat), ?(Hb 3%nat 2%nat);
      field; assumption.
Qed.

(** * Parameter conversion *)
(** One set-up, repeated. *)
Fixpoint setups (n : nat) (m : neo) : neo := match n with O => m | S k => findLame (-1) (setups k m) end.

Ltac dec_all := cbn [nNu nEmod mVER iVOL Bmod Smod] in *; repeat (match goal with
  | |- context[Rlt_dec ?a ?b] => destruct (Rlt_dec a b); try (exfalso; lra)
  | |- context[Rle_dec ?a ?b] => destruct (Rle_dec a b); try (exfalso; lra)
  end; cbn [nNu nEmod mVER iVOL Bmod Smod] in *).

Lemma neo_eq m : mkNeo (nEmod m) (nNu m) (mVER m) (iVOL m) (Bmod m) (Smod m) = m.
Proof. destruct m; reflexivity. Qed.

Lemma findLame_idem_E m : nNu m <= 1/2 -> findLame (-1) (findLame (-1) m) = findLame (-1) m.
Proof. intros H. unfold findLame. dec_all; cbn; dec_all; reflexivity. Qed.

Lemma nu_kg K G : 0 < K -> 0 < G -> (3/2 * K - G) / (3 * K + G) < 1/2 /\ -1 < (3/2 * K - G) / (3 * K + G).
Proof.
  intros HK HG. split.
  - apply (Rmult_lt_reg_r (3 * K + G)); [lra|]. unfold Rdiv. rewrite Rmult_assoc, Rinv_l by lra. lra.
  - apply (Rmult_lt_reg_r (3 * K + G)); [lra|]. unfold Rdiv. rewrite Rmult_assoc, Rinv_l by lra. lra.
Qed.

Lemma findLame_idem_KG m : 1/2 < nNu m -> 0 < nEmod m -> mVER m <> 1%nat ->
  findLame (-1) (findLame (-1) m) = findLame (-1) m.
Proof.
  intros H HK Hv. destruct (nu_kg (nEmod m) (nNu m)) as [h1 h2]; [assumption|lra|].
  assert (Hn : Nat.eqb (mVER m) 1 = false) by (apply Nat.eqb_neq; exact Hv).
  unfold findLame at 2 3. dec_all. unfold findLame. cbn [nNu nEmod mVER iVOL Bmod Smod]. rewrite Hn.
  dec_all. f_equal; field; repeat split; try lra.
Qed.

Lemma setups_stable m : (nNu m <= 1/2 \/ (mVER m <> 1%nat /\ 0 < nEmod m)) ->
  forall n, setups (S n) m = setups 1 m.
Proof.
  intros H n. induction n as [|n IH]; [reflexivity|].
  change (setups (S (S n)) m) with (findLame (-1) (setups (S n) m)). rewrite IH. cbn [setups].
  destruct (Rle_dec (nNu m) (1/2)) as [h|h].
  - apply findLame_idem_E; assumption.
  - destruct H as [H|[Hv HK]]; [contradiction|]. apply findLame_idem_KG; [lra|assumption|assumption].
Qed.

Lemma setups_drift m : mVER m = 1%nat -> 1/2 < nNu m -> 0 < nEmod m ->
  Bmod (setups 2 m) = Bmod (setups 1 m) - 2/3 * Smod (setups 1 m).
Proof.
  intros Hv H HK. destruct (nu_kg (nEmod m) (nNu m)) as [h1 h2]; [assumption|lra|].
  cbn [setups]. unfold findLame at 2 3 4. dec_all. unfold findLame. cbn [nNu nEmod mVER iVOL Bmod Smod].
  rewrite Hv; cbn [Nat.eqb]. dec_all. cbn [Bmod]. field. split; lra.
Qed.

(** * Memory safety in 2D *)
Lemma std_2d_3 m J b : stdNeoHooke m 2 3 J b = UB. Proof. reflexivity. Qed.
Lemma std_2d_4 m J b : stdNeoHooke m 2 4 J b = UB. Proof. reflexivity. Qed.
Lemma mod_2d_3 m J b : modNeoHooke m 2 3 J b = UB. Proof. reflexivity. Qed.
Lemma mod_2d_4 m J b : is_ok (modNeoHooke m 2 4 J b). Proof. exact I. Qed.
Lemma neo_3d_safe m F : neoEvaluate m F <> UB.
Proof.
  unfold neoEvaluate. destruct (Req_EM_T (det3 F) 0); [discriminate|].
  destruct (mVER m) as [|[|[|k]]]; [discriminate| | |discriminate].
  - destruct (std_total m (det3 F) (tovoigt (mul3 F (trn F)))) as (C & -> & _). discriminate.
  - destruct (mod_total m (det3 F) (tovoigt (mul3 F (trn F)))) as (U & S & C & -> & _). discriminate.
Qed.

(** Non-vacuity: a sheared and stretched state of a rubber-like material, all hypotheses hold. *)
Definition exF : t3 := fun i j => match i, j with
  | 1%nat, 1%nat => 6/5 | 1%nat, 2%nat => 1/10 | 2%nat, 2%nat => 9/10 | 3%nat, 3%nat => 1 | _, _ => 0 end.
Definition exQ : t3 := fun i j => match i, j with
  | 1%nat, 1%nat => 3/5 | 1%nat, 2%nat => -4/5 | 2%nat, 1%nat => 4/5 | 2%nat, 2%nat => 3/5 | 3%nat, 3%nat => 1 | _, _ => 0 end.
Example neo_case : ver_ok (newNeo 10 (3/10) 12) /\ (1 <= iVOL (newNeo 10 (3/10) 12) <= 3)%nat /\ 0 < det3 exF /\ rotation exQ.
Proof.
  unfold newNeo, findLame. dec_all; cbn [nNu] in *; try (exfalso; lra).
  all: try (match goal with H : _ |- _ => cbn in H; exfalso; lra end).
  all: cbn; repeat split; try lia; try (left; reflexivity).
  all: try (unfold det3, exF; lra).
  all: try (intros i j Hi Hj; idx i; idx j; unfold mul3, trn, exQ, kron; cbn; field).
  all: unfold det3, exQ; lra.
Qed.

(** * Statements about the returned values *)
Lemma neo_evaluates m F : ver_ok m -> det3 F <> 0 -> exists U S C, neoEvaluate m F = Ret (U, S, C) /\
  neoW m F = U /\ neoSig m F = unvoigt S /\ neoC m F = el C.
Proof.
  intros [Hv|Hv] HJ; unfold neoW, neoSig, neoC.
  - rewrite (neo_std m F Hv HJ). destruct (std_total m (det3 F) (tovoigt (mul3 F (trn F)))) as (C & -> & _).
    do 3 eexists. repeat split.
  - rewrite (neo_mod m F Hv HJ). destruct (mod_total m (det3 F) (tovoigt (mul3 F (trn F)))) as (U & S & C & -> & _).
    do 3 eexists. repeat split.
Qed.

Lemma neo_std_formula m F : mVER m = 1%nat -> iVOL m = 3%nat -> 0 < det3 F ->
  exists U S C, neoEvaluate m F = Ret (U, S, C) /\
  forall i j, (1 <= i <= 3)%nat -> (1 <= j <= 3)%nat ->
    unvoigt S i j = (Smod m * (mul3 F (trn F) i j - kron i j) + Bmod m * ln (det3 F) * kron i j) / det3 F.
Proof.
  intros Hv Hi HF. assert (HJ : det3 F <> 0) by lra.
  destruct (neo_evaluates m F (or_introl Hv) HJ) as (U & S & C & E & _ & ES & _).
  exists U, S, C. split; [exact E|]. intros i j h1 h2. rewrite <- ES.
  destruct (std_closed m F Hv HJ) as [_ ->]; [|assumption|assumption].
  rewrite Hi. unfold volUp. rewrite ln_abs by assumption. unfold bten. field. exact HJ.
Qed.

Lemma sig_symm m F i j : neoSig m F i j = neoSig m F j i.
Proof.
  unfold neoSig. destruct (neoEvaluate m F) as [| |[[u s] c]]; try reflexivity.
  unfold unvoigt. f_equal. unfold voigt.
  destruct i as [|[|[|[|i]]]]; destruct j as [|[|[|[|j]]]]; reflexivity.
Qed.

Lemma reference_nonzero : exists m, ver_ok m /\ iVOL m = 4%nat /\ neoSig m kron 1%nat 1%nat <> 0.
Proof.
  exists (mkNeo 0 0 1 4 1 1). assert (V : ver_ok (mkNeo 0 0 1 4 1 1)) by (left; reflexivity).
  repeat split; [exact V|]. rewrite reference_sig by (try exact V; lia). unfold volUp, kron; cbn. lra.
Qed.

Lemma setups_unstable : exists m, mVER m = 1%nat /\ setups 2 m <> setups 1 m.
Proof.
  exists (mkNeo 10 1 1 1 0 0). split; [reflexivity|]. intros E.
  pose proof (setups_drift (mkNeo 10 1 1 1 0 0)) as D. cbn [mVER nNu nEmod] in D.
  rewrite E in D. specialize (D eq_refl). assert (h1 : 1/2 < 1) by lra. assert (h2 : 0 < 10) by lra. specialize (D h1 h2).
  assert (S1 : Smod (setups 1 (mkNeo 10 1 1 1 0 0)) = 1).
  { cbn [setups]. unfold findLame. dec_all. reflexivity. }
  lra.
Qed.

Lemma hyperelastic_law4_wrong : exists m F, ver_ok m /\ iVOL m = 4%nat /\ 0 < det3 F /\
  ~ energy_conjugate (neoW m) F (neoSig m F).
Proof.
  (* F = I, L = diag(1,0,0): W((1+t)) with mu = 0, K = 1 is 2(t - ln(1+t)), derivative 0; J sigma:L = 1 *)
  set (m := mkNeo 0 0 1 4 1 0). assert (V : ver_ok m) by (left; reflexivity).
  exists m, kron. repeat split; [exact V|rewrite det_kron; lra|]. intros H.
  set (L := fun i j : nat => if (Nat.eqb i 1 && Nat.eqb j 1)%bool then 1 else 0).
  specialize (H L).
  assert (Hd : det3 kron * ddot3 (neoSig m kron) L = 1).
  { rewrite det_kron. unfold ddot3. rewrite !reference_sig by (try exact V; lia).
    unfold L, kron, volUp, m; cbn. lra. }
  rewrite Hd in H.
  assert (H0 : is_derive (fun t => neoW m (superpose L kron t)) 0 0).
  { apply (is_derive_ext_loc (fun t => 2 * (t - ln (1 + t)))).
    - assert (h : 0 < 1) by lra. exists (mkposreal _ h). intros y Hy.
      unfold ball in Hy; cbn in Hy; unfold AbsRing_ball, abs, minus, plus, opp in Hy; cbn in Hy. apply Rabs_def2 in Hy.
      assert (ED : det3 (superpose L kron y) = 1 + y) by (unfold det3, superpose, mul3, L, kron; cbn; ring).
      destruct (std_closed m (superpose L kron y)) as [-> _]; [reflexivity|rewrite ED; lra|].
      rewrite ED. unfold volU, m; cbn [iVOL Bmod Smod]. rewrite ln_abs by lra.
      match goal with |- ?a = ?b => change (@eq R a b) end. ring.
    - auto_derive; [lra|]. field. }
  pose proof (is_derive_unique _ _ _ H) as U1. pose proof (is_derive_unique _ _ _ H0) as U0. rewrite U0 in U1. lra.
Qed.
