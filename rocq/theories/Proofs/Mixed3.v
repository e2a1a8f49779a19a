From Coquelicot Require Import Coquelicot.
From Verif Require Import Lib.Base Lib.Sums Lib.Writes Model.Continuum Model.Mixed Spec.Mixed Proofs.Continuum Proofs.Mixed.

(** ** Coupling blocks of the three-field element *)
Lemma hitsum_cons i j w l : hitsum i j (w :: l) = (if hit i j w then wval w else 0) + hitsum i j l.
Proof. reflexivity. Qed.
Lemma hitsum_nil i j : hitsum i j [] = 0.
Proof. reflexivity. Qed.
Lemma sumL_zero {A} (l : list A) : sumL (fun _ => 0) l = 0.
Proof. induction l as [|w l IH]; unfold sumL in *; cbn [fold_right]; [reflexivity|]. rewrite IH. ring. Qed.

Lemma hitsum_nb d n1 n2 g a0 i0 b0 : (1 <= a0 <= n1)%nat -> (1 <= i0 <= d)%nat -> (1 <= b0 <= n2)%nat ->
  (forall a b x y v, (1 <= a <= n1)%nat -> (1 <= b <= n2)%nat -> In (x, y, v) (g a b) -> y = b /\ exists i, (1 <= i <= d)%nat /\ x = dof d a i) ->
  hitsum (dof d a0 i0) b0 (loop n1 (fun a => loop n2 (fun b => g a b))) = hitsum (dof d a0 i0) b0 (g a0 b0).
Proof.
  intros Ha Hi Hb Hg.
  assert (Z : forall a b, (1 <= a <= n1)%nat -> (1 <= b <= n2)%nat -> a <> a0 \/ b <> b0 -> hitsum (dof d a0 i0) b0 (g a b) = 0).
  { intros a b Ra Rb N. unfold hitsum. rewrite (sumL_ext _ (fun _ => 0)); [apply sumL_zero|].
    intros [[x y] v] Hw. destruct (Hg a b x y v Ra Rb Hw) as [-> [i [Ri ->]]]. cbn [hit wval]. rewrite eqb_dof by lia.
    destruct (Nat.eqb_spec a0 a), (Nat.eqb_spec b0 b); try reflexivity; [subst; destruct N; congruence|]; rewrite ?andb_false_r; reflexivity. }
  rewrite hitsum_loop. apply (sumf_pick n1 a0); [exact Ha| |].
  - intros a Ra Na. rewrite hitsum_loop. apply sumf_0. intros b Rb. apply Z; auto.
  - rewrite hitsum_loop. apply (sumf_pick n2 b0); [exact Hb| |reflexivity]. intros b Rb Nb. apply Z; auto.
Qed.

Lemma kut_ok d hoop n1 n2 Nr G N2 D7 K : ((d = 2 \/ d = 3) /\ (hoop = true -> d = 2))%nat -> rows K = (d * n1)%nat -> cols K = n2 ->
  exists K', run_add K (kutWrites d hoop n1 n2 Nr G N2 D7) = Ret K' /\ rows K' = rows K /\ cols K' = cols K /\
    forall a i b, (1 <= a <= n1)%nat -> (1 <= i <= d)%nat -> (1 <= b <= n2)%nat ->
      el K' (dof d a i) b = el K (dof d a i) b
        + (sumf 6 (fun r => strain7 hoop (Nr a) (fun j => if (j <=? d)%nat then G a j else 0) (fun _ => 0) r i * D7 r)) * N2 b.
Proof.
  intros [Hd Hh] HR HC.
  assert (Hg : forall a b x y v, (1 <= a <= n1)%nat -> (1 <= b <= n2)%nat ->
     In (x, y, v) (loop d (fun i =>
      [(dof d a i, b, G a i * N2 b * D7 i)] ++
      (if (d =? 2)%nat then [(dof d a i, b, G a (3 - i)%nat * N2 b * D7 4%nat)]
       else if (i <? 3)%nat then
         [(dof d a i, b, G a (3 - i)%nat * N2 b * D7 4%nat);
          (dof d a (S i), b, G a (5 - S i)%nat * N2 b * D7 5%nat);
          (dof d a (S (S i mod 3)), b, G a (4 - S (S i mod 3))%nat * N2 b * D7 6%nat)]
       else [])) ++
    (if hoop then [(dof d a 1, b, Nr a * N2 b * D7 3%nat)] else [])) -> y = b /\ exists i, (1 <= i <= d)%nat /\ x = dof d a i).
  { intros a b x y v Ra Rb Hv. apply in_app_iff in Hv. destruct Hv as [Hv|Hv].
    - apply In_loop in Hv. destruct Hv as [i [Ri Hv]]. apply in_app_iff in Hv. destruct Hv as [Hv|Hv].
      + inw Hv. split; [reflexivity|]. exists i. auto.
      + destruct (Nat.eqb_spec d 2).
        * inw Hv. split; [reflexivity|]. exists i. auto.
        * destruct (Nat.ltb_spec i 3); [|destruct Hv]. inw Hv; (split; [reflexivity|]).
          -- exists i. auto.
          -- exists (S i). split; [|reflexivity]. lia.
          -- exists (S (S i mod 3)). split; [|reflexivity]. pose proof (Nat.mod_upper_bound (S i) 3). lia.
    - destruct hoop; [|destruct Hv]. inw Hv. split; [reflexivity|]. exists 1%nat. split; [lia|reflexivity]. }
  unfold kutWrites. cbv zeta.
  match goal with |- exists M, run_add ?m ?ws = _ /\ _ => destruct (run_add_ok ws m) as [K' [E [R1 [C1 V]]]] end.
  { intros x y v Hv. apply In_loop in Hv. destruct Hv as [a [Ra Hv]]. apply In_loop in Hv. destruct Hv as [b [Rb Hv]].
    destruct (Hg a b x y v Ra Rb Hv) as [-> [i [Ri ->]]]. apply inb_true; [rewrite HR; apply dof_range; assumption|lia]. }
  exists K'. split; [exact E|]. split; [exact R1|]. split; [exact C1|]. intros a i b Ha Hi Hb. rewrite V. f_equal.
  etransitivity; [apply (hitsum_nb d n1 n2 _ a i b Ha Hi Hb Hg)|].
  destruct Hd as [-> | ->].
  - unfold loop. cbn [seq flat_map]. destruct hoop; cbn [Nat.eqb app]; repeat (rewrite hitsum_cons || rewrite hitsum_nil); unfold hit, wval;
      rewrite !eqb_dof by lia; rewrite !Nat.eqb_refl; idx i; cbn [Nat.eqb andb sumf]; unfold strain7, kron; cbn [Nat.eqb Nat.leb Nat.sub]; ring.
  - destruct hoop; [discriminate (Hh eq_refl)|]. unfold loop. cbn [seq flat_map Nat.eqb app Nat.ltb Nat.leb Nat.modulo Nat.divmod fst snd Nat.sub]; repeat (rewrite hitsum_cons || rewrite hitsum_nil); unfold hit, wval;
      rewrite !eqb_dof by lia; rewrite !Nat.eqb_refl; idx i; cbn [Nat.eqb andb sumf]; unfold strain7, kron; cbn [Nat.eqb Nat.leb Nat.sub]; ring.
Qed.

Lemma kup_ok d hoop n1 n2 Nr G N2 dV K : (1 <= d)%nat -> rows K = (d * n1)%nat -> cols K = n2 ->
  exists K', run_add K (kupWrites d hoop n1 n2 Nr G N2 dV) = Ret K' /\ rows K' = rows K /\ cols K' = cols K /\
    forall a i b, (1 <= a <= n1)%nat -> (1 <= i <= d)%nat -> (1 <= b <= n2)%nat ->
      el K' (dof d a i) b = el K (dof d a i) b + (G a i + (if hoop then kron i 1 * Nr a else 0)) * N2 b * dV.
Proof.
  intros Hd HR HC.
  assert (Hg : forall a b x y v, (1 <= a <= n1)%nat -> (1 <= b <= n2)%nat ->
     In (x, y, v) (loop d (fun i => [(dof d a i, b, G a i * N2 b * dV)]) ++
    (if hoop then [(dof d a 1, b, Nr a * N2 b * dV)] else [])) -> y = b /\ exists i, (1 <= i <= d)%nat /\ x = dof d a i).
  { intros a b x y v Ra Rb Hv. apply in_app_iff in Hv. destruct Hv as [Hv|Hv].
    - apply In_loop in Hv. destruct Hv as [i [Ri Hv]]. inw Hv. split; [reflexivity|]. exists i. auto.
    - destruct hoop; [|destruct Hv]. inw Hv. split; [reflexivity|]. exists 1%nat. split; [lia|reflexivity]. }
  unfold kupWrites.
  match goal with |- exists M, run_add ?m ?ws = _ /\ _ => destruct (run_add_ok ws m) as [K' [E [R1 [C1 V]]]] end.
  { intros x y v Hv. apply In_loop in Hv. destruct Hv as [a [Ra Hv]]. apply In_loop in Hv. destruct Hv as [b [Rb Hv]].
    destruct (Hg a b x y v Ra Rb Hv) as [-> [i [Ri ->]]]. apply inb_true; [rewrite HR; apply dof_range; assumption|lia]. }
  exists K'. split; [exact E|]. split; [exact R1|]. split; [exact C1|]. intros a i b Ha Hi Hb. rewrite V. f_equal.
  etransitivity; [apply (hitsum_nb d n1 n2 _ a i b Ha Hi Hb Hg)|].
  rewrite hitsum_app, hitsum_loop.
  rewrite (sumf_pick d i _ (G a i * N2 b * dV) Hi).
  - destruct hoop; [rewrite hitsum_one, eqb_dof, !Nat.eqb_refl by lia|unfold hitsum, sumL; cbn [fold_right]; ring].
    unfold kron. destruct (Nat.eqb_spec i 1); cbn [andb]; ring.
  - intros k Hk Nk. rewrite hitsum_one, eqb_dof by lia. destruct (Nat.eqb_spec i k); [congruence|]. rewrite andb_false_r. reflexivity.
  - rewrite hitsum_one, !Nat.eqb_refl. reflexivity.
Qed.

(** ** The volume constraint and its linearisation *)
Definition rightInv (d : nat) (F Fi : nat -> nat -> R) : Prop :=
  forall i j, (1 <= i <= d)%nat -> (1 <= j <= d)%nat -> sumf d (fun k => F i k * Fi k j) = kron i j.
Definition pushed (d : nat) (G Fi : nat -> nat -> R) (a i : nat) : R := sumf d (fun j => G a j * Fi j i).
(** Divergence of the displacement field [w] in the current configuration. *)
Definition divW (d n : nat) (g : nat -> nat -> R) (w : nat -> R) : R := sumf n (fun a => sumf d (fun i => g a i * w (dof d a i))).

Lemma div_trace d n G Fi w : divW d n (pushed d G Fi) w = sumf d (fun i => sumf d (fun j => gradient d n G w i j * Fi j i)).
Proof.
  unfold divW, pushed, gradient.
  rewrite (sumf_ext n _ (fun a => sumf d (fun i => sumf d (fun j => w (dof d a i) * G a j * Fi j i)))).
  - rewrite sumf_swap. apply sumf_ext. intros i _. rewrite sumf_swap. apply sumf_ext. intros j _. rewrite <- sumf_scal_r. apply sumf_ext. intros. reflexivity.
  - intros a _. apply sumf_ext. intros i _. rewrite <- sumf_scal_r. apply sumf_ext. intros. ring.
Qed.

Lemma dt2_deriv F H Fi : rightInv 2 F Fi ->
  is_derive (fun t => dt2 (fun i j => F i j + t * H i j)) 0 (dt2 F * sumf 2 (fun i => sumf 2 (fun j => H i j * Fi j i))).
Proof.
  intros Hi. unfold dt2.
  assert (A : forall i j, (1 <= i <= 2)%nat -> (1 <= j <= 2)%nat -> F i 1%nat * Fi 1%nat j + F i 2%nat * Fi 2%nat j = kron i j).
  { intros i j H1 H2. pose proof (Hi i j H1 H2) as Q. cbn [sumf] in Q. lra. }
  pose proof (A 1%nat 1%nat ltac:(lia) ltac:(lia)) as A11. pose proof (A 1%nat 2%nat ltac:(lia) ltac:(lia)) as A12.
  pose proof (A 2%nat 1%nat ltac:(lia) ltac:(lia)) as A21. pose proof (A 2%nat 2%nat ltac:(lia) ltac:(lia)) as A22.
  unfold kron in A11, A12, A21, A22. cbn [Nat.eqb] in *. clear A Hi.
  auto_derive; [exact I|]. cbn [sumf].
  set (f11 := F 1%nat 1%nat) in *; set (f12 := F 1%nat 2%nat) in *; set (f21 := F 2%nat 1%nat) in *; set (f22 := F 2%nat 2%nat) in *.
  set (g11 := Fi 1%nat 1%nat) in *; set (g12 := Fi 1%nat 2%nat) in *; set (g21 := Fi 2%nat 1%nat) in *; set (g22 := Fi 2%nat 2%nat) in *.
  set (J := f11 * f22 - f12 * f21).
  assert (J * g11 = f22) as J11 by (transitivity (f22 * (f11 * g11 + f12 * g21) - f12 * (f21 * g11 + f22 * g21)); [unfold J; ring|rewrite A11, A21; ring]).
  assert (J * g12 = - f12) as J12 by (transitivity (f22 * (f11 * g12 + f12 * g22) - f12 * (f21 * g12 + f22 * g22)); [unfold J; ring|rewrite A12, A22; ring]).
  assert (J * g21 = - f21) as J21 by (transitivity (f11 * (f21 * g11 + f22 * g21) - f21 * (f11 * g11 + f12 * g21)); [unfold J; ring|rewrite A11, A21; ring]).
  assert (J * g22 = f11) as J22 by (transitivity (f11 * (f21 * g12 + f22 * g22) - f21 * (f11 * g12 + f12 * g22)); [unfold J; ring|rewrite A12, A22; ring]).
  transitivity (H 1%nat 1%nat * (J * g11) + H 1%nat 2%nat * (J * g21) + H 2%nat 1%nat * (J * g12) + H 2%nat 2%nat * (J * g22)); [|ring].
  rewrite J11, J12, J21, J22. ring.
Qed.

Definition cof3 (F : nat -> nat -> R) (j i : nat) : R :=
  match j, i with
  | 1%nat, 1%nat => F 2%nat 2%nat * F 3%nat 3%nat - F 2%nat 3%nat * F 3%nat 2%nat
  | 1%nat, 2%nat => F 1%nat 3%nat * F 3%nat 2%nat - F 1%nat 2%nat * F 3%nat 3%nat
  | 1%nat, _ => F 1%nat 2%nat * F 2%nat 3%nat - F 1%nat 3%nat * F 2%nat 2%nat
  | 2%nat, 1%nat => F 2%nat 3%nat * F 3%nat 1%nat - F 2%nat 1%nat * F 3%nat 3%nat
  | 2%nat, 2%nat => F 1%nat 1%nat * F 3%nat 3%nat - F 1%nat 3%nat * F 3%nat 1%nat
  | 2%nat, _ => F 1%nat 3%nat * F 2%nat 1%nat - F 1%nat 1%nat * F 2%nat 3%nat
  | _, 1%nat => F 2%nat 1%nat * F 3%nat 2%nat - F 2%nat 2%nat * F 3%nat 1%nat
  | _, 2%nat => F 1%nat 2%nat * F 3%nat 1%nat - F 1%nat 1%nat * F 3%nat 2%nat
  | _, _ => F 1%nat 1%nat * F 2%nat 2%nat - F 1%nat 2%nat * F 2%nat 1%nat
  end.

Lemma cof3_inv F Fi : rightInv 3 F Fi -> forall j i, (1 <= j <= 3)%nat -> (1 <= i <= 3)%nat -> dt3 F * Fi j i = cof3 F j i.
Proof.
  intros Hi j i Hj Hi'.
  transitivity (sumf 3 (fun m => cof3 F j m * sumf 3 (fun k => F m k * Fi k i))).
  - cbn [sumf]. unfold dt3. idx j; cbn [cof3]; ring.
  - rewrite (sumf_ext 3 _ (fun m => kron m i * cof3 F j m)); [apply sumf_kron; exact Hi'|]. intros m Hm. rewrite (Hi m i Hm Hi'). ring.
Qed.

Lemma dt3_deriv F H Fi : rightInv 3 F Fi ->
  is_derive (fun t => dt3 (fun i j => F i j + t * H i j)) 0 (dt3 F * sumf 3 (fun i => sumf 3 (fun j => H i j * Fi j i))).
Proof.
  intros Hi. rewrite <- sumf_scal.
  rewrite (sumf_ext 3 _ (fun i => sumf 3 (fun j => H i j * cof3 F j i))).
  2:{ intros i Hi'. rewrite <- sumf_scal. apply sumf_ext. intros j Hj. rewrite <- (cof3_inv F Fi Hi) by assumption. ring. }
  unfold dt3. auto_derive; [exact I|]. cbn [sumf cof3]. ring.
Qed.

(** The derivative of the volume residual in the displacement direction w is minus K_up^T w. *)
Theorem volume_residual_derivative d n G F Fi w N2 Th dJW b : (d = 2 \/ d = 3)%nat -> rightInv d F Fi ->
  is_derive (fun t => rpAdd true N2 Th (dt d (fun i j => F i j + t * gradient d n G w i j)) dJW b) 0
    (- sumf n (fun a => sumf d (fun i => pushed d G Fi a i * N2 b * (dt d F * dJW) * w (dof d a i)))).
Proof.
  intros Hd Hi. unfold rpAdd.
  assert (D : is_derive (fun t => dt d (fun i j => F i j + t * gradient d n G w i j)) 0 (dt d F * divW d n (pushed d G Fi) w)).
  { rewrite div_trace. destruct Hd as [-> | ->]; unfold dt; cbn [Nat.eqb]; [apply dt2_deriv|apply dt3_deriv]; exact Hi. }
  set (f := fun t => dt d (fun i j => F i j + t * gradient d n G w i j)) in *.
  replace (- sumf n _) with (- (N2 b * (dt d F * divW d n (pushed d G Fi) w) * dJW)).
  - change (is_derive (fun t => N2 b * ((Th - f t) * dJW)) 0 (- (N2 b * (dt d F * divW d n (pushed d G Fi) w) * dJW))).
    auto_derive; [exists (dt d F * divW d n (pushed d G Fi) w); exact D|]. rewrite (is_derive_unique (fun x : R => f x) _ _ D). ring.
  - unfold divW. f_equal. transitivity (N2 b * dt d F * dJW * sumf n (fun a => sumf d (fun i => pushed d G Fi a i * w (dof d a i)))); [ring|].
    rewrite <- sumf_scal. apply sumf_ext. intros a _. rewrite <- sumf_scal. apply sumf_ext. intros. ring.
Qed.

(** Axisymmetric: J = det(F_2x2) F_33 with the hoop term N_a/r, r = X + u_r. *)
Definition hoopDisp (n : nat) (N w : nat -> R) : R := sumf n (fun a => N a * w (dof 2 a 1)).
Theorem volume_residual_derivative_axi n G N F Fi ur w N2 Th dJW b X : rightInv 2 F Fi -> 0 < X -> X + ur <> 0 ->
  is_derive (fun t => rpAdd true N2 Th (dt2 (fun i j => F i j + t * gradient 2 n G w i j) * (1 + (ur + t * hoopDisp n N w) / X)) dJW b) 0
    (- sumf n (fun a => sumf 2 (fun i => (pushed 2 G Fi a i + kron i 1 * (N a / (X + ur))) * N2 b * (dt2 F * (1 + ur / X) * dJW) * w (dof 2 a i)))).
Proof.
  intros Hi HX Hr. unfold rpAdd.
  pose proof (dt2_deriv F (gradient 2 n G w) Fi Hi) as D. rewrite <- div_trace in D.
  set (f := fun t => dt2 (fun i j => F i j + t * gradient 2 n G w i j)) in *.
  assert (f0 : f 0 = dt2 F) by (unfold f, dt2; ring).
  change (is_derive (fun t => N2 b * ((Th - f t * (1 + (ur + t * hoopDisp n N w) / X)) * dJW)) 0
    (- sumf n (fun a => sumf 2 (fun i => (pushed 2 G Fi a i + kron i 1 * (N a / (X + ur))) * N2 b * (dt2 F * (1 + ur / X) * dJW) * w (dof 2 a i))))).
  replace (- sumf n _) with (- (N2 b * dJW * (dt2 F * divW 2 n (pushed 2 G Fi) w * (1 + ur / X) + dt2 F * (hoopDisp n N w / X)))).
  - auto_derive; [exists (dt2 F * divW 2 n (pushed 2 G Fi) w); exact D|]. rewrite (is_derive_unique (fun x : R => f x) _ _ D), f0. field. lra.
  - f_equal. unfold divW, hoopDisp.
    transitivity (N2 b * dJW * dt2 F * (1 + ur / X) * (sumf n (fun a => sumf 2 (fun i => pushed 2 G Fi a i * w (dof 2 a i))) + sumf n (fun a => N a * w (dof 2 a 1)) / (X + ur))).
    + field. split; lra.
    + unfold Rdiv at 2. rewrite <- sumf_scal_r, <- sumf_plus, <- sumf_scal. apply sumf_ext. intros a _. cbn [sumf]. unfold kron. cbn [Nat.eqb]. field. split; lra.
Qed.

(** The derivatives in the volume change and pressure directions are minus K_tp. *)
Lemma residual_derivative_theta_p N2 Th J dJW P Bp b c s :
  rpAdd true N2 (Th + s * N2 c) J dJW b - rpAdd true N2 Th J dJW b = - (ktpAdd N2 dJW c b * s) /\
  rtAdd true N2 (P + s * N2 c) Bp dJW b - rtAdd true N2 P Bp dJW b = - (ktpAdd N2 dJW b c * s).
Proof. unfold rpAdd, rtAdd, ktpAdd. split; ring. Qed.

(** ** Projection of the constitutive matrix *)
Lemma volStep1_ok D i j : (1 <= i <= 7)%nat -> (1 <= j <= 7)%nat -> volStep1 D i j =
  if (j =? 7)%nat then (if (i =? 7)%nat then D 7%nat 7%nat else (D i 1%nat + D i 2%nat + D i 3%nat) / 3)
  else if (i =? 7)%nat then (D 1%nat j + D 2%nat j + D 3%nat j) / 3 else D i j.
Proof. intros Hi Hj. idx i; idx j; reflexivity. Qed.
Lemma volStep2_ok D i j : (1 <= i <= 7)%nat -> (1 <= j <= 7)%nat -> volStep2 D i j =
  if ((i =? 7) || (j =? 7))%nat%bool then D i j else
  D i j - (if (j <=? 3)%nat then D i 7%nat else 0) - (if (i <=? 3)%nat then D 7%nat j else 0).
Proof. intros Hi Hj. idx i; idx j; cbv [volStep2 fold_left upd2 Nat.eqb Nat.leb andb orb]; ring. Qed.
Lemma volStep4_ok D i j : (1 <= i <= 7)%nat -> (1 <= j <= 7)%nat -> volStep4 D i j =
  if (i =? 7)%nat then (if (j <=? 3)%nat then D i j - D 7%nat 7%nat else D i j)
  else if (j =? 7)%nat then (if (i <=? 3)%nat then D i j - D 7%nat 7%nat else D i j)
  else if ((i <=? 3) && (j <=? 3))%nat%bool then D i j + D 7%nat 7%nat else D i j.
Proof. intros Hi Hj. idx i; idx j; cbv [volStep4 fold_left upd2 Nat.eqb Nat.leb andb orb]; ring. Qed.
Lemma volStep5_ok f D i j : (1 <= i <= 7)%nat -> (1 <= j <= 7)%nat -> volStep5 f D i j =
  D i j + (if ((i <=? 3) && (j <=? 3))%nat%bool then f else 0).
Proof. intros Hi Hj. idx i; idx j; cbv [volStep5 fold_left upd2 Nat.eqb Nat.leb andb orb]; ring. Qed.
Lemma volStep6_ok s D i j : (1 <= i <= 7)%nat -> (1 <= j <= 7)%nat -> volStep6 s D i j =
  if ((i =? 7) || (j =? 7))%nat%bool then D i j else
  D i j - (if (i <=? 3)%nat then s j else 0) - (if (j <=? 3)%nat then s i else 0).
Proof. intros Hi Hj. idx i; idx j; cbv [volStep6 fold_left upd2 Nat.eqb Nat.leb andb orb]; ring. Qed.
Lemma volStep7_ok f D i j : (1 <= i <= 7)%nat -> (1 <= j <= 7)%nat -> volStep7 f D i j =
  D i j + (if ((i =? j) && negb (i =? 7))%nat%bool then (if (i <=? 3)%nat then 2 * f else f) else 0).
Proof. intros Hi Hj. idx i; idx j; cbv [volStep7 fold_left upd2 Nat.eqb Nat.leb andb orb negb Nat.add]; ring. Qed.
Lemma volStep8_ok s D i j : (1 <= i <= 7)%nat -> (1 <= j <= 7)%nat -> volStep8 s D i j =
  if (i =? 7)%nat then (if (j =? 7)%nat then D i j else D i j + s j) else if (j =? 7)%nat then D i j + s i else D i j.
Proof. intros Hi Hj. idx i; idx j; cbv [volStep8 fold_left upd2 Nat.eqb Nat.leb andb orb negb Nat.add]; ring. Qed.

Theorem addVolumetric_ok D sg pbar p i j : (1 <= i <= 7)%nat -> (1 <= j <= 7)%nat ->
  addVolumetric D sg pbar p i j = projected D sg pbar p i j.
Proof.
  intros Hi Hj. unfold addVolumetric. cbv zeta.
  assert (E : forall a b, (1 <= a <= 7)%nat -> (1 <= b <= 7)%nat ->
    volStep4 (volStep3 (volStep2 (volStep1 D))) a b = sumf 6 (fun k => sumf 6 (fun l => splitCol k a * D k l * splitCol l b))).
  { intros a b Ha Hb. rewrite volStep4_ok by assumption. unfold volStep3, upd2.
    rewrite !volStep2_ok by lia. rewrite !volStep1_ok by lia. unfold splitCol, mvec, kron. cbn [sumf].
    idx a; idx b; cbn [Nat.eqb Nat.leb andb orb]; field. }
  assert (V : forall a b, (1 <= a <= 7)%nat -> (1 <= b <= 7)%nat -> volStep8 (sigDev sg pbar) (volStep7 (pbar - p) (volStep6 (sigDev sg pbar) (volStep5 (p - pbar * 2 / 3)
            (volStep4 (volStep3 (volStep2 (volStep1 D))))))) a b =
     projected D sg pbar p a b + (if ((a =? 7) && (b =? 7))%nat%bool then pbar / 3 else 0)).
  { intros a b Ha Hb. rewrite volStep8_ok, volStep7_ok, volStep6_ok, volStep5_ok, E by assumption.
    unfold projected. set (Q := sumf 6 _). clearbody Q. unfold sigDev, mvec, twoI0.
    idx a; idx b; cbn [Nat.eqb Nat.leb andb orb negb]; field. }
  unfold upd2. destruct (Nat.eqb_spec i 7) as [->|Ni], (Nat.eqb_spec j 7) as [->|Nj]; cbn [andb]; rewrite V by lia; cbn [Nat.eqb andb].
  - ring.
  - destruct (Nat.eqb_spec j 7); [congruence|]. ring.
  - destruct (Nat.eqb_spec i 7); [congruence|]. cbn [andb]. ring.
  - destruct (Nat.eqb_spec i 7); [congruence|]. cbn [andb]. ring.
Qed.

Lemma projected_symm D sg pbar p : symm 6 D -> symm 7 (projected D sg pbar p).
Proof.
  intros H i j Hi Hj. unfold projected. cbv zeta.
  assert (E : sumf 6 (fun k => sumf 6 (fun l => splitCol k i * D k l * splitCol l j)) = sumf 6 (fun k => sumf 6 (fun l => splitCol k j * D k l * splitCol l i))).
  { rewrite sumf_swap. apply sumf_ext. intros k Hk. apply sumf_ext. intros l Hl. rewrite (H l k Hl Hk). ring. }
  rewrite E. destruct (i =? 7)%nat, (j =? 7)%nat; try ring. unfold twoI0. rewrite (Nat.eqb_sym j i).
  destruct (Nat.eqb_spec i j) as [->|_]; ring.
Qed.

(** ** Material stiffness kernels *)
Theorem accKMx2_ok hoop n sr s sb D EK : rows EK = (2 * n)%nat -> cols EK = (2 * n)%nat ->
  exists EK', accKMx2 hoop n sr s sb D EK = Ret EK' /\ rows EK' = rows EK /\ cols EK' = cols EK /\
    forall a b i j, (1 <= a <= n)%nat -> (1 <= b <= n)%nat -> (1 <= i <= 2)%nat -> (1 <= j <= 2)%nat ->
      el EK' (dof 2 a i) (dof 2 b j) = el EK (dof 2 a i) (dof 2 b j)
        + sumf 7 (fun r => sumf 7 (fun q => strain7 hoop (sr a) (fun k => if (k <=? 2)%nat then s a k else 0) (sb a) r i * D r q
            * strain7 hoop (sr b) (fun k => if (k <=? 2)%nat then s b k else 0) (sb b) q j)).
Proof.
  intros HR HC. unfold accKMx2.
  match goal with |- exists M, run_add ?m ?ws = _ /\ _ => destruct (run_add_ok ws m) as [K' [E [R1 [C1 V]]]] end.
  { intros x y v Hv. inl Hv. inw Hv. apply inb_true; [rewrite HR|rewrite HC]; apply dof_range; assumption. }
  exists K'. split; [exact E|]. split; [exact R1|]. split; [exact C1|]. intros a b i j Ha Hb Hi Hj. rewrite V. f_equal.
  etransitivity; [apply (hitsum_block n 2 (fun a b i j => match j with
      | 1%nat => bbc2 hoop (sr a) (s a) (sb a) D i 1%nat * s b 1%nat + bbc2 hoop (sr a) (s a) (sb a) D i 4%nat * s b 2%nat + bbc2 hoop (sr a) (s a) (sb a) D i 7%nat * sb b 1%nat + (if hoop then bbc2 hoop (sr a) (s a) (sb a) D i 3%nat * sr b else 0)
      | _ => bbc2 hoop (sr a) (s a) (sb a) D i 4%nat * s b 1%nat + bbc2 hoop (sr a) (s a) (sb a) D i 2%nat * s b 2%nat + bbc2 hoop (sr a) (s a) (sb a) D i 7%nat * sb b 2%nat
      end) a b i j Ha Hb Hi Hj)|].
  destruct hoop; idx i; idx j; cbn [sumf bbc2]; unfold strain7, kron; cbn [Nat.eqb Nat.leb]; ring.
Qed.

Theorem accKMx3_ok n s sb D EK : rows EK = (3 * n)%nat -> cols EK = (3 * n)%nat ->
  exists EK', accKMx3 n s sb D EK = Ret EK' /\ rows EK' = rows EK /\ cols EK' = cols EK /\
    forall a b i j, (1 <= a <= n)%nat -> (1 <= b <= n)%nat -> (1 <= i <= 3)%nat -> (1 <= j <= 3)%nat ->
      el EK' (dof 3 a i) (dof 3 b j) = el EK (dof 3 a i) (dof 3 b j)
        + sumf 7 (fun r => sumf 7 (fun q => strain7 false 0 (s a) (sb a) r i * D r q * strain7 false 0 (s b) (sb b) q j)).
Proof.
  intros HR HC. unfold accKMx3.
  match goal with |- exists M, run_add ?m ?ws = _ /\ _ => destruct (run_add_ok ws m) as [K' [E [R1 [C1 V]]]] end.
  { intros x y v Hv. inl Hv. inw Hv. apply inb_true; [rewrite HR|rewrite HC]; apply dof_range; assumption. }
  exists K'. split; [exact E|]. split; [exact R1|]. split; [exact C1|]. intros a b i j Ha Hb Hi Hj. rewrite V. f_equal.
  etransitivity; [apply (hitsum_block n 3 (fun a b i j => match j with
      | 1%nat => bbc3 (s a) (sb a) D i 1%nat * s b 1%nat + bbc3 (s a) (sb a) D i 4%nat * s b 2%nat + bbc3 (s a) (sb a) D i 6%nat * s b 3%nat + bbc3 (s a) (sb a) D i 7%nat * sb b 1%nat
      | 2%nat => bbc3 (s a) (sb a) D i 4%nat * s b 1%nat + bbc3 (s a) (sb a) D i 2%nat * s b 2%nat + bbc3 (s a) (sb a) D i 5%nat * s b 3%nat + bbc3 (s a) (sb a) D i 7%nat * sb b 2%nat
      | _ => bbc3 (s a) (sb a) D i 6%nat * s b 1%nat + bbc3 (s a) (sb a) D i 5%nat * s b 2%nat + bbc3 (s a) (sb a) D i 3%nat * s b 3%nat + bbc3 (s a) (sb a) D i 7%nat * sb b 3%nat
      end) a b i j Ha Hb Hi Hj)|].
  idx i; idx j; cbn [sumf bbc3]; unfold strain7, kron; cbn [Nat.eqb Nat.leb]; ring.
Qed.
