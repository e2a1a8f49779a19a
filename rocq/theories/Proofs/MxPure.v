(** Derivatives of the projected volume, the energy and the virtual work of the mixed element. *)
From Coquelicot Require Import Coquelicot.
From Verif Require Import Lib.Base Lib.Sums Lib.Tensor3 Spec.Mixed Spec.HyperElastic Spec.MxElement.

Lemma dv (f : R -> R) t (a b : R) : a = b -> is_derive f t a -> is_derive f t b. Proof. now intros ->. Qed.
Lemma dplus (f g : R -> R) t (a b : R) : is_derive f t a -> is_derive g t b -> is_derive (fun s => f s + g s) t (a + b).
Proof. intros A B. apply (is_derive_plus f g t a b A B). Qed.
Lemma dmult (f g : R -> R) t (a b : R) : is_derive f t a -> is_derive g t b -> is_derive (fun s => f s * g s) t (a * g t + f t * b).
Proof. intros A B. apply (is_derive_mult f g t a b A B). intros; apply Rmult_comm. Qed.
Lemma dscal (f : R -> R) c t (a : R) : is_derive f t a -> is_derive (fun s => c * f s) t (c * a).
Proof. intros A. apply (is_derive_scal f t c a A). Qed.
Lemma dscal_r (f : R -> R) c t (a : R) : is_derive f t a -> is_derive (fun s => f s * c) t (a * c).
Proof. intros A. apply (is_derive_ext (fun s => c * f s)); [intros; apply Rmult_comm|]. rewrite Rmult_comm. now apply dscal. Qed.
Lemma dconst (c t : R) : is_derive (fun _ : R => c) t 0. Proof. apply @is_derive_const. Qed.
Lemma dsumL {A} (f : R -> A -> R) (d : A -> R) (t : R) l : (forall a, In a l -> is_derive (fun s => f s a) t (d a)) ->
  is_derive (fun s => sumL (f s) l) t (sumL d l).
Proof.
  induction l as [|a l IH]; intros H; [exact (dconst 0 t)|].
  apply (dplus (fun s => f s a) (fun s => sumL (f s) l)); [apply H; now left|]. apply IH. intros; apply H; now right.
Qed.
Lemma dsumf n (f : R -> nat -> R) (d : nat -> R) (t : R) : (forall i, (1 <= i <= n)%nat -> is_derive (fun s => f s i) t (d i)) ->
  is_derive (fun s => sumf n (f s)) t (sumf n d).
Proof.
  induction n as [|n IH]; intros H; [exact (dconst 0 t)|]. apply (dplus (fun s => sumf n (f s)) (fun s => f s (S n))); [|apply H; lia].
  apply IH. intros; apply H; lia.
Qed.

Lemma det3_path F L c : path F L c -> is_derive (fun t => det3 (c t)) 0 (det3 F * tr3 L).
Proof.
  intros [E D]. unfold det3 at 1.
  assert (H : forall i j, (1 <= i <= 3)%nat -> (1 <= j <= 3)%nat -> is_derive (fun t => c t i j) 0 (mul3 L F i j)) by exact D.
  eapply dv; cycle 1.
  { apply dplus; [|apply dmult; [apply H; lia|]].
    - apply (dplus _ (fun t => - (c t 1%nat 2%nat * (c t 2%nat 1%nat * c t 3%nat 3%nat - c t 2%nat 3%nat * c t 3%nat 1%nat)))).
      + apply dmult; [apply H; lia|]. apply (dplus _ (fun t => - (c t 2%nat 3%nat * c t 3%nat 2%nat))); [apply dmult; apply H; lia|].
        apply (@is_derive_opp _ _ (fun t => c t 2%nat 3%nat * c t 3%nat 2%nat)). apply dmult; apply H; lia.
      + apply (@is_derive_opp _ _ (fun t => c t 1%nat 2%nat * (c t 2%nat 1%nat * c t 3%nat 3%nat - c t 2%nat 3%nat * c t 3%nat 1%nat))).
        apply dmult; [apply H; lia|]. apply (dplus _ (fun t => - (c t 2%nat 3%nat * c t 3%nat 1%nat))); [apply dmult; apply H; lia|].
        apply (@is_derive_opp _ _ (fun t => c t 2%nat 3%nat * c t 3%nat 1%nat)). apply dmult; apply H; lia.
    - apply (dplus _ (fun t => - (c t 2%nat 2%nat * c t 3%nat 1%nat))); [apply dmult; apply H; lia|].
      apply (@is_derive_opp _ _ (fun t => c t 2%nat 2%nat * c t 3%nat 1%nat)). apply dmult; apply H; lia. }
  cbv beta. rewrite !E by lia. cbv [opp]. cbn [R_AbsRing AbsRing.AbelianGroup]. unfold det3, mul3, tr3. cbn. ring.
Qed.

(** The inverse of a path: d(F^-1) = - F^-1 L. *)
Lemma inv3_path F L c : det3 F <> 0 -> path F L c ->
  forall i j, (1 <= i <= 3)%nat -> (1 <= j <= 3)%nat -> is_derive (fun t => inv3 (c t) i j) 0 (- mul3 (inv3 F) L i j).
Proof.
  intros N P.
  assert (X : forall i j, (1 <= i <= 3)%nat -> (1 <= j <= 3)%nat -> ex_derive (fun t => inv3 (c t) i j) 0).
  { assert (D : ex_derive (fun t => / det3 (c t)) 0).
    { eexists. apply (is_derive_inv (fun t => det3 (c t))); [apply (det3_path F L c P)|]. destruct P as [E _].
      replace (det3 (c 0)) with (det3 F); [exact N|]. unfold det3. rewrite !E by lia. reflexivity. }
    assert (H : forall i j, (1 <= i <= 3)%nat -> (1 <= j <= 3)%nat -> ex_derive (fun t => c t i j) 0) by (intros i j Hi Hj; eexists; apply (proj2 P); assumption).
    assert (M : forall (f g : R -> R), ex_derive f 0 -> ex_derive g 0 -> ex_derive (fun t => f t * g t) 0) by (intros; apply @ex_derive_mult; assumption).
    assert (S0 : forall (f g : R -> R), ex_derive f 0 -> ex_derive g 0 -> ex_derive (fun t => f t - g t) 0) by (intros; apply @ex_derive_minus; assumption).
    intros i j Hi Hj. unfold inv3.
    idx i; idx j; (apply (M (fun t => _ - _) (fun t => / det3 (c t))); [|exact D]); apply S0; apply M; apply H; lia. }
  pose proof (proj1 P) as E0. pose proof (proj2 P) as D0.
  assert (NZ : locally 0 (fun t => det3 (c t) <> 0)).
  { assert (C : continuous (fun t => det3 (c t)) 0) by (apply (@ex_derive_continuous R_AbsRing); eexists; apply (det3_path F L c P)).
    apply (C (fun y => y <> 0)). replace (det3 (c 0)) with (det3 F) by (unfold det3; rewrite !E0 by lia; reflexivity).
    apply (open_neq 0). exact N. }
  assert (XD : exists D : t3, forall i j, (1 <= i <= 3)%nat -> (1 <= j <= 3)%nat -> is_derive (fun t => inv3 (c t) i j) 0 (D i j)).
  { exists (fun i j => Derive (fun t => inv3 (c t) i j) 0). intros i j Hi Hj. apply Derive_correct, X; assumption. }
  destruct XD as [D DD]. clear X.
  (* differentiate inv(c) c = 1 *)
  assert (Q : forall i j, (1 <= i <= 3)%nat -> (1 <= j <= 3)%nat -> mul3 D F i j + mul3 (inv3 F) (mul3 L F) i j = 0).
  { intros i j Hi Hj.
    assert (K1 : is_derive (fun t => mul3 (inv3 (c t)) (c t) i j) 0 (mul3 D F i j + mul3 (inv3 F) (mul3 L F) i j)).
    { assert (I0 : forall a b, (1 <= a <= 3)%nat -> (1 <= b <= 3)%nat -> inv3 (c 0) a b = inv3 F a b).
      { intros a b Ha Hb. unfold inv3, det3. idx a; idx b; rewrite !E0 by lia; reflexivity. }
      unfold mul3 at 1. eapply dv; cycle 1.
      { apply (dplus (fun t => inv3 (c t) i 1%nat * c t 1%nat j + inv3 (c t) i 2%nat * c t 2%nat j) (fun t => inv3 (c t) i 3%nat * c t 3%nat j)).
        - apply (dplus (fun t => inv3 (c t) i 1%nat * c t 1%nat j) (fun t => inv3 (c t) i 2%nat * c t 2%nat j));
            apply dmult; [apply DD; lia|apply D0; lia|apply DD; lia|apply D0; lia].
        - apply dmult; [apply DD; lia|apply D0; lia]. }
      cbv beta. rewrite !I0, !E0 by lia. unfold mul3. ring. }
    assert (K2 : is_derive (fun t => mul3 (inv3 (c t)) (c t) i j) 0 0).
    { apply (is_derive_ext_loc (fun _ => kron i j)); [|apply dconst].
      apply (filter_imp (fun t => det3 (c t) <> 0)); [|exact NZ]. intros t H. symmetry. apply inv3_l; assumption. }
    rewrite <- (is_derive_unique _ _ _ K1). exact (is_derive_unique _ _ _ K2). }
  intros i j Hi Hj. eapply dv; [|apply DD; assumption].
  (* multiply by F^-1 from the right *)
  pose proof (inv3_r F N) as FR.
  assert (Y : mul3 (fun a b => mul3 D F a b + mul3 (inv3 F) (mul3 L F) a b) (inv3 F) i j = D i j + mul3 (inv3 F) L i j).
  { assert (A1 : mul3 (mul3 D F) (inv3 F) i j = D i j).
    { rewrite <- mul3_assoc. unfold mul3 at 1. rewrite !FR by lia. idx j; unfold kron; cbn; ring. }
    assert (A2 : mul3 (mul3 (inv3 F) (mul3 L F)) (inv3 F) i j = mul3 (inv3 F) L i j).
    { rewrite <- mul3_assoc.
      assert (Z : forall m, (1 <= m <= 3)%nat -> mul3 (mul3 L F) (inv3 F) m j = L m j).
      { intros m Hm. rewrite <- mul3_assoc. unfold mul3 at 1. rewrite !FR by lia. idx j; unfold kron; cbn; ring. }
      unfold mul3 at 1. rewrite !Z by lia. reflexivity. }
    rewrite <- A1, <- A2. unfold mul3. ring. }
  assert (Z : mul3 (fun a b => mul3 D F a b + mul3 (inv3 F) (mul3 L F) a b) (inv3 F) i j = 0).
  { unfold mul3 at 1. rewrite !Q by lia. ring. }
  lra.
Qed.

Lemma rpow_derive (f : R -> R) a : 0 < f 0 -> is_derive f 0 a -> is_derive (fun t => Rpower (f t) (1 / 3)) 0 (Rpower (f 0) (1 / 3) * (a / (3 * f 0))).
Proof.
  intros P D. unfold Rpower.
  assert (L : is_derive (fun t => ln (f t)) 0 (a / f 0)).
  { eapply dv; [|apply (is_derive_comp ln f 0 (/ f 0) a); [|exact D]]; [unfold scal; cbn; unfold mult; cbn; field; lra|].
    apply is_derive_Reals. apply derivable_pt_lim_ln. exact P. }
  eapply dv; [|apply (is_derive_comp exp (fun t => 1 / 3 * ln (f t)) 0 (exp (1 / 3 * ln (f 0))) (1 / 3 * (a / f 0)))].
  - unfold scal; cbn; unfold mult; cbn. field. lra.
  - apply is_derive_Reals. apply derivable_pt_lim_exp.
  - apply dscal. exact L.
Qed.
Lemma cube_root x : 0 < x -> Rpower x (1 / 3) ^ 3 = x.
Proof. intros P. rewrite <- Rpower_pow by apply exp_pos. rewrite Rpower_mult. replace (1 / 3 * INR 3) with 1 by (cbn; field). apply Rpower_1. exact P. Qed.
Lemma det3_ext A B : eq3 A B -> det3 A = det3 B.
Proof. intros E. unfold det3. rewrite !E by lia. reflexivity. Qed.
Lemma det_withVolume th F : 0 < th -> 0 < det3 F -> det3 (withVolume th F) = th.
Proof.
  intros A B. transitivity (Rpower (th / det3 F) (1 / 3) ^ 3 * det3 F).
  - unfold withVolume. set (J := det3 F). generalize (Rpower (th / J) (1 / 3)). intros r. subst J. unfold det3. ring.
  - rewrite cube_root; [field; lra|]. now apply Rdiv_lt_0_compat.
Qed.

(** The volume-corrected path. *)
Lemma scaled_path F L c (th : R -> R) th' : path F L c -> 0 < det3 F -> 0 < th 0 -> is_derive th 0 th' ->
  path (withVolume (th 0) F) (fun i j => L i j + kron i j * ((th' / th 0 - tr3 L) / 3)) (fun t => withVolume (th t) (c t)).
Proof.
  intros P N T D. pose proof (proj1 P) as E0. pose proof (proj2 P) as D0.
  assert (dE : det3 (c 0) = det3 F) by (apply det3_ext; exact E0).
  assert (Q : is_derive (fun t => th t / det3 (c t)) 0 (th 0 / det3 F * (th' / th 0 - tr3 L))).
  { eapply dv; cycle 1.
    - apply (dmult th (fun t => / det3 (c t))); [exact D|]. apply (is_derive_inv (fun t => det3 (c t))); [apply (det3_path F L c P)|]. rewrite dE. lra.
    - cbv beta. rewrite dE. cbn. field. split; lra. }
  assert (R0 : is_derive (fun t => Rpower (th t / det3 (c t)) (1 / 3)) 0 (Rpower (th 0 / det3 F) (1 / 3) * ((th' / th 0 - tr3 L) / 3))).
  { eapply dv; cycle 1.
    - apply (rpow_derive (fun t => th t / det3 (c t))); [rewrite dE; now apply Rdiv_lt_0_compat|exact Q].
    - cbv beta. rewrite dE. field. repeat split; lra. }
  split.
  - intros i j Hi Hj. unfold withVolume. rewrite E0, dE by assumption. reflexivity.
  - intros i j Hi Hj. unfold withVolume. eapply dv; cycle 1.
    + apply (dmult (fun t => c t i j) (fun t => Rpower (th t / det3 (c t)) (1 / 3))); [apply D0; assumption|exact R0].
    + cbv beta. rewrite E0, dE by assumption. unfold mul3. generalize (Rpower (th 0 / det3 F) (1 / 3)). intros r.
      idx i; unfold kron; cbn [Nat.eqb]; ring.
Qed.

(** Deviator and rates. *)
Definition dev (s : t3) : t3 := fun i j => s i j - kron i j * (tr3 s / 3).
Definition volRate (L : t3) (r : R) : t3 := fun i j => L i j + kron i j * ((r - tr3 L) / 3).
(** Engineering strain rates and the modified volume rate. *)
Definition e7 (L : t3) (b : R) (r : nat) : R :=
  match r with
  | 1%nat => L 1%nat 1%nat | 2%nat => L 2%nat 2%nat | 3%nat => L 3%nat 3%nat
  | 4%nat => L 1%nat 2%nat + L 2%nat 1%nat | 5%nat => L 2%nat 3%nat + L 3%nat 2%nat | 6%nat => L 1%nat 3%nat + L 3%nat 1%nat
  | 7%nat => b | _ => 0 end.
Definition kgForm (s Lq L : t3) : R :=
  sumf 3 (fun k => sumf 3 (fun i => sumf 3 (fun j => Lq k i * s i j * L k j))).
Definition d7Form (D : nat -> nat -> R) (x y : nat -> R) : R := sumf 7 (fun r => sumf 7 (fun q => x r * D r q * y q)).

Definition split6 (x : nat -> R) (k : nat) : R := sumf 7 (fun r => splitCol k r * x r).
Lemma split_form D x y :
  sumf 7 (fun r => sumf 7 (fun q => x r * sumf 6 (fun k => sumf 6 (fun l => splitCol k r * D k l * splitCol l q)) * y q))
  = sumf 6 (fun k => split6 x k * mv 6 D (split6 y) k).
Proof.
  transitivity (sumf 7 (fun r => sumf 6 (fun k => x r * splitCol k r * mv 6 D (split6 y) k))).
  - apply sumf_ext. intros r _.
    transitivity (sumf 7 (fun q => sumf 6 (fun k => sumf 6 (fun l => x r * splitCol k r * D k l * (splitCol l q * y q))))).
    { apply sumf_ext. intros q _. rewrite <- sumf_scal, <- sumf_scal_r. apply sumf_ext. intros k _. rewrite <- sumf_scal, <- sumf_scal_r. apply sumf_ext. intros l _. ring. }
    rewrite sumf_swap. apply sumf_ext. intros k _. rewrite sumf_swap. unfold mv. rewrite <- sumf_scal. apply sumf_ext. intros l _.
    unfold split6. rewrite <- sumf_scal, <- sumf_scal. apply sumf_ext. intros q _. ring.
  - rewrite sumf_swap. apply sumf_ext. intros k _. unfold split6. rewrite sumf_scal_r. f_equal. apply sumf_ext. intros r _. ring.
Qed.
Definition restForm (s : nat -> R) (pbar p : R) (i j : nat) : R :=
  match (i =? 7)%nat, (j =? 7)%nat with
  | false, false => - mvec i * s j - s i * mvec j + (p - 2 / 3 * pbar) * mvec i * mvec j + (pbar - p) * twoI0 i j
  | true, false => s j
  | false, true => s i
  | true, true => - pbar / 3
  end.
Lemma projected_form D sg pbar p x y : d7Form (projected D sg pbar p) x y
  = sumf 6 (fun k => split6 x k * mv 6 D (split6 y) k) + d7Form (restForm (fun k => 2 / 3 * (sg k - pbar * mvec k)) pbar p) x y.
Proof.
  rewrite <- split_form. unfold d7Form. rewrite <- sumf_plus. apply sumf_ext. intros r _. rewrite <- sumf_plus. apply sumf_ext. intros q _.
  unfold projected, restForm. ring.
Qed.

(** The Kirchhoff stress rate (divided by the volume change) along the corrected path. *)
Definition rate (C : nat -> nat -> R) (S : t3) (Lb : t3) : t3 := fun i j => apply6 C (sympart Lb) i j + mul3 Lb S i j + mul3 S (trn Lb) i j.
Definition sym3 (s : t3) : Prop := s 2%nat 1%nat = s 1%nat 2%nat /\ s 3%nat 2%nat = s 2%nat 3%nat /\ s 3%nat 1%nat = s 1%nat 3%nat.

Lemma split_e7 L b k : (1 <= k <= 6)%nat ->
  split6 (e7 L b) k = (if (k <=? 3)%nat then tovoigt (sympart (volRate L b)) k else 2 * tovoigt (sympart (volRate L b)) k).
Proof.
  intros Hk. unfold split6, sympart, volRate, tr3. idx k; cbn [sumf e7 tovoigt Nat.leb]; unfold splitCol, mvec, kron; cbn; field.
Qed.

Theorem point_identity C S Lq L bq b P : sym3 S ->
  ddot3 (dev (rate C S (volRate L b))) Lq - ddot3 (dev S) (mul3 Lq L) + P * (tr3 L * tr3 Lq - tr3 (mul3 Lq L))
    + (tr3 (rate C S (volRate L b)) / 3 - tr3 S / 3 * b) * bq
  = kgForm (fun i j => S i j + kron i j * (P - tr3 S / 3)) Lq L + d7Form (projected C (tovoigt S) (tr3 S / 3) P) (e7 Lq bq) (e7 L b).
Proof.
  intros [S1 [S2 S3]]. rewrite projected_form.
  set (y := mv 6 C (fun k => if (k <=? 3)%nat then tovoigt (sympart (volRate L b)) k else 2 * tovoigt (sympart (volRate L b)) k)).
  assert (Y : sumf 6 (fun k => split6 (e7 Lq bq) k * mv 6 C (split6 (e7 L b)) k) =
    sumf 6 (fun k => (if (k <=? 3)%nat then tovoigt (sympart (volRate Lq bq)) k else 2 * tovoigt (sympart (volRate Lq bq)) k) * y k)).
  { apply sumf_ext. intros k Hk. rewrite split_e7 by assumption. f_equal. unfold y, mv. apply sumf_ext. intros l Hl. rewrite split_e7 by assumption. reflexivity. }
  rewrite Y. clear Y.
  assert (R0 : forall i j, rate C S (volRate L b) i j = y (voigt i j) + mul3 (volRate L b) S i j + mul3 S (trn (volRate L b)) i j) by reflexivity.
  unfold ddot3, dev, tr3. cbv beta. rewrite !R0. clear R0. clearbody y.
  unfold d7Form, kgForm, restForm, e7, sympart, volRate, mul3, trn, tr3, kron, mvec, twoI0. cbn.
  rewrite S1, S2, S3. field.
Qed.
