(** The mixed element: residual as energy derivative, stiffness as residual derivative. *)
From Coquelicot Require Import Coquelicot.
From Coq Require Import FunctionalExtensionality.
From Verif Require Import Lib.Base Lib.Sums Lib.Writes Lib.Congruence Lib.Tensor3 Model.Continuum Model.Mixed Model.MxElement Spec.Continuum Spec.Mixed Spec.MxElement
  Proofs.Continuum Proofs.ContinuumK Proofs.ContinuumAxi Proofs.Mixed Proofs.Mixed3 Proofs.MxPure Proofs.MxList Proofs.MxPoint.
Open Scope R_scope.

Lemma sumL_map {A B} (g : A -> B) (f : B -> R) l : sumL f (map g l) = sumL (fun a => f (g a)) l.
Proof. induction l as [|a l IH]; [reflexivity|]. unfold sumL in *. cbn. rewrite IH. reflexivity. Qed.

(** ** The moment matrix *)
Section Moments.
Variables (k : kind) (m : nat) (ps : list mxIn) (Hi : nat -> nat -> R).
Hypothesis HM : modesInverse k m ps Hi.
Let M i l := sumL (fun p => volume k p * iPhi p i * iPhi p l) ps.
Lemma M_sym i l : M i l = M l i. Proof. apply sumL_ext. intros. ring. Qed.
Lemma Hi_left i j : (1 <= i <= m)%nat -> (1 <= j <= m)%nat -> sumf m (fun l => Hi l i * M l j) = kron i j.
Proof. intros H1 H2. pose proof (HM j i H2 H1) as E. change (sumf m (fun l => M j l * Hi l i) = kron j i) in E. rewrite (sumf_ext m _ (fun l => M j l * Hi l i)) by (intros l _; rewrite (M_sym l j); ring). rewrite E. unfold kron. now rewrite Nat.eqb_sym. Qed.
Lemma Hi_sym : symH m Hi.
Proof.
  intros i j H1 H2. symmetry.
  transitivity (sumf m (fun a => sumf m (fun b => Hi a i * M a b * Hi b j))).
  - transitivity (sumf m (fun a => kron a j * Hi a i)).
    + symmetry. apply (sumf_kron m j (fun a => Hi a i)). exact H2.
    + apply sumf_ext. intros a Ha. rewrite (sumf_ext m _ (fun b => Hi a i * (M a b * Hi b j))) by (intros; ring). rewrite sumf_scal. unfold M. rewrite HM by assumption. ring.
  - rewrite sumf_swap. transitivity (sumf m (fun b => kron b i * Hi b j)); [|apply (sumf_kron m i (fun b => Hi b j)); exact H1].
    apply sumf_ext. intros b Hb. rewrite sumf_scal_r, Hi_left by assumption. unfold kron. now rewrite Nat.eqb_sym.
Qed.
Lemma projection_unique J th p : projection k m ps J th -> In p ps -> th p = proj ps m iPhi Hi (fun h => volume k h * J h) p.
Proof.
  intros [[c Hc] Ho] Ip. rewrite Hc by exact Ip. unfold proj. apply sumf_ext. intros i Hi1. f_equal.
  assert (E : forall j, (1 <= j <= m)%nat -> sumL (fun h => volume k h * J h * iPhi h j) ps = sumf m (fun l => M j l * c l)).
  { intros j Hj. rewrite (sumL_ext _ (fun p => volume k p * iPhi p j * J p)) by (intros; ring). rewrite <- Ho by exact Hj.
    rewrite (sumL_ext _ (fun p => sumf m (fun l => volume k p * iPhi p j * iPhi p l * c l))).
    - rewrite sumL_sumf_swap. apply sumf_ext. intros l _. unfold M. symmetry. apply sumL_scal_r.
    - intros q Hq. rewrite Hc by exact Hq. rewrite <- sumf_scal. apply sumf_ext. intros. ring. }
  transitivity (sumf m (fun l => kron l i * c l)); [symmetry; apply (sumf_kron m i c); exact Hi1|].
  transitivity (sumf m (fun l => sumf m (fun j => Hi j i * M j l) * c l)).
  { apply sumf_ext. intros l Hl. rewrite Hi_left by assumption. unfold kron. now rewrite Nat.eqb_sym. }
  transitivity (sumf m (fun l => sumf m (fun j => Hi j i * M j l * c l))).
  { apply sumf_ext. intros l _. symmetry. apply sumf_scal_r. }
  rewrite sumf_swap. apply sumf_ext. intros j Hj. rewrite E by exact Hj. rewrite <- sumf_scal. rewrite (Hi_sym i j) by assumption. apply sumf_ext. intros. ring.
Qed.
End Moments.

(** ** Linear functionals *)
Lemma lin_sumf d n N (f : nat -> nat -> nat -> R) u : lin d n (fun a m => sumf N (fun t => f t a m)) u = sumf N (fun t => lin d n (f t) u).
Proof.
  unfold lin. transitivity (sumf n (fun a => sumf N (fun t => sumf d (fun m => f t a m * u (dof d a m))))).
  - apply sumf_ext. intros a _. rewrite sumf_swap. apply sumf_ext. intros m _. rewrite sumf_scal_r. reflexivity.
  - apply sumf_swap.
Qed.
Lemma lin_scal d n c f u : lin d n (fun a m => c * f a m) u = c * lin d n f u.
Proof. unfold lin. rewrite <- sumf_scal. apply sumf_ext. intros a _. rewrite <- sumf_scal. apply sumf_ext. intros m _. ring. Qed.
Lemma lin_ext d n f g u : (forall a m, f a m = g a m) -> lin d n f u = lin d n g u.
Proof. intros E. unfold lin. apply sumf_ext. intros a _. apply sumf_ext. intros m _. rewrite E. reflexivity. Qed.
Lemma lin_sumL {A} d n (f : A -> nat -> nat -> R) l u : lin d n (fun a m => sumL (fun p => f p a m) l) u = sumL (fun p => lin d n (f p) u) l.
Proof.
  induction l as [|p l IH].
  - unfold sumL. cbn. unfold lin. apply sumf_0. intros a _. apply sumf_0. intros m _. ring.
  - unfold sumL in *. cbn. rewrite <- IH. unfold lin. rewrite <- sumf_plus. apply sumf_ext. intros a _. rewrite <- sumf_plus. apply sumf_ext. intros m _. ring.
Qed.
Lemma lin_plus d n f g u : lin d n (fun a m => f a m + g a m) u = lin d n f u + lin d n g u.
Proof. unfold lin. rewrite <- sumf_plus. apply sumf_ext. intros a _. rewrite <- sumf_plus. apply sumf_ext. intros m _. ring. Qed.
Lemma lin_trace k n x v : lin (kdim k) n (grd (toMx k x)) v = tr3 (spat k n x v).
Proof.
  cbn [grd toMx]. unfold tr3, spat. destruct k; cbn [kdim isAxi andb Nat.leb Nat.eqb].
  - unfold lin, gradient. rewrite <- !sumf_plus. apply sumf_ext. intros a _. cbn [sumf]. unfold dof. ring.
  - unfold lin, gradient. rewrite <- !sumf_plus. rewrite Rplus_0_r. apply sumf_ext. intros a _. cbn [sumf]. unfold dof. ring.
  - unfold lin, gradient, interp. rewrite <- !sumf_plus. apply sumf_ext. intros a _. cbn [sumf Nat.eqb]. unfold dof. ring.
Qed.

(** ** Extensionality *)
Lemma tr3_ext X Y : eq3 X Y -> tr3 X = tr3 Y. Proof. intros E. unfold tr3. rewrite !E by lia. reflexivity. Qed.
Lemma ddot3_ext X Y X' Y' : eq3 X X' -> eq3 Y Y' -> ddot3 X Y = ddot3 X' Y'.
Proof. intros A B. unfold ddot3. rewrite !A, !B by lia. reflexivity. Qed.
Lemma kg_ext s s' X X' Y Y' : eq3 s s' -> eq3 X X' -> eq3 Y Y' -> kgForm s X Y = kgForm s' X' Y'.
Proof. intros A B C. unfold kgForm. cbn [sumf]. rewrite !A, !B, !C by lia. reflexivity. Qed.
Lemma hc_ext k s s' X X' Y Y' : eq3 s s' -> eq3 X X' -> eq3 Y Y' -> hoopComp k s X Y = hoopComp k s' X' Y'.
Proof. intros A B C. unfold hoopComp. destruct (isAxi k); [|reflexivity]. rewrite (A 3%nat 3%nat), (B 3%nat 3%nat), (C 3%nat 3%nat) by lia. reflexivity. Qed.
Lemma e7_ext X X' b b' : eq3 X X' -> b = b' -> forall r, e7 X b r = e7 X' b' r.
Proof. intros A -> r. unfold e7. rewrite !A by lia. reflexivity. Qed.
Lemma d7_ext D D' x x' y y' : (forall i j, (1 <= i <= 7)%nat -> (1 <= j <= 7)%nat -> D i j = D' i j) -> (forall r, x r = x' r) -> (forall r, y r = y' r) -> d7Form D x y = d7Form D' x' y'.
Proof. intros A B C. unfold d7Form. apply sumf_ext. intros r Hr. apply sumf_ext. intros q Hq. rewrite A, B, C by assumption. reflexivity. Qed.
Lemma d7_scal c D x y : d7Form (fun i j => D i j * c) x y = c * d7Form D x y.
Proof. unfold d7Form. rewrite <- sumf_scal. apply sumf_ext. intros r _. rewrite <- sumf_scal. apply sumf_ext. intros q _. ring. Qed.
Lemma tovoigt_ext X Y r : eq3 X Y -> tovoigt X r = tovoigt Y r. Proof. intros E. unfold tovoigt. rewrite !E by lia. reflexivity. Qed.
Lemma eq3_sym X Y : eq3 X Y -> eq3 Y X. Proof. intros E i j Hi Hj. symmetry. now apply E. Qed.
Lemma withVolume_ext th X Y : eq3 X Y -> eq3 (withVolume th X) (withVolume th Y).
Proof. intros E i j Hi Hj. unfold withVolume. rewrite (det3_ext X Y E), E by assumption. reflexivity. Qed.

(** ** The element at a given displacement *)
Section Element.
Variables (k : kind) (n m : nat) (Hi : nat -> nat -> R) (stress : mxIn -> t3 -> t3) (tangent : mxIn -> t3 -> nat -> nat -> R) (isz : t3 -> bool) (ps : list mxIn) (u : nat -> R).
Hypothesis Hn : (1 <= n)%nat.
Hypothesis Hx : forall p, In p ps -> isAxi k = true -> epsR < iX p.
Hypothesis H1 : m = 1%nat -> forall p, In p ps -> iPhi p 1%nat = 1.
Hypothesis Hse : forall p X Y, In p ps -> eq3 X Y -> eq3 (stress p X) (stress p Y).
Hypothesis Hss : forall p X, In p ps -> sym3 (stress p X).
Hypothesis Hz : forall s, isz s = true -> eq3 s (fun _ _ => 0).
Let F p := deformation k n p u.
Let th := proj ps m iPhi Hi (fun h => volume k h * det3 (F h)).
Hypothesis HJ : forall p, In p ps -> 0 < det3 (F p).
Hypothesis HT : forall p, In p ps -> 0 < th p.

Definition ptAt (p : mxIn) : mpt := match evalPt k n p u with Ret x => x | _ => mkMpt p kron (fun _ => 0) (fun _ _ => 0) 0 end.
Lemma ptAt_ok p : In p ps -> evalPt k n p u = Ret (ptAt p) /\ isPt k n p u (ptAt p).
Proof.
  intros Ip. destruct (evalPt_ok k n p u Hn (Hx p Ip) ltac:(pose proof (HJ p Ip) as J0; unfold F in J0; lra)) as [x [E P]].
  unfold ptAt. rewrite E. split; [reflexivity|exact P].
Qed.
Let xs := map ptAt ps.
Lemma evalPts_ok : evalPts k n ps u = Ret xs.
Proof.
  unfold xs. assert (H : forall l, incl l ps -> evalPts k n l u = Ret (map ptAt l)).
  { induction l as [|p l IH]; intros Hl; [reflexivity|]. cbn [evalPts map]. rewrite (proj1 (ptAt_ok p (Hl p (or_introl eq_refl)))). cbn [bind].
    rewrite IH by (intros q Hq; apply Hl; now right). reflexivity. }
  apply H. apply incl_refl.
Qed.
Lemma dF p : In p ps -> det3 (pF (ptAt p)) = det3 (F p).
Proof. intros Ip. apply det3_ext. apply (ptF _ _ _ _ _ (proj2 (ptAt_ok p Ip))). Qed.
Lemma pin p : In p ps -> pIn (ptAt p) = p.
Proof. intros Ip. apply (ptIn _ _ _ _ _ (proj2 (ptAt_ok p Ip))). Qed.
Lemma pw p : In p ps -> pW (ptAt p) = volume k p.
Proof. intros Ip. apply (ptW _ _ _ _ _ (proj2 (ptAt_ok p Ip))). Qed.

Lemma theta_ok p : In p ps -> theta k m Hi xs (ptAt p) = th p.
Proof.
  intros Ip. unfold theta, xs.
  assert (G : mxTheta m Hi (map (toMx k) (map ptAt ps)) (toMx k (ptAt p)) = th p).
  { unfold mxTheta, th, proj, mxJ1. apply sumf_ext. intros i _. cbn [phi toMx]. rewrite pin by exact Ip. f_equal. apply sumf_ext. intros j _. f_equal.
    rewrite !sumL_map. apply sumL_ext. intros h Ih. cbn [phi detF wgt toMx]. rewrite pin, dF, pw by exact Ih. ring. }
  destruct (Nat.eqb_spec m 1) as [E|_]; [|exact G].
  assert (A1 : forall q, In q (map (toMx k) (map ptAt ps)) -> phi q 1%nat = 1).
  { intros q Hq. rewrite map_map in Hq. apply in_map_iff in Hq. destruct Hq as [r [<- Hr]]. cbn [phi toMx]. rewrite pin by exact Hr. now apply H1. }
  assert (A2 : phi (toMx k (ptAt p)) 1%nat = 1) by (cbn [phi toMx]; rewrite pin by exact Ip; now apply H1).
  rewrite <- (proj1 (mx_shortcut (Hi 1%nat 1%nat) _ _ A1 A2)). rewrite <- G, E. unfold mxTheta. cbn [sumf]. reflexivity.
Qed.

(** Spatial gradients. *)
Definition Lv (v : nat -> R) (p : mxIn) : t3 := mul3 (dispGrad k n p v) (inv3 (deformation k n p u)).
Lemma spat_ok v p : In p ps -> eq3 (spat k n (ptAt p) v) (Lv v p).
Proof. intros Ip. apply (ptG _ _ _ _ _ (proj2 (ptAt_ok p Ip))). Qed.

Lemma bar_ok v p : In p ps -> barOf k n (gradBar k m Hi xs (ptAt p)) v = proj ps m iPhi Hi (fun h => volume k h * (det3 (F h) * tr3 (Lv v h))) p / th p.
Proof.
  intros Ip. pose proof (HT p Ip) as Tp. unfold gradBar, xs.
  assert (GG : forall j, lin (kdim k) n (fun a c => mxG (map (toMx k) (map ptAt ps)) j a c) v = sumL (fun h => volume k h * (det3 (F h) * tr3 (Lv v h)) * iPhi h j) ps).
  { intros j. unfold mxG. rewrite lin_sumL, !sumL_map. apply sumL_ext. intros h Ih. rewrite lin_scal, lin_trace, (tr3_ext _ _ (spat_ok v h Ih)).
    cbn [phi detF wgt toMx]. rewrite pin, dF, pw by exact Ih. ring. }
  pose proof (theta_ok p Ip) as TH.
  assert (G : mxTheta m Hi (map (toMx k) (map ptAt ps)) (toMx k (ptAt p)) = th p ->
    barOf k n (mxBar m Hi (map (toMx k) (map ptAt ps)) (toMx k (ptAt p))) v = proj ps m iPhi Hi (fun h => volume k h * (det3 (F h) * tr3 (Lv v h))) p / th p).
  { intros TM. unfold barOf, mxBar. rewrite TM. unfold proj. unfold Rdiv. rewrite <- sumf_scal_r. rewrite lin_sumf. apply sumf_ext. intros i _.
    rewrite (lin_ext _ _ _ (fun a c => phi (toMx k (ptAt p)) i * / th p * sumf m (fun j => Hi i j * mxG (map (toMx k) (map ptAt ps)) j a c))) by (intros; ring).
    rewrite lin_scal, lin_sumf. cbn [phi toMx]. rewrite pin by exact Ip.
    rewrite (sumf_ext m _ (fun j => Hi i j * sumL (fun h => volume k h * (det3 (F h) * tr3 (Lv v h)) * iPhi h j) ps)) by (intros; rewrite lin_scal, GG; reflexivity). ring. }
  unfold theta, xs in TH. destruct (Nat.eqb_spec m 1) as [E|_]; [|now apply G].
  assert (A1 : forall q, In q (map (toMx k) (map ptAt ps)) -> phi q 1%nat = 1).
  { intros q Hq. rewrite map_map in Hq. apply in_map_iff in Hq. destruct Hq as [r [<- Hr]]. cbn [phi toMx]. rewrite pin by exact Hr. now apply H1. }
  assert (A2 : phi (toMx k (ptAt p)) 1%nat = 1) by (cbn [phi toMx]; rewrite pin by exact Ip; now apply H1).
  destruct (mx_shortcut (Hi 1%nat 1%nat) _ _ A1 A2) as [S1 S2].
  assert (T1 : mxTheta m Hi (map (toMx k) (map ptAt ps)) (toMx k (ptAt p)) = th p) by (rewrite E; unfold mxTheta in *; cbn [sumf] in *; rewrite S1; exact TH).
  rewrite <- (G T1). unfold barOf, lin. apply sumf_ext. intros a _. apply sumf_ext. intros c _. f_equal.
  unfold mxTheta1 in TH.
  rewrite <- S2.
  - rewrite E. unfold mxBar, mxTheta. cbn [sumf]. reflexivity.
  - intros C. rewrite C in TH. rewrite Rmult_0_r in TH. lra.
  - intros C. rewrite C in TH. rewrite Rmult_0_l in TH. lra.
Qed.

Lemma Fbar_ok p : In p ps -> eq3 (Fbar (theta k m Hi xs (ptAt p)) (ptAt p)) (withVolume (th p) (F p)).
Proof.
  intros Ip i j Ii Ij. pose proof (HT p Ip) as Tp. pose proof (HJ p Ip) as Jp. unfold Fbar, mxF, withVolume. rewrite theta_ok, dF by exact Ip.
  rewrite (ptF _ _ _ _ _ (proj2 (ptAt_ok p Ip)) i j Ii Ij). f_equal.
  pose proof (Rdiv_lt_0_compat _ _ Tp Jp) as Q. rewrite Rabs_pos_eq by lra. unfold cpow. destruct (Req_EM_T (th p / det3 (F p)) 0); [lra|reflexivity].
Qed.
Definition Sp (p : mxIn) : t3 := stress p (withVolume (th p) (F p)).
Lemma sig_ok p : In p ps -> eq3 (sigAt k m Hi stress xs (ptAt p)) (Sp p).
Proof. intros Ip. unfold sigAt, Sp. rewrite pin by exact Ip. apply Hse; [exact Ip|]. now apply Fbar_ok. Qed.

Definition tot (p : mxIn) : t3 := total ps m (volume k) iPhi Hi Sp (fun h => det3 (F h)) th p.
Lemma haveStress_no : haveStress k m Hi stress isz xs = false -> forall p, In p ps -> eq3 (Sp p) (fun _ _ => 0).
Proof.
  intros E p Ip i j Ii Ij. rewrite <- sig_ok by assumption.
  destruct (isz (sigAt k m Hi stress xs (ptAt p))) eqn:Z; [now apply (Hz _ Z)|].
  exfalso. assert (C : haveStress k m Hi stress isz xs = true); [|congruence].
  unfold haveStress. apply existsb_exists. exists (ptAt p). split; [apply in_map; exact Ip|]. now rewrite Z.
Qed.
Lemma press_ok p : In p ps -> press k m Hi stress isz xs (ptAt p) = meanProj ps m (volume k) iPhi Hi Sp p * det3 (F p) / th p.
Proof.
  intros Ip. unfold press. destruct (haveStress k m Hi stress isz xs) eqn:E.
  - rewrite theta_ok, dF by exact Ip. f_equal. f_equal. unfold meanProj, proj. apply sumf_ext. intros i _. rewrite pin by exact Ip. f_equal. unfold hsig. apply sumf_ext. intros j _. f_equal.
    unfold sigm. unfold xs at 3. rewrite sumL_map. apply sumL_ext. intros h Ih. rewrite pin, pw by exact Ih.
    rewrite <- (tr3_ext _ _ (sig_ok h Ih)). destruct (isz (sigAt k m Hi stress xs (ptAt h))) eqn:Z; [|field].
    pose proof (Hz _ Z) as Z0. unfold tr3. rewrite !Z0 by lia. field.
  - pose proof (haveStress_no E) as Z. replace (meanProj ps m (volume k) iPhi Hi Sp p) with 0; [unfold Rdiv; ring|].
    unfold meanProj. rewrite (proj_ext ps m iPhi Hi _ (fun _ => 0)).
    + unfold proj. symmetry. apply sumf_0. intros i _. rewrite sumf_0; [ring|]. intros j _. rewrite (sumL_ext _ (fun _ => 0 * 0)) by (intros; ring). rewrite sumL_scal. ring.
    + intros h Ih. unfold tr3. rewrite !(Z h Ih) by lia. field.
Qed.
Lemma bpres_ok p : In p ps -> bpres k m Hi stress isz xs (ptAt p) = tr3 (Sp p) / 3.
Proof.
  intros Ip. unfold bpres. destruct (haveStress k m Hi stress isz xs) eqn:E.
  - now rewrite (tr3_ext _ _ (sig_ok p Ip)).
  - unfold tr3. rewrite !(haveStress_no E p Ip) by lia. field.
Qed.
Lemma sigma_ok p : In p ps -> eq3 (sigma k m Hi stress isz xs (ptAt p)) (tot p).
Proof. intros Ip i j Ii Ij. unfold sigma, tot, total. rewrite sig_ok, press_ok, bpres_ok by assumption. reflexivity. Qed.
Lemma tot_sym p : In p ps -> sym3 (tot p).
Proof. intros Ip. destruct (Hss p (withVolume (th p) (F p)) Ip) as [A [B C]]. unfold sym3, tot, total, Sp, kron. cbn. rewrite A, B, C. repeat split; ring. Qed.
Lemma tot_zero p : In p ps -> haveStress k m Hi stress isz xs = false -> eq3 (tot p) (fun _ _ => 0).
Proof.
  intros Ip E i j Ii Ij. rewrite <- sigma_ok by assumption. unfold sigma, press, bpres. rewrite E. rewrite sig_ok by assumption. rewrite (haveStress_no E p Ip) by assumption. ring.
Qed.

Definition Cp (p : mxIn) : nat -> nat -> R := tangent p (Fbar (theta k m Hi xs (ptAt p)) (ptAt p)).
Definition barv (v : nat -> R) (p : mxIn) : R := proj ps m iPhi Hi (fun h => volume k h * (det3 (F h) * tr3 (Lv v h))) p / th p.
Definition ptStiff (q v : nat -> R) (p : mxIn) : R :=
  volume k p * th p * (kgForm (tot p) (Lv q p) (Lv v p) - hoopComp k (tot p) (Lv q p) (Lv v p)
   + d7Form (projected (Cp p) (tovoigt (Sp p)) (tr3 (Sp p) / 3) (meanProj ps m (volume k) iPhi Hi Sp p * det3 (F p) / th p)) (e7 (Lv q p) (barv q p)) (e7 (Lv v p) (barv v p))).
Definition ptForce (v : nat -> R) (p : mxIn) : R := volume k p * th p * ddot3 (tot p) (Lv v p).

Theorem addPt_ok p st : In p ps -> rows (fst st) = (kdim k * n)%nat -> cols (fst st) = (kdim k * n)%nat ->
  exists st', addPt k n m Hi stress tangent isz xs (ptAt p) st = Ret st' /\ rows (fst st') = (kdim k * n)%nat /\ cols (fst st') = (kdim k * n)%nat /\
    (forall q v, bil (kdim k * n) (el (fst st')) q v = bil (kdim k * n) (el (fst st)) q v + ptStiff q v p) /\
    (forall v, sumf (kdim k * n) (fun i => (snd st i - snd st' i) * v i) = ptForce v p).
Proof.
  intros Ip HR HC. unfold addPt. cbv zeta.
  set (dV := theta k m Hi xs (ptAt p) * pW (ptAt p)).
  assert (DV : dV = volume k p * th p) by (unfold dV; rewrite theta_ok, pw by exact Ip; ring).
  set (D := fun i j => addVolumetric (tangent (pIn (ptAt p)) (Fbar (theta k m Hi xs (ptAt p)) (ptAt p))) (tovoigt (sigAt k m Hi stress xs (ptAt p))) (bpres k m Hi stress isz xs (ptAt p)) (press k m Hi stress isz xs (ptAt p)) i j * dV).
  assert (KG : exists K1, (if haveStress k m Hi stress isz xs then formKG (curElm k n (ptAt p)) 1 (sigma k m Hi stress isz xs (ptAt p)) dV (fst st) else Ret (fst st)) = Ret K1 /\
    rows K1 = (kdim k * n)%nat /\ cols K1 = (kdim k * n)%nat /\
    forall q v, bil (kdim k * n) (el K1) q v = bil (kdim k * n) (el (fst st)) q v + dV * (kgForm (tot p) (Lv q p) (Lv v p) - hoopComp k (tot p) (Lv q p) (Lv v p))).
  { destruct (haveStress k m Hi stress isz xs) eqn:E.
    - destruct (kg_form k n (ptAt p) (sigma k m Hi stress isz xs (ptAt p)) dV (fst st) HR HC) as [K1 [E1 [R1 [C1 e1]]]].
      exists K1. split; [exact E1|]. split; [congruence|]. split; [congruence|]. intros q v. rewrite e1. f_equal. f_equal.
      rewrite (kg_ext _ _ _ _ _ _ (sigma_ok p Ip) (spat_ok q p Ip) (spat_ok v p Ip)), (hc_ext k _ _ _ _ _ _ (sigma_ok p Ip) (spat_ok q p Ip) (spat_ok v p Ip)). reflexivity.
    - exists (fst st). split; [reflexivity|]. split; [exact HR|]. split; [exact HC|]. intros q v.
      rewrite (kg_ext _ (fun _ _ => 0) _ (Lv q p) _ (Lv v p) (tot_zero p Ip E)) by (intros i j _ _; reflexivity).
      rewrite (hc_ext k _ (fun _ _ => 0) _ (Lv q p) _ (Lv v p) (tot_zero p Ip E)) by (intros i j _ _; reflexivity).
      unfold kgForm, hoopComp. cbn [sumf]. destruct (isAxi k); [destruct (Rlt_dec 0 0)|]; ring. }
  destruct KG as [K1 [E1 [R1 [C1 e1]]]]. rewrite E1. cbn [bind].
  destruct (acc_form k n (ptAt p) (gradBar k m Hi xs (ptAt p)) D K1 R1 C1) as [K2 [E2 [R2 [C2 e2]]]].
  rewrite E2. cbn [bind].
  assert (EK : forall q v, bil (kdim k * n) (el K2) q v = bil (kdim k * n) (el (fst st)) q v + ptStiff q v p).
  { intros q v. rewrite e2, e1. rewrite Rplus_assoc. f_equal. unfold ptStiff. rewrite <- DV, Rmult_plus_distr_l. f_equal.
    rewrite <- d7_scal. apply d7_ext.
    - intros i j Ii Ij. unfold D. rewrite addVolumetric_ok by assumption. f_equal. rewrite press_ok, bpres_ok, pin by exact Ip. unfold projected, Cp.
      unfold xs. destruct (i =? 7)%nat, (j =? 7)%nat; rewrite ?(fun r => tovoigt_ext _ _ r (sig_ok p Ip)); reflexivity.
    - apply e7_ext; [now apply spat_ok|now apply bar_ok].
    - apply e7_ext; [now apply spat_ok|now apply bar_ok]. }
  destruct (haveStress k m Hi stress isz xs) eqn:E.
  - assert (SS : sym3 (sigma k m Hi stress isz xs (ptAt p))).
    { destruct (tot_sym p Ip) as [A [B C]]. unfold sym3. rewrite !(sigma_ok p Ip) by lia. auto. }
    destruct (force_form k n (ptAt p) (sigma k m Hi stress isz xs (ptAt p)) (- dV) SS) as [B [EB eB]]. rewrite EB. cbn [bind].
    eexists. split; [reflexivity|]. cbn [fst snd]. split; [congruence|]. split; [congruence|]. split; [exact EK|]. intros v.
    unfold ptForce. rewrite <- DV, <- (ddot3_ext _ _ _ _ (sigma_ok p Ip) (spat_ok v p Ip)).
    transitivity (- sumf (kdim k * n) (fun i => sumf (nstr k) (fun r => el B r i * (stressVec k (sigma k m Hi stress isz xs (ptAt p)) r * - dV)) * v i)).
    + replace (- sumf (kdim k * n) (fun i => sumf (nstr k) (fun r => el B r i * (stressVec k (sigma k m Hi stress isz xs (ptAt p)) r * - dV)) * v i))
        with (-1 * sumf (kdim k * n) (fun i => sumf (nstr k) (fun r => el B r i * (stressVec k (sigma k m Hi stress isz xs (ptAt p)) r * - dV)) * v i)) by ring.
      rewrite <- sumf_scal. apply sumf_ext. intros i _. ring.
    + rewrite eB. ring.
  - eexists. split; [reflexivity|]. cbn [fst snd]. split; [congruence|]. split; [congruence|]. split; [exact EK|]. intros v.
    unfold ptForce. rewrite (ddot3_ext _ (Lv v p) (fun _ _ => 0) (Lv v p) (tot_zero p Ip E)) by (intros i j _ _; reflexivity).
    rewrite sumf_0 by (intros; ring). unfold ddot3. ring.
Qed.

Theorem element_ok st : rows (fst st) = (kdim k * n)%nat -> cols (fst st) = (kdim k * n)%nat ->
  exists st', mxElement k n m Hi stress tangent isz ps u st = Ret st' /\ rows (fst st') = (kdim k * n)%nat /\ cols (fst st') = (kdim k * n)%nat /\
    (forall q v, bil (kdim k * n) (el (fst st')) q v = bil (kdim k * n) (el (fst st)) q v + sumL (ptStiff q v) ps) /\
    (forall v, sumf (kdim k * n) (fun i => (snd st i - snd st' i) * v i) = sumL (ptForce v) ps).
Proof.
  intros HR HC. unfold mxElement. rewrite evalPts_ok. cbn [bind]. unfold xs at 2.
  assert (H : forall l, incl l ps -> forall st, rows (fst st) = (kdim k * n)%nat -> cols (fst st) = (kdim k * n)%nat ->
    exists st', addPts k n m Hi stress tangent isz xs (map ptAt l) st = Ret st' /\ rows (fst st') = (kdim k * n)%nat /\ cols (fst st') = (kdim k * n)%nat /\
    (forall q v, bil (kdim k * n) (el (fst st')) q v = bil (kdim k * n) (el (fst st)) q v + sumL (ptStiff q v) l) /\
    (forall v, sumf (kdim k * n) (fun i => (snd st i - snd st' i) * v i) = sumL (ptForce v) l)).
  { induction l as [|p l IH]; intros Hl s0 R0 C0.
    - exists s0. cbn. repeat split; try assumption; intros; unfold sumL; cbn; [ring|]. apply sumf_0. intros; ring.
    - cbn [map addPts]. destruct (addPt_ok p s0 (Hl p (or_introl eq_refl)) R0 C0) as [s1 [E1 [R1 [C1 [k1 f1]]]]]. rewrite E1. cbn [bind].
      destruct (IH (fun q Hq => Hl q (or_intror Hq)) s1 R1 C1) as [s2 [E2 [R2 [C2 [k2 f2]]]]].
      exists s2. split; [exact E2|]. split; [exact R2|]. split; [exact C2|]. split.
      + intros q v. rewrite k2, k1. unfold sumL. cbn. ring.
      + intros v. change (sumL (ptForce v) (p :: l)) with (ptForce v p + sumL (ptForce v) l). rewrite <- f1, <- f2, <- sumf_plus. apply sumf_ext. intros. ring. }
  apply H; [apply incl_refl|assumption|assumption].
Qed.
End Element.

(** ** Paths *)
Lemma dispGrad_move k n p u v t i j : dispGrad k n p (moved u v t) i j = dispGrad k n p u i j + t * dispGrad k n p v i j.
Proof.
  unfold dispGrad, moved. destruct ((i <=? kdim k) && (j <=? kdim k))%nat%bool.
  - unfold gradient. rewrite <- sumf_scal, <- sumf_plus. apply sumf_ext. intros. ring.
  - destruct (isAxi k && (i =? 3)%nat && (j =? 3)%nat)%bool; [|ring]. unfold interp. unfold Rdiv.
    rewrite <- !sumf_scal_r, <- sumf_scal, <- sumf_plus. apply sumf_ext. intros. ring.
Qed.
Lemma moved_0 u v : moved u v 0 = u.
Proof. apply functional_extensionality. intros i. unfold moved. ring. Qed.
Lemma def_path k n p u v : det3 (deformation k n p u) <> 0 -> path (deformation k n p u) (Lv k n u v p) (fun t => deformation k n p (moved u v t)).
Proof.
  intros N. split.
  - rewrite moved_0. intros i j _ _. reflexivity.
  - intros i j Ii Ij. unfold Lv.
    assert (E : mul3 (mul3 (dispGrad k n p v) (inv3 (deformation k n p u))) (deformation k n p u) i j = dispGrad k n p v i j).
    { rewrite <- mul3_assoc. unfold mul3 at 1. rewrite !(inv3_l _ N) by lia. idx j; unfold kron; cbn; ring. }
    rewrite E. apply (dext (fun t => (kron i j + dispGrad k n p u i j) + t * dispGrad k n p v i j)).
    + intros t. unfold deformation. rewrite dispGrad_move. ring.
    + eapply dv; cycle 1.
      * apply (dplus (fun _ => kron i j + dispGrad k n p u i j) (fun t => t * dispGrad k n p v i j)); [apply dconst|apply dscal_r; apply (is_derive_id 0)].
      * cbn. ring.
Qed.

Section Final.
Variables (k : kind) (n m : nat) (Hi : nat -> nat -> R) (stress : mxIn -> t3 -> t3) (tangent : mxIn -> t3 -> nat -> nat -> R) (isz : t3 -> bool) (ps : list mxIn).
Hypothesis (VI : validInput k n m ps Hi) (VM : validMaterial ps stress isz).
Lemma vsym p X : In p ps -> sym3 (stress p X).
Proof. intros Ip. repeat split; apply (vmSym _ _ _ VM); lia || assumption. Qed.

Theorem mx_energy W u v th st : rows (fst st) = (kdim k * n)%nat -> cols (fst st) = (kdim k * n)%nat ->
  (forall t, projection k m ps (fun p => det3 (deformation k n p (moved u v t))) (th t)) ->
  (forall p, In p ps -> 0 < det3 (deformation k n p u) /\ 0 < th 0 p) ->
  (forall p X, In p ps -> 0 < det3 X -> stressOf (W p) X (stress p X)) ->
  exists st', mxElement k n m Hi stress tangent isz ps u st = Ret st' /\
    is_derive (fun t => mxEnergy k n ps W (th t) (moved u v t)) 0 (work (kdim k * n) (snd st) (snd st') v).
Proof.
  intros HR HC Hth Hpos HW. pose proof (viInverse _ _ _ _ _ VI) as HM. pose proof (Hi_sym k m ps Hi HM) as HS.
  assert (U : forall t p, In p ps -> th t p = proj ps m iPhi Hi (fun h => volume k h * det3 (deformation k n h (moved u v t))) p)
    by (intros t p Ip; apply (projection_unique k m ps Hi HM _ _ p (Hth t) Ip)).
  assert (J0 : forall p, In p ps -> 0 < det3 (deformation k n p u)) by (intros p Ip; apply Hpos; exact Ip).
  assert (T0 : forall p, In p ps -> 0 < proj ps m iPhi Hi (fun h => volume k h * det3 (deformation k n h u)) p).
  { intros p Ip. pose proof (proj2 (Hpos p Ip)) as P0. rewrite U in P0 by exact Ip. rewrite moved_0 in P0. exact P0. }
  destruct (element_ok k n m Hi stress tangent isz ps u (viNodes _ _ _ _ _ VI) (viAxis _ _ _ _ _ VI) (viOne _ _ _ _ _ VI) (vmExt _ _ _ VM) vsym (vmZero _ _ _ VM) J0 T0 st HR HC)
    as [st' [E [_ [_ [_ f]]]]].
  exists st'. split; [exact E|]. unfold work. rewrite f.
  set (c := fun (p : mxIn) t => deformation k n p (moved u v t)).
  assert (V0 : vol ps m (volume k) iPhi Hi c 0 = proj ps m iPhi Hi (fun h => volume k h * det3 (deformation k n h u))) by (unfold vol, c; rewrite moved_0; reflexivity).
  assert (D := energy_work ps m (volume k) iPhi Hi (fun p => deformation k n p u) (Lv k n u v) c HS
    (fun p Ip => def_path k n p u v (Rgt_not_eq _ _ (J0 p Ip))) J0 ltac:(rewrite V0; exact T0) W (Sp k n m Hi stress ps u)).
  rewrite V0 in D. specialize (D ltac:(intros p Ip; apply HW; [exact Ip|]; rewrite det_withVolume by auto; auto)).
  apply (dext (fun t => sumL (fun p => volume k p * W p (cv ps m (volume k) iPhi Hi c p t)) ps)).
  - intros t. unfold mxEnergy. apply sumL_ext. intros p Ip. unfold cv, vol. rewrite U by exact Ip. reflexivity.
  - exact D.
Qed.

Lemma tangent_ext s X Y C : (forall A B, eq3 A B -> eq3 (s A) (s B)) -> eq3 X Y -> tangentOf s X C -> tangentOf s Y C.
Proof.
  intros Hs E T L c [P0 P1] i j Ii Ij.
  assert (P : path X L c).
  { split; [intros a b Ha Hb; rewrite P0, E by assumption; reflexivity|]. intros a b Ha Hb. eapply dv; [|apply P1; assumption]. unfold mul3. rewrite !E by lia. reflexivity. }
  eapply dv; [|exact (T L c P i j Ii Ij)]. rewrite (det3_ext _ _ E). unfold mul3. rewrite !(Hs _ _ E) by lia. reflexivity.
Qed.

Theorem mx_tangent u q v th pr st : rows (fst st) = (kdim k * n)%nat -> cols (fst st) = (kdim k * n)%nat ->
  projection k m ps (fun p => det3 (deformation k n p u)) th ->
  projection k m ps (fun p => tr3 (stress p (withVolume (th p) (deformation k n p u))) / 3) pr ->
  (forall p, In p ps -> 0 < det3 (deformation k n p u) /\ 0 < th p) ->
  (forall p X, In p ps -> 0 < det3 X -> tangentOf (stress p) X (tangent p X)) ->
  exists st' f, mxElement k n m Hi stress tangent isz ps u st = Ret st' /\
    locally 0 (fun t => exists s1, mxElement k n m Hi stress tangent isz ps (moved u v t) st = Ret s1 /\ work (kdim k * n) (snd st) (snd s1) q = f t) /\
    is_derive f 0 (bil (kdim k * n) (fun i j => el (fst st') i j - el (fst st) i j) q v
      + (if isAxi k then sumL (fun p => volume k p * th p *
          Rmin 0 (mixedStress (stress p (withVolume (th p) (deformation k n p u))) (det3 (deformation k n p u)) (th p) (pr p) 3%nat 3%nat)
          * hoopRate n p u q * hoopRate n p u v) ps else 0)).
Proof.
  intros HR HC Hth Hpr Hpos HTg. pose proof (viInverse _ _ _ _ _ VI) as HM. pose proof (Hi_sym k m ps Hi HM) as HS.
  set (T := proj ps m iPhi Hi (fun h => volume k h * det3 (deformation k n h u))).
  assert (U : forall p, In p ps -> th p = T p) by (intros p Ip; apply (projection_unique k m ps Hi HM _ _ p Hth Ip)).
  assert (J0 : forall p, In p ps -> 0 < det3 (deformation k n p u)) by (intros p Ip; apply Hpos; exact Ip).
  assert (T0 : forall p, In p ps -> 0 < T p) by (intros p Ip; rewrite <- U by exact Ip; apply Hpos; exact Ip).
  pose proof (viNodes _ _ _ _ _ VI) as Hn. pose proof (viAxis _ _ _ _ _ VI) as Hx. pose proof (viOne _ _ _ _ _ VI) as H1.
  destruct (element_ok k n m Hi stress tangent isz ps u Hn Hx H1 (vmExt _ _ _ VM) vsym (vmZero _ _ _ VM) J0 T0 st HR HC) as [st' [E [_ [_ [kf _]]]]].
  set (c := fun (p : mxIn) t => deformation k n p (moved u v t)).
  assert (V0 : vol ps m (volume k) iPhi Hi c 0 = T) by (unfold vol, c; rewrite moved_0; reflexivity).
  assert (PA : forall p, In p ps -> path (deformation k n p u) (Lv k n u v p) (c p)) by (intros p Ip; apply def_path; pose proof (J0 p Ip); lra).
  assert (Hv : forall p, In p ps -> 0 < vol ps m (volume k) iPhi Hi c 0 p) by (rewrite V0; exact T0).
  exists st'. exists (fun t => sumL (ptForce k n m Hi stress ps (moved u v t) q) ps). split; [exact E|]. split.
  - assert (A1 : locally 0 (fun t => forall p, In p ps -> 0 < vol ps m (volume k) iPhi Hi c t p /\ 0 < det3 (c p t))).
    { apply locally_all. intros p Ip. apply (filter_and (fun t => 0 < vol ps m (volume k) iPhi Hi c t p)).
      - apply (locally_pos (fun t => vol ps m (volume k) iPhi Hi c t p) (dvol ps m (volume k) iPhi Hi (fun p => deformation k n p u) (Lv k n u v) p)); [apply vol_derive; exact PA|now apply Hv].
      - apply (locally_pos (fun t => det3 (c p t)) (det3 (deformation k n p u) * tr3 (Lv k n u v p))); [apply det3_path; now apply PA|]. unfold c. rewrite moved_0. now apply J0. }
    revert A1. apply filter_imp. intros t Ht.
    destruct (element_ok k n m Hi stress tangent isz ps (moved u v t) Hn Hx H1 (vmExt _ _ _ VM) vsym (vmZero _ _ _ VM) (fun p Ip => proj2 (Ht p Ip)) (fun p Ip => proj1 (Ht p Ip)) st HR HC) as [s1 [E1 [_ [_ [_ f1]]]]].
    exists s1. split; [exact E1|]. unfold work. apply f1.
  - assert (D := tangent_work ps m (volume k) iPhi Hi (fun p => deformation k n p u) (Lv k n u v) c HS PA J0 Hv (fun p => dispGrad k n p q) stress (Cp k n m Hi tangent ps u)).
    specialize (D ltac:(intros p Ip; unfold c; rewrite moved_0; reflexivity)).
    specialize (D ltac:(intros p Ip; rewrite V0; apply (tangent_ext (stress p) (Fbar (theta k m Hi (map (ptAt k n u) ps) (ptAt k n u p)) (ptAt k n u p)));
      [intros; now apply (vmExt _ _ _ VM)|apply Fbar_ok; assumption|apply HTg; [exact Ip|]; rewrite (det3_ext _ _ (Fbar_ok k n m Hi ps u Hn Hx H1 J0 T0 p Ip)); rewrite det_withVolume; auto])).
    specialize (D ltac:(intros p Ip; apply vsym; exact Ip)).
    eapply dv; [|exact D]. rewrite V0.
    assert (ES : forall p, In p ps -> St ps m (volume k) iPhi Hi c stress 0 p = Sp k n m Hi stress ps u p).
    { intros p Ip. unfold St, Sp, cv, c. rewrite moved_0. fold c. rewrite V0. reflexivity. }
    assert (EM : forall p, In p ps -> meanProj ps m (volume k) iPhi Hi (St ps m (volume k) iPhi Hi c stress 0) p = meanProj ps m (volume k) iPhi Hi (Sp k n m Hi stress ps u) p).
    { intros p Ip. unfold meanProj. apply proj_ext. intros h Ih. rewrite ES by exact Ih. reflexivity. }
    assert (EL : forall p, Lt c (fun p => dispGrad k n p q) 0 p = Lv k n u q p) by (intros p; unfold Lt, Lv, c; rewrite moved_0; reflexivity).
    transitivity (sumL (fun p => ptStiff k n m Hi stress tangent ps u q v p + volume k p * T p * hoopComp k (tot k n m Hi stress ps u p) (Lv k n u q p) (Lv k n u v p)) ps).
    { apply sumL_ext. intros p Ip. unfold ptStiff, MxList.pr, volq, dvol. unfold total. rewrite EL, ES, EM by exact Ip.
      fold T. unfold barv. fold T.
      assert (Q : proj ps m iPhi Hi (fun h => volume k h * (det3 (deformation k n h u) * tr3 (Lt c (fun p0 => dispGrad k n p0 q) 0 h))) p =
        proj ps m iPhi Hi (fun h => volume k h * (det3 (deformation k n h u) * tr3 (Lv k n u q h))) p) by (apply proj_ext; intros h _; rewrite EL; reflexivity).
      rewrite Q, V0. unfold tot, total. fold T. ring. }
    rewrite sumL_plus. f_equal.
    + assert (B : forall A A', bil (kdim k * n) (fun i j => A i j - A' i j) q v = bil (kdim k * n) A q v - bil (kdim k * n) A' q v).
      { intros A A'. unfold bil, mv. unfold Rminus at 2. replace (- sumf (kdim k * n) (fun i => q i * sumf (kdim k * n) (fun j => A' i j * v j))) with (-1 * sumf (kdim k * n) (fun i => q i * sumf (kdim k * n) (fun j => A' i j * v j))) by ring.
        rewrite <- sumf_scal, <- sumf_plus. apply sumf_ext. intros i _.
        rewrite (sumf_ext (kdim k * n) (fun j => (A i j - A' i j) * v j) (fun j => A i j * v j + -1 * (A' i j * v j))) by (intros; ring). rewrite sumf_plus, sumf_scal. ring. }
      rewrite B, kf. ring_simplify. reflexivity.
    + unfold hoopComp. destruct (isAxi k) eqn:AX.
      * apply sumL_ext. intros p Ip.
        assert (EP : forall w, Lv k n u w p 3%nat 3%nat = hoopRate n p u w).
        { intros w. destruct k; try discriminate. pose proof (Hx p Ip eq_refl) as X0. pose proof epsR_pos as EPS. pose proof (J0 p Ip) as JP.
          assert (O : forall i, (1 <= i <= 2)%nat -> deformation Axi n p u i 3%nat = 0 /\ deformation Axi n p u 3%nat i = 0) by (intros; apply deformation_off; [discriminate|assumption]).
          assert (D33 : deformation Axi n p u 3%nat 3%nat = 1 + interp 2 n (iN p) u 1 / iX p) by (unfold deformation, dispGrad, kron; cbn; ring).
          set (A := deformation Axi n p u) in *.
          assert (dA : det3 A = (A 1%nat 1%nat * A 2%nat 2%nat - A 1%nat 2%nat * A 2%nat 1%nat) * A 3%nat 3%nat).
          { unfold det3. rewrite (proj1 (O 1%nat ltac:(lia))), (proj1 (O 2%nat ltac:(lia))), (proj2 (O 1%nat ltac:(lia))), (proj2 (O 2%nat ltac:(lia))). ring. }
          assert (N2 : A 1%nat 1%nat * A 2%nat 2%nat - A 1%nat 2%nat * A 2%nat 1%nat <> 0) by (intros C; rewrite C in dA; lra).
          assert (N3 : A 3%nat 3%nat <> 0) by (intros C; rewrite C in dA; lra).
          assert (I33 : inv3 A 3%nat 3%nat = / A 3%nat 3%nat) by (unfold inv3; rewrite dA; field; split; assumption).
          unfold Lv. fold A. unfold mul3. rewrite I33. unfold dispGrad. cbn [kdim isAxi Nat.leb Nat.eqb andb]. unfold hoopRate.
          assert (N4 : iX p + interp 2 n (iN p) u 1 <> 0).
          { intros C. apply N3. rewrite D33. replace (1 + interp 2 n (iN p) u 1 / iX p) with ((iX p + interp 2 n (iN p) u 1) / iX p) by (field; lra). rewrite C. unfold Rdiv. ring. }
          rewrite D33. field. repeat split; lra. }
        rewrite !EP. rewrite (U p Ip).
        assert (S3 : tot k n m Hi stress ps u p 3%nat 3%nat = mixedStress (stress p (withVolume (T p) (deformation k n p u))) (det3 (deformation k n p u)) (T p) (pr p) 3%nat 3%nat).
        { unfold tot, total, mixedStress, Sp. fold T. rewrite (projection_unique k m ps Hi HM _ pr p Hpr Ip).
          unfold meanProj. rewrite (proj_ext ps m iPhi Hi (fun h => volume k h * (tr3 (stress h (withVolume (th h) (deformation k n h u))) / 3)) (fun h => volume k h * (tr3 (Sp k n m Hi stress ps u h) / 3))); [reflexivity|].
          intros h Ih. unfold Sp. fold T. rewrite U by exact Ih. reflexivity. }
        rewrite S3. unfold Rmin. set (s := mixedStress _ _ _ _ 3%nat 3%nat). destruct (Rle_dec 0 s), (Rlt_dec 0 s); try lra; try ring. replace s with 0 by lra. ring.
      * rewrite (sumL_ext _ (fun _ => 0 * 0)) by (intros; ring). rewrite sumL_scal. ring.
Qed.
End Final.
