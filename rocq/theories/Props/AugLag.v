(** C142: the contact conditions hold in a converged augmented Lagrange state.
    C143: the contact matrix is the derivative of the contact forces. *)
From Verif Require Import Lib.Base Lib.Sums Lib.Writes Model.Mortar Proofs.Mortar Proofs.MortarTan Model.AugLag Spec.AugLag Proofs.AugLag Props.Contact.
Import ListNotations.

Lemma law_closed eps g l : 0 < eps -> l + eps * g <= 0 -> contactLaw g l -> g = 0.
Proof.
  intros He C [E [F G]]. destruct (Rle_lt_or_eq_dec 0 g E) as [H|H]; [|now symmetry]. exfalso.
  apply Rmult_integral in G. destruct G as [G|G]; [|lra]. rewrite G in C. assert (0 < eps * g) by now apply Rmult_lt_0_compat. lra.
Qed.
Lemma law_open eps g l : 0 < eps -> ~ l + eps * g <= 0 -> contactLaw g l -> l = 0.
Proof. intros He C [E [F G]]. apply Rmult_integral in G. destruct G as [G|G]; [exact G|]. rewrite G in C. lra. Qed.
Lemma div_zero eps l a : 0 < eps -> 0 < a -> l / eps * a = 0 -> l = 0.
Proof. intros He Ha E. replace l with (l / eps * a * (eps / a)) by (field; lra). rewrite E. ring. Qed.
Lemma law_iff_closed eps g l a : 0 < eps -> 0 < a -> l + eps * g <= 0 -> (- g * a = 0 <-> contactLaw g l).
Proof.
  intros He Ha C. split.
  - intros E. assert (G : g = 0) by (apply Rmult_integral in E; lra). rewrite G in *. repeat split; lra.
  - intros H. rewrite (law_closed eps g l He C H). ring.
Qed.
Lemma law_iff_open eps g l a : 0 < eps -> 0 < a -> ~ l + eps * g <= 0 -> (l / eps * a = 0 <-> contactLaw g l).
Proof.
  intros He Ha C. split.
  - intros E. apply div_zero in E; try assumption. rewrite E in *. assert (0 <= g). { apply Rnot_lt_le. intros H. apply C. assert (0 < eps * - g) by (apply Rmult_lt_0_compat; lra). lra. }
    repeat split; lra.
  - intros H. rewrite (law_open eps g l He C H). unfold Rdiv. ring.
Qed.

Lemma Rabs_bound x t : Rabs x <= t -> - t <= x <= t.
Proof. intros H. assert (A := Rle_abs x). assert (B := Rle_abs (- x)). rewrite Rabs_Ropp in B. lra. Qed.

(** ** C142 *)

(** Equations are formed exactly if each slave node with an area has a multiplier. *)
Theorem C142_formed : forall nsd nNod nSlv eps lag els psol first it old, (1 <= nsd)%nat -> (forall e, In e els -> goodElm nNod nSlv e) ->
  ((forall n, (1 <= n <= nSlv)%nat -> 0 < nodeArea els n -> lag n = true) -> exists s, contactSystem nsd nNod nSlv eps lag els psol first it old = Ret s) /\
  ((exists n, (1 <= n <= nSlv)%nat /\ 0 < nodeArea els n /\ lag n = false) -> contactSystem nsd nNod nSlv eps lag els psol first it old = Rejected).
Proof.
  intros nsd nNod nSlv eps lag els psol first it old Hd Good.
  assert (W : forall e, In e els -> wfElm nNod nSlv e) by (intros e He; apply (ge_wf _ _ e (Good e He))).
  unfold contactSystem. destruct (vec_entries nNod nSlv elmAA els W) as [A [EA _]]. change (mortarAA nSlv els = Ret A) in EA.
  destruct (vec_entries nNod nSlv elmGap els W) as [G [EG _]]. change (mortarSum nSlv els = Ret G) in EG. destruct (phi_entries nsd nNod nSlv els W) as [P [EP _]].
  rewrite EA, EG, EP. cbn [bind]. set (AA := fun n => el A n 1). set (wg := weightedGap AA (fun n => el G n 1)). set (act := alActive first it nSlv eps AA wg lag psol old). set (lambda := lambdaOf AA lag psol).
  destruct (assembleR_entries nsd nNod nSlv eps lambda wg act els (zeros (nsd * nNod) 1) W eq_refl eq_refl) as [R [ER _]]. rewrite ER. cbn [bind].
  destruct (assembleUL_entries nsd nNod nSlv eps lambda wg act els (zeros (nsd * nNod) nSlv) W eq_refl eq_refl) as [U [EU _]]. rewrite EU. cbn [bind].
  destruct (assembleLU_entries nsd nNod nSlv eps lambda wg act els (zeros nSlv (nsd * nNod)) W eq_refl eq_refl) as [L [EL _]]. rewrite EL. cbn [bind].
  destruct (tangent_entries nsd nNod nSlv eps AA (el P) act Hd (zeros (nsd * nNod) (nsd * nNod)) eq_refl eq_refl) as [K [EK _]]. rewrite EK. cbn [bind].
  assert (HA : forall n, (1 <= n)%nat -> AA n = nodeArea els n) by (intros; now apply (area_entries nNod nSlv)).
  split.
  - intros H. replace (multOk nSlv AA lag) with true; [eexists; reflexivity|]. symmetry. apply forallb_forall. intros n Hn. apply in_seq in Hn. rewrite HA by lia.
    destruct (Rlt_dec 0 (nodeArea els n)); [apply H; [lia|assumption]|reflexivity].
  - intros [n [Hn [Pn Ln]]]. replace (multOk nSlv AA lag) with false; [reflexivity|]. symmetry. apply not_true_is_false. intros E. unfold multOk in E. rewrite forallb_forall in E.
    specialize (E n). rewrite in_seq in E. specialize (E ltac:(lia)). rewrite HA in E by lia. destruct (Rlt_dec 0 (nodeArea els n)); [congruence|contradiction].
Qed.

(** The residual of a multiplier vanishes exactly if the contact conditions hold at its node. *)
Theorem C142_conditions : forall nsd nNod nSlv eps lag els psol first it old s, (1 <= nsd)%nat -> 0 < eps ->
  (forall e, In e els -> goodElm nNod nSlv e) -> (first && (it =? 0)%nat)%bool = false ->
  contactSystem nsd nNod nSlv eps lag els psol first it old = Ret s ->
  forall n, (1 <= n <= nSlv)%nat ->
    (0 < nodeArea els n -> (Rl s n = 0 <-> contactLaw (meanGap els n) (psol n))) /\ (~ 0 < nodeArea els n -> Rl s n = 0).
Proof.
  intros nsd nNod nSlv eps lag els psol first it old s Hd He Good Later Sys n Hn.
  destruct (system_entries nsd nNod nSlv eps lag els psol first it old s Hd Good Later Sys) as [P [_ [_ [_ [_ [_ [_ [V _]]]]]]]].
  rewrite (V n Hn). unfold pushes. split; intros A; destruct (Rlt_dec 0 (nodeArea els n)) as [B|B]; try contradiction; [|reflexivity].
  destruct (Rle_dec (psol n + eps * meanGap els n) 0) as [C|C]; [now apply (law_iff_closed eps)|now apply (law_iff_open eps)].
Qed.

(** With a residual below a tolerance the conditions hold up to that tolerance over the area of the node. *)
Theorem C142_tolerance : forall nsd nNod nSlv eps lag els psol first it old s tol, (1 <= nsd)%nat -> 0 < eps ->
  (forall e, In e els -> goodElm nNod nSlv e) -> (first && (it =? 0)%nat)%bool = false ->
  contactSystem nsd nNod nSlv eps lag els psol first it old = Ret s ->
  forall n, (1 <= n <= nSlv)%nat -> 0 < nodeArea els n -> Rabs (Rl s n) <= tol ->
    - (tol / nodeArea els n) <= meanGap els n /\ psol n <= eps * (tol / nodeArea els n) /\
    (Rabs (meanGap els n) <= tol / nodeArea els n \/ Rabs (psol n) <= eps * (tol / nodeArea els n)).
Proof.
  intros nsd nNod nSlv eps lag els psol first it old s tol Hd He Good Later Sys n Hn A T.
  destruct (system_entries nsd nNod nSlv eps lag els psol first it old s Hd Good Later Sys) as [P [_ [_ [_ [_ [_ [_ [V _]]]]]]]].
  rewrite (V n Hn) in T. unfold pushes in T. destruct (Rlt_dec 0 (nodeArea els n)) as [B|B]; try contradiction.
  set (g := meanGap els n) in *. set (l := psol n) in *. set (a := nodeArea els n) in *. set (t := tol / a).
  assert (Ta : tol = t * a) by (unfold t; field; lra).
  destruct (Rle_dec (l + eps * g) 0) as [C|C].
  - assert (G : Rabs g <= t). { rewrite Rabs_mult, Rabs_Ropp, (Rabs_pos_eq a) in T by lra. nra. }
    assert (D := G). apply Rabs_bound in D. repeat split; [lra| |now left]. nra.
  - assert (L : Rabs l <= eps * t).
    { rewrite Rabs_mult, (Rabs_pos_eq a) in T by lra. unfold Rdiv in T. rewrite Rabs_mult, (Rabs_pos_eq (/ eps)) in T by (left; now apply Rinv_0_lt_compat).
      assert (Rabs l * / eps <= t) by nra. replace (Rabs l) with (eps * (Rabs l * / eps)) by (field; lra). nra. }
    assert (D := L). apply Rabs_bound in D. repeat split; [nra|lra|now right].
Qed.

(** Virtual work: the forces on the bodies are the compressive nodal forces acting through the mean gaps. *)
Theorem C142_work : forall nsd nNod nSlv eps lag els psol first it old s, (1 <= nsd)%nat ->
  (forall e, In e els -> goodElm nNod nSlv e) -> (first && (it =? 0)%nat)%bool = false ->
  contactSystem nsd nNod nSlv eps lag els psol first it old = Ret s ->
  forall du, sumf (nsd * nNod) (fun i => Ru s i * du i) =
    - sumf nSlv (fun n => if Rlt_dec 0 (nodeArea els n) then nodeForce eps els psol n * (nodeArea els n * (meanGap (map (moved nsd du) els) n - meanGap els n)) else 0).
Proof.
  intros nsd nNod nSlv eps lag els psol first it old s Hd Good Later Sys du.
  assert (W : forall e, In e els -> wfElm nNod nSlv e) by (intros e He; apply (ge_wf _ _ e (Good e He))).
  destruct (system_entries nsd nNod nSlv eps lag els psol first it old s Hd Good Later Sys) as [P [EP [_ [VR _]]]].
  rewrite (sumf_ext (nsd * nNod) _ (fun i => sumf nSlv (fun n => - (if pushes eps els psol n then psol n + eps * meanGap els n else 0) * (el P i n * du i)))).
  2:{ intros i Hi. destruct (dof_surj nsd nNod i Hi) as [a [k [Ha [Hk ->]]]]. rewrite VR by lia.
      rewrite Ropp_mult_distr_l_reverse, <- sumf_scal_r, <- sumf_opp. apply sumf_ext. intros; ring. }
  rewrite sumf_swap, <- sumf_opp. apply sumf_ext. intros n Hn. rewrite sumf_scal, (phi_motion nsd nNod nSlv els P n du W EP) by lia.
  unfold pushes. destruct (Rlt_dec 0 (nodeArea els n)) as [A|A]; [|ring]. unfold meanGap, nodeForce.
  replace (nodeArea (map (moved nsd du) els) n) with (nodeArea els n) by (symmetry; unfold nodeArea; now apply nodeSum_moved).
  change (nodeSum els gap n / nodeArea els n) with (meanGap els n). unfold Rmin.
  replace (nodeArea els n * (nodeSum (map (moved nsd du) els) gap n / nodeArea els n - meanGap els n)) with (nodeSum (map (moved nsd du) els) gap n - nodeSum els gap n) by (unfold meanGap; field; lra).
  destruct (Rle_dec (psol n + eps * meanGap els n) 0), (Rle_dec 0 (psol n + eps * meanGap els n)); try ring.
  - replace (psol n + eps * meanGap els n) with 0 by lra. ring.
  - lra.
Qed.
(** Contact never pulls: no work is needed for a motion which opens the mean gaps; and the forces are in balance. *)
Theorem C142_pushes : forall nsd nNod nSlv eps lag els psol first it old s, (1 <= nsd)%nat ->
  (forall e, In e els -> goodElm nNod nSlv e) -> (first && (it =? 0)%nat)%bool = false ->
  contactSystem nsd nNod nSlv eps lag els psol first it old = Ret s ->
  (forall du, (forall n, (1 <= n <= nSlv)%nat -> 0 < nodeArea els n -> meanGap els n <= meanGap (map (moved nsd du) els) n) -> 0 <= sumf (nsd * nNod) (fun i => Ru s i * du i)) /\
  (forall k, (1 <= k <= nsd)%nat -> sumf nNod (fun a => Ru s (dof nsd a k)) = 0).
Proof.
  intros nsd nNod nSlv eps lag els psol first it old s Hd Good Later Sys. split.
  - intros du H. rewrite (C142_work nsd nNod nSlv eps lag els psol first it old s Hd Good Later Sys du), <- sumf_opp. apply sumf_nonneg. intros n Hn.
    destruct (Rlt_dec 0 (nodeArea els n)) as [A|A]; [|lra]. specialize (H n Hn A). assert (F : nodeForce eps els psol n <= 0) by apply Rmin_l.
    assert (0 <= nodeArea els n * (meanGap (map (moved nsd du) els) n - meanGap els n)) by nra. nra.
  - intros k Hk. destruct (system_entries nsd nNod nSlv eps lag els psol first it old s Hd Good Later Sys) as [P [EP [_ [VR _]]]].
    rewrite (sumf_ext nNod _ (fun a => - sumf nSlv (fun n => (if pushes eps els psol n then psol n + eps * meanGap els n else 0) * el P (dof nsd a k) n))).
    2:{ intros a Ha. rewrite VR by lia. f_equal. apply sumf_ext. intros; ring. }
    rewrite sumf_opp, sumf_swap, sumf_0; [ring|]. intros n Hn. rewrite sumf_scal, (phi_balance nsd nNod nSlv els P k n Good EP) by lia. ring.
Qed.
(** In a state with vanishing multiplier residuals the nodal forces are the multipliers. *)
Theorem C142_force : forall nsd nNod nSlv eps lag els psol first it old s, (1 <= nsd)%nat -> 0 < eps ->
  (forall e, In e els -> goodElm nNod nSlv e) -> (first && (it =? 0)%nat)%bool = false ->
  contactSystem nsd nNod nSlv eps lag els psol first it old = Ret s ->
  forall n, (1 <= n <= nSlv)%nat -> 0 < nodeArea els n -> Rl s n = 0 -> nodeForce eps els psol n = psol n.
Proof.
  intros nsd nNod nSlv eps lag els psol first it old s Hd He Good Later Sys n Hn A Z.
  apply (C142_conditions nsd nNod nSlv eps lag els psol first it old s Hd He Good Later Sys n Hn) in Z; [|exact A].
  unfold nodeForce, Rmin. destruct (Rle_dec 0 (psol n + eps * meanGap els n)) as [B|B].
  - destruct (Req_dec (psol n + eps * meanGap els n) 0) as [E|E].
    + assert (G := law_closed eps _ _ He (Req_le _ _ E) Z). rewrite G in E. lra.
    + symmetry. apply (law_open eps (meanGap els n)); [exact He|lra|exact Z].
  - assert (B2 : psol n + eps * meanGap els n <= 0) by lra. rewrite (law_closed eps _ (psol n) He B2 Z). ring.
Qed.

(** Two bodies which touch the same slave node share its multiplier: the residual can vanish although the node has
    penetrated one of the bodies. *)
Theorem C142_two_bodies_refuted : exists bs lag psol,
  (forall b, In b bs -> 0 < beps b /\ 0 < barea b 1 /\ bact b = alActive false 1 1 (beps b) (barea b) (bgap b) lag psol []) /\
  multResidual bs lag psol 1 = 0 /\ exists b, In b bs /\ bgap b 1 < 0.
Proof.
  set (lag := fun _ : nat => true). set (psol := fun _ : nat => -1).
  set (b1 := mkBodyAL 1 (fun _ => 1) (fun _ => -1) (alActive false 1 1 1 (fun _ => 1) (fun _ => -1) lag psol [])).
  set (b2 := mkBodyAL 1 (fun _ => 1) (fun _ => 3) (alActive false 1 1 1 (fun _ => 1) (fun _ => 3) lag psol [])).
  exists [b1; b2], lag, psol. split; [|split].
  - intros b [<-|[<-|[]]]; cbn; repeat split; lra.
  - unfold multResidual, sumL. cbn [fold_right b1 b2 beps barea bgap bact]. unfold multRow. destruct (Rlt_dec 0 1); [|lra].
    unfold alActive. rewrite !active_char by lia. cbn [andb orb Nat.leb Nat.eqb]. unfold augmentedTest. destruct (Rlt_dec 0 1); [|lra]. cbn [lag].
    destruct (Rle_dec (psol 1%nat + 1 * -1) 0) as [|N]; [|exfalso; unfold psol in N; lra]. destruct (Rle_dec (psol 1%nat + 1 * 3) 0) as [B|]; [exfalso; unfold psol in B; lra|].
    cbn [orb fst]. unfold lambdaOf. destruct (Rlt_dec 0 1); [|lra]. cbn [lag]. unfold psol. field.
  - exists b1. split; [now left|]. cbn. lra.
Qed.
(** For one body the row is that of the system. *)
Theorem C142_one_body : forall eps A g lag psol n it, 0 < eps -> 0 < A n -> lag n = true -> (1 <= n)%nat ->
  multResidual [mkBodyAL eps A g (alActive false it n eps A g lag psol [])] lag psol n = 0 <-> contactLaw (g n) (psol n).
Proof.
  intros eps A g lag psol n it He HA Hl Hn. unfold multResidual, sumL. cbn [fold_right beps barea bgap bact]. unfold multRow, lambdaOf. destruct (Rlt_dec 0 (A n)); [|contradiction].
  unfold alActive. rewrite active_char by lia. cbn [andb]. rewrite orb_false_r, Nat.leb_refl. cbn [andb]. unfold augmentedTest. destruct (Rlt_dec 0 (A n)); [|contradiction]. rewrite Hl.
  destruct (Rle_dec (psol n + eps * g n) 0) as [C|C]; cbn [fst]; rewrite Rplus_0_r; [now apply (law_iff_closed eps)|now apply (law_iff_open eps)].
Qed.

(** ** C143 *)

(** The matrix of the contact equations is symmetric. *)
Theorem C143_symmetric : forall nsd nNod nSlv eps lag els psol first it old s, (1 <= nsd)%nat ->
  (forall e, In e els -> goodElm nNod nSlv e) -> (first && (it =? 0)%nat)%bool = false ->
  contactSystem nsd nNod nSlv eps lag els psol first it old = Ret s ->
  forall i j n, (1 <= i <= nsd * nNod)%nat -> (1 <= j <= nsd * nNod)%nat -> (1 <= n <= nSlv)%nat -> Kuu s i j = Kuu s j i /\ Kul s i n = Klu s n i.
Proof.
  intros nsd nNod nSlv eps lag els psol first it old s Hd Good Later Sys i j n Hi Hj Hn.
  destruct (system_entries nsd nNod nSlv eps lag els psol first it old s Hd Good Later Sys) as [P [EP [_ [_ [VU [VL [VK _]]]]]]].
  split.
  - rewrite !VK by assumption. apply sumf_ext. intros m _. destruct (pushes eps els psol m); ring.
  - destruct (dof_surj nsd nNod i Hi) as [a [k [Ha [Hk ->]]]]. rewrite VU, VL by lia. reflexivity.
Qed.

(** As long as the same nodes touch, the residual is affine and the matrix its derivative: a motion [du] with new multipliers
    changes the residual by the product of the matrix and the increment. *)
Theorem C143_tangent_partial : forall nsd nNod nSlv eps lag els psol first it old s psol' du first' it' old' s', (1 <= nsd)%nat ->
  (forall e, In e els -> goodElm nNod nSlv e) -> (first && (it =? 0)%nat)%bool = false -> (first' && (it' =? 0)%nat)%bool = false ->
  contactSystem nsd nNod nSlv eps lag els psol first it old = Ret s ->
  contactSystem nsd nNod nSlv eps lag (map (moved nsd du) els) psol' first' it' old' = Ret s' ->
  (forall n, (1 <= n <= nSlv)%nat -> 0 < nodeArea els n -> (touching eps els psol n <-> touching eps (map (moved nsd du) els) psol' n)) ->
  (forall i, (1 <= i <= nsd * nNod)%nat -> Ru s' i = Ru s i -
     (sumf (nsd * nNod) (fun j => Kuu s i j * du j) + sumf nSlv (fun n => Kul s i n * (psol' n - psol n)))) /\
  (forall n, (1 <= n <= nSlv)%nat -> Rl s' n = Rl s n -
     (sumf (nsd * nNod) (fun j => Klu s n j * du j) + Kll s n * (psol' n - psol n))).
Proof.
  intros nsd nNod nSlv eps lag els psol first it old s psol' du first' it' old' s' Hd Good Later Later' Sys Sys' Same.
  assert (W : forall e, In e els -> wfElm nNod nSlv e) by (intros e He; apply (ge_wf _ _ e (Good e He))).
  set (els' := map (moved nsd du) els) in *.
  destruct (system_entries nsd nNod nSlv eps lag els psol first it old s Hd Good Later Sys) as [P [EP [_ [VR [VU [VL [VK [VRl VKl]]]]]]]].
  destruct (system_entries nsd nNod nSlv eps lag els' psol' first' it' old' s' Hd (moved_good nsd nNod nSlv els du Good) Later' Sys') as [P' [EP' [_ [VR' [_ [_ [_ [VRl' _]]]]]]]].
  assert (Ar : forall n, nodeArea els' n = nodeArea els n) by (intros; unfold nodeArea, els'; now apply nodeSum_moved).
  assert (Mo : forall n, (1 <= n)%nat -> 0 < nodeArea els n -> sumf (nsd * nNod) (fun j => el P j n * du j) = nodeArea els n * (meanGap els' n - meanGap els n)).
  { intros n Hn A. rewrite (phi_motion nsd nNod nSlv els P n du W EP Hn). unfold meanGap. rewrite Ar. unfold els'. field. lra. }
  assert (Pu : forall n, (1 <= n <= nSlv)%nat -> pushes eps els' psol' n = pushes eps els psol n).
  { intros n Hn. unfold pushes. rewrite Ar. destruct (Rlt_dec 0 (nodeArea els n)) as [A|]; [|reflexivity]. specialize (Same n Hn A). unfold touching in Same.
    destruct (Rle_dec (psol' n + eps * meanGap els' n) 0), (Rle_dec (psol n + eps * meanGap els n) 0); tauto. }
  assert (Pos : forall n, pushes eps els psol n = true -> 0 < nodeArea els n) by (intros n; unfold pushes; destruct (Rlt_dec 0 (nodeArea els n)); [auto|discriminate]).
  split.
  - intros i Hi. rewrite (sumf_ext (nsd * nNod) _ (fun j => sumf nSlv (fun n => (if pushes eps els psol n then eps / nodeArea els n * el P i n else 0) * (el P j n * du j)))).
    2:{ intros j Hj. rewrite VK by assumption. rewrite <- sumf_scal_r. apply sumf_ext. intros n _. destruct (pushes eps els psol n); ring. }
    rewrite sumf_swap. destruct (dof_surj nsd nNod i Hi) as [a [k [Ha [Hk ->]]]]. rewrite VR, VR' by lia.
    rewrite <- sumf_plus. unfold Rminus. rewrite <- Ropp_plus_distr. f_equal. rewrite <- sumf_plus. apply sumf_ext. intros n Hn.
    rewrite VU, Pu by lia. rewrite (phi_moved nsd nNod nSlv els P P' du W EP EP') by lia. rewrite sumf_scal.
    destruct (pushes eps els psol n) eqn:E; [|ring]. rewrite Mo by (auto || lia). specialize (Pos n E). field. lra.
  - intros n Hn. rewrite VRl, VRl', VKl, Pu, Ar by assumption.
    rewrite (sumf_ext (nsd * nNod) _ (fun j => (if pushes eps els psol n then 1 else 0) * (el P j n * du j))).
    2:{ intros j Hj. destruct (dof_surj nsd nNod j Hj) as [a [k [Ha [Hk ->]]]]. rewrite VL by lia. destruct (pushes eps els psol n); ring. }
    rewrite sumf_scal. destruct (Rlt_dec 0 (nodeArea els n)) as [A|A].
    + rewrite Mo by (auto || lia). destruct (pushes eps els psol n); [ring|]. unfold Rdiv. ring.
    + replace (pushes eps els psol n) with false by (symmetry; unfold pushes; destruct (Rlt_dec 0 (nodeArea els n)); [contradiction|reflexivity]). ring.
Qed.
(** Hence a Newton step which solves the multiplier equations ends with the contact conditions satisfied, if the touching nodes
    were known. *)
Theorem C143_newton_partial : forall nsd nNod nSlv eps lag els psol first it old s psol' du first' it' old' s', (1 <= nsd)%nat -> 0 < eps ->
  (forall e, In e els -> goodElm nNod nSlv e) -> (first && (it =? 0)%nat)%bool = false -> (first' && (it' =? 0)%nat)%bool = false ->
  contactSystem nsd nNod nSlv eps lag els psol first it old = Ret s ->
  contactSystem nsd nNod nSlv eps lag (map (moved nsd du) els) psol' first' it' old' = Ret s' ->
  (forall n, (1 <= n <= nSlv)%nat -> 0 < nodeArea els n -> (touching eps els psol n <-> touching eps (map (moved nsd du) els) psol' n)) ->
  (forall n, (1 <= n <= nSlv)%nat -> sumf (nsd * nNod) (fun j => Klu s n j * du j) + Kll s n * (psol' n - psol n) = Rl s n) ->
  forall n, (1 <= n <= nSlv)%nat -> 0 < nodeArea els n -> contactLaw (meanGap (map (moved nsd du) els) n) (psol' n).
Proof.
  intros nsd nNod nSlv eps lag els psol first it old s psol' du first' it' old' s' Hd He Good Later Later' Sys Sys' Same Solve n Hn A.
  destruct (C143_tangent_partial _ _ _ _ _ _ _ _ _ _ _ _ _ _ _ _ _ Hd Good Later Later' Sys Sys' Same) as [_ T].
  assert (Z : Rl s' n = 0) by (rewrite T, Solve by assumption; ring).
  apply (C142_conditions nsd nNod nSlv eps lag _ psol' first' it' old' s' Hd He (moved_good nsd nNod nSlv els du Good) Later' Sys' n Hn) in Z; [exact Z|].
  unfold nodeArea in *. now rewrite nodeSum_moved.
Qed.

(** *** Cases *)
(** The block of C40: both slave nodes penetrated by 3; with multipliers -4 the residuals are 3, the body is pushed back, and
    one Newton step upwards by 3 closes the gap. *)
Definition lift : nat -> R := fun i => if (i =? 2)%nat then 3 else if (i =? 4)%nat then 3 else 0.
Lemma elm0_area n : (1 <= n <= 2)%nat -> nodeArea [elm0] n = 1 /\ meanGap [elm0] n = -3 /\ meanGap (map (moved 2 lift) [elm0]) n = 0.
Proof.
  intros Hn. assert (n = 1 \/ n = 2)%nat as [-> | ->] by lia;
    (split; [unfold nodeArea, nodeSum, sumL; cbn; field|]); (split; [unfold meanGap, nodeArea, nodeSum, sumL; cbn; field|]);
    unfold meanGap, nodeArea, nodeSum, motion, sumL, moved, lift; cbn; unfold motion; cbn; field.
Qed.
Example C142_case : (forall e, In e [elm0] -> goodElm 3 2 e) /\
  exists s, contactSystem 2 3 2 1 (fun _ => true) [elm0] (fun _ => -4) false 1 [] = Ret s /\ Rl s 1 = 3 /\ Ru s (dof 2 1 2) = 7 /\ Ru s (dof 2 3 2) = -14.
Proof.
  assert (G : forall e, In e [elm0] -> goodElm 3 2 e) by (intros e [<-|[]]; exact elm0_good). split; [exact G|].
  destruct (C142_formed 2 3 2 1 (fun _ => true) [elm0] (fun _ => -4) false 1 [] ltac:(lia) G) as [F _]. destruct (F ltac:(auto)) as [s E]. exists s. split; [exact E|].
  destruct (system_entries 2 3 2 1 (fun _ => true) [elm0] (fun _ => -4) false 1 [] s ltac:(lia) G eq_refl E) as [P [EP [_ [VR [_ [_ [_ [VRl _]]]]]]]].
  assert (Pu : forall n, (1 <= n <= 2)%nat -> pushes 1 [elm0] (fun _ => -4) n = true).
  { intros n Hn. unfold pushes. destruct (elm0_area n Hn) as [A [B _]]. rewrite A, B. destruct (Rlt_dec 0 1); [|lra]. destruct (Rle_dec (-4 + 1 * -3) 0); [reflexivity|lra]. }
  assert (W : forall e, In e [elm0] -> wfElm 3 2 e) by (intros e He; apply (ge_wf _ _ _ (G e He))).
  destruct (phi_entries 2 3 2 [elm0] W) as [P2 [EP2 VP]]. rewrite EP in EP2. injection EP2 as <-.
  destruct (elm0_area 1 ltac:(lia)) as [A1 [B1 _]]. destruct (elm0_area 2 ltac:(lia)) as [A2 [B2 _]].
  split; [|split].
  - rewrite VRl by lia. rewrite Pu, A1, B1 by lia. destruct (Rlt_dec 0 1); [|lra]. ring.
  - rewrite VR by lia. cbn [sumf]. rewrite !Pu, B1, B2, !VP by lia. unfold sumL, elmShare, phiVal, onNode, sumL; cbn; field.
  - rewrite VR by lia. cbn [sumf]. rewrite !Pu, B1, B2, !VP by lia. unfold sumL, elmShare, phiVal, onNode, sumL; cbn; field.
Qed.
Example C143_case : exists s s', contactSystem 2 3 2 1 (fun _ => true) [elm0] (fun _ => -4) false 1 [] = Ret s /\
  contactSystem 2 3 2 1 (fun _ => true) (map (moved 2 lift) [elm0]) (fun _ => -4) false 2 [] = Ret s' /\
  (forall n, (1 <= n <= 2)%nat -> 0 < nodeArea [elm0] n -> (touching 1 [elm0] (fun _ => -4) n <-> touching 1 (map (moved 2 lift) [elm0]) (fun _ => -4) n)) /\
  (forall n, (1 <= n <= 2)%nat -> sumf (2 * 3) (fun j => Klu s n j * lift j) + Kll s n * (-4 - -4) = Rl s n) /\ Rl s' 1 = 0.
Proof.
  assert (G : forall e, In e [elm0] -> goodElm 3 2 e) by (intros e [<-|[]]; exact elm0_good).
  destruct (C142_formed 2 3 2 1 (fun _ => true) [elm0] (fun _ => -4) false 1 [] ltac:(lia) G) as [F _]. destruct (F ltac:(auto)) as [s E].
  destruct (C142_formed 2 3 2 1 (fun _ => true) (map (moved 2 lift) [elm0]) (fun _ => -4) false 2 [] ltac:(lia) (moved_good 2 3 2 [elm0] lift G)) as [F' _]. destruct (F' ltac:(auto)) as [s' E'].
  exists s, s'. split; [exact E|]. split; [exact E'|].
  assert (T : forall n, (1 <= n <= 2)%nat -> 0 < nodeArea [elm0] n -> (touching 1 [elm0] (fun _ => -4) n <-> touching 1 (map (moved 2 lift) [elm0]) (fun _ => -4) n)).
  { intros n Hn _. unfold touching. destruct (elm0_area n Hn) as [_ [B C]]. rewrite B, C. lra. }
  split; [exact T|].
  destruct (system_entries 2 3 2 1 (fun _ => true) [elm0] (fun _ => -4) false 1 [] s ltac:(lia) G eq_refl E) as [P [EP [_ [_ [_ [VL [_ [VRl VKl]]]]]]]].
  assert (Pu : forall n, (1 <= n <= 2)%nat -> pushes 1 [elm0] (fun _ => -4) n = true).
  { intros n Hn. unfold pushes. destruct (elm0_area n Hn) as [A [B _]]. rewrite A, B. destruct (Rlt_dec 0 1); [|lra]. destruct (Rle_dec (-4 + 1 * -3) 0); [reflexivity|lra]. }
  assert (W : forall e, In e [elm0] -> wfElm 3 2 e) by (intros e He; apply (ge_wf _ _ _ (G e He))).
  assert (Solve : forall n, (1 <= n <= 2)%nat -> sumf (2 * 3) (fun j => Klu s n j * lift j) + Kll s n * (-4 - -4) = Rl s n).
  { intros n Hn. rewrite (sumf_ext (2 * 3) _ (fun j => el P j n * lift j)).
    2:{ intros j Hj. destruct (dof_surj 2 3 j Hj) as [a [k [Ha [Hk ->]]]]. rewrite VL, Pu by lia. reflexivity. }
    rewrite (phi_motion 2 3 2 [elm0] P n lift W EP) by lia. rewrite VKl, VRl, Pu by assumption.
    destruct (elm0_area n Hn) as [A [B C]]. unfold meanGap in B, C. assert (D : nodeArea (map (moved 2 lift) [elm0]) n = 1) by (unfold nodeArea; rewrite nodeSum_moved; [exact A|reflexivity]).
    rewrite D in C. rewrite A in B. unfold meanGap. rewrite A. destruct (Rlt_dec 0 1); [|lra]. unfold Rdiv in *. rewrite Rinv_1, Rmult_1_r in *. rewrite B, C. ring. }
  split; [exact Solve|].
  destruct (C143_tangent_partial 2 3 2 1 (fun _ => true) [elm0] (fun _ => -4) false 1 [] s (fun _ => -4) lift false 2 [] s' ltac:(lia) G eq_refl eq_refl E E' T) as [_ X]. rewrite X, Solve by lia. ring.
Qed.

Print Assumptions C142_formed.
Print Assumptions C142_conditions.
Print Assumptions C142_tolerance.
Print Assumptions C142_work.
Print Assumptions C142_pushes.
Print Assumptions C142_force.
Print Assumptions C142_two_bodies_refuted.
Print Assumptions C142_one_body.
Print Assumptions C143_symmetric.
Print Assumptions C143_tangent_partial.
Print Assumptions C143_newton_partial.
