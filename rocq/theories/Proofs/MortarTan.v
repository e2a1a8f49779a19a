From Coq Require Import Permutation.
From Verif Require Import Lib.Base Lib.Sums Lib.Writes Lib.Congruence Model.Mortar Spec.Mortar Proofs.Mortar.

(** ** Residual of the penalty formulation in terms of the mortar matrix *)
Section Penalty.
Variables (nsd : nat).

Definition penaltyRes (e : elm) (eps : R) (g : nat -> R) : res mat :=
  run_add (zeros (nsd * (nen e + nmast e)) 1)
    (flat_map (fun p => resWrites nsd (nen e) (nmast e) (pN p) (pNm p) (pNorm p) g (eps * detJxW p)) (pts e)).

Theorem residual_is_phi : forall e eps g, exists R P, penaltyRes e eps g = Ret R /\ elmPhi nsd e = Ret P /\
  forall i k, (1 <= i <= nen e + nmast e)%nat -> (1 <= k <= nsd)%nat ->
    el R (dof nsd i k) 1 = - eps * sumf (nen e) (fun j => el P (dof nsd i k) j * g j).
Proof.
  intros e eps g. unfold penaltyRes.
  destruct (run_add_ok (flat_map (fun p => resWrites nsd (nen e) (nmast e) (pN p) (pNm p) (pNorm p) g (eps * detJxW p)) (pts e))
    (zeros (nsd * (nen e + nmast e)) 1)) as [R [E [_ [_ V]]]].
  - intros i j v H. apply in_flat_map in H. destruct H as [p [_ H]]. unfold resWrites in H.
    apply In_loop in H. destruct H as [a [Ha H]]. apply In_loop in H. destruct H as [b [Hb H]].
    destruct H as [H|[]]. injection H as <- <- _. apply inb_true; cbn; [now apply dof_range|lia].
  - destruct (elmPhi_ok nsd e) as [P [EP VP]]. exists R, P. split; [exact E|]. split; [exact EP|]. intros i k Hi Hk.
    rewrite V. cbn [zeros el]. rewrite Rplus_0_l, hitsum_flat.
    rewrite (sumf_ext (nen e) _ (fun j => sumL (fun p => phiVal e p i j k * g j) (pts e))).
    2:{ intros j Hj. rewrite VP by assumption. rewrite Rmult_comm, <- sumL_scal. apply sumL_ext. intros; ring. }
    rewrite <- sumL_sumf_swap, <- sumL_scal. apply sumL_ext. intros p _. unfold resWrites.
    rewrite (hitsum_vec (nen e + nmast e) nsd (fun j l => pNint (nen e) (pN p) g (eps * detJxW p) * pNorm p l *
       (if (j <=? nen e)%nat then - pN p j else pNm p (j - nen e)%nat))) by assumption.
    unfold pNint, phiVal. rewrite (sumf_ext (nen e) (fun j => pNorm p k * detJxW p * (if (i <=? nen e)%nat then pN p i else - pNm p (i - nen e)%nat) * pN p j * g j) (fun j => pNorm p k * detJxW p * (if (i <=? nen e)%nat then pN p i else - pNm p (i - nen e)%nat) * (pN p j * g j))) by (intros; ring).
    rewrite sumf_scal. destruct (i <=? nen e)%nat; ring.
Qed.
End Penalty.

(** ** Global tangent *)
Section Global.
Variables (nsd nNod nSlv : nat) (eps : R) (AA : nat -> R) (phi : nat -> nat -> R) (active : list bool).
Notation springs := (springs eps AA phi active).
Notation skip := (skip nSlv AA).
Hypothesis Hd : (1 <= nsd)%nat.

Lemma springs_sym I J : springs I J = springs J I.
Proof. unfold Mortar.springs. apply sumf_ext. intros n _. destruct (_ && _)%bool; ring. Qed.

Lemma hitsum_cell : forall i j g a b k l, (1 <= i)%nat -> (1 <= j)%nat -> (1 <= a)%nat -> (1 <= b)%nat -> (1 <= k <= nsd)%nat -> (1 <= l <= nsd)%nat ->
  hitsum (dof nsd a k) (dof nsd b l) (loop nsd (fun k => loop nsd (fun l => [(dof nsd i k, dof nsd j l, g k l)]))) =
  if (Nat.eqb a i && Nat.eqb b j)%bool then g k l else 0.
Proof.
  intros i j g a b k l Hi Hj Ha Hb Hk Hl. rewrite hitsum_loop.
  destruct (Nat.eqb_spec a i) as [->|A]; [destruct (Nat.eqb_spec b j) as [->|B]|]; cbn [andb].
  - apply (sumf_pick nsd k); [exact Hk| |].
    + intros m Hm Nm. rewrite hitsum_loop. apply sumf_0. intros n Hn. rewrite hitsum_one, !eqb_dof by lia.
      destruct (Nat.eqb_spec k m); [congruence|]. rewrite !andb_false_r. reflexivity.
    + rewrite hitsum_loop. apply (sumf_pick nsd l); [exact Hl| |].
      * intros n Hn Nn. rewrite hitsum_one, !eqb_dof by lia. destruct (Nat.eqb_spec l n); [congruence|]. rewrite !andb_false_r. reflexivity.
      * rewrite hitsum_one, !eqb_dof by lia. rewrite !Nat.eqb_refl. reflexivity.
  - apply sumf_0. intros m Hm. rewrite hitsum_loop. apply sumf_0. intros n Hn. rewrite hitsum_one, !eqb_dof by lia.
    destruct (Nat.eqb_spec b j); [congruence|]. cbn [andb]. rewrite andb_false_r. reflexivity.
  - apply sumf_0. intros m Hm. rewrite hitsum_loop. apply sumf_0. intros n Hn. rewrite hitsum_one, !eqb_dof by lia.
    destruct (Nat.eqb_spec a i); [congruence|reflexivity].
Qed.

Lemma hitsum_two : forall I J (ws vs : nat -> nat -> wr),
  hitsum I J (loop nsd (fun k => loop nsd (fun l => [ws k l; vs k l]))) =
  hitsum I J (loop nsd (fun k => loop nsd (fun l => [ws k l]))) + hitsum I J (loop nsd (fun k => loop nsd (fun l => [vs k l]))).
Proof.
  intros I J ws vs. rewrite !hitsum_loop, <- sumf_plus. apply sumf_ext. intros k _. rewrite !hitsum_loop, <- sumf_plus. apply sumf_ext. intros l _.
  change [ws k l; vs k l] with ([ws k l] ++ [vs k l])%list. apply hitsum_app.
Qed.

Lemma hitsum_cellT : forall i j g a b k l, (1 <= i)%nat -> (1 <= j)%nat -> (1 <= a)%nat -> (1 <= b)%nat -> (1 <= k <= nsd)%nat -> (1 <= l <= nsd)%nat ->
  hitsum (dof nsd a k) (dof nsd b l) (loop nsd (fun k => loop nsd (fun l => [(dof nsd j l, dof nsd i k, g k l)]))) =
  if (Nat.eqb a j && Nat.eqb b i)%bool then g l k else 0.
Proof.
  intros i j g a b k l Hi Hj Ha Hb Hk Hl. rewrite hitsum_loop.
  rewrite (sumf_ext nsd _ (fun m => sumf nsd (fun n => hitsum (dof nsd a k) (dof nsd b l) [(dof nsd j n, dof nsd i m, g m n)]))) by (intros; apply hitsum_loop).
  rewrite sumf_swap. rewrite <- (hitsum_cell j i (fun k l => g l k) a b k l) by assumption. rewrite hitsum_loop. apply sumf_ext. intros m _. now rewrite hitsum_loop.
Qed.

Definition cell (i j a b k l : nat) : R :=
  (if (Nat.eqb a i && Nat.eqb b j)%bool then springs (dof nsd a k) (dof nsd b l) else 0).

Theorem tangent_entries : forall K, rows K = (nsd * nNod)%nat -> cols K = (nsd * nNod)%nat ->
  exists K', tangent nsd nNod nSlv eps AA phi active K = Ret K' /\ rows K' = rows K /\ cols K' = cols K /\
    forall a b k l, (1 <= a <= nNod)%nat -> (1 <= b <= nNod)%nat -> (1 <= k <= nsd)%nat -> (1 <= l <= nsd)%nat ->
      el K' (dof nsd a k) (dof nsd b l) = el K (dof nsd a k) (dof nsd b l) +
        if (skip a || skip b)%bool then 0 else springs (dof nsd a k) (dof nsd b l).
Proof.
  intros K HR HC. unfold tangent. destruct (Nat.eqb_spec (length active) 0) as [Z|Z].
  { exists K. split; [reflexivity|]. split; [reflexivity|]. split; [reflexivity|]. intros. unfold Mortar.springs. rewrite Z. cbn [sumf]. destruct (_ || _)%bool; ring. }
  destruct (run_add_ok (tangentWrites nsd nNod nSlv eps AA phi active) K) as [K' [E [R' [C' V]]]].
  { intros I J v H. unfold tangentWrites in H. apply In_loop in H. destruct H as [i [Hi H]]. destruct (skip i); [destruct H|].
    apply in_app_or in H. destruct H as [H|H].
    - apply In_loop in H. destruct H as [k [Hk H]]. apply In_loop in H. destruct H as [l [Hl H]]. destruct H as [H|[]]. injection H as <- <- _.
      apply inb_true; [rewrite HR|rewrite HC]; now apply dof_range.
    - apply In_loop_from in H. destruct H as [j [Hj H]]. destruct (skip j); [destruct H|].
      apply In_loop in H. destruct H as [k [Hk H]]. apply In_loop in H. destruct H as [l [Hl H]].
      destruct H as [H|[H|[]]]; injection H as <- <- _; (apply inb_true; [rewrite HR|rewrite HC]; apply dof_range; lia). }
  exists K'. split; [exact E|]. split; [exact R'|]. split; [exact C'|]. intros a b k l Ha Hb Hk Hl. rewrite V. f_equal. clear V E R' C' K'.
  unfold tangentWrites. rewrite hitsum_loop.
  assert (Q : forall i, (1 <= i <= nNod)%nat ->
    hitsum (dof nsd a k) (dof nsd b l) (if skip i then [] else
      (loop nsd (fun k0 => loop nsd (fun l0 => [(dof nsd i k0, dof nsd i l0, springs (dof nsd i k0) (dof nsd i l0))])) ++
       loop_from (S i) nNod (fun j => if skip j then [] else loop nsd (fun k0 => loop nsd (fun l0 =>
          [(dof nsd i k0, dof nsd j l0, springs (dof nsd i k0) (dof nsd j l0)); (dof nsd j l0, dof nsd i k0, springs (dof nsd i k0) (dof nsd j l0))])))))%list =
    if skip i then 0 else cell i i a b k l + sumf nNod (fun j => if (S i <=? j)%nat then if skip j then 0 else cell i j a b k l + cell j i a b k l else 0)).
  { intros i Hi. destruct (skip i); [reflexivity|]. rewrite hitsum_app, hitsum_loop_from by lia. f_equal.
    - rewrite (hitsum_cell i i (fun k l => springs (dof nsd i k) (dof nsd i l))) by lia. unfold cell.
      destruct (Nat.eqb_spec a i) as [->|]; [destruct (Nat.eqb_spec b i) as [->|]|]; reflexivity.
    - apply sumf_ext. intros j Hj. destruct (S i <=? j)%nat; [|reflexivity]. destruct (skip j); [reflexivity|].
      rewrite hitsum_two. f_equal.
      + rewrite (hitsum_cell i j (fun k l => springs (dof nsd i k) (dof nsd j l))) by lia. unfold cell.
        destruct (Nat.eqb_spec a i) as [->|]; [destruct (Nat.eqb_spec b j) as [->|]|]; reflexivity.
      + rewrite (hitsum_cellT i j (fun k l => springs (dof nsd i k) (dof nsd j l))) by lia. unfold cell.
        destruct (Nat.eqb_spec a j) as [->|]; [destruct (Nat.eqb_spec b i) as [->|]|]; cbn [andb]; try reflexivity. apply springs_sym. }
  rewrite (sumf_ext nNod _ _ Q). clear Q.
  apply (sumf_pick nNod (Nat.min a b)); [lia| |].
  - intros i Hi Ni. destruct (skip i); [reflexivity|]. rewrite sumf_0; [unfold cell|].
    + destruct (Nat.eqb_spec a i) as [->|]; [destruct (Nat.eqb_spec b i) as [->|]|]; cbn [andb]; try lia; ring.
    + intros j Hj. destruct (Nat.leb_spec (S i) j); [|reflexivity]. destruct (skip j); [reflexivity|]. unfold cell.
      destruct (Nat.eqb_spec a i); destruct (Nat.eqb_spec b j); destruct (Nat.eqb_spec a j); destruct (Nat.eqb_spec b i);
      cbn [andb]; try lia; ring.
  - destruct (Nat.lt_trichotomy a b) as [L|[<-|L]].
    + rewrite Nat.min_l by lia. destruct (skip a); [reflexivity|]. cbn [orb].
      rewrite (sumf_pick nNod b _ (if skip b then 0 else springs (dof nsd a k) (dof nsd b l))); [|lia| |].
      * unfold cell. destruct (Nat.eqb_spec b a); [lia|]. rewrite andb_false_r. ring.
      * intros j Hj Nj. destruct (S a <=? j)%nat eqn:S; [|reflexivity]. apply Nat.leb_le in S. destruct (skip j); [reflexivity|]. unfold cell.
        destruct (Nat.eqb_spec b j); [congruence|]. destruct (Nat.eqb_spec a j); [lia|]. rewrite andb_false_r. cbn [andb]. ring.
      * destruct (Nat.leb_spec (S a) b); [|lia]. destruct (skip b); [reflexivity|]. unfold cell. rewrite !Nat.eqb_refl.
        destruct (Nat.eqb_spec a b); [lia|]. cbn [andb]. ring.
    + rewrite Nat.min_id, orb_diag. destruct (skip a); [reflexivity|]. rewrite sumf_0; [unfold cell; rewrite !Nat.eqb_refl; cbn [andb]; ring|].
      intros j Hj. destruct (S a <=? j)%nat eqn:S; [|reflexivity]. apply Nat.leb_le in S. destruct (skip j); [reflexivity|]. unfold cell.
      destruct (Nat.eqb_spec a j); [lia|]. rewrite andb_false_r. cbn [andb]. ring.
    + rewrite Nat.min_r by lia. rewrite orb_comm. destruct (skip b); [reflexivity|]. cbn [orb].
      rewrite (sumf_pick nNod a _ (if skip a then 0 else springs (dof nsd a k) (dof nsd b l))); [|lia| |].
      * unfold cell. destruct (Nat.eqb_spec a b); [lia|]. cbn [andb]. ring.
      * intros j Hj Nj. destruct (S b <=? j)%nat eqn:S; [|reflexivity]. apply Nat.leb_le in S. destruct (skip j); [reflexivity|]. unfold cell.
        destruct (Nat.eqb_spec a b); [lia|]. destruct (Nat.eqb_spec a j); [congruence|]. cbn [andb]. ring.
      * destruct (Nat.leb_spec (S b) a); [|lia]. destruct (skip a); [reflexivity|]. unfold cell. rewrite !Nat.eqb_refl.
        destruct (Nat.eqb_spec a b); [lia|]. cbn [andb]. ring.
Qed.

(** What the stiffness does, for a mortar matrix without force at skipped nodes. *)
Hypothesis skipped : forall a k n, (1 <= a <= nSlv)%nat -> (1 <= k <= nsd)%nat -> (1 <= n)%nat -> AA a = 0 -> phi (dof nsd a k) n = 0.
Notation nd := (nsd * nNod)%nat.

Definition activeNodes : list nat :=
  filter (fun n => isActive active n && (if Rlt_dec 0 (AA n) then true else false))%bool (seq 1 (length active)).

Lemma sumf_filter : forall (b : nat -> bool) f n a, sumf n (fun i => if b (a + i)%nat then f (a + i)%nat else 0) = sumL f (filter b (seq (S a) n)).
Proof.
  intros b f. assert (S1 : forall n g, sumf (S n) g = g 1%nat + sumf n (fun i => g (1 + i)%nat)).
  { intros n g. change (S n) with (1 + n)%nat. rewrite (sumf_split 1 n g). cbn [sumf]. ring. }
  induction n as [|n IH]; intros a; [reflexivity|]. rewrite S1. cbn [seq filter].
  rewrite (sumf_ext n _ (fun i => if b (S a + i)%nat then f (S a + i)%nat else 0)).
  2:{ intros i Hi. replace (a + (1 + i))%nat with (S a + i)%nat by lia. reflexivity. }
  rewrite IH. replace (a + 1)%nat with (S a) by lia. destruct (b (S a)); unfold sumL; cbn; ring.
Qed.

Lemma springs_list I J : springs I J = sumL (fun n => eps / AA n * phi I n * phi J n) activeNodes.
Proof.
  unfold Mortar.springs, activeNodes.
  rewrite <- (sumf_filter (fun n => isActive active n && (if Rlt_dec 0 (AA n) then true else false))%bool (fun n => eps / AA n * phi I n * phi J n) (length active) 0).
  reflexivity.
Qed.

Theorem tangent_dofs : forall K', tangent nsd nNod nSlv eps AA phi active (zeros nd nd) = Ret K' ->
  forall I J, (1 <= I <= nd)%nat -> (1 <= J <= nd)%nat -> el K' I J = springs I J.
Proof.
  intros K' E I J HI HJ. destruct (tangent_entries (zeros nd nd) eq_refl eq_refl) as [K2 [E2 [_ [_ V]]]].
  rewrite E in E2. injection E2 as <-. destruct (dof_surj nsd nNod I HI) as [a [k [Ha [Hk ->]]]]. destruct (dof_surj nsd nNod J HJ) as [b [l [Hb [Hl ->]]]].
  rewrite V by assumption. cbn [zeros el]. rewrite Rplus_0_l.
  assert (Z : forall c, (1 <= c <= nNod)%nat -> skip c = true -> forall m n, (1 <= m <= nsd)%nat -> (1 <= n)%nat -> phi (dof nsd c m) n = 0).
  { intros c Hc S m n Hm Hn. unfold Mortar.skip in S. apply andb_prop in S. destruct S as [S1 S2]. apply Nat.leb_le in S1.
    destruct (Req_EM_T (AA c) 0); [|discriminate]. apply skipped; auto; lia. }
  destruct (skip a) eqn:Sa; [|destruct (skip b) eqn:Sb; [|reflexivity]]; cbn [orb]; unfold Mortar.springs; symmetry; apply sumf_0; intros n Hn.
  - rewrite (Z a) by (auto; lia). destruct (_ && _)%bool; ring.
  - rewrite (Z b) by (auto; lia). destruct (_ && _)%bool; ring.
Qed.

Theorem tangent_symmetric : forall K', tangent nsd nNod nSlv eps AA phi active (zeros nd nd) = Ret K' -> symm nd (el K').
Proof. intros K' E i j Hi Hj. rewrite !(tangent_dofs K' E) by assumption. apply springs_sym. Qed.

Theorem tangent_energy : forall K', tangent nsd nNod nSlv eps AA phi active (zeros nd nd) = Ret K' ->
  forall u, quad nd (el K') u = springEnergy nd eps AA phi activeNodes u.
Proof.
  intros K' E u. transitivity (quad nd springs u).
  { apply quad_ext; [intros; now apply tangent_dofs|reflexivity]. }
  unfold quad, mv, springEnergy.
  transitivity (sumf nd (fun I => sumL (fun n => u I * (eps / AA n * phi I n * sumf nd (fun J => phi J n * u J))) activeNodes)).
  - apply sumf_ext. intros I HI. rewrite sumL_scal. f_equal.
    rewrite (sumf_ext nd _ (fun J => sumL (fun n => eps / AA n * phi I n * (phi J n * u J)) activeNodes)).
    + rewrite <- sumL_sumf_swap. apply sumL_ext. intros n _. now rewrite sumf_scal.
    + intros J _. rewrite springs_list, Rmult_comm, <- sumL_scal. apply sumL_ext. intros; ring.
  - rewrite <- sumL_sumf_swap. apply sumL_ext. intros n Hn. unfold activeNodes in Hn. apply filter_In in Hn. destruct Hn as [_ Hn].
    apply andb_prop in Hn. destruct Hn as [_ Hn]. destruct (Rlt_dec 0 (AA n)) as [P|]; [|discriminate].
    unfold gapRate. set (G := sumf nd (fun I => phi I n * u I)).
    rewrite (sumf_ext nd _ (fun I => eps / AA n * G * (phi I n * u I))) by (intros; unfold G; ring).
    rewrite sumf_scal. fold G. field. lra.
Qed.

Theorem tangent_psd : forall K', 0 <= eps -> tangent nsd nNod nSlv eps AA phi active (zeros nd nd) = Ret K' ->
  forall u, 0 <= quad nd (el K') u.
Proof.
  intros K' He E u. rewrite (tangent_energy K' E). apply sumL_nonneg. intros n Hn. unfold activeNodes in Hn. apply filter_In in Hn. destruct Hn as [_ Hn].
  apply andb_prop in Hn. destruct Hn as [_ Hn]. destruct (Rlt_dec 0 (AA n)) as [P|]; [|discriminate].
  assert (0 <= gapRate nd AA phi u n * gapRate nd AA phi u n) by (apply Rle_0_sqr || nra). apply Rmult_le_pos; [nra|assumption].
Qed.

Lemma translation_dof t a k : (1 <= a)%nat -> (1 <= k <= nsd)%nat -> translation nsd t (dof nsd a k) = t k.
Proof.
  intros Ha Hk. unfold translation, dof. f_equal.
  replace (nsd * (a - 1) + k - 1)%nat with (k - 1 + (a - 1) * nsd)%nat by nia. rewrite Nat.mod_add by lia. rewrite Nat.mod_small by lia. lia.
Qed.

Theorem tangent_translation : forall K', (forall k n, (1 <= k <= nsd)%nat -> (1 <= n)%nat -> sumf nNod (fun a => phi (dof nsd a k) n) = 0) ->
  tangent nsd nNod nSlv eps AA phi active (zeros nd nd) = Ret K' ->
  forall t I, (1 <= I <= nd)%nat -> mv nd (el K') (translation nsd t) I = 0.
Proof.
  intros K' B E t I HI. unfold mv. rewrite (sumf_ext nd _ (fun J => springs I J * translation nsd t J)) by (intros; now rewrite (tangent_dofs K' E)).
  rewrite (sumf_ext nd _ (fun J => sumf (length active) (fun n => (if (isActive active n && (if Rlt_dec 0 (AA n) then true else false))%bool
     then eps / AA n * phi I n else 0) * (phi J n * translation nsd t J)))).
  2:{ intros J _. unfold Mortar.springs. rewrite <- sumf_scal_r. apply sumf_ext. intros n _. destruct (_ && _)%bool; ring. }
  rewrite sumf_swap. apply sumf_0. intros n Hn. rewrite sumf_scal, sumf_dof. apply Rmult_eq_0_compat_l. rewrite sumf_swap. apply sumf_0. intros k Hk.
  rewrite (sumf_ext nNod _ (fun a => phi (dof nsd a k) n * t k)) by (intros; rewrite translation_dof by lia; reflexivity).
  rewrite sumf_scal_r, B by lia. ring.
Qed.
End Global.

(** The two parts together: the assembled tangent of the penalty formulation. *)
Theorem contact_tangent : forall nsd nNod nSlv eps els A P active K, (1 <= nsd)%nat -> 0 <= eps ->
  (forall e, In e els -> goodElm nNod nSlv e) ->
  mortarAA nSlv els = Ret A -> mortarPhi nsd nNod nSlv els = Ret P ->
  tangent nsd nNod nSlv eps (fun n => el A n 1) (el P) active (zeros (nsd * nNod) (nsd * nNod)) = Ret K ->
  symm (nsd * nNod) (el K) /\ (forall u, 0 <= quad (nsd * nNod) (el K) u) /\
  (forall u, quad (nsd * nNod) (el K) u = springEnergy (nsd * nNod) eps (fun n => el A n 1) (el P) (activeNodes (fun n => el A n 1) active) u) /\
  (forall t I, (1 <= I <= nsd * nNod)%nat -> mv (nsd * nNod) (el K) (translation nsd t) I = 0).
Proof.
  intros nsd nNod nSlv eps els A P active K Hd He G EA EP EK.
  assert (S : forall a k n, (1 <= a <= nSlv)%nat -> (1 <= k <= nsd)%nat -> (1 <= n)%nat -> el A a 1 = 0 -> el P (dof nsd a k) n = 0).
  { intros. now apply (no_area_no_force nsd nNod nSlv els A P). }
  split; [now apply (tangent_symmetric nsd nNod nSlv eps (fun n => el A n 1) (el P) active)|].
  split; [now apply (tangent_psd nsd nNod nSlv eps (fun n => el A n 1) (el P) active)|].
  split; [now apply (tangent_energy nsd nNod nSlv eps (fun n => el A n 1) (el P) active)|].
  intros t I HI. apply (tangent_translation nsd nNod nSlv eps (fun n => el A n 1) (el P) active); auto.
  intros k n Hk Hn. now apply (phi_balance nsd nNod nSlv els).
Qed.

(** ** Active set *)
Lemma activate_nth : forall l n, (1 <= n)%nat -> (length l <= n)%nat ->
  length (activate l n) = n /\ forall k, (1 <= k)%nat -> isActive (activate l n) k = ((k =? n)%nat || isActive l k)%bool.
Proof.
  intros l n Hn Hl. unfold activate, resize. rewrite firstn_all2 by assumption.
  set (r := (l ++ repeat false (n - length l))%list). assert (L : length r = n) by (unfold r; rewrite app_length, repeat_length; lia).
  assert (N : forall i, nth i r false = nth i l false).
  { intros i. unfold r. destruct (Nat.lt_ge_cases i (length l)) as [H|H]; [now apply app_nth1|].
    rewrite app_nth2 by assumption. rewrite nth_repeat. symmetry. now apply nth_overflow. }
  assert (E : r = (removelast r ++ [last r false])%list) by (apply app_removelast_last; intros Q; rewrite Q in L; cbn in L; lia).
  assert (LR : length (removelast r) = (n - 1)%nat) by (rewrite E in L; rewrite app_length in L; cbn in L; lia).
  split; [rewrite app_length, LR; cbn; lia|]. intros k Hk. unfold isActive.
  destruct (Nat.eqb_spec k n) as [->|Nk].
  - rewrite app_nth2 by lia. rewrite LR, Nat.sub_diag. reflexivity.
  - cbn [orb]. rewrite <- N. destruct (Nat.lt_ge_cases (k - 1) (length (removelast r))) as [H|H].
    + rewrite E at 2. rewrite !app_nth1 by assumption. reflexivity.
    + rewrite !nth_overflow; [reflexivity|lia|]. rewrite app_length. cbn. lia.
Qed.

Lemma fold_active : forall (test : nat -> bool) m l a, (length l <= S a)%nat -> (length l <= 1 \/ isActive l (length l) = true)%nat ->
  let r := fold_left (fun l n => if test n then activate l n else l) (seq (S a) m) l in
  (length r <= 1 \/ isActive r (length r) = true)%nat /\
  forall k, (1 <= k)%nat -> isActive r k = ((S a <=? k)%nat && (k <=? a + m)%nat && test k || isActive l k)%bool.
Proof.
  intros test. induction m as [|m IH]; intros l a Hl T; cbn [seq fold_left].
  - split; [exact T|]. intros k Hk. destruct (Nat.leb_spec (S a) k); destruct (Nat.leb_spec k (a + 0)); cbn; try lia; reflexivity.
  - destruct (test (S a)) eqn:Et.
    + destruct (activate_nth l (S a) ltac:(lia) ltac:(lia)) as [L N].
      destruct (IH (activate l (S a)) (S a)) as [T' V]; [lia|right; rewrite L, N by lia; now rewrite Nat.eqb_refl|].
      split; [exact T'|]. intros k Hk. rewrite V, N by assumption.
      destruct (Nat.eqb_spec k (S a)) as [->|Nk].
      * rewrite Et. destruct (Nat.leb_spec (S a) (S a)); [|lia]. destruct (Nat.leb_spec (S a) (a + S m)); [|lia]. cbn [andb orb]. apply orb_true_r.
      * cbn [orb]. replace (S a + m)%nat with (a + S m)%nat by lia.
        destruct (Nat.leb_spec (S (S a)) k); destruct (Nat.leb_spec (S a) k); try lia; reflexivity.
    + destruct (IH l (S a)) as [T' V]; [lia|exact T|]. split; [exact T'|]. intros k Hk. rewrite V by assumption.
      replace (S a + m)%nat with (a + S m)%nat by lia.
      destruct (Nat.eqb_spec k (S a)) as [->|Nk]; [rewrite Et, !andb_false_r; reflexivity|].
      destruct (Nat.leb_spec (S (S a)) k); destruct (Nat.leb_spec (S a) k); try lia; reflexivity.
Qed.

Theorem active_char : forall first it nSlv test old k, (1 <= k)%nat ->
  isActive (activeSet first it nSlv test old) k =
  ((k <=? nSlv)%nat && test k || first && (it =? 0)%nat && (k =? 1)%nat && isActive old 1)%bool.
Proof.
  intros first it nSlv test old k Hk. unfold activeSet. set (s := if (first && (it =? 0)%nat)%bool then resize old 1 else []).
  assert (L : (length s <= 1)%nat). { unfold s. destruct (_ && _)%bool; [|cbn; lia]. unfold resize. rewrite app_length, repeat_length, firstn_length. lia. }
  destruct (fold_active test nSlv s 0 L (or_introl L)) as [_ V]. rewrite V by assumption. cbn [Nat.add].
  destruct (Nat.leb_spec 1 k); [|lia]. cbn [andb]. f_equal. unfold s. destruct (_ && _)%bool; cbn [andb].
  - unfold isActive. destruct (Nat.eqb_spec k 1) as [->|N]; [destruct old; reflexivity|]. cbn [andb].
    apply nth_overflow. unfold resize. rewrite app_length, repeat_length, firstn_length. lia.
  - unfold isActive. apply nth_overflow. cbn. lia.
Qed.

Theorem boundary_terms_iff : forall first it nSlv test old,
  hasBoundaryTerms (activeSet first it nSlv test old) = true <-> exists k, (1 <= k)%nat /\ isActive (activeSet first it nSlv test old) k = true.
Proof.
  intros. unfold activeSet. set (s := if (first && (it =? 0)%nat)%bool then resize old 1 else []).
  assert (L : (length s <= 1)%nat). { unfold s. destruct (_ && _)%bool; [|cbn; lia]. unfold resize. rewrite app_length, repeat_length, firstn_length. lia. }
  destruct (fold_active test nSlv s 0 L (or_introl L)) as [T _]. set (r := fold_left _ _ _) in *. clearbody r.
  destruct r as [|b [|c r]].
  - cbn. split; [discriminate|]. intros [k [_ H]]. unfold isActive in H. destruct (k - 1)%nat; discriminate.
  - cbn. split.
    + intros ->. exists 1%nat. split; [lia|reflexivity].
    + intros [k [_ H]]. unfold isActive in H. destruct (k - 1)%nat as [|m]; [exact H|]. destruct m; discriminate.
  - cbn [hasBoundaryTerms]. split; [|reflexivity]. intros _. exists (length (b :: c :: r)). split; [cbn; lia|]. destruct T as [T|T]; [cbn in T; lia|exact T].
Qed.

(** A whole history of iterations: only the last one counts, unless it is the first iteration
    of the first step. *)
Fixpoint history (nSlv : nat) (calls : list (bool * nat * (nat -> bool))) (s : list bool) : list bool :=
  match calls with
  | [] => s
  | (first, it, test) :: calls => history nSlv calls (activeSet first it nSlv test s)
  end.

Theorem history_free : forall nSlv calls first it test s s' k, (1 <= k)%nat -> (first && (it =? 0)%nat)%bool = false ->
  isActive (history nSlv (calls ++ [(first, it, test)]) s) k = isActive (activeSet first it nSlv test s') k.
Proof.
  intros nSlv calls first it test s s' k Hk F. revert s. induction calls as [|[[f i] t] calls IH]; intros s.
  - cbn [app history]. rewrite !active_char, F by assumption. reflexivity.
  - cbn [app history]. apply IH.
Qed.
