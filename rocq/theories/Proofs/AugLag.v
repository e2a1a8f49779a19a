(** Lemmas for C142 and C143: entries of the assembled system. *)
From Verif Require Import Lib.Base Lib.Sums Lib.Writes Model.Mortar Proofs.Mortar Proofs.MortarTan Model.AugLag Spec.AugLag.
Import ListNotations.

Section Lag.
Variables (nsd nNod nSlv : nat) (eps : R) (lambda wg : nat -> R) (act : list bool).
Notation lagLoop := (lagLoop eps lambda wg act).
Notation iLag := (iLag eps lambda wg act).
Notation nLag := (nLag eps lambda wg act).
Notation LNA := (LNA eps lambda wg act).
Notation ndof e := (nsd * (nen e + nmast e))%nat.

(** The effective multiplier of a slave node. *)
Definition pressure (n : nat) : R := if isActive act n then lambda n + eps * wg n else 0.
Definition nz (c : nat) : bool := negb (c =? 0)%nat.
Definition upto (e : elm) (n : nat) : list nat := filter nz (map (conn e) (seq 1 n)).
Lemma upto_S e n : upto e (S n) = (upto e n ++ (if (conn e (S n) =? 0)%nat then [] else [conn e (S n)]))%list.
Proof. unfold upto. rewrite seq_S, map_app, filter_app. cbn. unfold nz. destruct (conn e (S n) =? 0)%nat; reflexivity. Qed.
Lemma upto_prefix e m n : (m <= n)%nat -> exists r, upto e n = (upto e m ++ r)%list.
Proof.
  induction 1 as [|n L IH]; [exists []; now rewrite app_nil_r|]. destruct IH as [r IH]. rewrite upto_S, IH. eexists. now rewrite <- app_assoc.
Qed.
Lemma lag_spec e n : fst (fst (lagLoop e n)) = length (upto e n) /\
  (forall j, snd (fst (lagLoop e n)) j = if ((1 <=? j) && (j <=? n))%nat then
     if (nz (conn e j) && isActive act (conn e j))%bool then length (upto e j) else O else O) /\
  (forall j, snd (lagLoop e n) j = if ((1 <=? j) && (j <=? n))%nat then if nz (conn e j) then pressure (conn e j) else 0 else 0).
Proof.
  induction n as [|n IH].
  - cbn. split; [reflexivity|]. split; intros j; destruct j; reflexivity.
  - cbn [AugLag.lagLoop]. destruct (lagLoop e n) as [[c iL] L] eqn:Q. cbn [fst snd] in IH. destruct IH as [C [I1 L1]].
    assert (B : forall j, ((1 <=? j) && (j <=? S n))%nat = if (j =? S n)%nat then true else ((1 <=? j) && (j <=? n))%nat).
    { intros j. destruct (Nat.eqb_spec j (S n)) as [->|N]; [now rewrite Nat.leb_refl|]. f_equal.
      destruct (Nat.leb_spec j n), (Nat.leb_spec j (S n)); try reflexivity; lia. }
    rewrite upto_S. unfold pressure. destruct (conn e (S n) =? 0)%nat eqn:Z.
    + cbn [fst snd]. rewrite app_nil_r. split; [exact C|]. split; intros j; rewrite B; destruct (Nat.eqb_spec j (S n)) as [->|N];
        rewrite ?I1, ?L1, ?Nat.leb_refl; unfold nz; rewrite ?Z; cbn [andb negb]; try reflexivity;
        destruct (Nat.leb_spec (S n) n); try lia; rewrite ?andb_false_r; reflexivity.
    + rewrite app_length, Nat.add_1_r, <- C.
      destruct (isActive act (conn e (S n))) eqn:A; cbn [fst snd]; (split; [reflexivity|]); split; intros j; rewrite B; rewrite ?I1, ?L1;
        destruct (Nat.eqb_spec j (S n)) as [->|N]; try reflexivity; unfold nz; rewrite ?Z, ?A; cbn [andb negb];
        rewrite ?upto_S, ?Z, ?app_length, ?Nat.add_1_r, <- ?C; try reflexivity;
        destruct (Nat.leb_spec (S n) n); try lia; rewrite ?andb_false_r; reflexivity.
Qed.
Lemma iLag_spec e j : (1 <= j <= nen e)%nat -> iLag e j = if (nz (conn e j) && isActive act (conn e j))%bool then length (upto e j) else O.
Proof. intros H. unfold AugLag.iLag. destruct (lag_spec e (nen e)) as [_ [I _]]. rewrite I. destruct (Nat.leb_spec 1 j), (Nat.leb_spec j (nen e)); try lia; reflexivity. Qed.
Lemma LNA_spec e j : (1 <= j <= nen e)%nat -> LNA e j = if nz (conn e j) then pressure (conn e j) else 0.
Proof. intros H. unfold AugLag.LNA. destruct (lag_spec e (nen e)) as [_ [_ I]]. rewrite I. destruct (Nat.leb_spec 1 j), (Nat.leb_spec j (nen e)); try lia; reflexivity. Qed.
Lemma nLag_spec e : nLag e = length (lagNodes e).
Proof. unfold AugLag.nLag. destruct (lag_spec e (nen e)) as [C _]. exact C. Qed.
(** Position of a boundary node among the multipliers. *)
Lemma upto_pos e j : (1 <= j <= nen e)%nat -> nz (conn e j) = true ->
  (1 <= length (upto e j) <= nLag e)%nat /\ lagNode e (length (upto e j)) = conn e j.
Proof.
  intros H Z. destruct (upto_prefix e j (nen e)) as [r P]; [lia|]. rewrite nLag_spec. change (lagNodes e) with (upto e (nen e)). unfold lagNode. change (lagNodes e) with (upto e (nen e)).
  rewrite P, app_length. destruct j as [|j]; [lia|]. rewrite upto_S. unfold nz in Z. apply negb_true_iff in Z. rewrite Z, app_length. cbn [length].
  split; [lia|]. rewrite app_nth1 by (rewrite app_length; cbn; lia). rewrite app_nth2 by lia. replace (length (upto e j) + 1 - 1 - length (upto e j))%nat with O by lia. reflexivity.
Qed.
Lemma lagNode_range e c : wfElm nNod nSlv e -> (1 <= c <= nLag e)%nat -> (1 <= lagNode e c <= nSlv)%nat.
Proof.
  intros [W _] H. rewrite nLag_spec in H. assert (I1 : In (lagNode e c) (lagNodes e)) by (apply nth_In; lia).
  unfold lagNodes in I1. apply filter_In in I1. destruct I1 as [I1 Z]. apply in_map_iff in I1. destruct I1 as [j [E J]]. apply in_seq in J.
  rewrite <- E in *. apply negb_true_iff, Nat.eqb_neq in Z. specialize (W j ltac:(lia)). lia.
Qed.

(** *** Residual *)
Lemma elmR_ok e : exists R, elmR nsd eps lambda wg act e = Ret R /\
  forall i k, (1 <= i <= nen e + nmast e)%nat -> (1 <= k <= nsd)%nat ->
    el R (dof nsd i k) 1 = - sumf (nen e) (fun j => sumL (fun p => phiVal e p i j k) (pts e) * LNA e j).
Proof.
  unfold elmR.
  destruct (run_add_ok (flat_map (fun p => resWrites nsd (nen e) (nmast e) (pN p) (pNm p) (pNorm p) (LNA e) (detJxW p)) (pts e))
    (zeros (ndof e + nLag e) 1)) as [R [E [_ [_ V]]]].
  - intros i j v H. apply in_flat_map in H. destruct H as [p [_ H]]. unfold resWrites in H.
    apply In_loop in H. destruct H as [a [Ha H]]. apply In_loop in H. destruct H as [b [Hb H]].
    destruct H as [H|[]]. injection H as <- <- _. assert (D := dof_range nsd _ a b Ha Hb). apply inb_true; cbn; lia.
  - exists R. split; [exact E|]. intros i k Hi Hk. rewrite V. cbn [zeros el]. rewrite Rplus_0_l, hitsum_flat.
    rewrite (sumf_ext (nen e) _ (fun j => sumL (fun p => phiVal e p i j k * LNA e j) (pts e))).
    2:{ intros j Hj. rewrite Rmult_comm, <- sumL_scal. apply sumL_ext. intros; ring. }
    rewrite <- sumL_sumf_swap. replace (- sumL _ (pts e)) with (-1 * sumL (fun a => sumf (nen e) (fun j => phiVal e a i j k * LNA e j)) (pts e)) by ring.
    rewrite <- sumL_scal. apply sumL_ext. intros p _. unfold resWrites.
    rewrite (hitsum_vec (nen e + nmast e) nsd (fun j l => pNint (nen e) (pN p) (LNA e) (detJxW p) * pNorm p l *
       (if (j <=? nen e)%nat then - pN p j else pNm p (j - nen e)%nat))) by assumption.
    unfold pNint, phiVal. rewrite (sumf_ext (nen e) (fun j => _ * _ * _ * pN p j * LNA e j) (fun j => pNorm p k * detJxW p * (if (i <=? nen e)%nat then pN p i else - pNm p (i - nen e)%nat) * (pN p j * LNA e j))) by (intros; ring).
    rewrite sumf_scal. destruct (i <=? nen e)%nat; ring.
Qed.
Definition shareR (e : elm) (a k : nat) : R :=
  sumf (nen e + nmast e) (fun i => onNode e i a * - sumf (nen e) (fun j => sumL (fun p => phiVal e p i j k) (pts e) * LNA e j)).
Lemma asmR_hit e R a k : (1 <= a)%nat -> (1 <= k <= nsd)%nat ->
  (forall i k, (1 <= i <= nen e + nmast e)%nat -> (1 <= k <= nsd)%nat ->
    el R (dof nsd i k) 1 = - sumf (nen e) (fun j => sumL (fun p => phiVal e p i j k) (pts e) * LNA e j)) ->
  hitsum (dof nsd a k) 1 (asmR nsd e R) = shareR e a k.
Proof.
  intros Ha Hk V. unfold asmR, shareR. rewrite hitsum_loop. apply sumf_ext. intros i Hi. unfold onNode.
  destruct (Nat.eqb_spec (conn e i) 0) as [Z|Z].
  { change (hitsum (dof nsd a k) 1 []) with 0. destruct (Nat.eqb_spec (conn e i) a); [lia|]. ring. }
  rewrite hitsum_loop. destruct (Nat.eqb_spec (conn e i) a) as [A|A].
  - rewrite Rmult_1_l. apply (sumf_pick nsd k); [exact Hk| |].
    + intros d Hd Nd. rewrite hitsum_one, eqb_dof by lia. destruct (Nat.eqb_spec k d); [congruence|]. rewrite andb_false_r. reflexivity.
    + rewrite hitsum_one, eqb_dof by lia. rewrite <- A, !Nat.eqb_refl. cbn [andb]. now rewrite V.
  - rewrite Rmult_0_l. apply sumf_0. intros d Hd. rewrite hitsum_one, eqb_dof by lia. destruct (Nat.eqb_spec a (conn e i)); [congruence|reflexivity].
Qed.
Lemma assembleR_entries : forall els M, (forall e, In e els -> wfElm nNod nSlv e) -> rows M = (nsd * nNod)%nat -> cols M = 1%nat ->
  exists M', assembleR nsd eps lambda wg act M els = Ret M' /\
    forall a k, (1 <= a)%nat -> (1 <= k <= nsd)%nat -> el M' (dof nsd a k) 1 = el M (dof nsd a k) 1 + sumL (fun e => shareR e a k) els.
Proof.
  induction els as [|e els IH]; intros M W HR HC; cbn [assembleR].
  - exists M. split; [reflexivity|]. intros. unfold sumL. cbn. ring.
  - destruct (elmR_ok e) as [R [E V]]. rewrite E. cbn [bind]. destruct (W e (or_introl eq_refl)) as [W1 W2].
    destruct (run_add_ok (asmR nsd e R) M) as [M1 [E1 [R1 [C1 V1]]]].
    { intros i j v H. unfold asmR in H. apply In_loop in H. destruct H as [c [Hc H]].
      destruct (Nat.eqb_spec (conn e c) 0) as [Y|Y]; [destruct H|]. apply In_loop in H. destruct H as [d [Hd H]].
      destruct H as [H|[]]. injection H as <- <- _. specialize (W2 c Hc). apply inb_true; [rewrite HR; apply dof_range; lia|lia]. }
    rewrite E1. cbn [bind]. destruct (IH M1) as [M2 [E2 V2]]; [intros; apply W; now right|congruence|congruence|].
    exists M2. split; [exact E2|]. intros a k Ha Hk. rewrite V2, V1, (asmR_hit e R) by assumption. unfold sumL. cbn. ring.
Qed.
Lemma shareR_phi e a k : wfElm nNod nSlv e -> (1 <= k <= nsd)%nat -> shareR e a k = - sumf nSlv (fun n => elmShare e a k n * pressure n).
Proof.
  intros [W _] Hk. unfold shareR, elmShare.
  assert (P : forall j, (1 <= j <= nen e)%nat -> LNA e j = sumf nSlv (fun n => onNode e j n * pressure n)).
  { intros j Hj. rewrite (LNA_spec e j Hj). unfold nz. destruct (Nat.eqb_spec (conn e j) 0) as [Z|Z]; cbn [negb].
    - symmetry. apply sumf_0. intros n Hn. unfold onNode. destruct (Nat.eqb_spec (conn e j) n); [lia|]. ring.
    - symmetry. apply (sumf_pick nSlv (conn e j)); [specialize (W j Hj); lia| |].
      + intros n Hn N. unfold onNode. destruct (Nat.eqb_spec (conn e j) n); [congruence|]. ring.
      + unfold onNode. rewrite Nat.eqb_refl. ring. }
  transitivity (- sumf (nen e + nmast e) (fun i => sumf (nen e) (fun j => sumf nSlv (fun n => onNode e i a * onNode e j n * sumL (fun p => phiVal e p i j k) (pts e) * pressure n)))).
  - rewrite <- sumf_opp. apply sumf_ext. intros i Hi. rewrite Ropp_mult_distr_r_reverse. f_equal. rewrite <- sumf_scal. apply sumf_ext. intros j Hj.
    rewrite (P j Hj). rewrite <- !sumf_scal. apply sumf_ext. intros; ring.
  - f_equal. rewrite (sumf_ext nSlv _ (fun n => sumf (nen e) (fun j => sumf (nen e + nmast e) (fun i => onNode e i a * onNode e j n * sumL (fun p => phiVal e p i j k) (pts e) * pressure n)))).
    2:{ intros n Hn. rewrite <- sumf_scal_r. apply sumf_ext. intros j Hj. now rewrite <- sumf_scal_r. }
    rewrite sumf_swap. rewrite (sumf_ext (nen e) _ (fun j => sumf nSlv (fun n => sumf (nen e + nmast e) (fun i => onNode e i a * onNode e j n * sumL (fun p => phiVal e p i j k) (pts e) * pressure n)))).
    2:{ intros j Hj. apply sumf_swap. }
    apply sumf_swap.
Qed.

(** *** Coupling matrices *)
Lemma hitsum_off off n g i k c c' : (1 <= i)%nat -> (1 <= k <= nsd)%nat ->
  hitsum (dof nsd i k) c (loop n (fun a => loop nsd (fun d => [(dof nsd (off + a) d, c', g a d)]))) =
  if ((c =? c') && ((S off <=? i) && (i <=? off + n)))%nat%bool then g (i - off)%nat k else 0.
Proof.
  intros Hi Hk. rewrite hitsum_loop. assert (H : forall a d, (1 <= a)%nat -> (1 <= d <= nsd)%nat ->
    hitsum (dof nsd i k) c [(dof nsd (off + a) d, c', g a d)] = if ((i =? off + a) && (k =? d) && (c =? c'))%nat%bool then g a d else 0).
  { intros a d Ha Hd. rewrite hitsum_one, eqb_dof by lia. reflexivity. }
  destruct (Nat.eqb_spec c c') as [E|E]; cbn [andb].
  2:{ apply sumf_0. intros a Ha. rewrite hitsum_loop. apply sumf_0. intros d Hd. rewrite H by lia. destruct (Nat.eqb_spec c c'); [contradiction|]. now rewrite andb_false_r. }
  destruct (Nat.leb_spec (S off) i), (Nat.leb_spec i (off + n)); cbn [andb];
    try (apply sumf_0; intros a Ha; rewrite hitsum_loop; apply sumf_0; intros d Hd; rewrite H by lia; destruct (Nat.eqb_spec i (off + a)); [lia|reflexivity]).
  apply (sumf_pick n (i - off)); [lia| |].
  - intros a Ha N. rewrite hitsum_loop. apply sumf_0. intros d Hd. rewrite H by lia. destruct (Nat.eqb_spec i (off + a)); [lia|reflexivity].
  - rewrite hitsum_loop. apply (sumf_pick nsd k); [exact Hk| |].
    + intros d Hd N. rewrite H by lia. destruct (Nat.eqb_spec k d); [congruence|]. now rewrite andb_false_r.
    + rewrite H by lia. rewrite Nat.eqb_refl. destruct (Nat.eqb_spec i (off + (i - off))); [|lia]. destruct (Nat.eqb_spec c c'); [reflexivity|contradiction].
Qed.
Definition kulVal (e : elm) (i k c : nat) : R := sumf (nen e) (fun j => if (iLag e j =? c)%nat then sumL (fun p => phiVal e p i j k) (pts e) else 0).
Lemma elmKul_ok e : exists K, elmKul nsd eps lambda wg act e = Ret K /\
  forall i k c, (1 <= i <= nen e + nmast e)%nat -> (1 <= k <= nsd)%nat -> (1 <= c)%nat -> el K (dof nsd i k) c = kulVal e i k c.
Proof.
  unfold elmKul.
  destruct (run_add_ok (flat_map (kulWrites nsd eps lambda wg act e) (pts e)) (zeros (ndof e) (nLag e))) as [K [E [_ [_ V]]]].
  - intros i j v H. apply in_flat_map in H. destruct H as [p [_ H]]. unfold kulWrites in H. apply In_loop in H. destruct H as [b [Hb H]].
    destruct (Nat.eqb_spec (iLag e b) 0) as [Z|Z]; [destruct H|].
    assert (L : (1 <= iLag e b <= nLag e)%nat).
    { rewrite (iLag_spec e b Hb) in *. destruct (nz (conn e b)) eqn:N; [|contradiction]. destruct (isActive act (conn e b)); [|contradiction]. cbn [andb]. now apply upto_pos. }
    apply in_app_or in H. destruct H as [H|H]; apply In_loop in H; destruct H as [a [Ha H]]; apply In_loop in H; destruct H as [d [Hd H]]; destruct H as [H|[]];
      injection H as <- <- _; apply inb_true; cbn; try lia; apply dof_range; lia.
  - exists K. split; [exact E|]. intros i k c Hi Hk Hc. rewrite V. cbn [zeros el]. rewrite Rplus_0_l, hitsum_flat.
    unfold kulVal. rewrite (sumf_ext (nen e) _ (fun j => sumL (fun p => if (iLag e j =? c)%nat then phiVal e p i j k else 0) (pts e))).
    2:{ intros j Hj. destruct (iLag e j =? c)%nat; [reflexivity|]. rewrite (sumL_ext (fun _ => 0) (fun _ => 0 * 0)) by (intros; ring). rewrite sumL_scal. ring. }
    rewrite <- sumL_sumf_swap. apply sumL_ext. intros p _. unfold kulWrites. rewrite hitsum_loop. apply sumf_ext. intros j Hj.
    destruct (Nat.eqb_spec (iLag e j) 0) as [Z|Z].
    { change (hitsum (dof nsd i k) c []) with 0. destruct (Nat.eqb_spec (iLag e j) c); [lia|reflexivity]. }
    rewrite hitsum_app.
    rewrite (hitsum_off 0 (nen e) (fun a d => pNorm p d * pN p a * pN p j * detJxW p)) by lia.
    rewrite (hitsum_off (nen e) (nmast e) (fun a d => - (pNorm p d * pNm p a * pN p j * detJxW p))) by lia.
    rewrite (Nat.eqb_sym c). unfold phiVal. destruct (iLag e j =? c)%nat; cbn [andb]; [|ring].
    destruct (Nat.leb_spec i (nen e)), (Nat.leb_spec (S (nen e)) i), (Nat.leb_spec i (nen e + nmast e)), (Nat.leb_spec 1 i), (Nat.leb_spec i (0 + nen e)); try lia; cbn [andb];
      rewrite ?Nat.sub_0_r; ring.
Qed.
Definition shareK (e : elm) (a k n : nat) : R := if isActive act n then elmShare e a k n else 0.
(** Both coupling blocks of an element, on global numbers. *)
Lemma lag_sum e i k n : wfElm nNod nSlv e -> (1 <= n)%nat ->
  sumf (nLag e) (fun c => if (n =? lagNode e c)%nat then kulVal e i k c else 0) =
  if isActive act n then sumf (nen e) (fun j => onNode e j n * sumL (fun p => phiVal e p i j k) (pts e)) else 0.
Proof.
  intros W Hn. unfold kulVal.
  rewrite (sumf_ext (nLag e) _ (fun c => sumf (nen e) (fun j => if (n =? lagNode e c)%nat then if (iLag e j =? c)%nat then sumL (fun p => phiVal e p i j k) (pts e) else 0 else 0))).
  2:{ intros c Hc. destruct (n =? lagNode e c)%nat; [reflexivity|]. symmetry. now apply sumf_0. }
  rewrite sumf_swap.
  transitivity (sumf (nen e) (fun j => if isActive act n then onNode e j n * sumL (fun p => phiVal e p i j k) (pts e) else 0)).
  2:{ destruct (isActive act n); [reflexivity|]. now apply sumf_0. }
  apply sumf_ext. intros j Hj. set (V := sumL (fun p => phiVal e p i j k) (pts e)). rewrite (iLag_spec e j Hj). unfold onNode.
  destruct (nz (conn e j)) eqn:Z; cbn [andb].
  - destruct (upto_pos e j Hj Z) as [L1 L2]. destruct (isActive act (conn e j)) eqn:A.
    + apply (sumf_pick (nLag e) (length (upto e j))); [exact L1| |].
      * intros c Hc N. destruct (Nat.eqb_spec (length (upto e j)) c); [congruence|]. now destruct (n =? lagNode e c)%nat.
      * rewrite Nat.eqb_refl, L2. destruct (Nat.eqb_spec n (conn e j)) as [E|E].
        -- subst n. rewrite A, Nat.eqb_refl. ring.
        -- destruct (Nat.eqb_spec (conn e j) n); [congruence|]. destruct (isActive act n); ring.
    + rewrite sumf_0.
      * destruct (Nat.eqb_spec (conn e j) n) as [<-|]; [rewrite A; reflexivity|]. destruct (isActive act n); ring.
      * intros c Hc. destruct c as [|c]; [lia|]. cbn. now destruct (n =? _)%nat.
  - rewrite sumf_0.
    + unfold nz in Z. apply negb_false_iff, Nat.eqb_eq in Z. rewrite Z. destruct n as [|n]; [lia|]. cbn. destruct (isActive act (S n)); ring.
    + intros c Hc. destruct c as [|c]; [lia|]. cbn. now destruct (n =? _)%nat.
Qed.
Lemma share_split e a k n : elmShare e a k n = sumf (nen e + nmast e) (fun i => onNode e i a * sumf (nen e) (fun j => onNode e j n * sumL (fun p => phiVal e p i j k) (pts e))).
Proof.
  unfold elmShare. rewrite sumf_swap. apply sumf_ext. intros i Hi. rewrite <- sumf_scal. apply sumf_ext. intros; ring.
Qed.
Lemma newton_ul e K i k c : (1 <= i <= nen e + nmast e)%nat -> (1 <= k <= nsd)%nat -> (1 <= c)%nat ->
  el (newton nsd eps lambda wg act e K) (dof nsd i k) (ndof e + c) = el K (dof nsd i k) c.
Proof.
  intros Hi Hk Hc. assert (D := dof_range nsd _ i k Hi Hk). unfold newton. cbn [el].
  destruct (Nat.leb_spec (dof nsd i k) (ndof e)); [|lia]. destruct (Nat.leb_spec (ndof e + c) (ndof e)); [lia|]. f_equal. lia.
Qed.
Lemma newton_lu e K i k c : (1 <= i <= nen e + nmast e)%nat -> (1 <= k <= nsd)%nat -> (1 <= c)%nat ->
  el (newton nsd eps lambda wg act e K) (ndof e + c) (dof nsd i k) = el K (dof nsd i k) c.
Proof.
  intros Hi Hk Hc. assert (D := dof_range nsd _ i k Hi Hk). unfold newton. cbn [el].
  destruct (Nat.leb_spec (dof nsd i k) (ndof e)); [|lia]. destruct (Nat.leb_spec (ndof e + c) (ndof e)); [lia|]. f_equal. lia.
Qed.
Lemma asm_hit e a k n (f : nat -> nat -> nat -> nat * nat * R) g x y : wfElm nNod nSlv e -> (1 <= a)%nat -> (1 <= k <= nsd)%nat -> (1 <= n)%nat ->
  (forall i d c, (1 <= i <= nen e + nmast e)%nat -> conn e i <> O -> (1 <= d <= nsd)%nat -> (1 <= c <= nLag e)%nat ->
     hitsum x y [f i d c] = if ((a =? conn e i) && (k =? d) && (n =? lagNode e c))%nat%bool then g i d c else 0) ->
  (forall i c, (1 <= i <= nen e + nmast e)%nat -> (1 <= c)%nat -> g i k c = kulVal e i k c) ->
  hitsum x y (loop (nen e + nmast e) (fun i => if (conn e i =? 0)%nat then [] else loop nsd (fun d => loop (nLag e) (fun c => [f i d c])))) = shareK e a k n.
Proof.
  intros W Ha Hk Hn H G. rewrite hitsum_loop. unfold shareK. rewrite share_split.
  transitivity (sumf (nen e + nmast e) (fun i => onNode e i a * (if isActive act n then sumf (nen e) (fun j => onNode e j n * sumL (fun p => phiVal e p i j k) (pts e)) else 0))).
  2:{ destruct (isActive act n); [reflexivity|]. apply sumf_0. intros; ring. }
  apply sumf_ext. intros i Hi. rewrite <- (lag_sum e i k n W Hn). unfold onNode. destruct (Nat.eqb_spec (conn e i) 0) as [Z|Z].
  { change (hitsum x y []) with 0. destruct (Nat.eqb_spec (conn e i) a); [lia|]. ring. }
  rewrite hitsum_loop. rewrite Nat.eqb_sym. destruct (Nat.eqb_spec a (conn e i)) as [A|A].
  - rewrite Rmult_1_l. apply (sumf_pick nsd k); [exact Hk| |].
    + intros d Hd Nd. rewrite hitsum_loop. apply sumf_0. intros c Hc. rewrite (H i d c) by assumption.
      destruct (Nat.eqb_spec k d); [congruence|]. now rewrite andb_false_r.
    + rewrite hitsum_loop. apply sumf_ext. intros c Hc. rewrite (H i k c) by assumption. rewrite <- A, !Nat.eqb_refl. cbn [andb]. rewrite G by lia. reflexivity.
  - rewrite Rmult_0_l. apply sumf_0. intros d Hd. rewrite hitsum_loop. apply sumf_0. intros c Hc. rewrite (H i d c) by assumption.
    destruct (Nat.eqb_spec a (conn e i)); [congruence|reflexivity].
Qed.
Lemma asmUL_hit e K a k n : wfElm nNod nSlv e -> (1 <= a)%nat -> (1 <= k <= nsd)%nat -> (1 <= n)%nat ->
  (forall i k c, (1 <= i <= nen e + nmast e)%nat -> (1 <= k <= nsd)%nat -> (1 <= c)%nat -> el K (dof nsd i k) c = kulVal e i k c) ->
  hitsum (dof nsd a k) n (asmUL nsd eps lambda wg act e (newton nsd eps lambda wg act e K)) = shareK e a k n.
Proof.
  intros W Ha Hk Hn V. unfold asmUL. apply (asm_hit e a k n
    (fun i d c => (dof nsd (conn e i) d, lagNode e c, el (newton nsd eps lambda wg act e K) (dof nsd i d) (ndof e + c))) (fun i d c => el (newton nsd eps lambda wg act e K) (dof nsd i d) (ndof e + c))); try assumption.
  - intros i d c Hi Z Hd Hc. rewrite hitsum_one, eqb_dof by lia. reflexivity.
  - intros i c Hi Hc. rewrite newton_ul by assumption. now apply V.
Qed.
Lemma asmLU_hit e K a k n : wfElm nNod nSlv e -> (1 <= a)%nat -> (1 <= k <= nsd)%nat -> (1 <= n)%nat ->
  (forall i k c, (1 <= i <= nen e + nmast e)%nat -> (1 <= k <= nsd)%nat -> (1 <= c)%nat -> el K (dof nsd i k) c = kulVal e i k c) ->
  hitsum n (dof nsd a k) (asmLU nsd eps lambda wg act e (newton nsd eps lambda wg act e K)) = shareK e a k n.
Proof.
  intros W Ha Hk Hn V. unfold asmLU. apply (asm_hit e a k n
    (fun i d c => (lagNode e c, dof nsd (conn e i) d, el (newton nsd eps lambda wg act e K) (ndof e + c) (dof nsd i d))) (fun i d c => el (newton nsd eps lambda wg act e K) (ndof e + c) (dof nsd i d))); try assumption.
  - intros i d c Hi Z Hd Hc. rewrite hitsum_one, eqb_dof by lia. rewrite andb_comm. reflexivity.
  - intros i c Hi Hc. rewrite newton_lu by assumption. now apply V.
Qed.
Lemma assembleUL_entries : forall els M, (forall e, In e els -> wfElm nNod nSlv e) -> rows M = (nsd * nNod)%nat -> cols M = nSlv ->
  exists M', assembleK nsd eps lambda wg act (asmUL nsd eps lambda wg act) M els = Ret M' /\
    forall a k n, (1 <= a)%nat -> (1 <= k <= nsd)%nat -> (1 <= n)%nat -> el M' (dof nsd a k) n = el M (dof nsd a k) n + sumL (fun e => shareK e a k n) els.
Proof.
  induction els as [|e els IH]; intros M W HR HC; cbn [assembleK].
  - exists M. split; [reflexivity|]. intros. unfold sumL. cbn. ring.
  - destruct (elmKul_ok e) as [K [E V]]. rewrite E. cbn [bind]. assert (We := W e (or_introl eq_refl)). destruct We as [W1 W2] eqn:Q. clear Q.
    destruct (run_add_ok (asmUL nsd eps lambda wg act e (newton nsd eps lambda wg act e K)) M) as [M1 [E1 [R1 [C1 V1]]]].
    { intros i j v H. unfold asmUL in H. apply In_loop in H. destruct H as [c [Hc H]].
      destruct (Nat.eqb_spec (conn e c) 0) as [Y|Y]; [destruct H|]. apply In_loop in H. destruct H as [d [Hd H]]. apply In_loop in H. destruct H as [m [Hm H]].
      destruct H as [H|[]]. injection H as <- <- _. assert (X := lagNode_range e m We Hm). specialize (W2 c Hc). apply inb_true; [rewrite HR; apply dof_range; lia|lia]. }
    rewrite E1. cbn [bind]. destruct (IH M1) as [M2 [E2 V2]]; [intros; apply W; now right|congruence|congruence|].
    exists M2. split; [exact E2|]. intros a k n Ha Hk Hn. rewrite V2, V1, (asmUL_hit e K) by assumption. unfold sumL. cbn. ring.
Qed.
Lemma assembleLU_entries : forall els M, (forall e, In e els -> wfElm nNod nSlv e) -> cols M = (nsd * nNod)%nat -> rows M = nSlv ->
  exists M', assembleK nsd eps lambda wg act (asmLU nsd eps lambda wg act) M els = Ret M' /\
    forall a k n, (1 <= a)%nat -> (1 <= k <= nsd)%nat -> (1 <= n)%nat -> el M' n (dof nsd a k) = el M n (dof nsd a k) + sumL (fun e => shareK e a k n) els.
Proof.
  induction els as [|e els IH]; intros M W HR HC; cbn [assembleK].
  - exists M. split; [reflexivity|]. intros. unfold sumL. cbn. ring.
  - destruct (elmKul_ok e) as [K [E V]]. rewrite E. cbn [bind]. assert (We := W e (or_introl eq_refl)). destruct We as [W1 W2] eqn:Q. clear Q.
    destruct (run_add_ok (asmLU nsd eps lambda wg act e (newton nsd eps lambda wg act e K)) M) as [M1 [E1 [R1 [C1 V1]]]].
    { intros i j v H. unfold asmLU in H. apply In_loop in H. destruct H as [c [Hc H]].
      destruct (Nat.eqb_spec (conn e c) 0) as [Y|Y]; [destruct H|]. apply In_loop in H. destruct H as [d [Hd H]]. apply In_loop in H. destruct H as [m [Hm H]].
      destruct H as [H|[]]. injection H as <- <- _. assert (X := lagNode_range e m We Hm). specialize (W2 c Hc). apply inb_true; [lia|rewrite HR; apply dof_range; lia]. }
    rewrite E1. cbn [bind]. destruct (IH M1) as [M2 [E2 V2]]; [intros; apply W; now right|congruence|congruence|].
    exists M2. split; [exact E2|]. intros a k n Ha Hk Hn. rewrite V2, V1, (asmLU_hit e K) by assumption. unfold sumL. cbn. ring.
Qed.
End Lag.

Section System.
Variables (nsd nNod nSlv : nat) (eps : R) (lag : nat -> bool).
Notation nd := (nsd * nNod)%nat.

Lemma area_entries els A : (forall e, In e els -> wfElm nNod nSlv e) -> mortarAA nSlv els = Ret A -> forall n, (1 <= n)%nat -> el A n 1 = nodeArea els n.
Proof.
  intros W E n Hn. destruct (vec_entries nNod nSlv elmAA els W) as [A' [E' V]]. unfold mortarAA in E. rewrite E in E'. injection E' as <-. rewrite V by assumption.
  unfold nodeArea, nodeSum. apply sumL_ext. intros e _. unfold vecShare, elmAA. apply sumf_ext. intros j _. unfold onNode. destruct (conn e j =? n)%nat; [|ring].
  rewrite Rmult_1_l. apply sumL_ext. intros; ring.
Qed.
Lemma gap_entries els A : (forall e, In e els -> wfElm nNod nSlv e) -> mortarSum nSlv els = Ret A -> forall n, (1 <= n)%nat -> el A n 1 = nodeSum els gap n.
Proof.
  intros W E n Hn. destruct (vec_entries nNod nSlv elmGap els W) as [A' [E' V]]. unfold mortarSum in E. rewrite E in E'. injection E' as <-. rewrite V by assumption.
  unfold nodeSum. apply sumL_ext. intros e _. unfold vecShare, elmGap. apply sumf_ext. intros j _. unfold onNode. destruct (conn e j =? n)%nat; [|ring].
  rewrite Rmult_1_l. apply sumL_ext. intros; ring.
Qed.

(** Virtual work of the mortar matrix is the rate of the weighted gap. *)
Lemma sum_du e i k du : (conn e i <= nNod)%nat -> sumf nNod (fun a => onNode e i a * du (dof nsd a k)) = if (conn e i =? 0)%nat then 0 else du (dof nsd (conn e i) k).
Proof.
  intros H. destruct (Nat.eqb_spec (conn e i) 0) as [Z|Z].
  - apply sumf_0. intros a Ha. unfold onNode. destruct (Nat.eqb_spec (conn e i) a); [lia|]. ring.
  - apply (sumf_pick nNod (conn e i)); [lia| |unfold onNode; rewrite Nat.eqb_refl; ring].
    intros a Ha N. unfold onNode. destruct (Nat.eqb_spec (conn e i) a); [congruence|]. ring.
Qed.
Lemma share_motion e n du : wfElm nNod nSlv e ->
  sumf nNod (fun a => sumf nsd (fun k => elmShare e a k n * du (dof nsd a k))) =
  sumf (nen e) (fun j => if (conn e j =? n)%nat then sumL (fun p => pN p j * motion nsd e p du * detJxW p) (pts e) else 0).
Proof.
  intros [_ W]. rewrite sumf_swap.
  transitivity (sumf nsd (fun k => sumf (nen e) (fun j => sumf (nen e + nmast e) (fun i => onNode e j n * sumL (fun p => phiVal e p i j k) (pts e) *
    (if (conn e i =? 0)%nat then 0 else du (dof nsd (conn e i) k)))))).
  - apply sumf_ext. intros k Hk. unfold elmShare.
    rewrite (sumf_ext nNod _ (fun a => sumf (nen e) (fun j => sumf (nen e + nmast e) (fun i => onNode e j n * sumL (fun p => phiVal e p i j k) (pts e) * (onNode e i a * du (dof nsd a k)))))).
    2:{ intros a Ha. rewrite <- sumf_scal_r. apply sumf_ext. intros j Hj. rewrite <- sumf_scal_r. apply sumf_ext. intros; ring. }
    rewrite sumf_swap. apply sumf_ext. intros j Hj. rewrite sumf_swap. apply sumf_ext. intros i Hi. rewrite sumf_scal, sum_du by (apply W; lia). reflexivity.
  - rewrite sumf_swap. apply sumf_ext. intros j Hj. rewrite sumf_swap. unfold onNode. destruct (conn e j =? n)%nat.
    2:{ apply sumf_0. intros. apply sumf_0. intros. ring. }
    unfold motion. rewrite (sumL_ext _ (fun p => sumf (nen e + nmast e) (fun i => pN p j * detJxW p * (if (conn e i =? 0)%nat then 0 else
      (if (i <=? nen e)%nat then pN p i else - pNm p (i - nen e)%nat) * sumf nsd (fun k => pNorm p k * du (dof nsd (conn e i) k)))))).
    2:{ intros p Hp. rewrite sumf_scal. ring. }
    rewrite sumL_sumf_swap. apply sumf_ext. intros i Hi. destruct (conn e i =? 0)%nat.
    + rewrite sumf_0 by (intros; ring). rewrite (sumL_ext _ (fun _ => 0 * 0)) by (intros; ring). rewrite sumL_scal. ring.
    + rewrite (sumL_ext _ (fun p => sumf nsd (fun k => phiVal e p i j k * du (dof nsd (conn e i) k)))).
      * rewrite sumL_sumf_swap. apply sumf_ext. intros k Hk. rewrite Rmult_1_l, Rmult_comm, <- sumL_scal. apply sumL_ext. intros; ring.
      * intros p Hp. rewrite <- !sumf_scal. apply sumf_ext. intros k Hk. unfold phiVal. ring.
Qed.
Lemma phi_motion els P n du : (forall e, In e els -> wfElm nNod nSlv e) -> mortarPhi nsd nNod nSlv els = Ret P -> (1 <= n)%nat ->
  sumf nd (fun I => el P I n * du I) = nodeSum (map (moved nsd du) els) gap n - nodeSum els gap n.
Proof.
  intros W E Hn. destruct (phi_entries nsd nNod nSlv els W) as [P' [E' V]]. rewrite E in E'. injection E' as <-.
  rewrite sumf_dof. rewrite (sumf_ext nNod _ (fun a => sumL (fun e => sumf nsd (fun k => elmShare e a k n * du (dof nsd a k))) els)).
  2:{ intros a Ha. rewrite sumL_sumf_swap. apply sumf_ext. intros k Hk. rewrite V by lia. rewrite Rmult_comm, <- sumL_scal. apply sumL_ext. intros; ring. }
  rewrite <- sumL_sumf_swap. rewrite (sumL_ext _ _ els (fun e He => share_motion e n du (W e He))).
  unfold nodeSum. clear. induction els as [|e els IH]; [unfold sumL; cbn; ring|]. unfold sumL in *. cbn [map fold_right]. cbn in IH |- *. rewrite IH.
  rewrite (sumf_ext (nen e) (fun j => if (conn e j =? n)%nat then fold_right (fun a b => pN a j * gap a * detJxW a + b) 0 (map _ (pts e)) else 0)
    (fun j => (if (conn e j =? n)%nat then fold_right (fun a b => pN a j * gap a * detJxW a + b) 0 (pts e) else 0) +
      (if (conn e j =? n)%nat then fold_right (fun a b => pN a j * motion nsd e a du * detJxW a + b) 0 (pts e) else 0))).
  - rewrite sumf_plus. ring.
  - intros j Hj. destruct (conn e j =? n)%nat; [|ring]. induction (pts e) as [|p ps IHp]; cbn; [ring|]. rewrite IHp. ring.
Qed.
Lemma nodeSum_moved els n du (f : point -> R) : (forall p g, f (mkPoint (pN p) (pNm p) (pNorm p) (detJxW p) g) = f p) ->
  nodeSum (map (moved nsd du) els) f n = nodeSum els f n.
Proof.
  intros H. unfold nodeSum, sumL. induction els as [|e els IH]; [reflexivity|]. cbn in *. rewrite IH. f_equal. apply sumf_ext. intros j Hj.
  destruct (conn e j =? n)%nat; [|reflexivity]. induction (pts e) as [|p ps IHp]; [reflexivity|]. cbn. now rewrite IHp, H.
Qed.
Lemma phi_moved els P P' du : (forall e, In e els -> wfElm nNod nSlv e) -> mortarPhi nsd nNod nSlv els = Ret P ->
  mortarPhi nsd nNod nSlv (map (moved nsd du) els) = Ret P' -> forall a k n, (1 <= a)%nat -> (1 <= k <= nsd)%nat -> (1 <= n)%nat -> el P' (dof nsd a k) n = el P (dof nsd a k) n.
Proof.
  intros W E E' a k n Ha Hk Hn. destruct (phi_entries nsd nNod nSlv els W) as [Q [F V]]. rewrite E in F. injection F as <-.
  destruct (phi_entries nsd nNod nSlv (map (moved nsd du) els)) as [Q' [F V']].
  { intros e He. apply in_map_iff in He. destruct He as [e0 [<- He]]. exact (W e0 He). }
  rewrite E' in F. injection F as <-. rewrite V, V' by assumption. clear. unfold sumL. induction els as [|e els IH]; [reflexivity|]. cbn [map fold_right]. cbn in IH |- *. rewrite IH. f_equal.
  unfold elmShare. apply sumf_ext. intros j Hj. apply sumf_ext. intros i Hi. f_equal. unfold sumL. cbn [moved pts]. induction (pts e) as [|p ps IHp]; [reflexivity|]. cbn. rewrite IHp. reflexivity.
Qed.
Lemma moved_good els du : (forall e, In e els -> goodElm nNod nSlv e) -> forall e, In e (map (moved nsd du) els) -> goodElm nNod nSlv e.
Proof.
  intros G e He. apply in_map_iff in He. destruct He as [e0 [<- He]]. destruct (G e0 He) as [W M P]. split; [exact W|exact M|].
  intros p Hp. cbn [moved pts] in Hp. apply in_map_iff in Hp. destruct Hp as [q [<- Hq]]. exact (P q Hq).
Qed.
Lemma sum_support m n f : (forall i, (1 <= i)%nat -> (m < i \/ n < i)%nat -> f i = 0) -> sumf m f = sumf n f.
Proof.
  intros H. assert (G : forall a b, (a <= b)%nat -> (forall i, (a < i <= b)%nat -> f i = 0) -> sumf b f = sumf a f).
  { intros a b L Z. replace b with (a + (b - a))%nat by lia. rewrite sumf_split. rewrite (sumf_0 (b - a)); [ring|]. intros i Hi. apply Z. lia. }
  destruct (Nat.le_ge_cases m n); [symmetry|]; apply G; try lia; intros i Hi; apply H; lia.
Qed.

Section OneState.
Variables (els : list elm) (psol : nat -> R) (first : bool) (it : nat) (old : list bool) (s : system).
Hypothesis (Dim : (1 <= nsd)%nat) (Good : forall e, In e els -> goodElm nNod nSlv e) (Later : (first && (it =? 0)%nat)%bool = false)
  (Sys : contactSystem nsd nNod nSlv eps lag els psol first it old = Ret s).
Definition pushes (n : nat) : bool := if Rlt_dec 0 (nodeArea els n) then if Rle_dec (psol n + eps * meanGap els n) 0 then true else false else false.

Lemma system_entries : exists P, mortarPhi nsd nNod nSlv els = Ret P /\
  (forall n, (1 <= n <= nSlv)%nat -> 0 < nodeArea els n -> lag n = true) /\
  (forall a k, (1 <= a)%nat -> (1 <= k <= nsd)%nat -> Ru s (dof nsd a k) = - sumf nSlv (fun n => el P (dof nsd a k) n * (if pushes n then psol n + eps * meanGap els n else 0))) /\
  (forall a k n, (1 <= a)%nat -> (1 <= k <= nsd)%nat -> (1 <= n <= nSlv)%nat -> Kul s (dof nsd a k) n = if pushes n then el P (dof nsd a k) n else 0) /\
  (forall a k n, (1 <= a)%nat -> (1 <= k <= nsd)%nat -> (1 <= n <= nSlv)%nat -> Klu s n (dof nsd a k) = if pushes n then el P (dof nsd a k) n else 0) /\
  (forall I J, (1 <= I <= nd)%nat -> (1 <= J <= nd)%nat -> Kuu s I J = sumf nSlv (fun n => if pushes n then eps / nodeArea els n * el P I n * el P J n else 0)) /\
  (forall n, (1 <= n <= nSlv)%nat -> Rl s n = if Rlt_dec 0 (nodeArea els n) then if pushes n then - meanGap els n * nodeArea els n else psol n / eps * nodeArea els n else 0) /\
  (forall n, (1 <= n <= nSlv)%nat -> Kll s n = if Rlt_dec 0 (nodeArea els n) then if pushes n then 0 else - nodeArea els n / eps else 0).
Proof.
  assert (W : forall e, In e els -> wfElm nNod nSlv e) by (intros e He; apply (ge_wf _ _ e (Good e He))).
  generalize Sys. unfold contactSystem.
  destruct (mortarAA nSlv els) as [| |A] eqn:EA; try discriminate. cbn [bind].
  destruct (mortarSum nSlv els) as [| |G] eqn:EG; try discriminate. cbn [bind].
  destruct (mortarPhi nsd nNod nSlv els) as [| |P] eqn:EP; try discriminate. cbn [bind].
  set (AA := fun n => el A n 1). set (wg := weightedGap AA (fun n => el G n 1)). set (act := alActive first it nSlv eps AA wg lag psol old). set (lambda := lambdaOf AA lag psol).
  destruct (assembleR_entries nsd nNod nSlv eps lambda wg act els (zeros nd 1) W eq_refl eq_refl) as [R [ER VR]]. rewrite ER. cbn [bind].
  destruct (assembleUL_entries nsd nNod nSlv eps lambda wg act els (zeros nd nSlv) W eq_refl eq_refl) as [U [EU VU]]. rewrite EU. cbn [bind].
  destruct (assembleLU_entries nsd nNod nSlv eps lambda wg act els (zeros nSlv nd) W eq_refl eq_refl) as [L [EL VL]]. rewrite EL. cbn [bind].
  destruct (tangent nsd nNod nSlv eps AA (el P) act (zeros nd nd)) as [| |K] eqn:EK; try discriminate. cbn [bind].
  destruct (multOk nSlv AA lag) eqn:OK; [|discriminate]. intros Q. injection Q as <-. cbn [Ru Rl Kuu Kul Klu Kll].
  assert (HA : forall n, (1 <= n)%nat -> AA n = nodeArea els n) by (intros; now apply area_entries).
  assert (HG : forall n, (1 <= n)%nat -> el G n 1 = nodeSum els gap n) by (intros; now apply gap_entries).
  assert (HW : forall n, (1 <= n)%nat -> 0 < nodeArea els n -> wg n = meanGap els n).
  { intros n Hn Pn. unfold wg, weightedGap, meanGap. rewrite HA, HG by assumption. destruct (Rlt_dec 0 (nodeArea els n)); [reflexivity|contradiction]. }
  assert (HL : forall n, (1 <= n <= nSlv)%nat -> 0 < nodeArea els n -> lag n = true).
  { intros n Hn Pn. unfold multOk in OK. rewrite forallb_forall in OK. specialize (OK n). rewrite in_seq in OK. specialize (OK ltac:(lia)). rewrite HA in OK by lia.
    destruct (Rlt_dec 0 (nodeArea els n)); [exact OK|contradiction]. }
  assert (HP : forall n, (1 <= n <= nSlv)%nat -> isActive act n = pushes n).
  { intros n Hn. unfold act, alActive. rewrite active_char by lia. rewrite Later. cbn [andb]. rewrite orb_false_r.
    destruct (Nat.leb_spec n nSlv); [|lia]. cbn [andb]. unfold augmentedTest, pushes. rewrite HA by lia. destruct (Rlt_dec 0 (nodeArea els n)) as [Pn|]; [|reflexivity].
    rewrite (HL n Hn Pn), (HW n) by (assumption || lia). reflexivity. }
  assert (HO : forall n, (1 <= n)%nat -> (nSlv < n)%nat -> isActive act n = false).
  { intros n H1 H2. unfold act, alActive. rewrite active_char by lia. rewrite Later. cbn [andb]. destruct (Nat.leb_spec n nSlv); [lia|reflexivity]. }
  assert (Hl : forall n, (1 <= n <= nSlv)%nat -> 0 < nodeArea els n -> lambda n = psol n).
  { intros n Hn Pn. unfold lambda, lambdaOf. rewrite HA by lia. destruct (Rlt_dec 0 (nodeArea els n)); [|contradiction]. now rewrite HL. }
  destruct (phi_entries nsd nNod nSlv els W) as [P' [EP' VP]]. rewrite EP in EP'. injection EP' as <-.
  assert (Pos : forall n, pushes n = true -> 0 < nodeArea els n) by (intros n; unfold pushes; destruct (Rlt_dec 0 (nodeArea els n)); [auto|discriminate]).
  exists P. split; [reflexivity|]. split; [exact HL|]. split; [|split; [|split; [|split; [|split]]]].
  - intros a k Ha Hk. rewrite VR by assumption. cbn [zeros el]. rewrite Rplus_0_l. rewrite (sumL_ext _ (fun e => -1 * sumf nSlv (fun n => elmShare e a k n * pressure eps lambda wg act n))).
    2:{ intros e He. rewrite (shareR_phi nsd nNod nSlv) by auto. ring. }
    rewrite sumL_scal, sumL_sumf_swap. match goal with |- -1 * ?x = _ => replace (-1 * x) with (- x) by ring end. f_equal. apply sumf_ext. intros n Hn.
    rewrite VP by lia. rewrite <- HP by assumption. unfold pressure. rewrite (sumL_ext _ (fun e => (if isActive act n then lambda n + eps * wg n else 0) * elmShare e a k n)) by (intros; ring).
    rewrite sumL_scal, Rmult_comm. f_equal. destruct (isActive act n) eqn:E; [|reflexivity]. rewrite HP in E by assumption. rewrite Hl, HW by (auto || lia). reflexivity.
  - intros a k n Ha Hk Hn. rewrite VU by lia. cbn [zeros el]. rewrite <- HP by assumption. unfold shareK. destruct (isActive act n).
    + rewrite VP by lia. ring.
    + rewrite (sumL_ext _ (fun _ => 0 * 0)) by (intros; ring). rewrite sumL_scal. ring.
  - intros a k n Ha Hk Hn. rewrite VL by lia. cbn [zeros el]. rewrite <- HP by assumption. unfold shareK. destruct (isActive act n).
    + rewrite VP by lia. ring.
    + rewrite (sumL_ext _ (fun _ => 0 * 0)) by (intros; ring). rewrite sumL_scal. ring.
  - intros I J HI HJ. assert (Sk : forall a k n, (1 <= a <= nSlv)%nat -> (1 <= k <= nsd)%nat -> (1 <= n)%nat -> AA a = 0 -> el P (dof nsd a k) n = 0) by (intros; now apply (no_area_no_force nsd nNod nSlv els A P)).
    rewrite (tangent_dofs nsd nNod nSlv eps AA (el P) act Dim Sk K EK I J HI HJ).
    unfold springs. rewrite (sum_support (length act) nSlv).
    + apply sumf_ext. intros n Hn. rewrite HP, HA by lia. destruct (pushes n) eqn:E; [|reflexivity]. destruct (Rlt_dec 0 (nodeArea els n)) as [|N]; [reflexivity|]. destruct (N (Pos n E)).
    + intros n Hn [B|B]; [unfold isActive; rewrite nth_overflow by lia; reflexivity|]. rewrite HO by lia. reflexivity.
  - intros n Hn. unfold multRow. rewrite HA, HP by lia. destruct (Rlt_dec 0 (nodeArea els n)) as [Pn|]; [|reflexivity]. rewrite HW, Hl by (auto || lia). now destruct (pushes n).
  - intros n Hn. unfold multRow. rewrite HA, HP by lia. destruct (Rlt_dec 0 (nodeArea els n)) as [Pn|]; [|reflexivity]. now destruct (pushes n).
Qed.
End OneState.
End System.
