From Coq Require Import Permutation.
From Verif Require Import Lib.Base Lib.Sums Lib.Vec3 Model.Boundary.
Import ListNotations.

Lemma reactions_ok react codes l : allReactions react codes = Ret l -> l = map (fun c => snd (react c)) codes /\ codes <> [] /\ forall c, In c codes -> fst (react c) = true.
Proof.
  unfold allReactions. destruct codes as [|c cs]; [discriminate|]. destruct (forallb _ _) eqn:E; [|discriminate]. intros [= <-].
  rewrite forallb_forall in E. repeat split; auto; discriminate.
Qed.
Lemma reactions_ret react codes : codes <> [] -> (forall c, In c codes -> fst (react c) = true) -> allReactions react codes = Ret (map (fun c => snd (react c)) codes).
Proof. intros N H. unfold allReactions. destruct codes as [|c cs]; [congruence|]. now replace (forallb _ _) with true by (symmetry; now apply forallb_forall). Qed.
Lemma fold_sum (rs : list vec) : forall r k, fold_left (fun a b k => a k + b k) rs r k = r k + sumL (fun b => b k) rs.
Proof. induction rs as [|b rs IH]; intros r k; unfold sumL in *; cbn; [ring|]. rewrite IH. cbn. ring. Qed.
Lemma sumL_map {A B} (f : B -> R) (g : A -> B) l : sumL f (map g l) = sumL (fun a => f (g a)) l.
Proof. induction l as [|a l IH]; [reflexivity|]. cbn. unfold sumL in IH. now rewrite IH. Qed.

(* weights *)
Lemma sumL_app' {A} (f : A -> R) l1 l2 : sumL f (l1 ++ l2) = sumL f l1 + sumL f l2.
Proof. unfold sumL. induction l1 as [|a l IH]; cbn; [ring|]. rewrite IH. ring. Qed.
Lemma sumL_concat {A} (f : A -> R) ls : sumL (fun s => sumL f s) ls = sumL f (concat ls).
Proof. induction ls as [|s ls IH]; [reflexivity|]. cbn [concat]. rewrite sumL_app', <- IH. reflexivity. Qed.
Lemma sumL_ext {A} (f g : A -> R) l : (forall a, In a l -> f a = g a) -> sumL f l = sumL g l.
Proof. induction l as [|a l IH]; intros H; [reflexivity|]. cbn. rewrite (H a) by now left. f_equal. apply IH. intros; apply H; now right. Qed.
Lemma sumL_remove (g : nat -> R) a l : sumL g l = INR (count_occ Nat.eq_dec l a) * g a + sumL g (remove Nat.eq_dec a l).
Proof.
  unfold sumL. induction l as [|b l IH]; [cbn; ring|]. cbn [fold_right count_occ remove]. destruct (Nat.eq_dec b a) as [->|N].
  - destruct (Nat.eq_dec a a); [|congruence]. rewrite IH, S_INR. ring.
  - destruct (Nat.eq_dec a b); [congruence|]. cbn [fold_right]. rewrite IH. ring.
Qed.
Lemma nodup_remove_count l a b : a <> b -> count_occ Nat.eq_dec (remove Nat.eq_dec a l) b = count_occ Nat.eq_dec l b.
Proof.
  intros N. induction l as [|c l IH]; [reflexivity|]. cbn. destruct (Nat.eq_dec a c) as [->|].
  - destruct (Nat.eq_dec c b); [congruence|assumption].
  - cbn. destruct (Nat.eq_dec c b); [now rewrite IH|assumption].
Qed.
(* sum over occurrences = sum over distinct values of multiplicity times value *)
Lemma sumL_mult (g : nat -> R) : forall u l, NoDup u -> (forall n, In n l -> In n u) ->
  sumL g l = sumL (fun n => INR (count_occ Nat.eq_dec l n) * g n) u.
Proof.
  induction u as [|a u IH]; intros l ND S.
  - destruct l as [|b l]; [reflexivity|]. destruct (S b). now left.
  - inversion ND as [|? ? NA NU]; subst. rewrite (sumL_remove g a l). cbn. f_equal.
    rewrite (IH (remove Nat.eq_dec a l)); [|assumption|].
    + apply sumL_ext. intros n H. rewrite nodup_remove_count; [reflexivity|]. intros ->. contradiction.
    + intros n H. apply in_remove in H. destruct H as [H1 H2]. destruct (S n H1); [congruence|assumption].
Qed.
Lemma sections_total secs (f : nat -> vec) k u : (1 < length secs)%nat -> NoDup u -> (forall n, In n u <-> In n (concat secs)) ->
  sumL (fun s => sectionForce secs f s k) secs = sumL (fun n => f n k) u.
Proof.
  intros L ND S. unfold sectionForce. apply Nat.ltb_lt in L. rewrite L.
  rewrite (sumL_concat (fun n => nodeWeight secs n * f n k)). rewrite (sumL_mult _ u); [|assumption|intros n; apply S].
  apply sumL_ext. intros n H. apply S in H. unfold nodeWeight. set (c := count_occ _ _ _). cbv zeta.
  assert (C : (1 <= c)%nat) by (apply (count_occ_In Nat.eq_dec) in H; unfold c; lia).
  apply le_INR in C. cbn in C. destruct (Rlt_dec 1 (INR c)); [field; lra|]. replace (INR c) with 1 by lra. ring.
Qed.
Lemma section_single s (f : nat -> vec) k : sumL (fun s => sectionForce [s] f s k) [s] = sumL (fun n => f n k) s.
Proof. unfold sectionForce. cbn [length Nat.ltb Nat.leb]. unfold sumL at 1. cbn. ring. Qed.

Lemma printed_total nodes (f : nat -> vec) codes : (1 < length codes)%nat ->
  exists r, printedTotal (nodeReact nodes f) codes = Ret (Some r) /\ forall k, r k = sumL (fun n => f n k) (concat (map nodes codes)).
Proof.
  intros L. unfold printedTotal. rewrite reactions_ret; [|intros ->; cbn in L; lia|reflexivity]. cbn [bind].
  destruct codes as [|c [|d cs]]; cbn in L; try lia. eexists. split; [reflexivity|]. intros k. rewrite fold_sum.
  assert (G : forall l, sumL (fun b : vec => b k) (map (fun c => snd (nodeReact nodes f c)) l) = sumL (fun n => f n k) (concat (map nodes l))).
  { induction l as [|e l IH]; [reflexivity|]. cbn [map concat]. rewrite sumL_app', <- IH. reflexivity. }
  change (concat (map nodes (c :: d :: cs))) with (nodes c ++ concat (map nodes (d :: cs))). rewrite sumL_app', <- (G (d :: cs)). reflexivity.
Qed.

(* reference point *)
Lemma furthest_spec c l : forall b0, let b := furthest c l b0 in
  snd b0 <= snd b /\ (forall X, In X l -> dist2 X c <= snd b) /\
  (b = b0 \/ (In (fst b) l /\ snd b = dist2 (fst b) c /\ snd b0 < snd b)).
Proof.
  induction l as [|X l IH]; intros b0; cbn; [split; [lra|]; split; [intros X []|now left]|].
  destruct (Rlt_dec (snd b0) (dist2 X c)) as [H|H].
  - destruct (IH (X, dist2 X c)) as (A & B & C). unfold furthest in *. cbn [fst snd] in *. split; [lra|]. split.
    + intros Y [<-|K]; [assumption|now apply B].
    + right. destruct C as [->|(C1 & C2 & C3)]; [cbn; auto|]. split; [now right|]. split; [assumption|lra].
  - destruct (IH b0) as (A & B & C). unfold furthest in *. split; [assumption|]. split.
    + intros Y [<-|K]; [lra|now apply B].
    + destruct C as [->|(C1 & C2 & C3)]; [now left|]. right. auto.
Qed.
Lemma dist2_pos a b : 0 <= dist2 a b. Proof. apply vdot_pos. Qed.
Lemma dist2_zero a b : dist2 a b = 0 -> a = b.
Proof.
  intros H. assert (E : vlen (vsub a b) = 0) by (unfold vlen; unfold dist2 in H; rewrite H; apply sqrt_0).
  apply vlen_zero in E. destruct a as [a1 a2 a3], b as [b1 b2 b3]. unfold vsub, vzero in E; cbn in E. injection E as E1 E2 E3. f_equal; lra.
Qed.
Lemma dist2_sym a b : dist2 a b = dist2 b a. Proof. unfold dist2. vring. Qed.
Lemma dist2_refl a : dist2 a a = 0. Proof. unfold dist2. vring. Qed.

Lemma fold_vadd_c (l : list v3) : forall x0 k, vc (fold_left vadd l x0) k = vc x0 k + sumL (fun v => vc v k) l.
Proof.
  induction l as [|a l IH]; intros x0 k; cbn [fold_left]; [unfold sumL; cbn; ring|]. rewrite IH. unfold sumL; cbn.
  assert (E : vc (vadd x0 a) k = vc x0 k + vc a k) by (destruct k as [|[|[|k]]]; reflexivity). rewrite E. ring.
Qed.
Lemma vc_ext a b : (forall k, vc a k = vc b k) -> a = b.
Proof. intros H. apply v_ext; [apply (H 1%nat)|apply (H 2%nat)|apply (H 3%nat)]. Qed.
Lemma sumL_perm {A} (f : A -> R) l l' : Permutation l l' -> sumL f l = sumL f l'.
Proof. induction 1; cbn; unfold sumL in *; try lra. Qed.
Lemma mean_perm x0 l l' : Permutation l l' -> mean x0 l = mean x0 l'.
Proof.
  intros P. unfold mean. rewrite (Permutation_length P). f_equal. apply vc_ext. intros k. rewrite !fold_vadd_c. f_equal. now apply sumL_perm.
Qed.
(* all points at maximal distance from [c] coincide *)
Definition uniqueFar (c : v3) (l : list v3) : Prop :=
  forall X Y, In X l -> In Y l -> (forall Z, In Z l -> dist2 Z c <= dist2 X c) -> (forall Z, In Z l -> dist2 Z c <= dist2 Y c) -> X = Y.
Lemma furthest_perm c l l' b0 : Permutation l l' -> uniqueFar c l -> furthest c l b0 = furthest c l' b0.
Proof.
  intros P U. destruct (furthest_spec c l b0) as (A & B & C). destruct (furthest_spec c l' b0) as (A' & B' & C').
  set (b := furthest c l b0) in *. set (b' := furthest c l' b0) in *.
  assert (In1 : forall X, In X l -> In X l') by (intros X; now apply Permutation_in).
  assert (In2 : forall X, In X l' -> In X l) by (intros X; apply Permutation_in, Permutation_sym, P).
  destruct C as [->|(C1 & C2 & C3)], C' as [->|(C1' & C2' & C3')].
  - reflexivity.
  - specialize (B _ (In2 _ C1')). lra.
  - specialize (B' _ (In1 _ C1)). lra.
  - assert (E : fst b = fst b').
    { apply U; auto; intros Z HZ; [rewrite <- C2; now apply B|rewrite <- C2'; apply B'; auto]. }
    destruct b, b'; cbn in *. subst. reflexivity.
Qed.
Lemma refPoint_perm x0 l l' : Permutation l l' -> uniqueFar (mean x0 l) l -> uniqueFar (fst (furthest (mean x0 l) l (mean x0 l, 0))) l -> refPoint x0 l = refPoint x0 l'.
Proof.
  intros P U1 U2. unfold refPoint. destruct l as [|a l]; [apply Permutation_nil in P; now subst|].
  destruct l' as [|a' l']; [now apply Permutation_sym, Permutation_nil in P|].
  rewrite <- (mean_perm x0 _ _ P). cbv zeta. rewrite <- (furthest_perm _ _ _ _ P U1). rewrite <- (furthest_perm _ _ _ _ P U2). reflexivity.
Qed.
(* straight boundary *)
Definition online (p d : v3) (t : R) : v3 := vadd p (vscal t d).
Lemma dist_line p d s t : dist2 (online p d s) (online p d t) = (s - t) * (s - t) * vdot d d.
Proof. unfold dist2, online. vring. Qed.
Lemma sum_line (ts : list R) k p d : sumL (fun v => vc v k) (map (online p d) ts) = INR (length ts) * vc p k + sumL (fun t => t) ts * vc d k.
Proof.
  induction ts as [|t ts IH]; [unfold sumL; cbn; ring|]. cbn [map length]. unfold sumL in *. cbn [fold_right]. rewrite IH, S_INR.
  assert (E : vc (online p d t) k = vc p k + t * vc d k) by (destruct k as [|[|[|k]]]; reflexivity). rewrite E. ring.
Qed.
Definition avg (ts : list R) : R := sumL (fun t => t) ts / INR (length ts).
Lemma mean_line ts p d : ts <> [] -> mean vzero (map (online p d) ts) = online p d (avg ts).
Proof.
  intros N. assert (L : INR (length ts) <> 0) by (apply not_0_INR; destruct ts; [congruence|discriminate]).
  unfold mean. rewrite map_length. apply vc_ext. intros k.
  assert (E : forall s v, vc (vscal s v) k = s * vc v k) by (intros; destruct k as [|[|[|k]]]; reflexivity). rewrite E, fold_vadd_c, sum_line.
  assert (Z : vc vzero k = 0) by (destruct k as [|[|[|k]]]; reflexivity). rewrite Z.
  assert (F : vc (online p d (avg ts)) k = vc p k + avg ts * vc d k) by (destruct k as [|[|[|k]]]; reflexivity). rewrite F. unfold avg. field. exact L.
Qed.
Lemma sum_bounds ts a b : (forall t, In t ts -> a <= t <= b) -> INR (length ts) * a <= sumL (fun t => t) ts <= INR (length ts) * b.
Proof.
  induction ts as [|t ts IH]; intros H; [unfold sumL; cbn; lra|]. cbn [length]. rewrite S_INR. unfold sumL in *. cbn [fold_right].
  assert (Ht := H t (or_introl eq_refl)). destruct IH as [I1 I2]; [intros; apply H; now right|]. lra.
Qed.
Lemma sum_strict ts a b : (forall t, In t ts -> a <= t <= b) -> In a ts -> In b ts -> a < b ->
  INR (length ts) * a < sumL (fun t => t) ts < INR (length ts) * b.
Proof.
  intros H A B L. split.
  - apply in_split in B. destruct B as (l1 & l2 & ->).
    assert (B1 := sum_bounds l1 a b ltac:(intros; apply H, in_or_app; now left)). assert (B2 := sum_bounds l2 a b ltac:(intros; apply H, in_or_app; right; now right)).
    rewrite sumL_app', app_length. cbn [length]. rewrite plus_INR, S_INR. unfold sumL at 2. cbn [fold_right]. fold (sumL (fun t => t) l2). lra.
  - apply in_split in A. destruct A as (l1 & l2 & ->).
    assert (B1 := sum_bounds l1 a b ltac:(intros; apply H, in_or_app; now left)). assert (B2 := sum_bounds l2 a b ltac:(intros; apply H, in_or_app; right; now right)).
    rewrite sumL_app', app_length. cbn [length]. rewrite plus_INR, S_INR. unfold sumL at 2. cbn [fold_right]. fold (sumL (fun t => t) l2). lra.
Qed.
Lemma avg_inside ts a b : (forall t, In t ts -> a <= t <= b) -> In a ts -> In b ts -> a < b -> a < avg ts < b.
Proof.
  intros H A B L. destruct (sum_strict ts a b H A B L) as [S1 S2]. unfold avg.
  assert (N : 0 < INR (length ts)) by (apply lt_0_INR; destruct ts; [destruct A|cbn; lia]).
  assert (I : 0 < / INR (length ts)) by now apply Rinv_0_lt_compat.
  split; apply (Rmult_lt_reg_r (INR (length ts))); try assumption; unfold Rdiv; rewrite Rmult_assoc, Rinv_l, Rmult_1_r by lra; lra.
Qed.
Lemma refPoint_line ts p d a b : (forall t, In t ts -> a <= t <= b) -> In a ts -> In b ts ->
  refPoint vzero (map (online p d) ts) = online p d ((a + b) / 2).
Proof.
  intros H A B. assert (N : ts <> []) by (intros ->; destruct A).
  assert (D := vdot_pos d).
  unfold refPoint. destruct (map (online p d) ts) as [|x0 l0] eqn:EM; [destruct ts; [congruence|discriminate]|]. rewrite <- EM. cbv zeta.
  rewrite mean_line by assumption. set (c := online p d (avg ts)). set (l := map (online p d) ts).
  assert (IL : forall X, In X l -> exists t, X = online p d t /\ In t ts) by (intros X K; apply in_map_iff in K; destruct K as (t & <- & K); now exists t).
  assert (LI : forall t, In t ts -> In (online p d t) l) by (intros; now apply in_map).
  destruct (furthest_spec c l (c, 0)) as (F1 & F2 & F3). set (b1 := furthest c l (c, 0)) in *. cbn [fst snd] in F1, F3.
  destruct (furthest_spec (fst b1) l (fst b1, snd b1)) as (G1 & G2 & G3). set (b2 := furthest (fst b1) l _) in *. cbn [fst snd] in G1, G3.
  destruct (Req_dec (vdot d d) 0) as [Z|Z].
  { (* all points coincide *)
    assert (E : forall s t, online p d s = online p d t) by (intros; apply dist2_zero; rewrite dist_line, Z; ring).
    assert (E1 : fst b1 = c) by (destruct F3 as [->|(F3 & _)]; [reflexivity|]; apply IL in F3; destruct F3 as (t & -> & _); apply E).
    assert (E2 : fst b2 = c) by (destruct G3 as [->|(G3 & _)]; [assumption|]; apply IL in G3; destruct G3 as (t & -> & _); apply E).
    rewrite E1, E2. unfold c. rewrite (E (avg ts) ((a + b) / 2)). set (q := online _ _ _). destruct q. unfold vscal, vadd; cbn. f_equal; field. }
  assert (D0 : 0 < vdot d d) by lra.
  destruct (Rle_lt_dec b a) as [L|L].
  { (* one point *)
    assert (Eab : a = b) by (destruct (H a A); lra). subst b.
    assert (T : forall t, In t ts -> t = a) by (intros t K; destruct (H t K); lra).
    assert (AV : avg ts = a).
    { unfold avg. destruct (sum_bounds ts a a H). assert (M : 0 < INR (length ts)) by (apply lt_0_INR; destruct ts; [destruct A|cbn; lia]). field_simplify_eq; lra. }
    assert (E1 : fst b1 = online p d a) by (destruct F3 as [->|(F3 & _)]; [unfold c; now rewrite AV|]; apply IL in F3; destruct F3 as (t & -> & K); now rewrite (T t K)).
    assert (E2 : fst b2 = online p d a) by (destruct G3 as [->|(G3 & _)]; [assumption|]; apply IL in G3; destruct G3 as (t & -> & K); now rewrite (T t K)).
    rewrite E1, E2. replace ((a + a) / 2) with a by field. set (q := online _ _ _). destruct q. unfold vscal, vadd; cbn. f_equal; field. }
  destruct (avg_inside ts a b H A B L) as [V1 V2]. set (m := avg ts) in *.
  assert (Fa := F2 _ (LI a A)). assert (Fb := F2 _ (LI b B)). unfold c in Fa, Fb. rewrite dist_line in Fa, Fb.
  destruct F3 as [F3|(F3 & F4 & F5)].
  { rewrite F3 in Fa. cbn [snd] in Fa. assert (0 < (a - m) * (a - m)) by nra. nra. }
  apply IL in F3. destruct F3 as (t1 & Et1 & K1). rewrite Et1 in F4. unfold c in F4. rewrite dist_line in F4. rewrite F4 in Fa, Fb.
  assert (Ha : (a - m) * (a - m) <= (t1 - m) * (t1 - m)) by (apply (Rmult_le_reg_r (vdot d d)); assumption).
  assert (Hb : (b - m) * (b - m) <= (t1 - m) * (t1 - m)) by (apply (Rmult_le_reg_r (vdot d d)); assumption).
  destruct (H t1 K1) as [T1 T2].
  assert (End1 : t1 = a \/ t1 = b).
  { destruct (Rle_lt_dec t1 m) as [Q|Q]; [left|right]; nra. }
  assert (Ga := G2 _ (LI a A)). assert (Gb := G2 _ (LI b B)). rewrite Et1, dist_line in Ga, Gb.
  assert (AB : snd b1 < (b - a) * (b - a) * vdot d d).
  { rewrite F4. apply Rmult_lt_compat_r; [assumption|]. destruct End1 as [->| ->]; nra. }
  destruct G3 as [G3|(G3 & G4 & G5)].
  { rewrite G3 in Ga, Gb. cbn [snd] in Ga, Gb. destruct End1 as [->| ->]; nra. }
  apply IL in G3. destruct G3 as (t2 & Et2 & K2). rewrite Et2, Et1, dist_line in G4. rewrite G4 in Ga, Gb. destruct (H t2 K2) as [U1 U2].
  assert (Ha2 : (a - t1) * (a - t1) <= (t2 - t1) * (t2 - t1)) by (apply (Rmult_le_reg_r (vdot d d)); assumption).
  assert (Hb2 : (b - t1) * (b - t1) <= (t2 - t1) * (t2 - t1)) by (apply (Rmult_le_reg_r (vdot d d)); assumption).
  rewrite Et1, Et2. assert (S' : t1 + t2 = a + b) by (destruct End1 as [->| ->]; nra).
  rewrite <- S'. destruct p, d. unfold online, vscal, vadd; cbn. f_equal; field.
Qed.
