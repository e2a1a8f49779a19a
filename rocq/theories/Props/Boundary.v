(** Reactions, forces and reference points of boundary sections (C60, C61). *)
From Coq Require Import Permutation.
From Verif Require Import Lib.Base Lib.Sums Lib.Vec3 Model.Boundary Proofs.Boundary.
Import ListNotations.

(** ** C60 *)
(** Boundary 1 of two is answered with boundary 2, and the last boundary is read out of bounds. *)
Theorem C60_index_refuted : forall react codes k, codes <> [] -> (forall c, In c codes -> fst (react c) = true) -> (1 <= k)%nat ->
  ((k < length codes)%nat -> exists c, nth_error codes k = Some c /\ boundaryReaction react codes k = Ret (snd (react c))) /\
  (k = length codes -> boundaryReaction react codes k = UB).
Proof.
  intros react codes k N H K. unfold boundaryReaction. rewrite reactions_ret by assumption. cbn [bind]. rewrite map_length.
  replace (0 <? k)%nat with true by (symmetry; apply Nat.ltb_lt; lia). split.
  - intros L. replace (length codes <? k)%nat with false by (symmetry; apply Nat.ltb_ge; lia).
    destruct (nth_error codes k) as [c|] eqn:E; [|apply nth_error_None in E; lia]. exists c. split; [reflexivity|].
    now rewrite (map_nth_error _ _ _ E).
  - intros L. replace (length codes <? k)%nat with false by (symmetry; apply Nat.ltb_ge; lia).
    replace (nth_error _ k) with (@None vec); [reflexivity|]. symmetry. apply nth_error_None. rewrite map_length. lia.
Qed.
(** A concrete failure of the documented (one-based) meaning. *)
Theorem C60_first_refuted : exists react codes r, boundaryReaction react codes 1 = Ret r /\ r 1%nat <> snd (react (hd 0%Z codes)) 1%nat.
Proof.
  exists (fun c => (true, fun _ => IZR c)), [3; 8]%Z, (fun _ => 8). split; [reflexivity|]. cbn. lra.
Qed.
(** Index zero gives the sum over all boundaries, indices beyond the number of boundaries are
    refused, and so is everything if there are no boundaries or one of them fails. *)
Theorem C60_sum_partial : forall react codes,
  (codes <> [] -> (forall c, In c codes -> fst (react c) = true) ->
     (exists r, boundaryReaction react codes 0 = Ret r /\ forall k, r k = sumL (fun c => snd (react c) k) codes) /\
     forall i, (length codes < i)%nat -> boundaryReaction react codes i = Rejected) /\
  (codes = [] \/ (exists c, In c codes /\ fst (react c) = false) -> forall i, boundaryReaction react codes i = Rejected).
Proof.
  intros react codes. split.
  - intros N H. unfold boundaryReaction. rewrite reactions_ret by assumption. cbn [bind]. rewrite map_length. split.
    + cbn [Nat.ltb Nat.leb]. destruct codes as [|c cs]; [congruence|]. cbn. eexists. split; [reflexivity|]. intros k. rewrite fold_sum, sumL_map. reflexivity.
    + intros i L. now replace (length codes <? i)%nat with true by (symmetry; apply Nat.ltb_lt; lia).
  - intros [->|(c & I & F)] i; unfold boundaryReaction, allReactions; [reflexivity|].
    destruct codes as [|c0 cs]; [reflexivity|]. destruct (forallb _ _) eqn:E; [|reflexivity]. rewrite forallb_forall in E. rewrite (E c I) in F. discriminate.
Qed.
(** The section forces add up to the sum over the union of the nodes, also if sections share nodes. *)
Theorem C60_sections_total : forall secs (f : nat -> vec) k u, (1 < length secs)%nat -> NoDup u -> (forall n, In n u <-> In n (concat secs)) ->
  sumL (fun s => sectionForce secs f s k) secs = sumL (fun n => f n k) u.
Proof. exact sections_total. Qed.
Theorem C60_section_single : forall s (f : nat -> vec) k, sumL (fun s => sectionForce [s] f s k) [s] = sumL (fun n => f n k) s.
Proof. exact section_single. Qed.
Example C60_ex : (1 < length [[1; 2]; [2; 3]])%nat /\ NoDup [1; 2; 3]%nat /\ (forall n, In n [1; 2; 3]%nat <-> In n (concat [[1; 2]; [2; 3]]%nat)).
Proof. split; [cbn; lia|]. split; [repeat constructor; cbn; intuition lia|]. cbn. intuition. Qed.

(** The printed total reaction: the resultant of all supported nodes if no node is on two of the sections. *)
Theorem C60_total_partial : forall nodes (f : nat -> vec) codes u, (1 < length codes)%nat -> NoDup (concat (map nodes codes)) ->
  NoDup u -> (forall n, In n u <-> In n (concat (map nodes codes))) ->
  exists r, printedTotal (nodeReact nodes f) codes = Ret (Some r) /\ forall k, r k = sumL (fun n => f n k) u.
Proof.
  intros nodes f codes u L ND NU S. destruct (printed_total nodes f codes L) as (r & E & V). exists r. split; [exact E|]. intros k. rewrite V.
  rewrite (sumL_mult _ u) by (assumption || (intros n; apply S)). apply sumL_ext. intros n Hn. apply S in Hn.
  rewrite (proj1 (NoDup_count_occ' Nat.eq_dec _) ND n Hn). cbn. ring.
Qed.
Example C60_total_case : NoDup (concat (map (fun c => if Z.eqb c 1 then [1; 2]%nat else [4; 5]%nat) [1; 2]%Z)).
Proof. cbn. repeat constructor; cbn; intuition lia. Qed.
(** A node that is on two sections is counted twice. *)
Theorem C60_total_shared_refuted : exists nodes (f : nat -> vec) codes u r, NoDup u /\ (forall n, In n u <-> In n (concat (map nodes codes))) /\
  printedTotal (nodeReact nodes f) codes = Ret (Some r) /\ r 1%nat = sumL (fun n => f n 1%nat) u + f 2%nat 1%nat /\ f 2%nat 1%nat = 1.
Proof.
  exists (fun c => if Z.eqb c 1 then [1; 2]%nat else [2; 3]%nat), (fun _ _ => 1), [1; 2]%Z, [1; 2; 3]%nat.
  destruct (printed_total (fun c => if Z.eqb c 1 then [1; 2]%nat else [2; 3]%nat) (fun _ _ => 1) [1; 2]%Z) as (r & E & V); [cbn; lia|].
  exists r. split; [repeat constructor; cbn; intuition lia|]. split; [cbn; intuition|]. split; [exact E|]. split; [|reflexivity]. rewrite V. cbn. ring.
Qed.

(** ** C61 *)
(** Three equidistant nodes: the reference point is the middle of the first two visited. *)
Theorem C61_order_refuted : exists l l', Permutation l l' /\ refPoint vzero l <> refPoint vzero l'.
Proof.
  exists [V 1 0 0; V 0 1 0; V 0 0 1], [V 0 0 1; V 0 1 0; V 1 0 0]. split.
  { exact (Permutation_rev [V 1 0 0; V 0 1 0; V 0 0 1]). }
  assert (M : mean vzero [V 1 0 0; V 0 1 0; V 0 0 1] = V (/3) (/3) (/3)) by (unfold mean, vscal, vadd, vzero; cbn; f_equal; field).
  assert (M' : mean vzero [V 0 0 1; V 0 1 0; V 1 0 0] = V (/3) (/3) (/3)) by (unfold mean, vscal, vadd, vzero; cbn; f_equal; field).
  unfold refPoint. rewrite M, M'. cbv zeta.
  assert (F : forall a b c, dist2 a (V (/3) (/3) (/3)) = 2/3 -> dist2 b (V (/3) (/3) (/3)) = 2/3 -> dist2 c (V (/3) (/3) (/3)) = 2/3 ->
     furthest (V (/3) (/3) (/3)) [a; b; c] (V (/3) (/3) (/3), 0) = (a, 2/3)).
  { intros a b c Ha Hb Hc. unfold furthest. cbn. rewrite Ha. destruct (Rlt_dec 0 (2/3)); [|lra]. cbn. rewrite Hb. destruct (Rlt_dec (2/3) (2/3)); [lra|]. cbn. rewrite Hc. destruct (Rlt_dec (2/3) (2/3)); [lra|reflexivity]. }
  assert (G : forall a b c, dist2 b a = 2 -> dist2 c a = 2 -> furthest a [a; b; c] (a, 2/3) = (b, 2)).
  { intros a b c Hb Hc. unfold furthest. cbn. rewrite dist2_refl. destruct (Rlt_dec (2/3) 0); [lra|]. cbn. rewrite Hb. destruct (Rlt_dec (2/3) 2); [|lra]. cbn. rewrite Hc. destruct (Rlt_dec 2 2); [lra|reflexivity]. }
  assert (D1 : dist2 (V 1 0 0) (V (/3) (/3) (/3)) = 2/3) by (unfold dist2, vdot, vsub; cbn; field).
  assert (D2 : dist2 (V 0 1 0) (V (/3) (/3) (/3)) = 2/3) by (unfold dist2, vdot, vsub; cbn; field).
  assert (D3 : dist2 (V 0 0 1) (V (/3) (/3) (/3)) = 2/3) by (unfold dist2, vdot, vsub; cbn; field).
  rewrite !F by assumption. cbn [fst snd].
  rewrite !G by (unfold dist2, vdot, vsub; cbn; ring). unfold vscal, vadd; cbn. intros [= E1 _]. lra.
Qed.
(** It is order independent if the points furthest from the centre, and from that point, are unique ... *)
Theorem C61_unique_partial : forall x0 l l', Permutation l l' -> uniqueFar (mean x0 l) l ->
  uniqueFar (fst (furthest (mean x0 l) l (mean x0 l, 0))) l -> refPoint x0 l = refPoint x0 l'.
Proof. exact refPoint_perm. Qed.
(** ... and on a straight boundary it always is the mid-point of its ends. *)
Theorem C61_straight_partial : forall ts p d a b, (forall t, In t ts -> a <= t <= b) -> In a ts -> In b ts ->
  refPoint vzero (map (fun t => vadd p (vscal t d)) ts) = vadd p (vscal ((a + b) / 2) d).
Proof. exact refPoint_line. Qed.
Example C61_ex : (forall t, In t [2; 0; 5] -> 0 <= t <= 5) /\ In 0 [2; 0; 5] /\ In 5 [2; 0; 5].
Proof. split; [intros t [<-|[<-|[<-|[]]]]; lra|]. cbn. auto. Qed.
Example C61_ex2 : let l := [V 0 0 0; V 1 0 0; V 4 0 0] in mean vzero l = V (5/3) 0 0 /\ uniqueFar (mean vzero l) l.
Proof.
  cbv zeta. assert (M : mean vzero [V 0 0 0; V 1 0 0; V 4 0 0] = V (5/3) 0 0) by (unfold mean, vscal, vadd, vzero; cbn; f_equal; field).
  split; [assumption|]. rewrite M. intros X Y HX HY FX FY.
  assert (P : forall Z, In Z [V 0 0 0; V 1 0 0; V 4 0 0] -> dist2 (V 4 0 0) (V (5/3) 0 0) <= dist2 Z (V (5/3) 0 0) -> Z = V 4 0 0).
  { intros Z [<-|[<-|[<-|[]]]]; unfold dist2, vdot, vsub; cbn; intros; try lra; reflexivity. }
  rewrite (P X HX), (P Y HY); [reflexivity|apply FY; cbn; auto|apply FX; cbn; auto].
Qed.

Print Assumptions C60_index_refuted.
Print Assumptions C60_first_refuted.
Print Assumptions C60_sum_partial.
Print Assumptions C60_sections_total.
Print Assumptions C60_section_single.
Print Assumptions C61_order_refuted.
Print Assumptions C61_unique_partial.
Print Assumptions C61_straight_partial.
Print Assumptions C60_total_partial.
Print Assumptions C60_total_shared_refuted.
