From Coq Require Import Sorting.Sorted.
From Verif Require Import Lib.Base Lib.Sums Model.LineLoad.

Definition grid (l : list R) : Prop := StronglySorted Rlt l.
Lemma beq_refl a : beq a a = true. Proof. unfold beq. destruct (Req_EM_T a a); easy. Qed.
Lemma beq_neq a b : a <> b -> beq a b = false. Proof. unfold beq. now destruct (Req_EM_T a b). Qed.
Lemma ble_true a b : a <= b -> ble a b = true. Proof. unfold ble. now destruct (Rle_dec a b). Qed.
Lemma ble_false a b : b < a -> ble a b = false. Proof. unfold ble. destruct (Rle_dec a b); [lra|easy]. Qed.

Definition touch (c : R) (p : R * R) : R := if beq (fst p) c then 1 else if beq (snd p) c then 1 else 0.
Definition within (a b : R) (p : R * R) : bool := (ble a (fst p) && ble (snd p) b)%bool.

Lemma spans_cons a b t : spans (a :: b :: t) = (a, b) :: spans (b :: t). Proof. reflexivity. Qed.
Lemma touch_none c l : grid l -> (forall x, In x l -> c < x) -> sumL (touch c) (spans l) = 0.
Proof.
  induction l as [|a [|b t] IH]; intros G H; [reflexivity|reflexivity|]. rewrite spans_cons. unfold sumL; cbn [fold_right]. fold (sumL (touch c) (spans (b :: t))).
  rewrite IH; [|now inversion G|intros; apply H; now right]. unfold touch; cbn [fst snd].
  rewrite !beq_neq; [lra| |]; [assert (Q := H b ltac:(right; left; reflexivity)); lra|assert (Q := H a ltac:(left; reflexivity)); lra].
Qed.
Lemma grid_tail a l : grid (a :: l) -> grid l /\ forall x, In x l -> a < x.
Proof. intros G. inversion G as [|? ? G1 G2]. split; [exact G1|]. now apply Forall_forall. Qed.
(* number of spans touching a knot *)
Lemma touch_first c b t : grid (c :: b :: t) -> sumL (touch c) (spans (c :: b :: t)) = 1.
Proof.
  intros G. destruct (grid_tail _ _ G) as [G' H]. rewrite spans_cons. unfold sumL; cbn [fold_right]. fold (sumL (touch c) (spans (b :: t))).
  rewrite touch_none by assumption. unfold touch; cbn [fst]. rewrite beq_refl. ring.
Qed.
Lemma touch_count l : forall c, grid l -> (2 <= length l)%nat -> In c l ->
  sumL (touch c) (spans l) = if beq c (hd 0 l) then 1 else if beq c (last l 0) then 1 else 2.
Proof.
  induction l as [|a [|b t] IH]; intros c G L H; cbn [length] in L; [lia|lia|].
  destruct (grid_tail _ _ G) as [G' H']. cbn [hd].
  destruct (Req_EM_T c a) as [->|N].
  - rewrite beq_refl. now apply touch_first.
  - rewrite (beq_neq c a) by assumption. destruct H as [<-|H]; [easy|].
    rewrite spans_cons. unfold sumL; cbn [fold_right]. fold (sumL (touch c) (spans (b :: t))).
    change (last (a :: b :: t) 0) with (last (b :: t) 0).
    unfold touch at 1; cbn [fst snd]. rewrite (beq_neq a c) by auto.
    destruct t as [|d t].
    + destruct H as [<-|[]]. cbn. rewrite !beq_refl. ring.
    + rewrite IH by (try assumption; cbn; lia). cbn [hd].
      destruct (Req_EM_T c b) as [->|N'].
      * rewrite !beq_refl. rewrite beq_neq; [ring|].
        destruct (grid_tail _ _ G') as [_ H'']. assert (Q : In (last (b :: d :: t) 0) (d :: t)).
        { change (last (b :: d :: t) 0) with (last (d :: t) 0). assert (NN : (d :: t) <> []) by discriminate.
          destruct (exists_last NN) as [l' [z E]]. rewrite E, last_last. apply in_or_app. right. now left. }
        specialize (H'' _ Q). lra.
      * rewrite (beq_neq b c) by auto. rewrite (beq_neq c b) by auto. destruct (beq c (last (b :: d :: t) 0)); ring.
Qed.

Definition additive (L : R -> R -> R) : Prop := (forall a, L a a = 0) /\ forall a b c, L a b + L b c = L a c.
Lemma within_after a b L l : grid l -> (forall x, In x l -> b <= x) -> sumL (fun p => if within a b p then L (fst p) (snd p) else 0) (spans l) = 0.
Proof.
  induction l as [|x [|y t] IH]; intros G H; [reflexivity|reflexivity|]. destruct (grid_tail _ _ G) as [G' H']. rewrite spans_cons. unfold sumL; cbn [fold_right].
  fold (sumL (fun p => if within a b p then L (fst p) (snd p) else 0) (spans (y :: t))). rewrite IH; [|assumption|intros; apply H; now right].
  unfold within; cbn [fst snd]. rewrite (ble_false y b). { rewrite andb_false_r. ring. }
  assert (Q := H x ltac:(now left)). assert (Q' := H' y ltac:(now left)). lra.
Qed.
Lemma cover_from L l : forall a b, additive L -> grid (a :: l) -> (b = a \/ In b l) -> forall a0, a0 <= a ->
  sumL (fun p => if within a0 b p then L (fst p) (snd p) else 0) (spans (a :: l)) = L a b.
Proof.
  induction l as [|y t IH]; intros a b A G H a0 Q.
  - destruct H as [->|[]]. cbn. destruct A as [A _]. now rewrite A.
  - destruct (grid_tail _ _ G) as [G' H']. destruct H as [->|H].
    + rewrite within_after; [destruct A as [A _]; now rewrite A|assumption|]. intros x [<-|Hx]; [lra|]. left. now apply H'.
    + rewrite spans_cons. unfold sumL; cbn [fold_right]. fold (sumL (fun p => if within a0 b p then L (fst p) (snd p) else 0) (spans (y :: t))).
      assert (Qy := H' y ltac:(now left)). destruct (grid_tail _ _ G') as [_ H''].
      assert (Hyb : y <= b). { destruct H as [->|H]; [lra|]. left. now apply H''. }
      rewrite (IH y b A G'); [|destruct H as [->|H]; [now left|now right]|lra]. unfold within; cbn [fst snd]. rewrite !ble_true by lra. cbn. now apply A.
Qed.
Lemma cover L l : forall a b, additive L -> grid l -> In a l -> In b l -> a <= b ->
  sumL (fun p => if within a b p then L (fst p) (snd p) else 0) (spans l) = L a b.
Proof.
  induction l as [|x t IH]; intros a b A G Ha Hb Hab; [easy|]. destruct (grid_tail _ _ G) as [G' H'].
  destruct Ha as [->|Ha].
  - apply cover_from; [assumption|assumption|destruct Hb as [->|Hb]; [now left|now right]|lra].
  - destruct t as [|y t]; [easy|]. rewrite spans_cons. unfold sumL; cbn [fold_right]. fold (sumL (fun p => if within a b p then L (fst p) (snd p) else 0) (spans (y :: t))).
    assert (Qa := H' a Ha). unfold within at 1; cbn [fst snd]. rewrite (ble_false a x) by assumption. cbn [andb]. rewrite Rplus_0_l.
    destruct Hb as [->|Hb]; [lra|]. now apply IH.
Qed.

Lemma mask_NS c a b Lu Lv pu pv : a < b -> fst pu < snd pu ->
  elmLoad (setDomainNS c (a, b)) Lu Lv pu pv = 1 / 2 * (touch c pu * (if within a b pv then Lu c (fst pv) (snd pv) else 0)).
Proof.
  intros Hab Hu. unfold elmLoad, maskBorder, setDomainNS, within, touch; cbn [umin umax vmin vmax fst snd]. rewrite beq_refl, (beq_neq a b) by lra. cbn [andb].
  destruct (ble a (fst pv) && ble (snd pv) b)%bool; [|destruct (beq (fst pu) c), (beq (snd pu) c); lra].
  unfold beq. destruct (Req_EM_T (fst pu) c) as [->|]; [ring|]. destruct (Req_EM_T (snd pu) c) as [->|]; ring.
Qed.
Lemma mask_EW c a b Lu Lv pu pv : a < b -> fst pv < snd pv ->
  elmLoad (setDomainEW c (a, b)) Lu Lv pu pv = 1 / 2 * (touch c pv * (if within a b pu then Lv c (fst pu) (snd pu) else 0)).
Proof.
  intros Hab Hu. unfold elmLoad, maskBorder, setDomainEW, within, touch; cbn [umin umax vmin vmax fst snd]. rewrite beq_refl, (beq_neq a b) by lra. cbn [andb].
  destruct (ble a (fst pu) && ble (snd pu) b)%bool; [|destruct (beq (fst pv) c), (beq (snd pv) c); lra].
  unfold beq. destruct (Req_EM_T (fst pv) c) as [->|]; [ring|]. destruct (Req_EM_T (snd pv) c) as [->|]; ring.
Qed.
Lemma spans_lt l p : grid l -> In p (spans l) -> fst p < snd p.
Proof.
  induction l as [|x [|y t] IH]; intros G H; [easy|easy|]. destruct (grid_tail _ _ G) as [G' H']. rewrite spans_cons in H. destruct H as [<-|H]; [|now apply IH].
  apply H'. now left.
Qed.
(* share of the load that is applied: one half times the number of adjacent elements *)
Definition share (c : R) (l : list R) : R := if beq c (hd 0 l) then 1 / 2 else if beq c (last l 0) then 1 / 2 else 1.
Lemma sumL_prod {A B} (f : A -> R) (g : B -> R) l m : sumL (fun x => sumL (fun y => 1 / 2 * (f x * g y)) m) l = 1 / 2 * (sumL f l * sumL g m).
Proof.
  transitivity (sumL (fun x => (1 / 2 * sumL g m) * f x) l).
  - apply sumL_ext. intros x _. rewrite (sumL_ext _ (fun y => (1 / 2 * f x) * g y)) by (intros; ring). rewrite sumL_scal. ring.
  - rewrite sumL_scal. ring.
Qed.
Lemma total_NS Lu Lv us vs c a b : grid us -> grid vs -> (2 <= length us)%nat -> additive (Lu c) -> In c us -> In a vs -> In b vs -> a < b ->
  total (setDomainNS c (a, b)) Lu Lv us vs = share c us * Lu c a b.
Proof.
  intros GU GV LU A Hc Ha Hb Hab. unfold total.
  transitivity (sumL (fun pu => sumL (fun pv => 1 / 2 * (touch c pu * (if within a b pv then Lu c (fst pv) (snd pv) else 0))) (spans vs)) (spans us)).
  - apply sumL_ext. intros pu Hu. apply sumL_ext. intros pv _. apply mask_NS; [assumption|]. now apply (spans_lt us).
  - rewrite sumL_prod, touch_count, cover by (try assumption; lra). unfold share. destruct (beq c (hd 0 us)); [lra|]. destruct (beq c (last us 0)); lra.
Qed.
Lemma sumL_swap {A B} (f : A -> B -> R) l m : sumL (fun x => sumL (fun y => f x y) m) l = sumL (fun y => sumL (fun x => f x y) l) m.
Proof.
  induction l as [|x t IH]; cbn [sumL fold_right].
  - unfold sumL; cbn. induction m as [|y m IHm]; cbn; [reflexivity|rewrite <- IHm; ring].
  - unfold sumL in *; cbn [fold_right]. rewrite IH. clear IH. induction m as [|y m IHm]; cbn [fold_right]; [ring|]. rewrite <- IHm. ring.
Qed.
Lemma total_EW Lu Lv us vs c a b : grid us -> grid vs -> (2 <= length vs)%nat -> additive (Lv c) -> In c vs -> In a us -> In b us -> a < b ->
  total (setDomainEW c (a, b)) Lu Lv us vs = share c vs * Lv c a b.
Proof.
  intros GU GV LU A Hc Ha Hb Hab. unfold total. rewrite sumL_swap.
  transitivity (sumL (fun pv => sumL (fun pu => 1 / 2 * (touch c pv * (if within a b pu then Lv c (fst pu) (snd pu) else 0))) (spans us)) (spans vs)).
  - apply sumL_ext. intros pv Hv. apply sumL_ext. intros pu _. apply mask_EW; [assumption|]. now apply (spans_lt vs).
  - rewrite sumL_prod, touch_count, cover by (try assumption; lra). unfold share. destruct (beq c (hd 0 vs)); [lra|]. destruct (beq c (last vs 0)); lra.
Qed.
Lemma total_off Lu Lv us vs c a b : grid us -> ~ In c us -> a < b -> total (setDomainNS c (a, b)) Lu Lv us vs = 0.
Proof.
  intros GU Hc Hab. unfold total.
  transitivity (sumL (fun pu => sumL (fun pv => 1 / 2 * (touch c pu * (if within a b pv then Lu c (fst pv) (snd pv) else 0))) (spans vs)) (spans us)).
  - apply sumL_ext. intros pu Hu. apply sumL_ext. intros pv _. apply mask_NS; [assumption|]. now apply (spans_lt us).
  - rewrite sumL_prod. replace (sumL (touch c) (spans us)) with 0; [ring|]. symmetry. clear GU. induction us as [|x [|y t] IH]; [reflexivity|reflexivity|].
    rewrite spans_cons. unfold sumL; cbn [fold_right]. fold (sumL (touch c) (spans (y :: t))). rewrite IH by (intros Q; apply Hc; now right).
    unfold touch; cbn [fst snd]. rewrite !beq_neq; [lra| |]; intros ->; apply Hc; [right; now left|now left].
Qed.
Lemma interior_share l c : grid l -> In c l -> (exists a b, In a l /\ In b l /\ a < c < b) -> share c l = 1.
Proof.
  intros G Hc (a & b & Ha & Hb & Q). unfold share.
  rewrite beq_neq; [rewrite beq_neq; [reflexivity|]|].
  - intros E. assert (b <= last l 0); [|lra]. clear - G Hb. induction l as [|x [|y t] IH]; [easy|destruct Hb as [->|[]]; cbn; lra|].
    destruct (grid_tail _ _ G) as [G' H']. change (last (x :: y :: t) 0) with (last (y :: t) 0).
    destruct Hb as [<-|Hb]; [|now apply IH]. specialize (IH G'). assert (L : y <= last (y :: t) 0).
    { clear - G'. revert y G'. induction t as [|z t IH]; intros y G; [cbn; lra|]. change (last (y :: z :: t) 0) with (last (z :: t) 0). destruct (grid_tail _ _ G) as [G' H']. assert (Q := IH z G'). assert (y < z) by (apply H'; now left). lra. }
    assert (x < y) by (apply H'; now left). lra.
  - destruct l as [|x t]; [easy|]. cbn [hd]. intros ->. destruct (grid_tail _ _ G) as [_ H']. destruct Ha as [->|Ha]; [lra|]. specialize (H' _ Ha). lra.
Qed.
Lemma interior_NS Lu Lv us vs c a b : grid us -> grid vs -> (2 <= length us)%nat -> additive (Lu c) ->
  In c us -> In a vs -> In b vs -> a < b -> (exists l r, In l us /\ In r us /\ l < c /\ c < r) ->
  total (setDomainNS c (a, b)) Lu Lv us vs = Lu c a b.
Proof. intros. rewrite total_NS, interior_share by assumption. ring. Qed.
Lemma interior_EW Lu Lv us vs c a b : grid us -> grid vs -> (2 <= length vs)%nat -> additive (Lv c) ->
  In c vs -> In a us -> In b us -> a < b -> (exists l r, In l vs /\ In r vs /\ l < c /\ c < r) ->
  total (setDomainEW c (a, b)) Lu Lv us vs = Lv c a b.
Proof. intros. rewrite total_EW, interior_share by assumption. ring. Qed.
Lemma boundary_NS Lu Lv us vs c a b : grid us -> grid vs -> (2 <= length us)%nat -> additive (Lu c) ->
  In c us -> In a vs -> In b vs -> a < b -> c = hd 0 us \/ c = last us 0 ->
  total (setDomainNS c (a, b)) Lu Lv us vs = Lu c a b / 2.
Proof.
  intros ? ? ? ? ? ? ? ? E. rewrite total_NS by assumption. unfold share, beq.
  destruct (Req_EM_T c (hd 0 us)) as [|N1]; [field|]. destruct (Req_EM_T c (last us 0)) as [|N2]; [field|]. destruct E; contradiction.
Qed.
Lemma boundary_half : exists us vs c a b (L : R -> R -> R -> R), grid us /\ grid vs /\ additive (L c) /\ In c us /\ In a vs /\ In b vs /\ a < b /\
  total (setDomainNS c (a, b)) L L us vs <> L c a b.
Proof.
  exists [0; 1], [0; 1], 0, 0, 1, (fun _ a b => b - a). assert (G : grid [0; 1]) by (repeat constructor; lra).
  assert (A : additive (fun a b : R => b - a)) by (split; intros; ring).
  repeat split; try exact G; cbn [In]; auto; try lra; try (intros; ring).
  rewrite boundary_NS; cbn; try lra; try lia; auto.
Qed.
