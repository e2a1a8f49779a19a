From Coq Require Import Permutation.
From Verif Require Import Lib.Base Lib.Sums Lib.Writes Model.Mortar.

(** ** Integration point *)

Lemma hitsum_block' n d g a0 b0 k0 l0 : (1 <= a0 <= n)%nat -> (1 <= b0 <= n)%nat -> (1 <= k0 <= d)%nat -> (1 <= l0 <= d)%nat ->
  hitsum (dof d a0 k0) (dof d b0 l0)
    (loop n (fun b => loop d (fun l => loop n (fun a => loop d (fun k => [(dof d a k, dof d b l, g a b k l)]))))) = g a0 b0 k0 l0.
Proof.
  intros Ha Hb Hk Hl.
  assert (E : forall b l a k, (1 <= b <= n)%nat -> (1 <= l <= d)%nat -> (1 <= a <= n)%nat -> (1 <= k <= d)%nat ->
    hitsum (dof d a0 k0) (dof d b0 l0) [(dof d a k, dof d b l, g a b k l)] =
    if (Nat.eqb a0 a && Nat.eqb k0 k && (Nat.eqb b0 b && Nat.eqb l0 l))%bool then g a b k l else 0).
  { intros. rewrite hitsum_one, !eqb_dof by lia. reflexivity. }
  rewrite hitsum_loop. apply (sumf_pick n b0); [exact Hb| |].
  - intros b Rb Nb. rewrite hitsum_loop. apply sumf_0. intros l Rl. rewrite hitsum_loop. apply sumf_0. intros a Ra.
    rewrite hitsum_loop. apply sumf_0. intros k Rk. rewrite E by assumption.
    destruct (Nat.eqb_spec b0 b); [congruence|]. cbn [andb]. rewrite andb_false_r. reflexivity.
  - rewrite hitsum_loop. apply (sumf_pick d l0); [exact Hl| |].
    + intros l Rl Nl. rewrite hitsum_loop. apply sumf_0. intros a Ra. rewrite hitsum_loop. apply sumf_0. intros k Rk.
      rewrite E by assumption. destruct (Nat.eqb_spec l0 l); [congruence|]. rewrite !andb_false_r. reflexivity.
    + rewrite hitsum_loop. apply (sumf_pick n a0); [exact Ha| |].
      * intros a Ra Na. rewrite hitsum_loop. apply sumf_0. intros k Rk. rewrite E by assumption.
        destruct (Nat.eqb_spec a0 a); [congruence|reflexivity].
      * rewrite hitsum_loop. apply (sumf_pick d k0); [exact Hk| |].
        -- intros k Rk Nk. rewrite E by assumption. destruct (Nat.eqb_spec k0 k); [congruence|]. rewrite !andb_false_r. reflexivity.
        -- rewrite E by assumption. rewrite !Nat.eqb_refl. reflexivity.
Qed.

Section Point.
Variables (npv ns nm : nat) (Ns Nm mN : nat -> R) (Tg : nat -> nat -> R) (lambda : nat -> R) (epsJxW : R).
Notation nn := (ns + nm)%nat.
Notation p := (pNint ns Ns lambda epsJxW).
Definition sgn (j : nat) : R := if (j <=? ns)%nat then - Ns j else Nm (j - ns)%nat.

Lemma res_entries : forall M, rows M = (npv * nn)%nat -> cols M = 1%nat ->
  exists M', accRes npv ns nm Ns Nm mN lambda epsJxW M = Ret M' /\
    forall j l, (1 <= j <= nn)%nat -> (1 <= l <= npv)%nat -> el M' (dof npv j l) 1 = el M (dof npv j l) 1 + p * mN l * sgn j.
Proof.
  intros M HR HC. unfold accRes, resWrites.
  destruct (run_add_ok (loop nn (fun j => loop npv (fun l => [(dof npv j l, 1%nat, p * mN l * sgn j)]))) M) as [M' [E [_ [_ V]]]].
  - intros i j v H. apply In_loop in H. destruct H as [a [Ha H]]. apply In_loop in H. destruct H as [b [Hb H]].
    destruct H as [H|[]]. injection H as <- <- _. apply inb_true; [|lia]. rewrite HR. now apply dof_range.
  - exists M'. split; [exact E|]. intros j l Hj Hl. rewrite V. f_equal. now rewrite (hitsum_vec nn npv (fun j l => p * mN l * sgn j)).
Qed.

Lemma split_sum : forall f g, sumf nn (fun j => if (j <=? ns)%nat then f j else g (j - ns)%nat) = sumf ns f + sumf nm g.
Proof.
  intros f g. rewrite sumf_split. f_equal; apply sumf_ext.
  - intros j Hj. destruct (Nat.leb_spec j ns); [reflexivity|lia].
  - intros j Hj. destruct (Nat.leb_spec (ns + j) ns); [lia|]. f_equal. lia.
Qed.

(** The contact forces of a point sum to zero. *)
Theorem forces_balance : forall M, rows M = (npv * nn)%nat -> cols M = 1%nat -> sumf ns Ns = sumf nm Nm ->
  exists M', accRes npv ns nm Ns Nm mN lambda epsJxW M = Ret M' /\
    forall l, (1 <= l <= npv)%nat -> sumf nn (fun j => el M' (dof npv j l) 1) = sumf nn (fun j => el M (dof npv j l) 1).
Proof.
  intros M HR HC PU. destruct (res_entries M HR HC) as [M' [E V]]. exists M'. split; [exact E|]. intros l Hl.
  rewrite (sumf_ext nn _ (fun j => el M (dof npv j l) 1 + p * mN l * sgn j)) by (intros; now apply V).
  rewrite sumf_plus, sumf_scal. unfold sgn. rewrite (split_sum (fun j => - Ns j) Nm), sumf_opp, PU. ring.
Qed.

Lemma tan_entries : forall M, rows M = (npv * nn)%nat -> cols M = (npv * nn)%nat ->
  exists M', accTan npv ns nm Ns Nm Tg false lambda epsJxW M = Ret M' /\
    forall i j k l, (1 <= i <= nn)%nat -> (1 <= j <= nn)%nat -> (1 <= k <= npv)%nat -> (1 <= l <= npv)%nat ->
      el M' (dof npv i k) (dof npv j l) = el M (dof npv i k) (dof npv j l) + p * shape ns Ns Nm i * shape ns Ns Nm j * Tg k l.
Proof.
  intros M HR HC. unfold accTan, tanWrites.
  set (g := fun i j k l => shape ns Ns Nm i * shape ns Ns Nm j * (Tg k l * p)).
  destruct (run_add_ok (loop nn (fun j => loop npv (fun l => loop nn (fun i => loop npv (fun k => [(dof npv i k, dof npv j l, g i j k l)]))))) M)
    as [M' [E [_ [_ V]]]].
  - intros i j v H. apply In_loop in H. destruct H as [a [Ha H]]. apply In_loop in H. destruct H as [b [Hb H]].
    apply In_loop in H. destruct H as [a' [Ha' H]]. apply In_loop in H. destruct H as [b' [Hb' H]].
    destruct H as [H|[]]. injection H as <- <- _. apply inb_true; [rewrite HR|rewrite HC]; now apply dof_range.
  - exists M'. split; [exact E|]. intros i j k l Hi Hj Hk Hl. rewrite V, hitsum_block' by assumption. unfold g. ring.
Qed.

(** A common translation of slave and master is resisted with twice the slave stiffness. *)
Theorem translation_force : forall M, rows M = (npv * nn)%nat -> cols M = (npv * nn)%nat -> sumf ns Ns = 1 -> sumf nm Nm = 1 ->
  exists M', accTan npv ns nm Ns Nm Tg false lambda epsJxW M = Ret M' /\
    forall i k l, (1 <= i <= nn)%nat -> (1 <= k <= npv)%nat -> (1 <= l <= npv)%nat ->
      sumf nn (fun j => el M' (dof npv i k) (dof npv j l)) =
      sumf nn (fun j => el M (dof npv i k) (dof npv j l)) + 2 * p * shape ns Ns Nm i * Tg k l.
Proof.
  intros M HR HC P1 P2. destruct (tan_entries M HR HC) as [M' [E V]]. exists M'. split; [exact E|]. intros i k l Hi Hk Hl.
  rewrite (sumf_ext nn _ (fun j => el M (dof npv i k) (dof npv j l) + p * shape ns Ns Nm i * Tg k l * shape ns Ns Nm j))
    by (intros; rewrite V by assumption; ring).
  rewrite sumf_plus, sumf_scal. unfold shape at 2. rewrite split_sum, P1, P2. ring.
Qed.
End Point.

(** ** Mortar matrices *)
Section Global.
Variables (nsd nNod nSlv : nat).

Lemma hitsum_flat {A} (f : A -> list wr) l i j : hitsum i j (flat_map f l) = sumL (fun a => hitsum i j (f a)) l.
Proof. induction l as [|a l IH]; [reflexivity|]. cbn [flat_map]. rewrite hitsum_app, IH. reflexivity. Qed.

Definition phiVal (e : elm) (p : point) (i j k : nat) : R :=
  pNorm p k * detJxW p * (if (i <=? nen e)%nat then pN p i else - pNm p (i - nen e)%nat) * pN p j.

Lemma hitsum_phi : forall n m g i0 j0 k0, (1 <= i0 <= m)%nat -> (1 <= j0 <= n)%nat -> (1 <= k0 <= nsd)%nat ->
  hitsum (dof nsd i0 k0) j0 (loop n (fun j => loop m (fun i => loop nsd (fun k => [(dof nsd i k, j, g i j k)])))) = g i0 j0 k0.
Proof.
  intros n m g i0 j0 k0 Hi Hj Hk. rewrite hitsum_loop. apply (sumf_pick n j0); [exact Hj| |].
  - intros j Rj Nj. rewrite hitsum_loop. apply sumf_0. intros i Ri. rewrite hitsum_loop. apply sumf_0. intros k Rk.
    rewrite hitsum_one, eqb_dof by lia. destruct (Nat.eqb_spec j0 j); [congruence|]. rewrite !andb_false_r. reflexivity.
  - rewrite hitsum_loop. apply (sumf_pick m i0); [exact Hi| |].
    + intros i Ri Ni. rewrite hitsum_loop. apply sumf_0. intros k Rk. rewrite hitsum_one, eqb_dof by lia.
      destruct (Nat.eqb_spec i0 i); [congruence|reflexivity].
    + rewrite hitsum_loop. apply (sumf_pick nsd k0); [exact Hk| |].
      * intros k Rk Nk. rewrite hitsum_one, eqb_dof by lia. destruct (Nat.eqb_spec k0 k); [congruence|]. rewrite !andb_false_r. reflexivity.
      * rewrite hitsum_one, eqb_dof by lia. rewrite !Nat.eqb_refl. reflexivity.
Qed.

Lemma elmPhi_ok : forall e, exists M, elmPhi nsd e = Ret M /\
  forall i j k, (1 <= i <= nen e + nmast e)%nat -> (1 <= j <= nen e)%nat -> (1 <= k <= nsd)%nat ->
    el M (dof nsd i k) j = sumL (fun p => phiVal e p i j k) (pts e).
Proof.
  intros e. unfold elmPhi.
  destruct (run_add_ok (flat_map (fun p => phiWrites nsd (nen e) (nmast e) (pN p) (pNm p) (fun k => pNorm p k * detJxW p)) (pts e))
    (zeros (nsd * (nen e + nmast e)) (nen e))) as [M [E [_ [_ V]]]].
  - intros i j v H. apply in_flat_map in H. destruct H as [p [_ H]]. unfold phiWrites in H.
    apply In_loop in H. destruct H as [a [Ha H]]. apply In_loop in H. destruct H as [b [Hb H]]. apply In_loop in H. destruct H as [c [Hc H]].
    destruct H as [H|[]]. injection H as <- <- _. apply inb_true; cbn; [now apply dof_range|lia].
  - exists M. split; [exact E|]. intros i j k Hi Hj Hk. rewrite V. cbn [zeros el]. rewrite Rplus_0_l, hitsum_flat. apply sumL_ext. intros p _.
    unfold phiWrites. rewrite (hitsum_phi (nen e) (nen e + nmast e)
      (fun i j k => if (i <=? nen e)%nat then pNorm p k * detJxW p * pN p i * pN p j else - (pNorm p k * detJxW p * pNm p (i - nen e)%nat * pN p j))) by assumption.
    unfold phiVal. destruct (i <=? nen e)%nat; ring.
Qed.

(** Well-formed elements: slave nodes among the slaves, all nodes in the model. *)
Definition wfElm (e : elm) : Prop :=
  (forall j, (1 <= j <= nen e)%nat -> (conn e j <= nSlv)%nat) /\
  (forall i, (1 <= i <= nen e + nmast e)%nat -> (conn e i <= nNod)%nat).

(** Contribution of an element to an entry of the global matrix. *)
Definition onNode (e : elm) (i a : nat) : R := if (conn e i =? a)%nat then 1 else 0.
Definition elmShare (e : elm) (a k n : nat) : R :=
  sumf (nen e) (fun j => sumf (nen e + nmast e) (fun i => onNode e i a * onNode e j n * sumL (fun p => phiVal e p i j k) (pts e))).

Lemma asmPhi_hit : forall e eM a k n, (1 <= a)%nat -> (1 <= n)%nat -> (1 <= k <= nsd)%nat ->
  (forall i j k, (1 <= i <= nen e + nmast e)%nat -> (1 <= j <= nen e)%nat -> (1 <= k <= nsd)%nat ->
    el eM (dof nsd i k) j = sumL (fun p => phiVal e p i j k) (pts e)) ->
  hitsum (dof nsd a k) n (asmPhi nsd e eM) = elmShare e a k n.
Proof.
  intros e eM a k n Ha Hn Hk V. unfold asmPhi, elmShare. rewrite hitsum_loop. apply sumf_ext. intros j Hj.
  destruct (Nat.eqb_spec (conn e j) 0) as [Z|Z].
  { symmetry. change (hitsum (dof nsd a k) n []) with 0. apply sumf_0. intros i Hi. unfold onNode. destruct (Nat.eqb_spec (conn e j) n); [lia|]. ring. }
  rewrite hitsum_loop. apply sumf_ext. intros i Hi. destruct (Nat.eqb_spec (conn e i) 0) as [Y|Y].
  { change (hitsum (dof nsd a k) n []) with 0. unfold onNode. destruct (Nat.eqb_spec (conn e i) a); [lia|]. ring. }
  rewrite hitsum_loop. unfold onNode.
  destruct (Nat.eqb_spec (conn e i) a) as [A|A]; destruct (Nat.eqb_spec (conn e j) n) as [B|B].
  - apply (sumf_pick nsd k); [exact Hk| |].
    + intros d Hd Nd. rewrite hitsum_one, eqb_dof by lia. destruct (Nat.eqb_spec k d); [congruence|]. rewrite !andb_false_r. reflexivity.
    + rewrite hitsum_one, eqb_dof by lia. rewrite <- A, <- B, !Nat.eqb_refl. cbn [andb]. rewrite V by assumption. ring.
  - rewrite sumf_0; [ring|]. intros d Hd. rewrite hitsum_one. destruct (Nat.eqb_spec n (conn e j)); [congruence|]. rewrite andb_false_r. reflexivity.
  - rewrite sumf_0; [ring|]. intros d Hd. rewrite hitsum_one, eqb_dof by lia. destruct (Nat.eqb_spec a (conn e i)); [congruence|reflexivity].
  - rewrite sumf_0; [ring|]. intros d Hd. rewrite hitsum_one, eqb_dof by lia. destruct (Nat.eqb_spec a (conn e i)); [congruence|reflexivity].
Qed.

Theorem phi_entries : forall els, (forall e, In e els -> wfElm e) ->
  exists M, mortarPhi nsd nNod nSlv els = Ret M /\
    forall a k n, (1 <= a)%nat -> (1 <= n)%nat -> (1 <= k <= nsd)%nat -> el M (dof nsd a k) n = sumL (fun e => elmShare e a k n) els.
Proof.
  intros els. unfold mortarPhi.
  assert (G : forall els M, (forall e, In e els -> wfElm e) -> rows M = (nsd * nNod)%nat -> cols M = nSlv ->
    exists M', assemblePhi nsd M els = Ret M' /\
      forall a k n, (1 <= a)%nat -> (1 <= n)%nat -> (1 <= k <= nsd)%nat -> el M' (dof nsd a k) n = el M (dof nsd a k) n + sumL (fun e => elmShare e a k n) els).
  { clear els. induction els as [|e els IH]; intros M W HR HC; cbn [assemblePhi].
    - exists M. split; [reflexivity|]. intros. unfold sumL. cbn. ring.
    - destruct (elmPhi_ok e) as [eM [E V]]. rewrite E. cbn [bind]. destruct (W e (or_introl eq_refl)) as [W1 W2].
      destruct (run_add_ok (asmPhi nsd e eM) M) as [M1 [E1 [R1 [C1 V1]]]].
      { intros i j v H. unfold asmPhi in H. apply In_loop in H. destruct H as [b [Hb H]].
        destruct (Nat.eqb_spec (conn e b) 0) as [Z|Z]; [destruct H|]. apply In_loop in H. destruct H as [c [Hc H]].
        destruct (Nat.eqb_spec (conn e c) 0) as [Y|Y]; [destruct H|]. apply In_loop in H. destruct H as [d [Hd H]].
        destruct H as [H|[]]. injection H as <- <- _. specialize (W1 b Hb). specialize (W2 c Hc).
        apply inb_true; [rewrite HR; apply dof_range; lia|lia]. }
      rewrite E1. cbn [bind]. destruct (IH M1) as [M2 [E2 V2]]; [intros; apply W; now right|congruence|congruence|].
      exists M2. split; [exact E2|]. intros a k n Ha Hn Hk. rewrite V2, V1, (asmPhi_hit e eM) by assumption.
      unfold sumL. cbn. ring. }
  intros W. destruct (G els (zeros (nsd * nNod) nSlv) W eq_refl eq_refl) as [M [E V]]. exists M. split; [exact E|].
  intros a k n Ha Hn Hk. rewrite V by assumption. cbn [zeros el]. ring.
Qed.

(** Nodal vectors. *)
Definition vecShare (b : elm -> nat -> R) (n : nat) (e : elm) : R := sumf (nen e) (fun j => onNode e j n * b e j).

Theorem vec_entries : forall b els, (forall e, In e els -> wfElm e) ->
  exists M, run_add (zeros nSlv 1) (flat_map (asmVec b) els) = Ret M /\
    forall n, (1 <= n)%nat -> el M n 1 = sumL (vecShare b n) els.
Proof.
  intros b els W. destruct (run_add_ok (flat_map (asmVec b) els) (zeros nSlv 1)) as [M [E [_ [_ V]]]].
  - intros i j v H. apply in_flat_map in H. destruct H as [e [He H]]. destruct (W e He) as [W1 _].
    unfold asmVec in H. apply In_loop in H. destruct H as [c [Hc H]]. destruct (Nat.eqb_spec (conn e c) 0) as [Z|Z]; [destruct H|].
    destruct H as [H|[]]. injection H as <- <- _. specialize (W1 c Hc). apply inb_true; cbn; lia.
  - exists M. split; [exact E|]. intros n Hn. rewrite V. cbn [zeros el]. rewrite Rplus_0_l, hitsum_flat. apply sumL_ext. intros e _.
    unfold asmVec, vecShare. rewrite hitsum_loop. apply sumf_ext. intros j Hj. unfold onNode.
    destruct (Nat.eqb_spec (conn e j) 0) as [Z|Z].
    + change (hitsum n 1 []) with 0. destruct (Nat.eqb_spec (conn e j) n); [lia|]. ring.
    + rewrite hitsum_one. rewrite (Nat.eqb_sym n). destruct (Nat.eqb_spec (conn e j) n); cbn; ring.
Qed.

(** Shape functions of a contact element: a partition of unity on both sides, vanishing on
    the interior nodes, non-negative; master nodes are in the model. *)
Record goodElm (e : elm) : Prop := {
  ge_wf : wfElm e;
  ge_mast : forall i, (nen e < i <= nen e + nmast e)%nat -> (nSlv < conn e i)%nat;
  ge_pt : forall p, In p (pts e) ->
    sumf (nen e) (pN p) = 1 /\ sumf (nmast e) (pNm p) = 1 /\
    (forall j, (1 <= j <= nen e)%nat -> 0 <= pN p j /\ (conn e j = 0%nat -> pN p j = 0)) /\ 0 < detJxW p }.

Lemma count_nodes : forall e i, (conn e i <= nNod)%nat -> sumf nNod (fun a => onNode e i a) = if (conn e i =? 0)%nat then 0 else 1.
Proof.
  intros e i H. destruct (Nat.eqb_spec (conn e i) 0) as [Z|Z].
  - apply sumf_0. intros a Ha. unfold onNode. destruct (Nat.eqb_spec (conn e i) a); [lia|reflexivity].
  - apply (sumf_pick nNod (conn e i)); [lia| |unfold onNode; now rewrite Nat.eqb_refl].
    intros a Ha Na. unfold onNode. destruct (Nat.eqb_spec (conn e i) a); [congruence|reflexivity].
Qed.

Lemma share_column : forall e k n, goodElm e -> sumf nNod (fun a => elmShare e a k n) = 0.
Proof.
  intros e k n G. destruct (ge_wf e G) as [W1 W2]. unfold elmShare. rewrite sumf_swap. apply sumf_0. intros j Hj.
  rewrite sumf_swap.
  rewrite (sumf_ext (nen e + nmast e) _ (fun i => onNode e j n * sumL (fun p => phiVal e p i j k) (pts e))).
  - rewrite sumf_scal, <- sumL_sumf_swap. rewrite (sumL_ext _ (fun _ => 0)); [rewrite (sumL_ext (fun _ => 0) (fun p => 0 * 0)) by (intros; ring); rewrite sumL_scal; ring|].
    intros p Hp. destruct (ge_pt e G p Hp) as [P1 [P2 _]]. unfold phiVal. rewrite sumf_scal_r, sumf_scal.
    rewrite (split_sum (nen e) (nmast e) (pN p) (fun i => - pNm p i)), sumf_opp, P1, P2. ring.
  - intros i Hi. rewrite (sumf_ext nNod _ (fun a => onNode e i a * (onNode e j n * sumL (fun p => phiVal e p i j k) (pts e)))) by (intros; ring).
    rewrite sumf_scal_r, count_nodes by (apply W2; lia). destruct (Nat.eqb_spec (conn e i) 0) as [Z|Z]; [|ring].
    rewrite (sumL_ext _ (fun p => 0 * 0)); [rewrite sumL_scal; ring|]. intros p Hp. unfold phiVal.
    destruct (Nat.leb_spec i (nen e)) as [L|L].
    + destruct (ge_pt e G p Hp) as [_ [_ [P3 _]]]. destruct (P3 i ltac:(lia)) as [_ P4]. rewrite (P4 Z). ring.
    + assert (Q := ge_mast e G i ltac:(lia)). lia.
Qed.

(** Each column of the mortar matrix sums to zero over the nodes: contact pressures are
    balanced by forces on the master. *)
Theorem phi_balance : forall els M k n, (forall e, In e els -> goodElm e) -> mortarPhi nsd nNod nSlv els = Ret M ->
  (1 <= k <= nsd)%nat -> (1 <= n)%nat -> sumf nNod (fun a => el M (dof nsd a k) n) = 0.
Proof.
  intros els M k n G E Hk Hn. destruct (phi_entries els) as [M' [E' V]]; [intros e He; apply (ge_wf e (G e He))|].
  rewrite E in E'. injection E' as <-. rewrite (sumf_ext nNod _ (fun a => sumL (fun e => elmShare e a k n) els)) by (intros; apply V; lia).
  rewrite <- sumL_sumf_swap. rewrite (sumL_ext _ (fun _ => 0 * 0)); [rewrite sumL_scal; ring|].
  intros e He. rewrite share_column by auto. ring.
Qed.

(** A node without area takes no part in the contact. *)
Lemma area_nonneg : forall e n, goodElm e -> (forall p j, In p (pts e) -> (1 <= j <= nen e)%nat -> 0 <= onNode e j n * (pN p j * detJxW p)) /\ 0 <= vecShare elmAA n e.
Proof.
  intros e n G. assert (P : forall p j, In p (pts e) -> (1 <= j <= nen e)%nat -> 0 <= onNode e j n * (pN p j * detJxW p)).
  { intros p j Hp Hj. destruct (ge_pt e G p Hp) as [_ [_ [P3 P4]]]. destruct (P3 j Hj) as [P5 _].
    unfold onNode. destruct (conn e j =? n)%nat; nra. }
  split; [exact P|]. unfold vecShare, elmAA. apply sumf_nonneg. intros j Hj. rewrite <- sumL_scal. apply sumL_nonneg. intros p Hp. auto.
Qed.

Lemma sum_zero : forall n f, (forall i, (1 <= i <= n)%nat -> 0 <= f i) -> sumf n f = 0 -> forall i, (1 <= i <= n)%nat -> f i = 0.
Proof.
  induction n as [|n IH]; intros f P Z i Hi; [lia|]. cbn in Z. assert (A : 0 <= sumf n f) by (apply sumf_nonneg; intros; apply P; lia).
  assert (B := P (S n) ltac:(lia)). destruct (Nat.eq_dec i (S n)) as [->|]; [lra|]. apply IH; [intros; apply P; lia|lra|lia].
Qed.
Lemma sumL_zero : forall A (l : list A) f, (forall a, In a l -> 0 <= f a) -> sumL f l = 0 -> forall a, In a l -> f a = 0.
Proof.
  induction l as [|x l IH]; intros f P Z a Ha; [destruct Ha|]. unfold sumL in Z. cbn in Z.
  assert (A1 : 0 <= sumL f l) by (apply sumL_nonneg; intros; apply P; now right). unfold sumL in A1. assert (B := P x (or_introl eq_refl)).
  destruct Ha as [<-|Ha]; [lra|]. apply IH; auto; [intros; apply P; now right|unfold sumL; lra].
Qed.

Theorem no_area_no_force : forall els A M a k n, (forall e, In e els -> goodElm e) ->
  mortarAA nSlv els = Ret A -> mortarPhi nsd nNod nSlv els = Ret M ->
  (1 <= a <= nSlv)%nat -> (1 <= k <= nsd)%nat -> (1 <= n)%nat -> el A a 1 = 0 -> el M (dof nsd a k) n = 0.
Proof.
  intros els A M a k n G EA EM Ha Hk Hn Z.
  destruct (vec_entries elmAA els) as [A' [EA' VA]]; [intros e He; apply (ge_wf e (G e He))|]. unfold mortarAA in EA. rewrite EA in EA'. injection EA' as <-.
  destruct (phi_entries els) as [M' [EM' VM]]; [intros e He; apply (ge_wf e (G e He))|]. rewrite EM in EM'. injection EM' as <-.
  rewrite VA in Z by lia. rewrite VM by lia. rewrite (sumL_ext _ (fun _ => 0 * 0)); [rewrite sumL_scal; ring|].
  intros e He. rewrite Rmult_0_l.
  assert (ZE := sumL_zero _ els _ (fun e He => proj2 (area_nonneg e a (G e He))) Z e He).
  unfold elmShare. apply sumf_0. intros j Hj. apply sumf_0. intros i Hi.
  destruct (area_nonneg e a (G e He)) as [P _].
  destruct (Nat.leb_spec i (nen e)) as [L|L].
  - assert (ZJ : onNode e i a * elmAA e i = 0).
    { apply (sum_zero (nen e) (fun j => onNode e j a * elmAA e j)); auto; [|lia]. intros q Hq. unfold elmAA. rewrite <- sumL_scal. apply sumL_nonneg. intros p Hp. auto. }
    unfold elmAA in ZJ. rewrite <- sumL_scal in ZJ.
    rewrite Rmult_comm, Rmult_comm, <- sumL_scal. rewrite (sumL_ext _ (fun _ => 0 * 0)); [rewrite sumL_scal; ring|].
    intros p Hp. assert (ZP := sumL_zero _ (pts e) _ (fun p Hp => P p i Hp ltac:(lia)) ZJ p Hp). cbn beta in ZP.
    unfold phiVal. destruct (Nat.leb_spec i (nen e)); [|lia].
    replace (_ * _) with (onNode e i a * (pN p i * detJxW p) * (onNode e j n * pNorm p k * pN p j)) by ring. rewrite ZP. ring.
  - assert (Q := ge_mast e (G e He) i ltac:(lia)). unfold onNode. destruct (Nat.eqb_spec (conn e i) a); [lia|]. ring.
Qed.

(** The weighted gap is an average of the gaps at the integration points. *)
Theorem gap_average : forall els A S n lo hi, (forall e, In e els -> goodElm e) ->
  mortarAA nSlv els = Ret A -> mortarSum nSlv els = Ret S -> (1 <= n)%nat -> 0 < el A n 1 ->
  (forall e p, In e els -> In p (pts e) -> lo <= gap p <= hi) ->
  lo <= weightedGap (fun j => el A j 1) (fun j => el S j 1) n <= hi.
Proof.
  intros els A S n lo hi G EA ES Hn Pos B. unfold weightedGap. destruct (Rlt_dec 0 (el A n 1)); [|contradiction].
  destruct (vec_entries elmAA els) as [A' [EA' VA]]; [intros e He; apply (ge_wf e (G e He))|]. unfold mortarAA in EA. rewrite EA in EA'. injection EA' as <-.
  destruct (vec_entries elmGap els) as [S' [ES' VS]]; [intros e He; apply (ge_wf e (G e He))|]. unfold mortarSum in ES. rewrite ES in ES'. injection ES' as <-.
  assert (M : forall c sg, (forall e p, In e els -> In p (pts e) -> 0 <= sg * (gap p - c)) -> 0 <= sg * (el S n 1 - c * el A n 1)).
  { intros c sg C. rewrite VA, VS by assumption. rewrite <- sumL_scal.
    replace (sumL (vecShare elmGap n) els - sumL (fun e => c * vecShare elmAA n e) els) with
      (sumL (fun e => vecShare elmGap n e + - 1 * (c * vecShare elmAA n e)) els) by (rewrite sumL_plus, sumL_scal; ring).
    rewrite <- sumL_scal. apply sumL_nonneg. intros e He. unfold vecShare.
    rewrite <- !sumf_scal, <- sumf_plus, <- sumf_scal. apply sumf_nonneg. intros j Hj.
    unfold elmGap, elmAA. rewrite <- !sumL_scal. rewrite <- sumL_plus, <- sumL_scal. apply sumL_nonneg. intros p Hp.
    destruct (area_nonneg e n (G e He)) as [P _]. specialize (P p j Hp Hj). specialize (C e p He Hp).
    replace (_ * _) with ((onNode e j n * (pN p j * detJxW p)) * (sg * (gap p - c))) by ring. now apply Rmult_le_pos. }
  assert (L := M lo 1 ltac:(intros e p He Hp; specialize (B e p He Hp); lra)).
  assert (H := M hi (-1) ltac:(intros e p He Hp; specialize (B e p He Hp); lra)).
  split; [apply Rmult_le_reg_r with (el A n 1)|apply Rmult_le_reg_r with (el A n 1)]; auto;
  replace (el S n 1 / el A n 1 * el A n 1) with (el S n 1) by (field; lra); lra.
Qed.

(** The mortar quantities do not depend on the order of the elements. *)
Lemma sumL_perm : forall A (f : A -> R) l l', Permutation l l' -> sumL f l = sumL f l'.
Proof. intros A f l l' P. induction P; unfold sumL in *; cbn; [reflexivity|now rewrite IHP|ring|congruence]. Qed.

Theorem order_free : forall els els' A A' S S', (forall e, In e els -> wfElm e) -> Permutation els els' ->
  mortarAA nSlv els = Ret A -> mortarAA nSlv els' = Ret A' -> mortarSum nSlv els = Ret S -> mortarSum nSlv els' = Ret S' ->
  forall n, (1 <= n)%nat -> el A n 1 = el A' n 1 /\ el S n 1 = el S' n 1.
Proof.
  intros els els' A A' S S' W P E1 E2 E3 E4 n Hn.
  assert (W' : forall e, In e els' -> wfElm e) by (intros e He; apply W; apply (Permutation_in e (Permutation_sym P)); exact He).
  unfold mortarAA, mortarSum in *.
  destruct (vec_entries elmAA els W) as [X [EX VX]]. rewrite E1 in EX. injection EX as <-.
  destruct (vec_entries elmAA els' W') as [X [EX VX']]. rewrite E2 in EX. injection EX as <-.
  destruct (vec_entries elmGap els W) as [X [EX VS]]. rewrite E3 in EX. injection EX as <-.
  destruct (vec_entries elmGap els' W') as [X [EX VS']]. rewrite E4 in EX. injection EX as <-.
  rewrite VX, VX', VS, VS' by assumption. split; now apply sumL_perm.
Qed.
End Global.
