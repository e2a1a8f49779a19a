(** Loop nests that assign or accumulate matrix entries, run one write at a time.
    A loop nest is the list of its writes [(row, column, value)] in program order. *)
From Verif Require Export Lib.Base Lib.Sums.

Definition wr : Type := (nat * nat * R)%type.

(** [for (i = 1; i <= n; i++) body(i)] *)
Definition loop (n : nat) (f : nat -> list wr) : list wr := flat_map f (seq 1 n).
(** [for (i = a; i <= n; i++) body(i)] *)
Definition loop_from (a n : nat) (f : nat -> list wr) : list wr := flat_map f (seq a (S n - a)).

(** [M(i,j) = v] for every write in turn. *)
Fixpoint run_set (M : mat) (ws : list wr) : res mat :=
  match ws with
  | [] => Ret M
  | (i, j, v) :: t => let* M' := mset M i j v in run_set M' t
  end.

(** [M(i,j) += v] for every write in turn. *)
Fixpoint run_add (M : mat) (ws : list wr) : res mat :=
  match ws with
  | [] => Ret M
  | (i, j, v) :: t => let* x := mget M i j in let* M' := mset M i j (x + v) in run_add M' t
  end.

(** [M.resize(r,c)] keeping the storage (column-major). *)
Definition reshape (M : mat) (r c : nat) : mat :=
  mkMat r c (fun i j => let k := ((j - 1) * r + (i - 1))%nat in el M (k mod rows M + 1)%nat (k / rows M + 1)%nat).

Lemma wr_inj (a b a' b' : nat) (v v' : R) : (a, b, v) = (a', b', v') -> a = a' /\ b = b' /\ v = v'.
Proof. intros H. injection H as -> -> ->. auto. Qed.

Definition hit (i j : nat) (w : wr) : bool := let '(a, b, _) := w in (Nat.eqb i a && Nat.eqb j b)%bool.
Definition wval (w : wr) : R := let '(_, _, v) := w in v.
Definition hitsum (i j : nat) (ws : list wr) : R := sumL (fun w => if hit i j w then wval w else 0) ws.

Lemma mset_ok M i j v : inb M i j = true -> mset M i j v = Ret (mkMat (rows M) (cols M) (upd2 (el M) i j v)).
Proof. intros H. unfold mset. rewrite H. reflexivity. Qed.

Lemma run_add_ok ws : forall M, (forall i j v, In (i, j, v) ws -> inb M i j = true) ->
  exists M', run_add M ws = Ret M' /\ rows M' = rows M /\ cols M' = cols M /\
    forall i j, el M' i j = el M i j + hitsum i j ws.
Proof.
  induction ws as [|[[a b] v] t IH]; intros M H.
  - exists M. repeat split; try reflexivity. intros. unfold hitsum, sumL. simpl. ring.
  - cbn [run_add]. unfold mget. rewrite (H a b v (or_introl eq_refl)). cbn [bind].
    rewrite mset_ok by (apply (H a b v (or_introl eq_refl))). cbn [bind].
    destruct (IH (mkMat (rows M) (cols M) (upd2 (el M) a b (el M a b + v)))) as [M' [E [Er [Ec Ee]]]].
    + intros i j w Hi. apply (H i j w). right. exact Hi.
    + exists M'. rewrite E, Er, Ec. repeat split; try reflexivity.
      intros i j. rewrite Ee. cbn [el]. unfold upd2, hitsum, sumL. cbn [fold_right hit wval].
      destruct (Nat.eqb_spec i a), (Nat.eqb_spec j b); cbn [andb]; subst; ring.
Qed.

Lemma wr_eq_dec (x y : wr) : {x = y} + {x <> y}.
Proof. repeat decide equality. apply Req_EM_T. Defined.

Lemma run_set_ok ws : forall M, (forall i j v, In (i, j, v) ws -> inb M i j = true) ->
  exists M', run_set M ws = Ret M' /\ rows M' = rows M /\ cols M' = cols M /\
    (forall i j v, In (i, j, v) ws -> (forall v', In (i, j, v') ws -> v' = v) -> el M' i j = v) /\
    (forall i j, (forall v, ~ In (i, j, v) ws) -> el M' i j = el M i j).
Proof.
  induction ws as [|[[a b] v] t IH]; intros M H.
  - exists M. repeat split; try reflexivity. intros i j v [].
  - cbn [run_set]. rewrite mset_ok by (apply (H a b v (or_introl eq_refl))). cbn [bind].
    destruct (IH (mkMat (rows M) (cols M) (upd2 (el M) a b v))) as [M' [E [Er [Ec [Ew En]]]]].
    + intros i j w Hi. apply (H i j w). right. exact Hi.
    + exists M'. rewrite E, Er, Ec. split; [reflexivity|]. split; [reflexivity|]. split; [reflexivity|]. split.
      * intros i j w Hw Hu.
        destruct (List.in_dec wr_eq_dec (i, j, w) t) as [Hin|Hout].
        -- apply (Ew i j w Hin). intros v' Hv'. apply Hu. right. exact Hv'.
        -- destruct Hw as [Hw|Hw]; [|contradiction]. injection Hw as -> -> ->.
           rewrite En.
           ++ cbn [el]. unfold upd2. rewrite !Nat.eqb_refl. reflexivity.
           ++ intros v' Hv'. rewrite <- (Hu v' (or_intror Hv')) in Hout. contradiction.
      * intros i j Hno. rewrite En.
        -- cbn [el]. unfold upd2. destruct (Nat.eqb_spec i a), (Nat.eqb_spec j b); cbn [andb]; subst; try reflexivity.
           exfalso. apply (Hno v). left. reflexivity.
        -- intros v' Hv'. apply (Hno v'). right. exact Hv'.
Qed.

Lemma run_add_oob ws1 i j v ws2 : forall M, inb M i j = false -> (forall a b w, In (a, b, w) ws1 -> inb M a b = true) ->
  run_add M (ws1 ++ (i, j, v) :: ws2) = UB.
Proof.
  induction ws1 as [|[[a b] w] t IH]; intros M H Hok; cbn [app run_add].
  - unfold mget. rewrite H. reflexivity.
  - unfold mget. rewrite (Hok a b w (or_introl eq_refl)). cbn [bind]. rewrite mset_ok by (apply (Hok a b w (or_introl eq_refl))).
    cbn [bind]. apply IH; [exact H|]. intros a' b' w' Hi. apply (Hok a' b' w'). right. exact Hi.
Qed.

Lemma run_set_oob ws1 i j v ws2 : forall M, inb M i j = false -> (forall a b w, In (a, b, w) ws1 -> inb M a b = true) ->
  run_set M (ws1 ++ (i, j, v) :: ws2) = UB.
Proof.
  induction ws1 as [|[[a b] w] t IH]; intros M H Hok; cbn [app run_set].
  - unfold mset. rewrite H. reflexivity.
  - rewrite mset_ok by (apply (Hok a b w (or_introl eq_refl))).
    cbn [bind]. apply IH; [exact H|]. intros a' b' w' Hi. apply (Hok a' b' w'). right. exact Hi.
Qed.

(** Membership and sums over loops. *)
Lemma In_loop n f w : In w (loop n f) <-> exists a, (1 <= a <= n)%nat /\ In w (f a).
Proof.
  unfold loop. rewrite in_flat_map. split; intros [a [Ha Hw]]; exists a; (split; [|exact Hw]).
  - apply in_seq in Ha. lia.
  - apply in_seq. lia.
Qed.

Lemma In_loop_from a0 n f w : In w (loop_from a0 n f) <-> exists a, (a0 <= a <= n)%nat /\ In w (f a).
Proof.
  unfold loop_from. rewrite in_flat_map. split; intros [a [Ha Hw]]; exists a; (split; [|exact Hw]).
  - apply in_seq in Ha. lia.
  - apply in_seq. lia.
Qed.

Lemma hitsum_app i j l1 l2 : hitsum i j (l1 ++ l2) = hitsum i j l1 + hitsum i j l2.
Proof. apply sumL_app. Qed.

Lemma hitsum_one i j a b v : hitsum i j [(a, b, v)] = if (Nat.eqb i a && Nat.eqb j b)%bool then v else 0.
Proof. unfold hitsum, sumL. cbn [fold_right hit wval]. destruct (_ && _)%bool; ring. Qed.

Lemma hitsum_seq i j f n : forall a, hitsum i j (flat_map f (seq (S a) n)) = sumf n (fun k => hitsum i j (f (a + k)%nat)).
Proof.
  induction n as [|n IH]; intros a; [reflexivity|].
  rewrite seq_S, flat_map_app, hitsum_app, IH. cbn [sumf flat_map]. rewrite app_nil_r. do 2 f_equal. f_equal. lia.
Qed.

Lemma hitsum_loop i j n f : hitsum i j (loop n f) = sumf n (fun a => hitsum i j (f a)).
Proof. unfold loop. rewrite hitsum_seq. reflexivity. Qed.

Lemma hitsum_loop_from i j a n f : (1 <= a)%nat ->
  hitsum i j (loop_from a n f) = sumf n (fun b => if (a <=? b)%nat then hitsum i j (f b) else 0).
Proof.
  intros Ha. unfold loop_from. destruct a as [|a]; [lia|]. rewrite hitsum_seq.
  replace (S n - S a)%nat with (n - a)%nat by lia.
  destruct (Nat.le_gt_cases a n) as [L|L].
  - replace n with (a + (n - a))%nat at 2 by lia. rewrite sumf_split.
    rewrite (sumf_0 a); [|intros k Hk; destruct (Nat.leb_spec (S a) k); [lia|reflexivity]].
    rewrite Rplus_0_l. apply sumf_ext. intros k Hk. destruct (Nat.leb_spec (S a) (a + k)); [reflexivity|lia].
  - replace (n - a)%nat with 0%nat by lia. cbn [sumf]. symmetry. apply sumf_0.
    intros k Hk. destruct (Nat.leb_spec (S a) k); [lia|reflexivity].
Qed.

(** Node-blocked indices: [d*(a-1)+i] with 1 <= i <= d. *)
Definition dof (d a i : nat) : nat := (d * (a - 1) + i)%nat.

Lemma dof_inj d a i b j : (1 <= a)%nat -> (1 <= b)%nat -> (1 <= i <= d)%nat -> (1 <= j <= d)%nat ->
  dof d a i = dof d b j -> a = b /\ i = j.
Proof.
  unfold dof. intros Ha Hb Hi Hj H.
  assert (a = b) as ->.
  { destruct (Nat.lt_trichotomy a b) as [L|[E|L]]; [exfalso|exact E|exfalso]; nia. }
  split; [reflexivity|lia].
Qed.

Lemma dof_range d n a i : (1 <= a <= n)%nat -> (1 <= i <= d)%nat -> (1 <= dof d a i <= d * n)%nat.
Proof. unfold dof. intros. nia. Qed.

Lemma dof_surj d n k : (1 <= k <= d * n)%nat -> exists a i, (1 <= a <= n)%nat /\ (1 <= i <= d)%nat /\ k = dof d a i.
Proof.
  intros H. assert (d <> 0)%nat by (intros ->; lia).
  exists ((k - 1) / d + 1)%nat, ((k - 1) mod d + 1)%nat.
  pose proof (Nat.div_mod (k - 1) d ltac:(assumption)). pose proof (Nat.mod_upper_bound (k - 1) d ltac:(assumption)).
  assert ((k - 1) / d < n)%nat by (apply Nat.div_lt_upper_bound; lia).
  split; [lia|]. split; [lia|]. unfold dof. replace ((k - 1) / d + 1 - 1)%nat with ((k - 1) / d)%nat by lia. lia.
Qed.

Lemma sumf_dof d n f : sumf (d * n) f = sumf n (fun a => sumf d (fun i => f (dof d a i))).
Proof.
  induction n as [|n IH]; [rewrite Nat.mul_0_r; reflexivity|].
  rewrite Nat.mul_succ_r, sumf_split, IH. cbn [sumf]. f_equal. apply sumf_ext. intros i _. unfold dof. f_equal. f_equal. f_equal. lia.
Qed.

Lemma eqb_dof d a i b j : (1 <= a)%nat -> (1 <= b)%nat -> (1 <= i <= d)%nat -> (1 <= j <= d)%nat ->
  Nat.eqb (dof d a i) (dof d b j) = (Nat.eqb a b && Nat.eqb i j)%bool.
Proof.
  intros Ha Hb Hi Hj. destruct (Nat.eqb_spec (dof d a i) (dof d b j)) as [E|N].
  - apply dof_inj in E; try assumption. destruct E as [-> ->]. rewrite !Nat.eqb_refl. reflexivity.
  - destruct (Nat.eqb_spec a b), (Nat.eqb_spec i j); try reflexivity. subst. exfalso. apply N. reflexivity.
Qed.

(** A sum with exactly one non-zero term. *)
Lemma sumf_pick n k f g : (1 <= k <= n)%nat -> (forall i, (1 <= i <= n)%nat -> i <> k -> f i = 0) -> f k = g -> sumf n f = g.
Proof.
  intros Hk H0 E. rewrite <- E. rewrite <- (sumf_kron n k f Hk). apply sumf_ext. intros i Hi. unfold kron.
  destruct (Nat.eqb_spec i k) as [->|N]; [ring|]. rewrite H0 by assumption. ring.
Qed.

Lemma reshape_dof M d ns r a i : rows M = (ns * d)%nat -> (1 <= ns)%nat -> (1 <= d)%nat -> (1 <= r <= ns)%nat -> (1 <= a)%nat -> (1 <= i <= d)%nat ->
  forall c, el (reshape M ns c) r (dof d a i) = el M (r + ns * (i - 1))%nat a.
Proof.
  intros HR Hns Hd Hr Ha Hi c. unfold reshape. cbn [el]. rewrite HR.
  set (x := (r - 1 + ns * (i - 1))%nat).
  assert (Hx : (x < ns * d)%nat) by (unfold x; nia).
  replace ((dof d a i - 1) * ns + (r - 1))%nat with (x + (a - 1) * (ns * d))%nat.
  2:{ unfold dof, x. destruct a as [|a]; [lia|]. destruct i as [|i]; [lia|]. destruct r as [|r]; [lia|].
      rewrite !Nat.sub_succ, !Nat.sub_0_r. replace (d * a + S i - 1)%nat with (d * a + i)%nat by lia. ring. }
  rewrite Nat.mod_add, Nat.div_add by nia. rewrite Nat.mod_small, Nat.div_small by exact Hx.
  f_equal; unfold x; lia.
Qed.

(** The value a full double node loop with one write per pair of components accumulates in an entry. *)
Lemma hitsum_block n d g a0 b0 m0 n0 : (1 <= a0 <= n)%nat -> (1 <= b0 <= n)%nat -> (1 <= m0 <= d)%nat -> (1 <= n0 <= d)%nat ->
  hitsum (dof d a0 m0) (dof d b0 n0)
    (loop n (fun a => loop n (fun b => loop d (fun i => loop d (fun j => [(dof d a i, dof d b j, g a b i j)]))))) = g a0 b0 m0 n0.
Proof.
  intros Ha Hb Hm Hn. rewrite hitsum_loop. apply (sumf_pick n a0); [exact Ha| |].
  - intros a Ra Na. rewrite hitsum_loop. apply sumf_0. intros b Rb. rewrite hitsum_loop. apply sumf_0. intros i Ri.
    rewrite hitsum_loop. apply sumf_0. intros j Rj. rewrite hitsum_one, eqb_dof by lia.
    destruct (Nat.eqb_spec a0 a); [congruence|reflexivity].
  - rewrite hitsum_loop. apply (sumf_pick n b0); [exact Hb| |].
    + intros b Rb Nb. rewrite hitsum_loop. apply sumf_0. intros i Ri. rewrite hitsum_loop. apply sumf_0. intros j Rj.
      rewrite hitsum_one, !eqb_dof by lia. destruct (Nat.eqb_spec b0 b); [congruence|]. rewrite !andb_false_r. reflexivity.
    + rewrite hitsum_loop. apply (sumf_pick d m0); [exact Hm| |].
      * intros i Ri Ni. rewrite hitsum_loop. apply sumf_0. intros j Rj. rewrite hitsum_one, !eqb_dof by lia.
        destruct (Nat.eqb_spec m0 i); [congruence|]. rewrite !andb_false_r. reflexivity.
      * rewrite hitsum_loop. apply (sumf_pick d n0); [exact Hn| |].
        -- intros j Rj Nj. rewrite hitsum_one, !eqb_dof by lia. destruct (Nat.eqb_spec n0 j); [congruence|].
           rewrite !andb_false_r. reflexivity.
        -- rewrite hitsum_one, !eqb_dof by lia. rewrite !Nat.eqb_refl. reflexivity.
Qed.

(** A full double node loop that writes only matching components. *)
Lemma hitsum_diag n d g a0 b0 m0 n0 : (1 <= a0 <= n)%nat -> (1 <= b0 <= n)%nat -> (1 <= m0 <= d)%nat -> (1 <= n0 <= d)%nat ->
  hitsum (dof d a0 m0) (dof d b0 n0)
    (loop n (fun a => loop n (fun b => loop d (fun i => [(dof d a i, dof d b i, g a b i)])))) = kron m0 n0 * g a0 b0 m0.
Proof.
  intros Ha Hb Hm Hn. rewrite hitsum_loop. apply (sumf_pick n a0); [exact Ha| |].
  - intros a Ra Na. rewrite hitsum_loop. apply sumf_0. intros b Rb. rewrite hitsum_loop. apply sumf_0. intros i Ri.
    rewrite hitsum_one, !eqb_dof by lia.
    destruct (Nat.eqb_spec a0 a); [congruence|reflexivity].
  - rewrite hitsum_loop. apply (sumf_pick n b0); [exact Hb| |].
    + intros b Rb Nb. rewrite hitsum_loop. apply sumf_0. intros i Ri.
      rewrite hitsum_one, !eqb_dof by lia. destruct (Nat.eqb_spec b0 b); [congruence|]. rewrite !andb_false_r. reflexivity.
    + rewrite hitsum_loop. apply (sumf_pick d m0); [exact Hm| |].
      * intros i Ri Ni. rewrite hitsum_one, !eqb_dof by lia. destruct (Nat.eqb_spec m0 i); [congruence|]. rewrite !andb_false_r. reflexivity.
      * rewrite hitsum_one, !eqb_dof by lia. rewrite !Nat.eqb_refl. unfold kron. rewrite (Nat.eqb_sym n0 m0).
        destruct (Nat.eqb m0 n0); cbn [andb]; ring.
Qed.

(** The vector counterpart. *)
Lemma hitsum_vec n d g a0 i0 : (1 <= a0 <= n)%nat -> (1 <= i0 <= d)%nat ->
  hitsum (dof d a0 i0) 1 (loop n (fun a => loop d (fun i => [(dof d a i, 1%nat, g a i)]))) = g a0 i0.
Proof.
  intros Ha Hi. rewrite hitsum_loop. apply (sumf_pick n a0); [exact Ha| |].
  - intros a Ra Na. rewrite hitsum_loop. apply sumf_0. intros i Ri. rewrite hitsum_one, eqb_dof by lia.
    destruct (Nat.eqb_spec a0 a); [congruence|reflexivity].
  - rewrite hitsum_loop. apply (sumf_pick d i0); [exact Hi| |].
    + intros i Ri Ni. rewrite hitsum_one, eqb_dof by lia. destruct (Nat.eqb_spec i0 i); [congruence|]. rewrite !andb_false_r. reflexivity.
    + rewrite hitsum_one, eqb_dof by lia. rewrite !Nat.eqb_refl. reflexivity.
Qed.

Lemma inb_true M i j : (1 <= i <= rows M)%nat -> (1 <= j <= cols M)%nat -> inb M i j = true.
Proof. intros H1 H2. unfold inb. rewrite !andb_true_iff, !Nat.leb_le. lia. Qed.

Lemma inb_iff M i j : inb M i j = true <-> (1 <= i <= rows M)%nat /\ (1 <= j <= cols M)%nat.
Proof. unfold inb. rewrite !andb_true_iff, !Nat.leb_le. lia. Qed.
