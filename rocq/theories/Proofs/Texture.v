From Coq Require Import List ZArith QArith Bool Lia Lqa Sorting.Sorted.
From Verif Require Import Model.Texture Spec.Texture.
Import ListNotations.
Open Scope Q_scope.

Lemma qlt_iff a b : qlt a b = true <-> a < b.
Proof.
  unfold qlt. rewrite negb_true_iff. split.
  - intros H. apply Qnot_le_lt. intros L. apply Qle_bool_iff in L. congruence.
  - intros H. destruct (Qle_bool b a) eqn:E; [|reflexivity]. apply Qle_bool_iff in E. lra.
Qed.
Lemma qlt_false a b : qlt a b = false <-> b <= a.
Proof. unfold qlt. rewrite negb_false_iff. apply Qle_bool_iff. Qed.
Lemma keylt_iff r s : keylt r s = true <-> before r s.
Proof.
  unfold keylt, before. rewrite orb_true_iff, andb_true_iff, negb_true_iff, !qlt_iff, qlt_false. split.
  - intros [H|[H K]]; [now left|]. destruct (Qlt_le_dec (fst r) (fst s)); [now left|]. right. split; [lra|assumption].
  - intros [H|[H K]]; [now left|]. right. split; [lra|assumption].
Qed.
Lemma keylt_false r s : keylt r s = false <-> ~ before r s.
Proof. rewrite <- keylt_iff. destruct (keylt r s); split; congruence. Qed.
Lemma before_trans r s t : before r s -> before s t -> before r t.
Proof. unfold before. intros [H|[H1 H2]] [K|[K1 K2]]; [left|left|left|right; split]; lra. Qed.
Lemma before_irrefl r s : sameRange r s -> ~ before r s.
Proof. unfold before, sameRange. intros [A B] [H|[H1 H2]]; lra. Qed.
Lemma tri r s : before r s \/ sameRange r s \/ before s r.
Proof.
  unfold before, sameRange. destruct (Qlt_le_dec (fst r) (fst s)); [auto|]. destruct (Qlt_le_dec (fst s) (fst r)); [auto|].
  destruct (Qlt_le_dec (snd r) (snd s)); [left; right; split; lra|]. destruct (Qlt_le_dec (snd s) (snd r)); [right; right; right; split; lra|].
  right; left; split; lra.
Qed.
Lemma same_sym r s : sameRange r s -> sameRange s r. Proof. unfold sameRange. intros [-> ->]. split; reflexivity. Qed.
Lemma same_trans r s t : sameRange r s -> sameRange s t -> sameRange r t. Proof. unfold sameRange. intros [-> ->] [-> ->]. split; reflexivity. Qed.
Lemma same_before r r' s : sameRange r r' -> before r s -> before r' s.
Proof. unfold sameRange, before. intros [A B] [H|[H1 H2]]; [left|right; split]; lra. Qed.
Lemma same_contains r s I : sameRange r s -> contains r I -> contains s I.
Proof. unfold sameRange, contains. intros [A B] [H K]. split; lra. Qed.
Lemma inRange_iff I r : inRange I r = true <-> contains r I.
Proof. unfold inRange, contains. rewrite andb_true_iff, !Qle_bool_iff. reflexivity. Qed.

Section T.
Context {A : Type}.
Implicit Types (m : list (range * A)) (l : list (range * A)).
Definition ent_lt (e f : range * A) : Prop := before (fst e) (fst f).
Definition sorted m := StronglySorted ent_lt m.
Lemma minsert_key_in k v m e : In e (minsert k v m) -> (sameRange (fst e) k /\ snd e = v) \/ In e m.
Proof.
  induction m as [|[k' v'] m IH]; cbn.
  - intros [<-|[]]. left. split; [split; reflexivity|reflexivity].
  - destruct (keylt k' k) eqn:E1.
    + intros [<-|H]; [right; now left|]. destruct (IH H) as [L|R]; auto.
    + destruct (keylt k k') eqn:E2.
      * intros [<-|H]; [left; split; [split; reflexivity|reflexivity]|right; exact H].
      * intros [<-|H]; [|right; now right]. left. split; [|reflexivity]. cbn. apply keylt_false in E1, E2.
        destruct (tri k' k) as [T|[T|T]]; [contradiction|assumption|contradiction].
Qed.
Lemma minsert_sorted k v m : sorted m -> sorted (minsert k v m).
Proof.
  induction m as [|[k' v'] m IH]; cbn; intros S.
  - constructor; constructor.
  - inversion S as [|? ? S1 F]; subst. destruct (keylt k' k) eqn:E1.
    + constructor; [now apply IH|]. apply keylt_iff in E1. rewrite Forall_forall in *. intros e H.
      destruct (minsert_key_in _ _ _ _ H) as [[X _]|X]; [|now apply F]. unfold ent_lt. cbn.
      destruct X as [X1 X2]. unfold before in *. cbn in E1. destruct E1 as [|[]]; [left|right; split]; lra.
    + destruct (keylt k k') eqn:E2.
      * apply keylt_iff in E2. constructor; [assumption|]. constructor; [exact E2|].
        rewrite Forall_forall in *. intros e H. specialize (F e H). unfold ent_lt in *. cbn in *. now apply (before_trans k k').
      * constructor; [assumption|]. exact F.
Qed.
(* membership up to equality of rational keys *)
Definition has m (r : range) (a : A) : Prop := exists r', sameRange r' r /\ In (r', a) m.
Lemma has_same m r s a : sameRange r s -> has m r a -> has m s a.
Proof. intros E (r' & H & I). exists r'. split; [now apply (same_trans r' r)|assumption]. Qed.
Lemma sorted_head_fresh k v m r : sorted ((k, v) :: m) -> sameRange k r -> forall a, ~ has m r a.
Proof.
  intros S E a (r' & H & I). inversion S as [|? ? _ F]; subst. rewrite Forall_forall in F. specialize (F _ I).
  unfold ent_lt in F. cbn in F. apply (before_irrefl k r'); [|exact F]. apply (same_trans _ r); [exact E|now apply same_sym].
Qed.
Lemma has_cons k v m r a : has ((k, v) :: m) r a <-> (sameRange k r /\ v = a) \/ has m r a.
Proof.
  split.
  - intros (r' & H & [[= -> ->]|I]); [now left|right; now exists r'].
  - intros [[H ->]|(r' & H & I)]; [exists k; split; [assumption|now left]|exists r'; split; [assumption|now right]].
Qed.
Lemma has_minsert k v m r a : sorted m -> has (minsert k v m) r a <-> (sameRange k r /\ v = a) \/ (~ sameRange k r /\ has m r a).
Proof.
  induction m as [|[k' v'] m IH]; intros S.
  - cbn. rewrite has_cons. split; [intros [H|(? & _ & [])]; auto|]. intros [H|(_ & ? & _ & [])]; auto.
  - inversion S as [|? ? S1 F]; subst. cbn. destruct (keylt k' k) eqn:E1.
    + rewrite !has_cons, (IH S1). apply keylt_iff in E1. split.
      * intros [[H ->]|[[H ->]|[H K]]]; auto. right. split; [|now left; split].
        intros K. apply (before_irrefl k' k); [|exact E1]. apply (same_trans _ r); [assumption|now apply same_sym].
      * intros [[H ->]|[H [[K ->]|K]]]; auto.
    + destruct (keylt k k') eqn:E2.
      * apply keylt_iff in E2. rewrite has_cons. split.
        -- intros [[H ->]|H]; [now left|]. right. split; [|assumption]. intros K.
           apply has_cons in H. destruct H as [[H _]|(r' & H & I)].
           ++ apply (before_irrefl k k'); [|exact E2]. apply (same_trans _ r); [assumption|now apply same_sym].
           ++ rewrite Forall_forall in F. specialize (F _ I). unfold ent_lt in F. cbn in F. assert (B := before_trans _ _ _ E2 F).
              apply (before_irrefl k r'); [|exact B]. apply (same_trans _ r); [assumption|now apply same_sym].
        -- intros [[H ->]|[H K]]; auto.
      * apply keylt_false in E1, E2. assert (Q : sameRange k' k) by (destruct (tri k' k) as [|[|]]; [contradiction|assumption|contradiction]).
        rewrite !has_cons. split.
        -- intros [[H ->]|H]; [left; split; [|reflexivity]; apply (same_trans _ k'); [now apply same_sym|assumption]|].
           right. split; [|now right]. intros K. apply (sorted_head_fresh k' v' m r S (same_trans _ _ _ Q K) a H).
        -- intros [[H ->]|[H [[K _]|K]]]; [left; split; [now apply (same_trans _ k)|reflexivity]| |now right].
           destruct H. apply (same_trans _ k'); [now apply same_sym|assumption].
Qed.

(* the resolved listing: attributes and properties not given are those of the previous range *)
Fixpoint listing (cs : list (relem A)) (r : range) (mat : A) : list (range * A) :=
  match cs with
  | [] => []
  | c :: cs => let r := (orElse (emin c) (fst r), orElse (emax c) (snd r)) in let mat := eparse c mat in (r, mat) :: listing cs r mat
  end.
Definition insertAll l m := fold_left (fun m e => minsert (fst e) (snd e) m) l m.
Lemma parse_listing cs : forall r mat m, parseRanges cs r mat m = insertAll (listing cs r mat) m.
Proof. induction cs as [|c cs IH]; intros r mat m; [reflexivity|]. cbn. apply IH. Qed.
Lemma insertAll_sorted l : forall m, sorted m -> sorted (insertAll l m).
Proof. induction l as [|e l IH]; intros m S; [assumption|]. cbn. now apply IH, minsert_sorted. Qed.
Lemma insertAll_has l : forall m r a, sorted m -> has (insertAll l m) r a <-> lastFor l r a \/ ((forall e, In e l -> ~ sameRange (fst e) r) /\ has m r a).
Proof.
  induction l as [|[k v] l IH]; intros m r a S; cbn.
  - split; [intros H; right; split; [intros e []|assumption]|]. intros [(l1 & r' & l2 & H & _)|[_ H]]; [destruct l1; discriminate|assumption].
  - unfold insertAll in IH. rewrite IH by now apply minsert_sorted. rewrite has_minsert by assumption. split.
    + intros [(l1 & r' & l2 & -> & H & N)|[N [[H ->]|[H K]]]].
      * left. exists ((k, v) :: l1), r', l2. auto.
      * left. exists [], k, l. auto.
      * right. split; [|assumption]. intros e [<-|I]; [assumption|now apply N].
    + intros [([|e l1] & r' & l2 & E & H & N)|[N H]].
      * injection E; intros; subst. right. split; [assumption|]. left. auto.
      * injection E; intros; subst. left. now exists l1, r', l2.
      * right. split; [intros e I; apply N; now right|]. right. split; [|assumption]. apply (N (k, v)). now left.
Qed.
Lemma map_spec cs r0 mat r a : has (parseRanges cs r0 mat []) r a <-> lastFor (listing cs r0 mat) r a.
Proof.
  rewrite parse_listing, insertAll_has by constructor. split; [|auto]. intros [H|[_ (? & _ & [])]]. assumption.
Qed.
Lemma map_sorted cs r0 mat : sorted (parseRanges cs r0 mat []).
Proof. rewrite parse_listing. apply insertAll_sorted. constructor. Qed.

(* the lookup picks the least range *)
Lemma find_least m I : sorted m ->
  match find (fun e => inRange I (fst e)) m with
  | Some e => In e m /\ contains (fst e) I /\ forall f, In f m -> contains (fst f) I -> f = e \/ before (fst e) (fst f)
  | None => forall f, In f m -> ~ contains (fst f) I
  end.
Proof.
  induction m as [|e m IH]; intros S; [intros f []|]. inversion S as [|? ? S1 F]; subst. cbn. destruct (inRange I (fst e)) eqn:E.
  - apply inRange_iff in E. split; [now left|]. split; [assumption|]. intros f [<-|H] C; [now left|]. right. rewrite Forall_forall in F. exact (F f H).
  - specialize (IH S1). destruct (find _ m) as [g|].
    + destruct IH as (H & C & L). split; [now right|]. split; [assumption|]. intros f [<-|K] D; [|now apply L]. apply inRange_iff in D. congruence.
    + intros f [<-|K] D; [apply inRange_iff in D; congruence|]. now apply (IH f).
Qed.
Definition lookup m I : option A := match find (fun e => inRange I (fst e)) m with Some e => Some (snd e) | None => None end.
Lemma lookup_spec cs r0 mat I a : lookup (parseRanges cs r0 mat []) I = Some a ->
  exists r, lastFor (listing cs r0 mat) r a /\ contains r I /\ forall s b, lastFor (listing cs r0 mat) s b -> contains s I -> sameRange s r \/ before r s.
Proof.
  unfold lookup. assert (H := find_least _ I (map_sorted cs r0 mat)). destruct (find _ _) as [[r v]|]; [|discriminate]. intros [= ->].
  cbn in H. destruct H as (M & C & L). exists r. split; [|split; [assumption|]].
  - apply map_spec. exists r. split; [split; reflexivity|assumption].
  - intros s b K D. apply map_spec in K. destruct K as (s' & E & J). destruct (L (s', b) J) as [[= -> _]|B].
    + apply (same_contains s); [now apply same_sym|assumption].
    + left. now apply same_sym.
    + right. cbn in B. unfold sameRange, before in *. destruct E, B as [|[]]; [left|right; split]; lra.
Qed.
Lemma same_dec l r : (exists e, In e l /\ sameRange (fst e) r) \/ forall e, In e l -> ~ sameRange (fst e) r.
Proof.
  induction l as [|e l IH]; [right; intros e []|]. destruct IH as [(f & J & E)|N]; [left; exists f; split; [now right|assumption]|].
  destruct (tri (fst e) r) as [T|[T|T]].
  - right. intros f [<-|J]; [|now apply N]. intros E. now apply (before_irrefl _ _ E).
  - left. exists e. split; [now left|assumption].
  - right. intros f [<-|J]; [|now apply N]. intros E. now apply (before_irrefl _ _ (same_sym _ _ E)).
Qed.
Lemma last_exists l r : (exists e, In e l /\ sameRange (fst e) r) -> exists a, lastFor l r a.
Proof.
  induction l as [|[k v] l IH]; intros (e & K & E); [destruct K|]. destruct (same_dec l r) as [D|N].
  - destruct (IH D) as (a & l1 & r' & l2 & -> & Q & N). exists a, ((k, v) :: l1), r', l2. auto.
  - destruct K as [<-|K]; [|destruct (N e K E)]. exists v, [], k, l. auto.
Qed.
Lemma lookup_none cs r0 mat I : lookup (parseRanges cs r0 mat []) I = None <-> forall e, In e (listing cs r0 mat) -> ~ contains (fst e) I.
Proof.
  unfold lookup. assert (H := find_least _ I (map_sorted cs r0 mat)). destruct (find _ _) as [[r v]|] eqn:F.
  - split; [discriminate|]. intros N. exfalso. destruct H as (M & C & _). cbn in C.
    assert (K : has (parseRanges cs r0 mat []) r v) by (exists r; split; [split; reflexivity|assumption]).
    apply map_spec in K. destruct K as (l1 & r' & l2 & E & Q & _). apply (N (r', v)); [rewrite E; apply in_elt|]. cbn. apply (same_contains r); [now apply same_sym|assumption].
  - split; [|reflexivity]. intros _ [r v] K C. cbn in C.
    destruct (last_exists (listing cs r0 mat) r) as (a & L); [exists (r, v); split; [assumption|split; reflexivity]|].
    apply map_spec in L. destruct L as (r' & E & J). apply (H (r', a) J). cbn. now apply (same_contains r); [apply same_sym|].
Qed.
Lemma lookup_disjoint cs r0 mat I a : disjoint (listing cs r0 mat) -> lookup (parseRanges cs r0 mat []) I = Some a <-> firstListed (listing cs r0 mat) I a.
Proof.
  intros D. split.
  - intros H. apply lookup_spec in H. destruct H as (r & (l1 & r' & l2 & E & Q & _) & C & _). exists l1, r', l2.
    assert (C' : contains r' I) by (apply (same_contains r); [now apply same_sym|assumption]).
    split; [assumption|]. split; [assumption|]. intros e K Ce. apply in_split in K. destruct K as (m1 & m2 & ->).
    apply (D m1 e m2 (r', a) l2 I); [rewrite E, <- app_assoc; reflexivity|]. now split.
  - intros (l1 & r & l2 & E & C & _). destruct (lookup _ I) as [b|] eqn:L.
    + apply lookup_spec in L. destruct L as (s & (m1 & s' & m2 & E' & Q & _) & C' & _).
      assert (Cs : contains s' I) by (apply (same_contains s); [now apply same_sym|assumption]). f_equal.
      (* both entries contain I: they are the same entry *)
      clear - D E E' C Cs. set (L := listing cs r0 mat) in *. clearbody L.
      revert m1 E' l1 D E. induction L as [|h L IH]; intros m1 E' l1 D E; [destruct l1; discriminate|].
      destruct m1 as [|x m1], l1 as [|y l1].
      * cbn in *. congruence.
      * exfalso. injection E' as -> E'. injection E as <- E. apply (D [] (s', b) l1 (r, a) l2 I); [cbn; now rewrite E|now split].
      * exfalso. injection E as -> E. injection E' as <- E'. apply (D [] (r, a) m1 (s', b) m2 I); [cbn; now rewrite E'|now split].
      * injection E as -> E. injection E' as <- E'. apply (IH m1 E' l1); [|assumption].
        intros n1 e n2 f n3 J HL. apply (D (y :: n1) e n2 f n3 J). cbn. now rewrite HL.
    + exfalso. apply lookup_none with (e := (r, a)) in L; [now apply L|]. rewrite E. apply in_elt.
Qed.
End T.

(* pixel indices *)
Lemma trunc_floor q : 0 <= q -> inject_Z (trunc q) <= q /\ q < inject_Z (trunc q + 1).
Proof.
  destruct q as [n d]. unfold trunc, Qle, Qlt, inject_Z; cbn [Qnum Qden]. intros H.
  assert (N : (0 <= n)%Z) by lia. rewrite Z.quot_div_nonneg by lia.
  assert (B := Z.div_mod n (Zpos d) ltac:(lia)). assert (M := Z.mod_pos_bound n (Zpos d) ltac:(lia)). split; nia.
Qed.
Lemma pixel_inside im u v : (0 < width im)%Z -> (0 < height im)%Z -> 0 <= u <= 1 -> 0 <= v <= 1 ->
  exists i j, pixel im u v = Some (i, j) /\ (0 <= i < width im)%Z /\ (0 <= j < height im)%Z /\ (inject_Z i <= u * inject_Z (width im - 1) /\ u * inject_Z (width im - 1) < inject_Z (i + 1)) /\
    (inject_Z j <= v * inject_Z (height im - 1) /\ v * inject_Z (height im - 1) < inject_Z (j + 1)).
Proof.
  intros W H U V.
  assert (G : forall n x, (0 < n)%Z -> 0 <= x <= 1 -> let i := trunc (x * inject_Z (n - 1)) in (0 <= i < n)%Z /\ (inject_Z i <= x * inject_Z (n - 1) /\ x * inject_Z (n - 1) < inject_Z (i + 1))).
  { intros n x Hn [X0 X1] i. assert (P : 0 <= inject_Z (n - 1)) by (change 0 with (inject_Z 0); rewrite <- Zle_Qle; lia).
    assert (Q0 : 0 <= x * inject_Z (n - 1)) by (apply Qmult_le_0_compat; assumption).
    destruct (trunc_floor _ Q0) as [A B]. fold i in A, B.
    assert (Q1 : x * inject_Z (n - 1) <= inject_Z (n - 1)).
    { setoid_replace (inject_Z (n - 1)) with (1 * inject_Z (n - 1)) at 2 by ring. apply Qmult_le_compat_r; assumption. }
    assert (I1 : inject_Z i <= inject_Z (n - 1)) by lra. rewrite <- Zle_Qle in I1.
    assert (I0 : inject_Z 0 < inject_Z (i + 1)) by (change (inject_Z 0) with 0; lra). rewrite <- Zlt_Qlt in I0.
    split; [lia|]. split; assumption. }
  destruct (G _ _ W U) as [I1 I2]. destruct (G _ _ H V) as [J1 J2]. unfold pixel. cbv zeta.
  set (i := trunc (u * _)) in *. set (j := trunc (v * _)) in *. exists i, j.
  replace ((i <? 0) || (width im <=? i) || (j <? 0) || (height im <=? j))%Z with false; [auto|].
  symmetry. rewrite !orb_false_iff, !Z.ltb_ge, !Z.leb_gt. lia.
Qed.
Lemma find_lookup {A} im (m : list (range * A)) u v i j : (0 < width im)%Z -> pixel im u v = Some (i, j) ->
  findMaterial (Some im) m u v = lookup m (texel im i j).
Proof. intros W P. unfold findMaterial. replace (width im <=? 0)%Z with false by (symmetry; apply Z.leb_gt; lia). now rewrite P. Qed.
