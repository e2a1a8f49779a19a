From Coq Require Import ZArith QArith List Bool Lia.
From Verif Require Import Lib.Base Model.Modes Spec.Modes.
Import ListNotations.
Open Scope Z_scope.

(** * Buffers *)
Section Buf.
Context {M : Type} (emptyM : M).
Notation Lin := (lin M).

Lemma len_replaceL e x (l : list M) : (e < length l)%nat -> length (replaceL M e x l) = length l.
Proof. intros H. unfold replaceL. rewrite app_length, firstn_length. cbn [length]. rewrite skipn_length. lia. Qed.
Lemma nth_replaceL e x (l : list M) i d : (e < length l)%nat -> nth i (replaceL M e x l) d = if (i =? e)%nat then x else nth i l d.
Proof.
  intros H. unfold replaceL. destruct (Nat.eqb_spec i e) as [->|N].
  - rewrite app_nth2; rewrite firstn_length; [|lia]. replace (e - Nat.min e (length l))%nat with 0%nat by lia. reflexivity.
  - destruct (Nat.lt_ge_cases i e).
    + rewrite app_nth1 by (rewrite firstn_length; lia). rewrite <- (firstn_skipn e l) at 2. rewrite app_nth1; [reflexivity|rewrite firstn_length; lia].
    + rewrite app_nth2; rewrite firstn_length; [|lia]. replace (i - Nat.min e (length l))%nat with (S (i - S e)) by lia. cbn [nth].
      rewrite <- (firstn_skipn (S e) l) at 2. rewrite app_nth2 by (rewrite firstn_length; lia). f_equal. rewrite firstn_length. lia.
Qed.
Lemma setA_ok (A : list M) i x : 0 <= i < Z.of_nat (length A) -> setA M A i x = Ret (replaceL M (Z.to_nat i) x A).
Proof. intros H. unfold setA. destruct (Z.leb_spec 0 i), (Z.ltb_spec i (Z.of_nat (length A))); try lia. reflexivity. Qed.
Lemma getA_ok (A : list M) i : 0 <= i < Z.of_nat (length A) -> getA M emptyM A i = Ret (nth (Z.to_nat i) A emptyM).
Proof. intros H. unfold getA. destruct (Z.leb_spec 0 i), (Z.ltb_spec i (Z.of_nat (length A))); try lia. reflexivity. Qed.

(** Slots usable for buffering: both matrices, different, within the container. *)
Definition bothSlots (t : slots) (nA : nat) : Prop :=
  1 <= eKm t <= Z.of_nat nA /\ 1 <= eM t <= Z.of_nat nA /\ eKm t <> eM t.

Lemma visit_store (s : Lin) iel K Mm (A : list M) n : bothSlots (sl M s) (length A) ->
  length (Kb M s) = n -> length (Mb M s) = n ->
  exists s' A', visit M emptyM s iel K Mm A = Ret (s', A') /\ sl M s' = sl M s /\ length (Kb M s') = n /\ length (Mb M s') = n /\
    (forall e, (e < n)%nat -> nth e (Kb M s') emptyM = if (S e =? iel)%nat then K else nth e (Kb M s) emptyM) /\
    (forall e, (e < n)%nat -> nth e (Mb M s') emptyM = if (S e =? iel)%nat then Mm else nth e (Mb M s) emptyM) /\
    nth (Z.to_nat (eKm (sl M s) - 1)) A' emptyM = K /\ nth (Z.to_nat (eM (sl M s) - 1)) A' emptyM = Mm.
Proof.
  intros [HK [HM HD]] LK LM. unfold visit, initElement.
  destruct (Z.ltb_spec (eKm (sl M s)) 0); [lia|]. rewrite !andb_false_r.
  set (A1 := replaceL M (Z.to_nat (eKm (sl M s) - 1)) K A).
  set (A2 := replaceL M (Z.to_nat (eM (sl M s) - 1)) Mm A1).
  assert (L1 : length A1 = length A) by (apply len_replaceL; lia).
  assert (L2 : length A2 = length A) by (unfold A2; rewrite len_replaceL; lia).
  assert (I : integrate M s K Mm A = Ret A2).
  { unfold integrate. destruct (Z.ltb_spec 0 (eKm (sl M s))); [|lia]. destruct (Z.ltb_spec 0 (eM (sl M s))); [|lia].
    rewrite setA_ok by lia. cbn [bind]. fold A1. rewrite setA_ok by lia. reflexivity. }
  assert (E0 : (if (iel =? 0)%nat then Ret A else let* A0 := (Ret A : res (list M)) in Ret A0) = Ret A) by (destruct (iel =? 0)%nat; reflexivity).
  cbv zeta. rewrite E0. cbn [bind]. rewrite I. cbn [bind].
  assert (G1 : nth (Z.to_nat (eKm (sl M s) - 1)) A2 emptyM = K).
  { unfold A2. rewrite nth_replaceL by lia. destruct (Nat.eqb_spec (Z.to_nat (eKm (sl M s) - 1)) (Z.to_nat (eM (sl M s) - 1))); [lia|].
    unfold A1. rewrite nth_replaceL by lia. rewrite Nat.eqb_refl. reflexivity. }
  assert (G2 : nth (Z.to_nat (eM (sl M s) - 1)) A2 emptyM = Mm) by (unfold A2; rewrite nth_replaceL by lia; rewrite Nat.eqb_refl; reflexivity).
  unfold finalizeElement. destruct (Nat.eqb_spec iel 0) as [->|NZ].
  { exists s, A2. repeat split; auto. }
  destruct (Z.ltb_spec 0 (eKm (sl M s))); [|lia]. destruct (Z.ltb_spec 0 (eM (sl M s))); [|lia].
  rewrite !getA_ok by lia. rewrite G1, G2, LK, LM. rewrite !andb_true_r. cbv zeta.
  destruct (Nat.ltb_spec (iel - 1) n) as [LT|GE]; cbn [bind].
  - eexists _, A2. split; [reflexivity|]. cbn [sl Kb Mb]. repeat split; auto; try (rewrite len_replaceL; lia).
    + intros e He. rewrite nth_replaceL by lia. destruct (Nat.eqb_spec e (iel - 1)), (Nat.eqb_spec (S e) iel); try lia; reflexivity.
    + intros e He. rewrite nth_replaceL by lia. destruct (Nat.eqb_spec e (iel - 1)), (Nat.eqb_spec (S e) iel); try lia; reflexivity.
  - eexists _, A2. split; [reflexivity|]. cbn [sl Kb Mb]. repeat split; auto.
    + intros e He. destruct (Nat.eqb_spec (S e) iel); [lia|reflexivity].
    + intros e He. destruct (Nat.eqb_spec (S e) iel); [lia|reflexivity].
Qed.

(** A list of visits, all with containers of the same size. *)
Fixpoint visits (s : Lin) (A0 : list M) (l : list (nat * M * M)) : res Lin :=
  match l with
  | [] => Ret s
  | (iel, K, Mm) :: r => let* x := visit M emptyM s iel K Mm A0 in visits (fst x) A0 r
  end.

Lemma visits_store l : forall (s : Lin) A0 n, bothSlots (sl M s) (length A0) -> length (Kb M s) = n -> length (Mb M s) = n ->
  exists s', visits s A0 l = Ret s' /\ sl M s' = sl M s /\ length (Kb M s') = n /\ length (Mb M s') = n /\
    forall e, (e < n)%nat -> nth e (Kb M s') emptyM = match lastFor (S e) l with Some (K, _) => K | None => nth e (Kb M s) emptyM end /\
                          nth e (Mb M s') emptyM = match lastFor (S e) l with Some (_, Mm) => Mm | None => nth e (Mb M s) emptyM end.
Proof.
  induction l as [|[[iel K] Mm] r IH]; intros s A0 n HB LK LM.
  { exists s. repeat split; auto. }
  destruct (visit_store s iel K Mm A0 n HB LK LM) as [s1 [A1 [E [S1 [L1 [L2 [N1 [N2 _]]]]]]]].
  rewrite <- S1 in HB. destruct (IH s1 A0 n HB L1 L2) as [s' [E' [S' [L1' [L2' N]]]]].
  exists s'. cbn [visits]. rewrite E. cbn [bind fst]. split; [exact E'|]. split; [congruence|]. split; [exact L1'|]. split; [exact L2'|].
  intros e He. cbn [lastFor]. destruct (N e He) as [A B]. rewrite A, B. destruct (lastFor (S e) r) as [[x y]|]; [auto|].
  rewrite N1, N2 by exact He. rewrite (Nat.eqb_sym iel). destruct (S e =? iel)%nat; auto.
Qed.

Lemma resizeL_length n (l : list M) : length (resizeL M emptyM n l) = n.
Proof. unfold resizeL. rewrite app_length, firstn_length, repeat_length. lia. Qed.

(** Buffered visits read the stored matrices and change nothing. *)
Lemma visit_read (s : Lin) iel K Mm (A : list M) n : bothSlots (mkSlots (- eKm (sl M s)) 0 (- eM (sl M s)) 0 0 0 0) (length A) ->
  length (Kb M s) = n -> length (Mb M s) = n -> (1 <= iel <= n)%nat ->
  exists A', visit M emptyM s iel K Mm A = Ret (s, A') /\ length A' = length A /\
    nth (Z.to_nat (- eKm (sl M s) - 1)) A' emptyM = nth (iel - 1) (Kb M s) emptyM /\
    nth (Z.to_nat (- eM (sl M s) - 1)) A' emptyM = nth (iel - 1) (Mb M s) emptyM /\
    forall i, i <> Z.to_nat (- eKm (sl M s) - 1) -> i <> Z.to_nat (- eM (sl M s) - 1) -> nth i A' emptyM = nth i A emptyM.
Proof.
  intros [HK [HM HD]] LK LM HI. cbn in HK, HM, HD. unfold visit, initElement.
  destruct (Nat.eqb_spec iel 0); [lia|]. rewrite LK, LM. destruct (Nat.ltb_spec (iel - 1) n); [|lia].
  destruct (Z.ltb_spec (eKm (sl M s)) 0); [|lia]. cbn [andb].
  rewrite setA_ok by lia. cbn [bind]. set (A1 := replaceL M _ _ A).
  assert (L1 : length A1 = length A) by (apply len_replaceL; lia).
  rewrite setA_ok by lia. cbn [bind]. set (A2 := replaceL M _ _ A1).
  assert (L2 : length A2 = length A) by (unfold A2; rewrite len_replaceL; lia).
  unfold integrate. destruct (Z.ltb_spec 0 (eKm (sl M s))); [lia|]. destruct (Z.ltb_spec 0 (eM (sl M s))); [lia|]. cbn [bind].
  unfold finalizeElement. destruct (Nat.eqb_spec iel 0); [lia|].
  destruct (Z.ltb_spec 0 (eKm (sl M s))); [lia|]. destruct (Z.ltb_spec 0 (eM (sl M s))); [lia|]. rewrite !andb_false_r. cbn [bind].
  exists A2. split; [destruct s; reflexivity|]. split; [exact L2|]. split; [|split].
  - unfold A2. rewrite nth_replaceL by lia. destruct (Nat.eqb_spec (Z.to_nat (- eKm (sl M s) - 1)) (Z.to_nat (- eM (sl M s) - 1))); [lia|].
    unfold A1. rewrite nth_replaceL by lia. rewrite Nat.eqb_refl. reflexivity.
  - unfold A2. rewrite nth_replaceL by lia. rewrite Nat.eqb_refl. reflexivity.
  - intros i Q1 Q2. unfold A2. rewrite nth_replaceL by lia. destruct (Nat.eqb_spec i (Z.to_nat (- eM (sl M s) - 1))); [lia|].
    unfold A1. rewrite nth_replaceL by lia. destruct (Nat.eqb_spec i (Z.to_nat (- eKm (sl M s) - 1))); [lia|reflexivity].
Qed.

(** The whole protocol: buffers of size [n], a storing assembly in any order, then a re-use assembly. *)
Theorem buffers_roundtrip t n l A0 : (1 < n)%nat -> bothSlots t (length A0) ->
  exists s, visits (changeMode M t (initLHSbuffers M emptyM n (mkLin M t [] []))) A0 l = Ret s /\
    forall iel K' M' A, (1 <= iel <= n)%nat -> length A = length A0 ->
      let s2 := initLHSbuffers M emptyM 0 (changeMode M t s) in
      exists A', visit M emptyM s2 iel K' M' A = Ret (s2, A') /\
        forall K Mm, lastFor iel l = Some (K, Mm) ->
          nth (Z.to_nat (eKm t - 1)) A' emptyM = K /\ nth (Z.to_nat (eM t - 1)) A' emptyM = Mm /\
          forall i, i <> Z.to_nat (eKm t - 1) -> i <> Z.to_nat (eM t - 1) -> nth i A' emptyM = nth i A emptyM.
Proof.
  intros Hn HB. unfold initLHSbuffers at 1. destruct (Nat.ltb_spec 1 n); [|lia]. unfold changeMode at 1. cbn [Kb Mb sl].
  destruct (visits_store l (mkLin M t (resizeL M emptyM n []) (resizeL M emptyM n [])) A0 n HB) as [s [E [S1 [L1 [L2 N]]]]];
    [apply resizeL_length|apply resizeL_length|].
  exists s. split; [exact E|]. intros iel K' M' A HI HA. cbv zeta.
  assert (Q : initLHSbuffers M emptyM 0 (changeMode M t s) = mkLin M (mkSlots (neg (eKm t)) (neg (eKg t)) (neg (eM t)) (eS t) (gS t) (iS t) (dS t)) (Kb M s) (Mb M s)).
  { unfold initLHSbuffers, changeMode. cbn. destruct (Kb M s) as [|x r] eqn:K0; [cbn in L1; lia|]. reflexivity. }
  rewrite Q. pose proof HB as [HK [HM HD]].
  assert (NK : neg (eKm t) = - eKm t) by (unfold neg; destruct (Z.ltb_spec 0 (eKm t)); lia).
  assert (NM : neg (eM t) = - eM t) by (unfold neg; destruct (Z.ltb_spec 0 (eM t)); lia).
  rewrite NK, NM.
  edestruct (visit_read (mkLin M (mkSlots (- eKm t) (neg (eKg t)) (- eM t) (eS t) (gS t) (iS t) (dS t)) (Kb M s) (Mb M s)) iel K' M' A n) as [A' [E' [LA [R1 [R2 R3]]]]];
    [unfold bothSlots; cbn; lia|exact L1|exact L2|exact HI|].
  cbn [sl Kb Mb eKm eM] in R1, R2, R3. rewrite (Z.opp_involutive (eKm t)) in R1, R3. rewrite (Z.opp_involutive (eM t)) in R2, R3.
  exists A'. split; [exact E'|]. intros K Mm HL. rewrite R1, R2. destruct (N (iel - 1)%nat ltac:(lia)) as [B1 B2].
  replace (S (iel - 1)) with iel in B1, B2 by lia. rewrite HL in B1, B2. split; [exact B1|]. split; [exact B2|exact R3].
Qed.
End Buf.
