(** Proofs about the linear continuum element. *)
From Verif Require Import Lib.Base Lib.Sums Lib.Writes Lib.Congruence Lib.Tensor3 Spec.Hooke Spec.Continuum Model.Continuum Model.LinIsotropic
  Proofs.LinIsotropic Proofs.Continuum Proofs.ContinuumKin Proofs.ContinuumK Proofs.ContinuumAxi Proofs.ContinuumHoop Proofs.ContinuumLoad
  Model.LinElement Spec.LinElement.

Definition vp (k : solid) (r : nat) : nat * nat :=
  match k with
  | Solid3 => vpair 3 r
  | AxiSolid => match r with 1 => (1, 1) | 2 => (2, 2) | 3 => (3, 3) | _ => (1, 2) end
  | _ => vpair 2 r end%nat.
Definition nsk (k : solid) : nat := match k with Solid3 => 6 | AxiSolid => 4 | _ => 3 end.
Definition engv (k : solid) (e : t3) (r : nat) : R := let '(i, j) := vp k r in engineering k e i j.

Lemma nst_kind k n s : isKind k n s -> nst (lnsd s) (lax s) = nsk k.
Proof. intros [H1 [H2 _]]. rewrite H1, H2. destruct k; reflexivity. Qed.

Ltac ev := cbn [sumf Nat.eqb Nat.leb andb orb vp vpair engineering sdim isAx fst snd].

(** The strains delivered by the kinematics. *)
Lemma bmat_ok k n s p : isKind k n s -> validPt k p ->
  exists B, (if lax s then formBmatrixAx (pElm s p) else formBmatrix (pElm s p)) = Ret B /\
    forall u r, (1 <= r <= nsk k)%nat -> mv (sdim k * n) (el B) u r = engv k (strainOf k n p u) r.
Proof.
  intros [H1 [H2 [H3 H4]]] V. unfold pElm. rewrite H1, H2, H3.
  destruct k; cbn [isAx sdim].
  1,2: destruct (blin_ok 2 n (pN p) (pG p) (pX p) ltac:(auto)) as [B [E [_ [_ HB]]]]; exists B; (split; [exact E|]);
    intros u r Hr; cbn [nsk] in Hr;
    rewrite (bnl_mv 2 n (el B) kron (pG p) u r ltac:(auto)) by (intros; apply HB; unfold nvoigt; cbn; lia);
    unfold engv, strainOf, engineering; idx r; try (exfalso; lia); unfold kron; ev; try field.
  2: destruct (blin_ok 3 n (pN p) (pG p) (pX p) ltac:(auto)) as [B [E [_ [_ HB]]]]; exists B; (split; [exact E|]);
    intros u r Hr; cbn [nsk] in Hr;
    rewrite (bnl_mv 3 n (el B) kron (pG p) u r ltac:(auto)) by (intros; apply HB; unfold nvoigt; cbn; lia);
    unfold engv, strainOf, engineering; idx r; try (exfalso; lia); unfold kron; ev; try field.
  destruct V as [_ Va _]. specialize (Va eq_refl).
  destruct (bax_strain n (pN p) (pG p) (pX p)) as [B [E [_ [_ HB]]]]; [generalize epsR_pos; lra|].
  exists B. split; [exact E|]. intros u r Hr. cbn [nsk] in Hr. destruct (HB u) as [h1 [h2 [h3 h4]]].
  unfold engv, strainOf, engineering. idx r; try (exfalso; lia); ev; rewrite ?h1, ?h2, ?h3, ?h4; try field.
  unfold hoopStrain. destruct (Rle_dec (pX p) epsR) as [L|_]; [lra|]. unfold radialDisp, interp. f_equal. 
  all: try (apply sumf_ext; intros; ring).
Qed.

(** Symmetric tensors with the components of the kind. *)
Definition ofKind (k : solid) (e : t3) : Prop :=
  (forall i j, (1 <= i <= 3)%nat -> (1 <= j <= 3)%nat -> e i j = e j i) /\
  match k with
  | Solid3 => True
  | AxiSolid => e 1%nat 3%nat = 0 /\ e 2%nat 3%nat = 0
  | _ => e 1%nat 3%nat = 0 /\ e 2%nat 3%nat = 0 /\ e 3%nat 3%nat = 0 end.
Lemma strain_kind k n p u : ofKind k (strainOf k n p u).
Proof.
  split.
  - intros i j Hi Hj. unfold strainOf. destruct k; idx i; idx j; ev; lra.
  - destruct k; unfold strainOf; ev; auto.
Qed.
Lemma expansion_kind k p : ofKind k (expansion k p).
Proof. split; [intros i j Hi Hj; unfold expansion; destruct k; idx i; idx j; reflexivity|]. destruct k; unfold expansion; ev; auto. Qed.

(** The constitutive matrix gives the energy density of Hooke's law, and its stresses. *)
Lemma cmat_ok k n s p : isKind k n s -> validPt k p ->
  exists C, cmatrix (lnsd s) (lps s) (lax s) false (pE p) (pNu p) = Ret C /\
    (forall A B, ofKind k A -> ofKind k B -> sumf (nsk k) (fun r => engv k A r * mv (nsk k) (el C) (engv k B) r) = density k p A B) /\
    (forall A i j, k <> AxiSolid -> ofKind k A -> (1 <= i <= sdim k)%nat -> (1 <= j <= sdim k)%nat ->
       sigT s (mv (nsk k) (el C) (engv k A)) i j = hookeOf k p A i j).
Proof.
  intros [H1 [H2 [H3 H4]]] [Hn _ _]. unfold sigT. rewrite H1, H2.
  set (E := pE p). set (nu := pNu p). fold nu in Hn.
  assert (N1 : 1 + nu <> 0) by lra. assert (N2 : 1 - 2 * nu <> 0) by lra.
  assert (N3 : 1 - nu * nu <> 0) by nra. assert (N4 : 2 + nu + nu <> 0) by lra. assert (N5 : 1 - nu - nu <> 0) by lra. assert (N6 : 1 - nu <> 0) by lra.
  assert (PL : lamOf PlaneStress E nu = E * nu / (1 - nu * nu) \/ E = 0).
  { destruct (Req_dec E 0) as [Z|Z]; [now right|left]. unfold lamOf, lame1, lame2. field. repeat split; try lra; nra. }
  assert (PZ : E = 0 -> lamOf PlaneStress E nu = 0). { intros ->. unfold lamOf, lame1, lame2, Rdiv. rewrite !Rmult_0_l, !Rmult_0_r, !Rmult_0_l. reflexivity. }
  assert (PL' : lamOf PlaneStress E nu = E * nu / (1 - nu * nu)).
  { destruct PL as [P|Z]; [exact P|]. rewrite (PZ Z), Z. unfold Rdiv. ring. }
  destruct k; cbn [isAx sdim] in *; rewrite ?H4.
  - unfold cmatrix. cbn [Nat.eqb]. repeat nu_ok. red_c. eexists. split; [reflexivity|].
    unfold density, hookeOf, hooke. fold E nu. rewrite PL'. split.
    + intros A B [SA [a13 [a23 a33]]] [SB [b13 [b23 b33]]]. unfold mv, engv, engineering, tr3, ddot3, lame2. ev. cbn.
      rewrite (SA 2 1)%nat, (SA 3 1)%nat, (SA 3 2)%nat, (SB 2 1)%nat, (SB 3 1)%nat, (SB 3 2)%nat, a13, a23, a33, b13, b23, b33 by lia. field. split; lra.
    + intros A i j _ [SA [a13 [a23 a33]]] Hi Hj. unfold mv, engv, engineering, trace, lame2. idx i; idx j; try (exfalso; lia); unfold kron; cbn; rewrite ?a33, ?(SA 2 1)%nat by lia; field; split; lra.
  - unfold cmatrix. cbn [Nat.eqb]. repeat nu_ok. red_c. eexists. split; [reflexivity|].
    unfold density, hookeOf, hooke, lamOf. fold E nu. split.
    + intros A B [SA [a13 [a23 a33]]] [SB [b13 [b23 b33]]]. unfold mv, engv, engineering, tr3, ddot3, lame1, lame2. ev. cbn.
      rewrite (SA 2 1)%nat, (SA 3 1)%nat, (SA 3 2)%nat, (SB 2 1)%nat, (SB 3 1)%nat, (SB 3 2)%nat, a13, a23, a33, b13, b23, b33 by lia. field. repeat split; lra.
    + intros A i j _ [SA [a13 [a23 a33]]] Hi Hj. unfold mv, engv, engineering, trace, lame1, lame2. idx i; idx j; try (exfalso; lia); unfold kron; cbn; rewrite ?a33, ?(SA 2 1)%nat by lia; field; repeat split; lra.
  - assert (X : exists C, cmatrix 2 (lps s) true false E nu = Ret C /\ cmatrix 2 true true false E nu = Ret C).
    { destruct (lps s); unfold cmatrix; cbn [Nat.eqb]; repeat nu_ok; red_c; eexists; split; reflexivity. }
    destruct X as [C [X1 X2]]. exists C. split; [exact X1|]. revert X2. unfold cmatrix. cbn [Nat.eqb]. repeat nu_ok. red_c. intros Q. injection Q as <-.
    unfold density, hookeOf, hooke, lamOf. fold E nu. split; [|congruence].
    intros A B [SA [a13 a23]] [SB [b13 b23]]. unfold mv, engv, engineering, tr3, ddot3, lame1, lame2. ev. cbn.
    rewrite (SA 2 1)%nat, (SA 3 1)%nat, (SA 3 2)%nat, (SB 2 1)%nat, (SB 3 1)%nat, (SB 3 2)%nat, a13, a23, b13, b23 by lia. field. repeat split; lra.
  - assert (X : exists C, cmatrix 3 (lps s) false false E nu = Ret C /\ cmatrix 3 true false false E nu = Ret C).
    { destruct (lps s); unfold cmatrix; cbn [Nat.eqb]; repeat nu_ok; red_c; eexists; split; reflexivity. }
    destruct X as [C [X1 X2]]. exists C. split; [exact X1|]. revert X2. unfold cmatrix. cbn [Nat.eqb]. repeat nu_ok. red_c. intros Q. injection Q as <-.
    unfold density, hookeOf, hooke, lamOf. fold E nu. split.
    + intros A B [SA _] [SB _]. unfold mv, engv, engineering, tr3, ddot3, lame1, lame2. ev. cbn.
      rewrite (SA 2 1)%nat, (SA 3 1)%nat, (SA 3 2)%nat, (SB 2 1)%nat, (SB 3 1)%nat, (SB 3 2)%nat by lia. field. repeat split; lra.
    + intros A i j _ [SA _] Hi Hj. unfold mv, engv, engineering, trace, lame1, lame2. idx i; idx j; try (exfalso; lia); unfold kron; cbn; rewrite ?(SA 2 1)%nat, ?(SA 3 1)%nat, ?(SA 3 2)%nat by lia; field; repeat split; lra.
Qed.

(** ** Sums *)
Lemma bilin_add N (A A' D : nat -> nat -> R) v w : (forall i j, (1 <= i <= N)%nat -> (1 <= j <= N)%nat -> A' i j = A i j + D i j) ->
  bilin N A' v w = bilin N A v w + bilin N D v w.
Proof.
  intros H. unfold bilin, mv. rewrite <- sumf_plus. apply sumf_ext. intros i Hi. rewrite <- Rmult_plus_distr_l, <- sumf_plus. f_equal.
  apply sumf_ext. intros j Hj. rewrite H by assumption. ring.
Qed.
Lemma bilin_btcb N ns (B : nat -> nat -> R) (C : nat -> nat -> R) c v w :
  bilin N (fun i j => sumf ns (fun r => B r i * (sumf ns (fun q => C r q * B q j) * c))) v w
  = c * sumf ns (fun r => mv N B v r * mv ns C (mv N B w) r).
Proof.
  unfold bilin, mv.
  transitivity (sumf ns (fun r => c * (sumf N (fun i => B r i * v i) * sumf ns (fun q => C r q * sumf N (fun j => B q j * w j))))).
  2:{ rewrite sumf_scal. reflexivity. }
  transitivity (sumf N (fun i => sumf ns (fun r => c * (B r i * v i) * sumf ns (fun q => C r q * sumf N (fun j => B q j * w j))))).
  - apply sumf_ext. intros i _. 
    transitivity (v i * sumf N (fun j => sumf ns (fun r => B r i * (sumf ns (fun q => C r q * B q j) * c) * w j))).
    { f_equal. apply sumf_ext. intros j _. rewrite <- sumf_scal_r. reflexivity. }
    rewrite sumf_swap, <- sumf_scal. apply sumf_ext. intros r _.
    transitivity (v i * (B r i * c * sumf N (fun j => sumf ns (fun q => C r q * B q j) * w j))).
    { f_equal. rewrite <- sumf_scal. apply sumf_ext. intros j _. ring. }
    replace (sumf N (fun j => sumf ns (fun q => C r q * B q j) * w j)) with (sumf ns (fun q => C r q * sumf N (fun j => B q j * w j))); [ring|].
    transitivity (sumf ns (fun q => sumf N (fun j => C r q * B q j * w j))).
    { apply sumf_ext. intros q _. rewrite <- sumf_scal. apply sumf_ext. intros. ring. }
    rewrite sumf_swap. apply sumf_ext. intros j _. rewrite sumf_scal_r. reflexivity.
  - rewrite sumf_swap. apply sumf_ext. intros r _. rewrite sumf_scal_r, sumf_scal. ring.
Qed.
Lemma lwork_force N ns B sg b v : lwork N (forceAdd ns B sg b) v = lwork N b v + sumf ns (fun r => mv N (el B) v r * sg r).
Proof.
  unfold lwork, forceAdd. cbn [el]. rewrite (sumf_ext N _ (fun i => v i * el b i 1%nat + v i * sumf ns (fun r => el B r i * sg r))) by (intros; ring).
  rewrite sumf_plus. f_equal.
  transitivity (sumf N (fun i => sumf ns (fun r => (el B r i * v i) * sg r))).
  { apply sumf_ext. intros i _. rewrite <- sumf_scal. apply sumf_ext. intros. ring. }
  rewrite sumf_swap. apply sumf_ext. intros r _. rewrite sumf_scal_r. reflexivity.
Qed.
Lemma run_add_dims ws : forall M M', run_add M ws = Ret M' -> rows M' = rows M /\ cols M' = cols M.
Proof.
  induction ws as [|[[i j] v] ws IH]; intros M M' E; cbn [run_add] in E.
  - injection E as <-. auto.
  - unfold mget, mset in E. destruct (inb M i j); cbn [bind] in E; [|discriminate].
    destruct (IH _ _ E) as [a b]. cbn in a, b. auto.
Qed.
Lemma mv_eng k n p B u ns (C : nat -> nat -> R) r : ns = nsk k ->
  (forall v q, (1 <= q <= nsk k)%nat -> mv (sdim k * n) (el B) v q = engv k (strainOf k n p v) q) ->
  mv ns C (mv (sdim k * n) (el B) u) r = mv ns C (engv k (strainOf k n p u)) r.
Proof. intros -> H. unfold mv at 1 3. apply sumf_ext. intros q Hq. rewrite H by assumption. reflexivity. Qed.

(** ** The test for strains *)
Lemma zeroStrain_iff s eps : zeroStrain s eps = true <-> forall r, (1 <= r <= nst (lnsd s) (lax s))%nat -> Rabs (eps r) <= epsR.
Proof.
  unfold zeroStrain. rewrite forallb_forall. split; intros H r Hr.
  - specialize (H r). destruct (Rle_dec (Rabs (eps r)) epsR) as [L|L]; [exact L|]. discriminate H. apply in_seq. lia.
  - apply in_seq in Hr. destruct (Rle_dec (Rabs (eps r)) epsR) as [L|L]; [reflexivity|]. exfalso. apply L, H. lia.
Qed.
Lemma eng_find k e i j : ofKind k e -> (1 <= i <= 3)%nat -> (1 <= j <= 3)%nat -> engineering k e i j <> 0 ->
  exists r, (1 <= r <= nsk k)%nat /\ engv k e r = engineering k e i j.
Proof.
  intros [S Z] Hi Hj H. unfold engv.
  destruct k; cbn [nsk]; idx i; idx j; unfold engineering in *; cbn [Nat.eqb] in *;
  try (exfalso; apply H; rewrite ?(S 3 1)%nat, ?(S 3 2)%nat by lia; try (decompose [and] Z); lra);
  first [ exists 1%nat; split; [lia|]; cbn; first [reflexivity|rewrite (S 2 1)%nat by lia; reflexivity]
        | exists 2%nat; split; [lia|]; cbn; reflexivity
        | exists 3%nat; split; [lia|]; cbn; first [reflexivity|rewrite (S 2 1)%nat by lia; reflexivity]
        | exists 4%nat; split; [lia|]; cbn; first [reflexivity|rewrite (S 2 1)%nat by lia; reflexivity]
        | exists 5%nat; split; [lia|]; cbn; first [reflexivity|rewrite (S 3 2)%nat by lia; reflexivity]
        | exists 6%nat; split; [lia|]; cbn; first [reflexivity|rewrite (S 3 1)%nat by lia; reflexivity] ].
Qed.
Lemma seen_zero k n s p u eps : isKind k n s -> (forall r, (1 <= r <= nsk k)%nat -> eps r = engv k (strainOf k n p u) r) ->
  seen k (strainOf k n p u) -> zeroStrain s eps = true -> eq3 (strainOf k n p u) (fun _ _ => 0).
Proof.
  intros HK He Hs Hz. destruct Hs as [Z|[i [j [Hi [Hj L]]]]]; [exact Z|]. exfalso.
  rewrite zeroStrain_iff, (nst_kind k n s HK) in Hz.
  destruct (eng_find k (strainOf k n p u) i j (strain_kind k n p u) Hi Hj) as [r [Hr Er]].
  { intros Q. rewrite Q, Rabs_R0 in L. generalize epsR_pos. lra. }
  specialize (Hz r Hr). rewrite He, Er in Hz by assumption. lra.
Qed.
Lemma density_zero k p A B : eq3 A (fun _ _ => 0) -> density k p A B = 0.
Proof. intros H. unfold density, tr3, ddot3. rewrite !H by lia. ring. Qed.
Lemma density_ext k p A A' B B' : eq3 A A' -> eq3 B B' -> density k p A B = density k p A' B'.
Proof. intros H H'. unfold density, tr3, ddot3. rewrite !H, !H' by lia. ring. Qed.
Lemma density_sym k p A B : density k p A B = density k p B A.
Proof. unfold density, ddot3. ring. Qed.

(** ** Steps of the integration point *)
Definition grows (N : nat) (st st' : lst) (dA : nat -> (nat -> R) -> (nat -> R) -> R) (dB : nat -> (nat -> R) -> R) : Prop :=
  sized N st' /\
  (forall s v w, (1 <= s)%nat -> bilin N (el (lA st' s)) v w = bilin N (el (lA st s)) v w + dA s v w) /\
  (forall s v, (1 <= s)%nat -> lwork N (bvec (lB st') s) v = lwork N (bvec (lB st) s) v + dB s v).
Lemma grows_trans N a b c dA dA' dB dB' : grows N a b dA dB -> grows N b c dA' dB' ->
  grows N a c (fun s v w => dA s v w + dA' s v w) (fun s v => dB s v + dB' s v).
Proof. intros [_ [A1 B1]] [S [A2 B2]]. split; [exact S|]. split; intros; [rewrite A2, A1 by assumption|rewrite B2, B1 by assumption]; ring. Qed.
Lemma grows_none N st dA dB : sized N st -> (forall s v w, (1 <= s)%nat -> dA s v w = 0) -> (forall s v, (1 <= s)%nat -> dB s v = 0) -> grows N st st dA dB.
Proof. intros S A B. split; [exact S|]. split; intros; [rewrite A by assumption|rewrite B by assumption]; ring. Qed.
Lemma grows_ext N st st' dA dA' dB dB' : grows N st st' dA dB -> (forall s v w, (1 <= s)%nat -> dA s v w = dA' s v w) -> (forall s v, (1 <= s)%nat -> dB s v = dB' s v) ->
  grows N st st' dA' dB'.
Proof. intros [S [A B]] HA HB. split; [exact S|]. split; intros; [rewrite <- HA by assumption; auto|rewrite <- HB by assumption; auto]. Qed.
Lemma grows_setA N st pos K d : sized N st -> (0 < pos)%Z -> rows K = N -> cols K = N ->
  (forall v w, bilin N (el K) v w = bilin N (el (lA st (Z.to_nat pos))) v w + d v w) ->
  grows N st (setA st (Z.to_nat pos) K) (fun s v w => atZ pos s (d v w)) (fun _ _ => 0).
Proof.
  intros [SA SB] Hp HR HC H. split; [|split].
  - split; [|exact SB]. intros s. cbn. destruct (s =? Z.to_nat pos)%nat; auto.
  - intros s v w Hs. unfold setA. cbn [lA]. unfold atZ. destruct (Nat.eqb_spec s (Z.to_nat pos)) as [->|Hn].
    + rewrite Z2Nat.id, Z.eqb_refl by lia. apply H.
    + destruct (Z.eqb_spec pos (Z.of_nat s)); [exfalso; lia|]. ring.
  - intros. cbn. ring.
Qed.
Lemma grows_setB N st pos b d b0 : sized N st -> (1 <= pos)%nat -> rows b = N -> cols b = 1%nat ->
  (forall s, s <> pos -> bvec b0 s = bvec (lB st) s) ->
  (forall v, lwork N b v = lwork N (bvec (lB st) pos) v + d v) ->
  grows N st (setB st (bset b0 pos b)) (fun _ _ _ => 0) (fun s v => atN pos s (d v)).
Proof.
  intros [SA SB] Hp HR HC Ho H. split; [|split].
  - split; [exact SA|]. intros s. cbn. destruct (Nat.eqb_spec s pos) as [->|Hn]; [auto|]. rewrite Ho by assumption. apply SB.
  - intros. cbn. ring.
  - intros s v Hs. cbn. unfold atN. rewrite (Nat.eqb_sym pos s). destruct (Nat.eqb_spec s pos) as [->|Hn]; [apply H|]. rewrite Ho by assumption. ring.
Qed.

Lemma lvol_ok k n s p : isKind k n s -> lVol s p = vol k p.
Proof. intros [_ [H2 _]]. unfold lVol, vol. rewrite H2. reflexivity. Qed.

Section Point.
Variables (k : solid) (n : nat) (s : lset) (p : lpt) (B C : mat).
Hypothesis HK : isKind k n s.
Hypothesis HV : validPt k p.
Hypothesis HB : forall u r, (1 <= r <= nsk k)%nat -> mv (sdim k * n) (el B) u r = engv k (strainOf k n p u) r.
Hypothesis HC : forall X Y, ofKind k X -> ofKind k Y -> sumf (nsk k) (fun r => engv k X r * mv (nsk k) (el C) (engv k Y) r) = density k p X Y.
Hypothesis HS : forall X i j, k <> AxiSolid -> ofKind k X -> (1 <= i <= sdim k)%nat -> (1 <= j <= sdim k)%nat ->
       sigT s (mv (nsk k) (el C) (engv k X)) i j = hookeOf k p X i j.
Let N := (sdim k * n)%nat.
Let eps u := strainOf k n p u.

Lemma work_dens v w : sumf (nsk k) (fun r => mv N (el B) v r * mv (nsk k) (el C) (mv N (el B) w) r) = density k p (eps v) (eps w).
Proof using All.
  unfold eps. rewrite <- HC by apply strain_kind. apply sumf_ext. intros r Hr. unfold N. rewrite HB by assumption. f_equal. apply (mv_eng k n p); auto.
Qed.

Lemma stepK_ok st : sized N st ->
  grows N st (stepK s p B C st) (fun a v w => atZ (eKm s) a (vol k p * density k p (eps v) (eps w))) (fun _ _ => 0).
Proof using All.
  intros S. unfold stepK. destruct (Z.ltb_spec 0 (eKm s)) as [L|L].
  - rewrite (nst_kind k n s HK). apply grows_setA; try assumption; try apply S.
    intros v w. rewrite <- work_dens, <- (lvol_ok k n s p HK), <- bilin_btcb. apply bilin_add. intros i j _ _. reflexivity.
  - apply grows_none; try assumption; [|reflexivity]. intros a v w Ha. unfold atZ. destruct (Z.eqb_spec (eKm s) (Z.of_nat a)); [exfalso; lia|reflexivity].
Qed.

Lemma stepM_ok st : sized N st -> exists st', stepM s p st = Ret st' /\
  grows N st st' (fun a v w => atZ (eM s) a (vol k p * pRho p * sumf (sdim k) (fun i => interp (sdim k) n (pN p) v i * interp (sdim k) n (pN p) w i))) (fun _ _ => 0).
Proof using All.
  intros S. unfold stepM. destruct (Z.ltb_spec 0 (eM s)) as [L|L].
  - pose proof HK as [H1 [H2 [H3 _]]].
    destruct (formMass_ok (pElm s p) (pRho p) (lVol s p) (lA st (Z.to_nat (eM s)))) as [K [E [Rr [Cc ee]]]].
    1,2: unfold pElm; cbn [nsd nen]; rewrite H1, H3; apply S.
    rewrite E. cbn [bind]. eexists. split; [reflexivity|]. unfold pElm in ee. cbn [nsd nen shp] in ee. rewrite H1, H3, (lvol_ok k n s p HK) in ee.
    apply grows_setA; try assumption; [rewrite Rr; apply S|rewrite Cc; apply S|].
    intros v w. unfold N. change bilin with bil. rewrite (mass_point_bil (sdim k) n (el (lA st (Z.to_nat (eM s)))) (el K) (pN p) (pRho p * vol k p) v w).
    + change bil with bilin. ring.
    + intros. rewrite ee by assumption. ring.
  - exists st. split; [reflexivity|]. apply grows_none; try assumption; [|reflexivity]. intros a v w Ha. unfold atZ. destruct (Z.eqb_spec (eM s) (Z.of_nat a)); [exfalso; lia|reflexivity].
Qed.

Lemma stepKg_ok st eV have e0 : sized N st -> k <> AxiSolid \/ (eKg s <= 0)%Z -> (1 <= n)%nat ->
  ofKind k e0 -> (have = false -> (0 < eKg s)%Z -> eq3 e0 (fun _ _ => 0)) ->
  exists st', stepKg s p eV have (mv (nsk k) (el C) (engv k e0)) st = Ret st' /\
  grows N st st' (fun a v w => atZ (eKg s) a (vol k p * sumf (sdim k) (fun c => sumf (sdim k) (fun i => sumf (sdim k) (fun j =>
    gradient (sdim k) n (pG p) v c i * hookeOf k p e0 i j * gradient (sdim k) n (pG p) w c j))))) (fun _ _ => 0).
Proof using All.
  intros S HA Hn He Hz. unfold stepKg. destruct (Z.ltb_spec 0 (eKg s)) as [L|L]; cbn [andb].
  2:{ exists st. split; [reflexivity|]. apply grows_none; try assumption; [|reflexivity]. intros a v w Ha. unfold atZ. destruct (Z.eqb_spec (eKg s) (Z.of_nat a)); [exfalso; lia|reflexivity]. }
  destruct HA as [HA|HA]; [|lia].
  destruct have.
  - pose proof HK as [H1 [H2 [H3 _]]].
    assert (Ax : isAx k = false) by (destruct k; try reflexivity; congruence).
    assert (Hd : (1 <= sdim k)%nat) by (destruct k; cbn; lia).
    set (sg := sigT s (mv (nsk k) (el C) (engv k e0))).
    assert (Ee : pElm s p = plane (sdim k) n (pN p) (pG p) (pX p)) by (unfold pElm, plane; rewrite H1, H2, H3, Ax; reflexivity).
    rewrite Ee, H2, Ax, (lvol_ok k n s p HK).
    destruct (formKG_ok (plane (sdim k) n (pN p) (pG p) (pX p)) 0 sg (vol k p) (lA st (Z.to_nat (eKg s)))) as [K [E ee]]; try apply S; [exact Hd|].
    rewrite E. cbn [bind]. eexists. split; [reflexivity|].
    destruct (run_add_dims _ _ _ E) as [Rr Cc].
    destruct (kg_quad (sdim k) n (pN p) (pG p) 0 sg (vol k p) (zeros N N) Hd eq_refl eq_refl ltac:(intros; reflexivity)) as [K0 [E0 q0]].
    destruct (formKG_ok (plane (sdim k) n (pN p) (pG p) 0) 0 sg (vol k p) (zeros N N) Hd eq_refl eq_refl) as [K0' [E0' e0']].
    rewrite E0 in E0'. injection E0' as <-.
    apply grows_setA; try assumption; [rewrite Rr; apply S|rewrite Cc; apply S|].
    intros v w. rewrite (bilin_add N (el (lA st (Z.to_nat (eKg s)))) (el K) (el K0)).
    + f_equal. change (bilin N (el K0) v w) with (sumf N (fun i => v i * mv N (el K0) w i)). unfold N. rewrite q0. f_equal.
      apply sumf_ext. intros c _. apply sumf_ext. intros i Hi. apply sumf_ext. intros j Hj. unfold sg. rewrite HS by assumption. reflexivity.
    + intros i j Hi Hj. destruct (dof_surj (sdim k) n i Hi) as [a [m [Ha [Hm ->]]]]. destruct (dof_surj (sdim k) n j Hj) as [b [q [Hb [Hq ->]]]].
      cbn [nsd nen plane shp dN axi] in ee, e0'. rewrite ee, e0' by assumption. unfold kgrr. cbn [axi plane zeros el]. destruct (Rlt_dec 0 0); [lra|]. ring.
  - exists st. split; [reflexivity|]. apply grows_none; try assumption; [|reflexivity]. intros a v w Ha.
    unfold atZ. destruct (_ =? _)%Z; [|reflexivity].
    rewrite (sumf_0 (sdim k)); [ring|]. intros c _. apply sumf_0. intros i Hi. apply sumf_0. intros j Hj.
    unfold hookeOf, hooke, trace. assert (sdim k <= 3)%nat by (destruct k; cbn; lia). rewrite !(Hz eq_refl L) by lia. ring.
Qed.

Lemma stepInt_ok st have e0 : sized N st -> ofKind k e0 -> (have = false -> (0 < iS s)%nat -> eq3 e0 (fun _ _ => 0)) ->
  grows N st (stepInt s p have B (mv (nsk k) (el C) (engv k e0)) st) (fun _ _ _ => 0) (fun a v => atN (iS s) a (- (vol k p * density k p e0 (eps v)))).
Proof using All.
  intros S He Hz. unfold stepInt. destruct (Nat.ltb_spec 0 (iS s)) as [L|L]; cbn [andb].
  2:{ apply grows_none; try assumption; [reflexivity|]. intros a v Ha. unfold atN. destruct (Nat.eqb_spec (iS s) a); [exfalso; lia|reflexivity]. }
  destruct have.
  - rewrite (nst_kind k n s HK), (lvol_ok k n s p HK). apply grows_setB; try assumption; try apply S; [reflexivity|].
    intros v. rewrite lwork_force. f_equal. rewrite density_sym. unfold eps. rewrite <- HC by (assumption || apply strain_kind).
    rewrite (sumf_ext (nsk k) _ (fun r => - vol k p * (engv k (strainOf k n p v) r * mv (nsk k) (el C) (engv k e0) r))).
    + rewrite sumf_scal. ring.
    + intros r Hr. unfold N. rewrite HB by assumption. ring.
  - apply grows_none; try assumption; [reflexivity|]. intros a v Ha. unfold atN. destruct (_ =? _)%nat; [|reflexivity]. rewrite density_zero by auto. ring.
Qed.

Lemma normal_eng r : (1 <= r <= nsk k)%nat -> (if isnormal (sdim k) (isAx k) r then pT p * vol k p else 0) = engv k (expansion k p) r * vol k p.
Proof using All. intros Hr. unfold isnormal, engv, expansion, engineering. destruct k; cbn [nsk] in Hr; idx r; try (exfalso; lia); cbn; ring. Qed.

Lemma stepExt_ok st : sized N st -> (1 <= n)%nat -> exists st', stepExt s p B C st = Ret st' /\
  grows N st st' (fun _ _ _ => 0) (fun a v => atN (eS s) a (vol k p * sumf (sdim k) (fun i => pF p i * interp (sdim k) n (pN p) v i)
     + (if hasT s then vol k p * density k p (expansion k p) (eps v) else 0))).
Proof using All.
  intros S Hn. unfold stepExt. destruct (Nat.ltb_spec 0 (eS s)) as [L|L].
  2:{ exists st. split; [reflexivity|]. apply grows_none; try assumption; [reflexivity|]. intros a v Ha. unfold atN. destruct (Nat.eqb_spec (eS s) a); [exfalso; lia|reflexivity]. }
  pose proof HK as [H1 [H2 [H3 _]]].
  assert (Sl : okSlot (pElm s p) (lB st) (eS s)) by (unfold okSlot, pElm; cbn [nsd nen]; rewrite H1, H3; apply S).
  destruct (body_ok (pElm s p) (eS s) (pF p) (pIsz p) (lVol s p) false (lB st) Sl) as [b1 [E1 [_ [G1 [O1 [S1 _]]]]]].
  rewrite E1. cbn [bind].
  assert (S1' : rows (bvec b1 (eS s)) = N /\ cols (bvec b1 (eS s)) = 1%nat) by (unfold okSlot, pElm in S1; cbn [nsd nen] in S1; rewrite H1, H3 in S1; exact S1).
  assert (W1 : forall v, lwork N (bvec b1 (eS s)) v = lwork N (bvec (lB st) (eS s)) v + vol k p * sumf (sdim k) (fun i => pF p i * interp (sdim k) n (pN p) v i)).
  { intros v. unfold gains, pElm in G1. cbn [nsd nen shp] in G1. rewrite H1, H3, (lvol_ok k n s p HK) in G1. unfold lwork, N. rewrite !sumf_dof.
    transitivity (sumf n (fun a => sumf (sdim k) (fun i => v (dof (sdim k) a i) * el (bvec (lB st) (eS s)) (dof (sdim k) a i) 1%nat
       + vol k p * (pF p i * (pN p a * v (dof (sdim k) a i)))))).
    - apply sumf_ext. intros a Ha. apply sumf_ext. intros i Hi. rewrite G1 by assumption. destruct (pIsz p) eqn:Z; [rewrite (vpF k p HV Z i Hi)|]; ring.
    - rewrite (sumf_ext n _ _ (fun a _ => sumf_plus (sdim k) _ _)), sumf_plus. f_equal.
      rewrite sumf_swap, <- sumf_scal. apply sumf_ext. intros i _. unfold interp. fold (dof (sdim k)). rewrite <- !sumf_scal. apply sumf_ext. intros a _. unfold dof. ring. }
  destruct (hasT s).
  - eexists. split; [reflexivity|]. rewrite (nst_kind k n s HK), H1, H2, (lvol_ok k n s p HK). apply grows_setB; try assumption; try apply S1'.
    intros v. rewrite lwork_force, W1, Rplus_assoc. f_equal. f_equal.
    rewrite density_sym. unfold eps. rewrite <- HC by (apply expansion_kind || apply strain_kind). rewrite <- sumf_scal. apply sumf_ext. intros r Hr. unfold N. rewrite HB by assumption.
    rewrite <- Rmult_assoc, (Rmult_comm (vol k p)), Rmult_assoc. f_equal. unfold mv. rewrite <- sumf_scal. apply sumf_ext. intros q Hq. rewrite normal_eng by assumption. ring.
  - eexists. split; [reflexivity|]. destruct S as [SA SB]. split; [|split].
    + split; [exact SA|]. intros q. cbn. destruct (Nat.eq_dec q (eS s)) as [->|Q]; [exact S1'|]. rewrite O1 by assumption. apply SB.
    + intros. cbn. ring.
    + intros q v Hq. cbn. unfold atN. destruct (Nat.eqb_spec (eS s) q) as [<-|Q]; [rewrite W1; ring|]. rewrite O1 by congruence. ring.
Qed.
End Point.

Lemma formKG_ext e r s1 s2 w K : (forall i j, s1 i j = s2 i j) -> formKG e r s1 w K = formKG e r s2 w K.
Proof.
  intros H. unfold formKG, kgrr. rewrite H. apply f_equal. unfold loop. apply flat_map_ext. intros a. apply flat_map_ext. intros b.
  rewrite (sumf_ext (nsd e) _ (fun i => sumf (nsd e) (fun j => dN e a i * s2 i j * dN e b j))); [reflexivity|].
  intros i _. apply sumf_ext. intros j _. rewrite H. reflexivity.
Qed.
Lemma strain_zero k n p : eq3 (strainOf k n p (fun _ => 0)) (fun _ _ => 0).
Proof.
  assert (G : forall d i j, gradient d n (pG p) (fun _ => 0) i j = 0) by (intros; unfold gradient; apply sumf_0; intros; ring).
  assert (I : interp 2 n (pN p) (fun _ => 0) 1 = 0) by (unfold interp; apply sumf_0; intros; ring).
  intros i j Hi Hj. unfold strainOf. rewrite !G, I. destruct (_ && _)%bool; [lra|]. destruct (_ && _)%bool; [unfold Rdiv; ring|reflexivity].
Qed.
Lemma zeroStrain_0 s : zeroStrain s (fun _ => 0) = true.
Proof. apply zeroStrain_iff. intros. rewrite Rabs_R0. generalize epsR_pos. lra. Qed.

Definition ptA k n s p (o : option (nat -> R)) : nat -> (nat -> R) -> (nat -> R) -> R := fun a v w =>
  atZ (eKm s) a (vol k p * density k p (strainOf k n p v) (strainOf k n p w))
  + atZ (eKg s) a (vol k p * sumf (sdim k) (fun c => sumf (sdim k) (fun i => sumf (sdim k) (fun j =>
      gradient (sdim k) n (pG p) v c i * hookeOf k p (strainOf k n p (field o)) i j * gradient (sdim k) n (pG p) w c j))))
  + atZ (eM s) a (vol k p * pRho p * sumf (sdim k) (fun i => interp (sdim k) n (pN p) v i * interp (sdim k) n (pN p) w i)).
Definition ptB k n s p (o z : option (nat -> R)) : nat -> (nat -> R) -> R := fun a v =>
  atN (iS s) a (- (vol k p * density k p (strainOf k n p (field o)) (strainOf k n p v)))
  + atN (eS s) a (vol k p * sumf (sdim k) (fun i => pF p i * interp (sdim k) n (pN p) v i)
       + (if hasT s then vol k p * density k p (expansion k p) (strainOf k n p v) else 0))
  + atN (dS s) a (if (2 <=? dS s)%nat then vol k p * density k p (strainOf k n p (field z)) (strainOf k n p v) else 0).

Ltac kill0 := unfold atN; repeat match goal with |- context[if ?c then _ else _] => destruct c end; ring.
(** The second part, for a given first part. *)
Lemma stepDual_ok k n s p B C vecs eps st : isKind k n s -> validPt k p ->
  (if lax s then formBmatrixAx (pElm s p) else formBmatrix (pElm s p)) = Ret B ->
  (forall u r, (1 <= r <= nsk k)%nat -> mv (sdim k * n) (el B) u r = engv k (strainOf k n p u) r) ->
  cmatrix (lnsd s) (lps s) (lax s) false (pE p) (pNu p) = Ret C ->
  (forall X Y, ofKind k X -> ofKind k Y -> sumf (nsk k) (fun r => engv k X r * mv (nsk k) (el C) (engv k Y) r) = density k p X Y) ->
  sized (sdim k * n) st -> given (nth 1 vecs None) (fun z => seen k (strainOf k n p z)) ->
  ((2 <= dS s)%nat -> (2 <= length vecs)%nat -> nth 1 vecs None = None -> zeroStrain s eps = true) ->
  exists st', stepDual s p vecs eps st = Ret st' /\ grows (sdim k * n) st st' (fun _ _ _ => 0)
    (fun a v => atN (dS s) a (if (2 <=? dS s)%nat then vol k p * density k p (strainOf k n p (field (nth 1 vecs None))) (strainOf k n p v) else 0)).
Proof.
  intros HK HV EB HB EC HC S Hz Ho. unfold stepDual.
  destruct (Nat.leb_spec (dS s) 1) as [L|L]; cbn [orb].
  { exists st. split; [reflexivity|]. apply grows_none; try assumption; [reflexivity|]. intros a v Ha. destruct (Nat.leb_spec 2 (dS s)); [exfalso; lia|]. unfold atN. destruct (_ =? _)%nat; reflexivity. }
  destruct (Nat.leb_spec (length vecs) 1) as [L1|L1]; cbn [orb].
  { exists st. split; [reflexivity|]. rewrite (nth_overflow vecs None L1). apply grows_none; try assumption; [reflexivity|]. intros a v Ha. cbn [field].
    rewrite density_zero by apply strain_zero. kill0. }
  unfold kinem. rewrite EB. cbn [bind snd fst].
  destruct (nth 1 vecs None) as [z|] eqn:Ez; cbn [field given] in *.
  - assert (He : forall r, (1 <= r <= nsk k)%nat -> mv (lnsd s * lnen s) (el B) z r = engv k (strainOf k n p z) r).
    { destruct HK as [H1 [_ [H3 _]]]. rewrite H1, H3. auto. }
    destruct (zeroStrain s (mv (lnsd s * lnen s) (el B) z)) eqn:Zs.
    + exists st. split; [reflexivity|]. apply grows_none; try assumption; [reflexivity|]. intros a v Ha.
      rewrite density_zero by (eapply seen_zero; eauto). kill0.
    + unfold matEval. rewrite EC. cbn [bind snd]. eexists. split; [reflexivity|].
      eapply grows_ext; [apply (grows_setB _ _ _ _ (fun v => sumf (nst (lnsd s) (lax s)) (fun r => mv (sdim k * n) (el B) v r *
        (mv (nst (lnsd s) (lax s)) (el C) (mv (lnsd s * lnen s) (el B) z) r * lVol s p)))); try assumption; try apply S; try lia; try reflexivity| |].
      * intros v. rewrite lwork_force. reflexivity.
      * reflexivity.
      * intros a v Ha. cbn beta. destruct (Nat.leb_spec 2 (dS s)); [|exfalso; lia]. f_equal.
        rewrite (nst_kind k n s HK), (lvol_ok k n s p HK), density_sym, <- HC by apply strain_kind. rewrite <- sumf_scal. apply sumf_ext. intros r Hr. rewrite HB by assumption.
        destruct HK as [H1 [_ [H3 _]]]. rewrite H1, H3, (mv_eng k n p) by auto. ring.
  - rewrite Ho by (auto; lia). exists st. split; [reflexivity|]. apply grows_none; try assumption; [reflexivity|]. intros a v Ha.
    rewrite density_zero by apply strain_zero. kill0.
Qed.

Lemma point_ok k n s p vecs st : isKind k n s -> validPt k p -> (1 <= n)%nat -> k <> AxiSolid \/ (eKg s <= 0)%Z -> sized (sdim k * n) st ->
  given (nth 0 vecs None) (fun u => seen k (strainOf k n p u)) -> given (nth 1 vecs None) (fun u => seen k (strainOf k n p u)) ->
  ((2 <= dS s)%nat -> (2 <= length vecs)%nat -> nth 1 vecs None = None -> nth 0 vecs None = None) ->
  exists st', evalIntLin s p vecs st = Ret st' /\
    grows (sdim k * n) st st' (ptA k n s p (nth 0 vecs None)) (ptB k n s p (nth 0 vecs None) (nth 1 vecs None)).
Proof.
  intros HK HV Hn HA S Hu Hz Hd.
  destruct (bmat_ok k n s p HK HV) as [B [EB HB]]. destruct (cmat_ok k n s p HK HV) as [C [EC [HC HS]]].
  unfold evalIntLin. set (eV := nth 0 vecs None) in *. set (z := nth 1 vecs None) in *.
  assert (Z0 : eq3 (strainOf k n p (fun _ => 0)) (fun _ _ => 0)) by apply strain_zero.
  destruct (needStrains s eV) eqn:Nd.
  - (* strains needed *)
    assert (He : exists e, (match eV with None => fun _ => 0 | Some u => mv (lnsd s * lnen s) (el B) u end) = e /\
                  (forall r, (1 <= r <= nsk k)%nat -> e r = engv k (strainOf k n p (field eV)) r)).
    { eexists. split; [reflexivity|]. intros r Hr. pose proof HK as [H1 [_ [H3 _]]]. rewrite H1, H3. destruct eV as [u|]; cbn [field]; [auto|].
      unfold engv, engineering. assert (R3 : forall i j, vp k r = (i, j) -> (1 <= i <= 3)%nat /\ (1 <= j <= 3)%nat) by (intros i j; destruct k; cbn [nsk] in Hr; idx r; try (exfalso; lia); cbn; intros Q; injection Q as <- <-; lia).
      destruct (vp k r) as [i j]. destruct (R3 i j eq_refl) as [Ri Rj]. rewrite !Z0 by assumption. destruct (_ =? _)%nat; ring. }
    destruct He as [e [Ee He]].
    assert (Eq : ptState s p eV = Ret (B, e, (C, mv (nst (lnsd s) (lax s)) (el C) e))).
    { unfold ptState, kinem, matEval. rewrite Nd, EB. cbn [bind snd]. rewrite Ee, EC. reflexivity. }
    rewrite Eq. cbn [bind andb]. rewrite (nst_kind k n s HK).
    set (have := negb (zeroStrain s e)).
    assert (Hv : have = false -> eq3 (strainOf k n p (field eV)) (fun _ _ => 0)).
    { intros H. unfold have in H. apply negb_false_iff in H. destruct eV as [u|]; [|exact Z0]. cbn [field given] in *. eapply seen_zero; eauto. }
    pose proof (stepK_ok k n s p B C HK HV HB HC HS st S) as G1.
    set (st1 := stepK s p B C st) in *.
    assert (KgE : forall X, stepKg s p eV have (mv (nsk k) (el C) e) X = stepKg s p eV have (mv (nsk k) (el C) (engv k (strainOf k n p (field eV)))) X).
    { intros X. assert (Q : forall r, mv (nsk k) (el C) e r = mv (nsk k) (el C) (engv k (strainOf k n p (field eV))) r) by (intros r; unfold mv; apply sumf_ext; intros q Hq; rewrite He by assumption; reflexivity).
      unfold stepKg. destruct (_ && _)%bool; [|reflexivity]. assert (QS : forall i j, sigT s (mv (nsk k) (el C) e) i j = sigT s (mv (nsk k) (el C) (engv k (strainOf k n p (field eV)))) i j) by (intros; unfold sigT; rewrite !Q; reflexivity).
      rewrite (formKG_ext (pElm s p) _ _ _ (lVol s p) _ QS). reflexivity. }
    rewrite KgE. clear KgE.
    destruct (stepKg_ok k n s p B C HK HV HB HC HS st1 eV have (strainOf k n p (field eV)) (proj1 G1) HA Hn (strain_kind _ _ _ _) (fun H _ => Hv H)) as [st2 [E2 G2]].
    rewrite E2. cbn [bind].
    destruct (stepM_ok k n s p B C HK HV HB HC HS st2 (proj1 G2)) as [st3 [E3 G3]]. rewrite E3. cbn [bind].
    assert (IE : forall X, sized (sdim k * n) X -> grows (sdim k * n) X (stepInt s p have B (mv (nsk k) (el C) e) X) (fun _ _ _ => 0)
       (fun a v => atN (iS s) a (- (vol k p * density k p (strainOf k n p (field eV)) (strainOf k n p v))))).
    { intros X SX. pose proof (stepInt_ok k n s p B C HK HV HB HC HS X have (strainOf k n p (field eV)) SX (strain_kind _ _ _ _) (fun H _ => Hv H)) as [T1 [T2 T3]].
      assert (Q : forall r, mv (nsk k) (el C) e r = mv (nsk k) (el C) (engv k (strainOf k n p (field eV))) r) by (intros r; unfold mv; apply sumf_ext; intros q Hq; rewrite He by assumption; reflexivity).
      unfold stepInt in *. destruct (_ && _)%bool; [|split; [|split]; assumption].
      split; [destruct T1 as [T1a T1b]; split; [exact T1a|]; intros q; specialize (T1b q); cbn in *; destruct (q =? iS s)%nat; exact T1b|].
      split; [exact T2|]. intros a v Ha. rewrite <- (T3 a v Ha). cbn. destruct (a =? iS s)%nat; [|reflexivity].
      rewrite !lwork_force. f_equal. apply sumf_ext. intros r _. rewrite Q. reflexivity. }
    pose proof (IE st3 (proj1 G3)) as G4.
    destruct (stepExt_ok k n s p B C HK HV HB HC HS _ (proj1 G4) Hn) as [st5 [E5 G5]]. rewrite E5. cbn [bind].
    destruct (stepDual_ok k n s p B C vecs e st5 HK HV EB HB EC HC (proj1 G5) Hz) as [st6 [E6 G6]].
    { intros L1 L2 L3. fold z in L3. rewrite (Hd L1 L2 L3) in Ee. cbn in Ee. rewrite <- Ee. apply zeroStrain_0. }
    exists st6. split; [exact E6|].
    eapply grows_ext; [exact (grows_trans _ _ _ _ _ _ _ _ (grows_trans _ _ _ _ _ _ _ _ (grows_trans _ _ _ _ _ _ _ _ (grows_trans _ _ _ _ _ _ _ _ (grows_trans _ _ _ _ _ _ _ _ G1 G2) G3) G4) G5) G6)| |].
    + intros a v w Ha. cbn beta. unfold ptA. ring.
    + intros a v Ha. cbn beta. unfold ptB. fold z. ring.
  - (* no strains needed *)
    unfold needStrains in Nd. apply orb_false_iff in Nd. destruct Nd as [Nd N4]. apply orb_false_iff in Nd. destruct Nd as [Nd N3]. apply orb_false_iff in Nd. destruct Nd as [N1 N2].
    assert (Eq : ptState s p eV = Ret (zeros 0 0, fun _ => 0, (zeros 0 0, fun _ => 0))) by (unfold ptState, needStrains; rewrite N1, N2, N3, N4; reflexivity).
    rewrite Eq. cbn [bind andb].
    unfold stepK, stepKg. rewrite N1, N2. cbn [andb bind].
    destruct (stepM_ok k n s p B C HK HV HB HC HS st S) as [st3 [E3 G3]]. rewrite E3. cbn [bind].
    unfold stepInt. rewrite andb_false_r.
    assert (X5 : stepExt s p (zeros 0 0) (zeros 0 0) st3 = stepExt s p B C st3).
    { unfold stepExt. destruct (0 <? eS s)%nat; [|reflexivity]. cbn [andb] in N4. rewrite N4. reflexivity. }
    rewrite X5. destruct (stepExt_ok k n s p B C HK HV HB HC HS _ (proj1 G3) Hn) as [st5 [E5 G5]]. rewrite E5. cbn [bind].
    destruct (stepDual_ok k n s p B C vecs (fun _ => 0) st5 HK HV EB HB EC HC (proj1 G5) Hz) as [st6 [E6 G6]].
    { intros. apply zeroStrain_0. }
    exists st6. split; [exact E6|].
    eapply grows_ext; [exact (grows_trans _ _ _ _ _ _ _ _ (grows_trans _ _ _ _ _ _ _ _ G3 G5) G6)| |].
    + intros a v w Ha. cbn beta. unfold ptA. apply Z.ltb_ge in N1, N2. unfold atZ.
      destruct (Z.eqb_spec (eKm s) (Z.of_nat a)); [exfalso; lia|]. destruct (Z.eqb_spec (eKg s) (Z.of_nat a)); [exfalso; lia|]. ring.
    + intros a v Ha. cbn beta. unfold ptB. fold z.
      assert (I0 : atN (iS s) a (- (vol k p * density k p (strainOf k n p (field eV)) (strainOf k n p v))) = 0).
      { unfold atN. destruct (Nat.eqb_spec (iS s) a) as [Q|Q]; [|reflexivity]. destruct (Nat.ltb_spec 0 (iS s)) as [L|L]; [|exfalso; lia].
        cbn [andb] in N3. destruct eV; [discriminate|]. cbn [field]. rewrite density_zero by exact Z0. ring. }
      rewrite I0. ring.
Qed.

Lemma element_ok k n s ps vecs : isKind k n s -> (forall p, In p ps -> validPt k p) -> (1 <= n)%nat -> k <> AxiSolid \/ (eKg s <= 0)%Z ->
  validVecs k n s ps vecs -> forall st, sized (sdim k * n) st ->
  exists st', linElement s ps vecs st = Ret st' /\
    grows (sdim k * n) st st' (fun a v w => sumL (fun p => ptA k n s p (nth 0 vecs None) a v w) ps)
                              (fun a v => sumL (fun p => ptB k n s p (nth 0 vecs None) (nth 1 vecs None) a v) ps).
Proof.
  intros HK HV Hn HA [Hu [Hz Hd]]. induction ps as [|p ps IH]; intros st S.
  - exists st. split; [reflexivity|]. apply grows_none; auto.
  - cbn [linElement].
    destruct (point_ok k n s p vecs st HK (HV p (or_introl eq_refl)) Hn HA S) as [st1 [E1 G1]]; try assumption.
    { destruct (nth 0 vecs None); [|exact I]. apply Hu. left. reflexivity. }
    { destruct (nth 1 vecs None); [|exact I]. apply Hz. left. reflexivity. }
    rewrite E1. cbn [bind].
    destruct (IH (fun q Hq => HV q (or_intror Hq))) with (st := st1) as [st2 [E2 G2]].
    { destruct (nth 0 vecs None); [|exact I]. intros q Hq. apply Hu. right. exact Hq. }
    { destruct (nth 1 vecs None); [|exact I]. intros q Hq. apply Hz. right. exact Hq. }
    { apply G1. }
    exists st2. split; [exact E2|]. eapply grows_ext; [exact (grows_trans _ _ _ _ _ _ _ _ G1 G2)| |]; intros; reflexivity.
Qed.
