(** Proofs about the spatial tangent of the plastic material and the stress indicators. *)
From Verif.Lib Require Import Base Tensor3 Sums.
From Verif.Spec Require Import SpatialTangent.
From Verif.Model Require Import Plastic ReturnMap.
From Verif.Proofs Require Import ReturnMap.
From Coquelicot Require Import Coquelicot.
Local Open Scope R_scope.

Ltac rng i := destruct i as [|[|[|[|i]]]]; [lia| | | |lia].

(** ** Conjugation with an orthogonal tensor *)
Definition add3 (X Y : t3) : t3 := fun i j => X i j + Y i j.

Lemma mul3_ext_r A X Y i j : eq3 X Y -> (1 <= j <= 3)%nat -> mul3 A X i j = mul3 A Y i j.
Proof. intros H Hj. unfold mul3. rewrite (H 1 j)%nat, (H 2 j)%nat, (H 3 j)%nat by lia. reflexivity. Qed.
Lemma mul3_ext_l A X Y i j : eq3 X Y -> (1 <= i <= 3)%nat -> mul3 X A i j = mul3 Y A i j.
Proof. intros H Hj. unfold mul3. rewrite (H i 1)%nat, (H i 2)%nat, (H i 3)%nat by lia. reflexivity. Qed.
Lemma kron_l X i j : (1 <= i <= 3)%nat -> mul3 kron X i j = X i j.
Proof. intros Hi. unfold mul3, kron. rng i; cbn [Nat.eqb]; ring. Qed.
Lemma cj_mul F X Y : orth3 F -> eq3 (cj F (mul3 X Y)) (mul3 (cj F X) (cj F Y)).
Proof.
  intros O i j Hi Hj. transitivity (mul3 (trn F) (mul3 X (mul3 (mul3 F (trn F)) (mul3 Y F))) i j); [|unfold cj, mul3; ring].
  unfold cj. apply mul3_ext_r; [|exact Hj]. intros a b Ha Hb. rewrite <- mul3_assoc. apply mul3_ext_r; [|exact Hb].
  intros c d Hc Hd. rewrite (mul3_ext_l _ (mul3 F (trn F)) kron c d O Hc). symmetry. now apply kron_l.
Qed.
Lemma cj_add F X Y i j : cj F (add3 X Y) i j = cj F X i j + cj F Y i j.
Proof. unfold cj, mul3, add3. ring. Qed.
Lemma cj_ext F X Y i j : eq3 X Y -> cj F X i j = cj F Y i j.
Proof.
  intros H. unfold cj, mul3. rewrite (H 1 1)%nat, (H 1 2)%nat, (H 1 3)%nat, (H 2 1)%nat, (H 2 2)%nat, (H 2 3)%nat, (H 3 1)%nat, (H 3 2)%nat, (H 3 3)%nat by lia.
  reflexivity.
Qed.
Lemma cj_diag F d : orth3 (trn F) -> eq3 (cj F (mul3 F (mul3 (diag3 d) (trn F)))) (diag3 d).
Proof.
  intros O i j Hi Hj. transitivity (mul3 (mul3 (trn F) F) (mul3 (diag3 d) (mul3 (trn F) F)) i j); [unfold cj, mul3; ring|].
  assert (K : eq3 (mul3 (trn F) F) kron) by exact O. rewrite (mul3_ext_l _ _ _ _ _ K Hi), kron_l by exact Hi. rewrite (mul3_ext_r _ _ _ _ _ K Hj).
  unfold mul3, kron, diag3. rng i; rng j; cbn [Nat.eqb]; ring.
Qed.
Lemma cj_trn F X i j : cj F (trn X) i j = trn (cj F X) i j.
Proof. unfold cj, trn, mul3. ring. Qed.
(** Going back. *)
Lemma cj_back F X : orth3 F -> eq3 (mul3 F (mul3 (cj F X) (trn F))) X.
Proof.
  intros O i j Hi Hj. transitivity (mul3 (mul3 F (trn F)) (mul3 X (mul3 F (trn F))) i j); [unfold cj, mul3; ring|].
  rewrite (mul3_ext_l _ _ _ _ _ O Hi), kron_l by exact Hi. rewrite (mul3_ext_r _ _ _ _ _ O Hj). unfold mul3, kron. rng j; cbn [Nat.eqb]; ring.
Qed.

(** ** Derivative of a product *)
Lemma der_mul3 (A B : R -> t3) (A' B' : t3) :
  (forall i j, (1 <= i <= 3)%nat -> (1 <= j <= 3)%nat -> is_derive (fun t => A t i j) 0 (A' i j)) ->
  (forall i j, (1 <= i <= 3)%nat -> (1 <= j <= 3)%nat -> is_derive (fun t => B t i j) 0 (B' i j)) ->
  forall i j, (1 <= i <= 3)%nat -> (1 <= j <= 3)%nat ->
  is_derive (fun t => mul3 (A t) (B t) i j) 0 (mul3 A' (B 0) i j + mul3 (A 0) B' i j).
Proof.
  intros HA HB i j Hi Hj.
  assert (P : forall k, (1 <= k <= 3)%nat -> is_derive (fun t => A t i k * B t k j) 0 (A' i k * B 0 k j + A 0 i k * B' k j)).
  { intros k Hk. assert (Q := is_derive_mult (fun t => A t i k) (fun t => B t k j) 0 _ _ (HA i k Hi Hk) (HB k j Hk Hj)). apply Q. intros; apply Rmult_comm. }
  replace (mul3 A' (B 0) i j + mul3 (A 0) B' i j) with
    ((A' i 1%nat * B 0 1%nat j + A 0 i 1%nat * B' 1%nat j) + (A' i 2%nat * B 0 2%nat j + A 0 i 2%nat * B' 2%nat j) + (A' i 3%nat * B 0 3%nat j + A 0 i 3%nat * B' 3%nat j)) by (unfold mul3; ring).
  unfold mul3. apply (is_derive_plus (V := R_NormedModule)); [apply (is_derive_plus (V := R_NormedModule))|]; apply P; lia.
Qed.

(** ** The spatial tangent *)

Lemma carried_der L b i j : (1 <= i <= 3)%nat -> (1 <= j <= 3)%nat ->
  is_derive (fun t => carried L b t i j) 0 (mul3 L b i j + mul3 b (trn L) i j).
Proof.
  intros Hi Hj. unfold carried, super, mul3, trn. auto_derive; [exact I|]. unfold kron. rng i; rng j; cbn [Nat.eqb]; ring.
Qed.
Lemma carried_0 L b : eq3 (carried L b 0) b.
Proof. intros i j Hi Hj. unfold carried, super, mul3, trn, kron. rng i; rng j; cbn [Nat.eqb]; ring. Qed.

(** Rate of the commutation relation. *)
Lemma commute_rate (S : R -> t3) (S' L b : t3) :
  (forall i j, (1 <= i <= 3)%nat -> (1 <= j <= 3)%nat -> is_derive (fun t => S t i j) 0 (S' i j)) ->
  (forall t, eq3 (mul3 (S t) (carried L b t)) (mul3 (carried L b t) (S t))) ->
  eq3 (add3 (mul3 S' b) (mul3 (S 0) (add3 (mul3 L b) (mul3 b (trn L)))))
      (add3 (mul3 (add3 (mul3 L b) (mul3 b (trn L))) (S 0)) (mul3 b S')).
Proof.
  intros HS HC i j Hi Hj.
  assert (D1 := der_mul3 S (carried L b) S' _ HS (carried_der L b) i j Hi Hj).
  assert (D2 := der_mul3 (carried L b) S _ S' (carried_der L b) HS i j Hi Hj).
  apply (is_derive_ext _ (fun t => mul3 (carried L b t) (S t) i j)) in D1; [|intros t; now apply HC].
  apply is_derive_unique in D1. apply is_derive_unique in D2. rewrite D1 in D2.
  rewrite (mul3_ext_r S' _ b i j (carried_0 L b) Hj) in D2. rewrite (mul3_ext_l S' _ b i j (carried_0 L b) Hi) in D2. exact D2.
Qed.

(** In the principal axes: [c] the spin coefficients. *)
Lemma principal_rate tau ll G T' dtde k :
  (forall a b, (1 <= a <= 3)%nat -> (1 <= b <= 3)%nat ->
     T' a b * ll b + tau a * (G a b * ll b + ll a * G b a) = (G a b * ll b + ll a * G b a) * tau b + ll a * T' a b) ->
  (forall a b, (1 <= a <= 3)%nat -> (1 <= b <= 3)%nat -> a <> b -> tolb < Rabs (ll b - ll a)) ->
  (forall a, (1 <= a <= 3)%nat -> T' a a = 2 * dtde a 1%nat * G 1%nat 1%nat + 2 * dtde a 2%nat * G 2%nat 2%nat + 2 * dtde a 3%nat * G 3%nat 3%nat) ->
  (1 <= k <= 6)%nat ->
  mv 6 (Cstm dtde tau ll) (engineering (symp G)) k =
  tovoigt (fun i j => T' i j - G i j * tau j - tau i * G j i) k.
Proof.
  intros HC HD HT Hk.
  assert (tp : 0 < tolb). { unfold tolb. apply Rinv_0_lt_compat. apply pow_lt. lra. }
  assert (sh : forall a b, (1 <= a <= 3)%nat -> (1 <= b <= 3)%nat -> a <> b ->
     T' a b - G a b * tau b - tau a * G b a = (G a b + G b a) * ((ll a * tau b - ll b * tau a) / (ll b - ll a))).
  { intros a b Ha Hb Hab. specialize (HC a b Ha Hb). specialize (HD a b Ha Hb Hab).
    assert (nz : ll b - ll a <> 0) by (intros E; rewrite E, Rabs_R0 in HD; lra).
    replace (T' a b) with ((G a b * ll b + ll a * G b a) * (tau b - tau a) / (ll b - ll a)); [field; exact nz|].
    apply Rmult_eq_reg_r with (ll b - ll a); [|exact nz]. unfold Rdiv. rewrite Rmult_assoc, Rinv_l by exact nz. lra. }
  assert (cs : forall a, (1 <= a <= 3)%nat -> Cstm dtde tau ll (3 + a) (3 + a) =
     (ll a * tau (S (a mod 3)) - ll (S (a mod 3)) * tau a) / (ll (S (a mod 3)) - ll a)).
  { intros a Ha. unfold Cstm. replace ((3 + a <=? 3)%nat) with false by (symmetry; apply Nat.leb_gt; lia). cbn [andb]. rewrite Nat.eqb_refl.
    replace (3 + a - 3)%nat with a by lia. assert (Hb : (1 <= S (a mod 3) <= 3)%nat) by (rng a; cbn; lia).
    assert (Hn : a <> S (a mod 3)) by (rng a; cbn; lia). specialize (HD a (S (a mod 3)) Ha Hb Hn).
    destruct (Rlt_dec tolb (ll (S (a mod 3)) - ll a)) as [|n1]; [reflexivity|]. destruct (Rlt_dec (ll (S (a mod 3)) - ll a) (- tolb)) as [|n2]; [reflexivity|].
    exfalso. unfold Rabs in HD. destruct (Rcase_abs (ll (S (a mod 3)) - ll a)); lra. }
  assert (off : forall i j, (1 <= i <= 6)%nat -> (1 <= j <= 6)%nat -> (3 < i \/ 3 < j)%nat -> i <> j -> Cstm dtde tau ll i j = 0).
  { intros i j Hi Hj H Hn. unfold Cstm. destruct ((i <=? 3)%nat && (j <=? 3)%nat)%bool eqn:E; [apply andb_prop in E; destruct E as [E1 E2]; apply Nat.leb_le in E1, E2; lia|].
    destruct (Nat.eqb_spec i j); [contradiction|reflexivity]. }
  unfold mv. cbn [sumf].
  assert (cases : (k = 1 \/ k = 2 \/ k = 3 \/ k = 4 \/ k = 5 \/ k = 6)%nat) by lia.
  destruct cases as [->|[->|[->|[->|[->| ->]]]]].
  1-3: (rewrite (off _ 4%nat), (off _ 5%nat), (off _ 6%nat) by lia); unfold Cstm; cbn [Nat.leb andb Nat.eqb]; unfold engineering, tovoigt, symp; cbn [Nat.leb]; rewrite HT by lia; field.
  - rewrite (off _ 1%nat), (off _ 2%nat), (off _ 3%nat), (off _ 5%nat), (off _ 6%nat) by lia. assert (X := cs 1%nat ltac:(lia)); cbn [Nat.add] in X; rewrite X; clear X. unfold engineering, tovoigt, symp. cbn [Nat.leb]. rewrite (sh 1 2)%nat by lia. change (S (1 mod 3)) with 2%nat. lra.
  - rewrite (off _ 1%nat), (off _ 2%nat), (off _ 3%nat), (off _ 4%nat), (off _ 6%nat) by lia. assert (X := cs 2%nat ltac:(lia)); cbn [Nat.add] in X; rewrite X; clear X. unfold engineering, tovoigt, symp. cbn [Nat.leb]. rewrite (sh 2 3)%nat by lia. change (S (2 mod 3)) with 3%nat. lra.
  - rewrite (off _ 1%nat), (off _ 2%nat), (off _ 3%nat), (off _ 4%nat), (off _ 5%nat) by lia. assert (X := cs 3%nat ltac:(lia)); cbn [Nat.add] in X; rewrite X; clear X. unfold engineering, tovoigt, symp. cbn [Nat.leb]. rewrite (sh 1 3)%nat by lia. change (S (3 mod 3)) with 1%nat.
    assert (nz : ll 1%nat - ll 3%nat <> 0). { specialize (HD 3 1)%nat. intros E. rewrite E, Rabs_R0 in HD. assert (tolb < 0) by (apply HD; lia). lra. }
    replace (ll 3%nat - ll 1%nat) with (- (ll 1%nat - ll 3%nat)) by ring. field; lra.
Qed.

(** Rotation to the global axes. *)
Lemma tangent6_global F C Jc e k : (forall a b, e a b = e b a) -> (1 <= k <= 6)%nat ->
  mv 6 (tangent6 F C Jc) (engineering e) k =
  tovoigt (mul3 F (mul3 (unvoigt (mv 6 C (engineering (cj F e)))) (trn F))) k * (1 / Jc).
Proof.
  intros He Hk. unfold mv at 1, tangent6.
  transitivity (sumf 6 (fun l => Tmat F l k * mv 6 C (mv 6 (Tmat F) (engineering e)) l) * (1 / Jc)).
  - unfold mv. cbn [sumf]. ring.
  - f_equal. set (s := mv 6 C (mv 6 (Tmat F) (engineering e))). assert (Es : forall i, (1 <= i <= 6)%nat -> s i = mv 6 C (engineering (cj F e)) i).
    { intros i Hi. unfold s. unfold mv at 1 3. apply sumf_ext. intros l Hl. f_equal. apply Tmat_rotates; [exact He|lia]. }
    set (q := mv 6 C (engineering (cj F e))) in *. clearbody q s.
    cbn [sumf]. rewrite (Es 1%nat), (Es 2%nat), (Es 3%nat), (Es 4%nat), (Es 5%nat), (Es 6%nat) by lia.
    assert (cases : (k = 1 \/ k = 2 \/ k = 3 \/ k = 4 \/ k = 5 \/ k = 6)%nat) by lia.
    destruct cases as [->|[->|[->|[->|[->| ->]]]]]; cbv [Tmat Nat.leb p1 p2 tovoigt mul3 trn unvoigt voigt]; field.
Qed.

Theorem spatial_tangent F tau ll L (S : R -> t3) (S' : t3) dtde Jc k :
  orth3 F -> orth3 (trn F) ->
  (forall a b, (1 <= a <= 3)%nat -> (1 <= b <= 3)%nat -> a <> b -> tolb < Rabs (ll b - ll a)) ->
  let b := mul3 F (mul3 (diag3 ll) (trn F)) in
  eq3 (S 0) (mul3 F (mul3 (diag3 tau) (trn F))) ->
  (forall i j, (1 <= i <= 3)%nat -> (1 <= j <= 3)%nat -> is_derive (fun t => S t i j) 0 (S' i j)) ->
  (forall t, eq3 (mul3 (S t) (carried L b t)) (mul3 (carried L b t) (S t))) ->
  (forall a, (1 <= a <= 3)%nat -> cj F S' a a = 2 * dtde a 1%nat * cj F L 1%nat 1%nat + 2 * dtde a 2%nat * cj F L 2%nat 2%nat + 2 * dtde a 3%nat * cj F L 3%nat 3%nat) ->
  (1 <= k <= 6)%nat ->
  mv 6 (tangent6 F (Cstm dtde tau ll) Jc) (engineering (symp L)) k = tovoigt (oldroyd L (S 0) S') k * (1 / Jc).
Proof.
  intros O1 O2 HD b HS HS' HC HT Hk. rewrite tangent6_global; [|intros; unfold symp; lra|exact Hk]. f_equal.
  assert (Ed : eq3 (cj F (S 0)) (diag3 tau)). { intros i j Hi Hj. rewrite (cj_ext F _ _ i j HS). now apply cj_diag. }
  assert (Eb : eq3 (cj F b) (diag3 ll)) by (unfold b; now apply cj_diag).
  assert (CR := commute_rate S S' L b HS' HC). set (G := cj F L). set (T' := cj F S').
  assert (Eold : eq3 (cj F (oldroyd L (S 0) S')) (fun i j => T' i j - G i j * tau j - tau i * G j i)).
  { intros i j Hi Hj. assert (X1 := cj_mul F L (S 0) O1 i j Hi Hj). assert (X2 := cj_mul F (S 0) (trn L) O1 i j Hi Hj).
    transitivity (cj F S' i j - cj F (mul3 L (S 0)) i j - cj F (mul3 (S 0) (trn L)) i j); [unfold oldroyd, cj, mul3; ring|].
    rewrite X1, X2. rewrite (mul3_ext_r _ _ _ i j Ed Hj), (mul3_ext_l _ _ _ i j Ed Hi). fold T'. unfold mul3 at 1 2. rewrite !cj_trn. unfold trn, diag3. fold G.
    rng i; rng j; cbn [Nat.eqb]; ring. }
  assert (PR : forall a c, (1 <= a <= 3)%nat -> (1 <= c <= 3)%nat ->
     T' a c * ll c + tau a * (G a c * ll c + ll a * G c a) = (G a c * ll c + ll a * G c a) * tau c + ll a * T' a c).
  { intros a c Ha Hc. assert (Q := cj_ext F _ _ a c CR). rewrite !cj_add in Q.
    set (Bd := add3 (mul3 L b) (mul3 b (trn L))) in Q.
    rewrite (cj_mul F S' b O1 a c Ha Hc), (cj_mul F (S 0) Bd O1 a c Ha Hc), (cj_mul F Bd (S 0) O1 a c Ha Hc), (cj_mul F b S' O1 a c Ha Hc) in Q.
    rewrite (mul3_ext_r _ _ _ a c Eb Hc), (mul3_ext_l _ _ _ a c Eb Ha), (mul3_ext_l _ _ _ a c Ed Ha), (mul3_ext_r _ _ _ a c Ed Hc) in Q.
    assert (EB : eq3 (cj F Bd) (fun i j => G i j * ll j + ll i * G j i)).
    { intros i j Hi Hj. unfold Bd. rewrite cj_add, (cj_mul F L b O1 i j Hi Hj), (cj_mul F b (trn L) O1 i j Hi Hj).
      rewrite (mul3_ext_r _ _ _ i j Eb Hj), (mul3_ext_l _ _ _ i j Eb Hi). unfold mul3 at 1 2. rewrite !cj_trn. unfold trn, diag3. fold G. rng i; rng j; cbn [Nat.eqb]; ring. }
    rewrite (mul3_ext_r _ _ _ a c EB Hc), (mul3_ext_l _ _ _ a c EB Ha) in Q. fold T' in Q. unfold mul3, diag3 in Q. revert Q. rng a; rng c; cbn [Nat.eqb]; intros Q; lra. }
  assert (V : forall i, (1 <= i <= 6)%nat -> mv 6 (Cstm dtde tau ll) (engineering (cj F (symp L))) i = tovoigt (cj F (oldroyd L (S 0) S')) i).
  { intros i Hi. transitivity (mv 6 (Cstm dtde tau ll) (engineering (symp G)) i).
    - unfold mv. apply sumf_ext. intros l Hl. f_equal. unfold engineering, tovoigt, symp, G, cj, mul3, trn.
      do 7 (destruct l as [|l]; [try lia; cbn [Nat.leb]; field|]); lia.
    - rewrite (principal_rate tau ll G T' dtde i PR HD HT Hi). symmetry. unfold tovoigt.
      do 7 (destruct i as [|i]; [try lia; apply Eold; lia|]); lia. }
  set (q := mv 6 (Cstm dtde tau ll) (engineering (cj F (symp L)))) in *. clearbody q.
  assert (Q : eq3 (unvoigt q) (cj F (oldroyd L (S 0) S'))).
  { assert (sy : forall i j, (1 <= i <= 3)%nat -> (1 <= j <= 3)%nat -> i <> j -> cj F (oldroyd L (S 0) S') i j = cj F (oldroyd L (S 0) S') j i).
    { intros i j Hi Hj Hij. rewrite (Eold i j Hi Hj), (Eold j i Hj Hi). assert (P1 := PR i j Hi Hj). assert (P2 := PR j i Hj Hi). specialize (HD i j Hi Hj Hij).
      assert (nz : ll j - ll i <> 0). { intros E. rewrite E, Rabs_R0 in HD. assert (0 < tolb) by (unfold tolb; apply Rinv_0_lt_compat, pow_lt; lra). lra. }
      apply Rmult_eq_reg_r with (ll j - ll i); [|exact nz]. nra. }
    intros i j Hi Hj. unfold unvoigt. rng i; rng j; cbn [voigt]; rewrite V by lia; cbv [tovoigt]; try reflexivity; apply sy; lia. }
  assert (B := cj_back F (oldroyd L (S 0) S') O1).
  assert (Z : eq3 (mul3 F (mul3 (unvoigt q) (trn F))) (oldroyd L (S 0) S')).
  { intros i j Hi Hj. rewrite <- (B i j Hi Hj). apply mul3_ext_r; [|exact Hj]. intros x y Hx Hy. now apply mul3_ext_l. }
  unfold tovoigt. do 7 (destruct k as [|k]; [try lia; apply Z; lia|]); lia.
Qed.

(** Equal stretches: the limit of the formula. *)
Lemma equal_stretch_limit dtde tau ll (ta tb : R -> R) a : (1 <= a <= 3)%nat ->
  let b := S (a mod 3) in ll a = ll b -> 0 < ll a -> ta (ll a) = tau a -> tb (ll a) = tau a ->
  is_derive ta (ll a) (dtde b a / ll a) -> is_derive tb (ll a) (dtde a a / ll a) ->
  is_lim (fun x => (ll a * tb x - x * ta x) / (x - ll a)) (ll a) (Cstm dtde tau ll (3 + a) (3 + a)).
Proof.
  intros Ha b El Hp Ea Eb Da Db.
  assert (C : Cstm dtde tau ll (3 + a) (3 + a) = dtde a a - dtde b a - tau a).
  { unfold Cstm. replace ((3 + a <=? 3)%nat) with false by (symmetry; apply Nat.leb_gt; lia). cbn [andb]. rewrite Nat.eqb_refl. replace (3 + a - 3)%nat with a by lia. fold b.
    replace (ll b - ll a) with 0 by lra. assert (0 < tolb) by (unfold tolb; apply Rinv_0_lt_compat, pow_lt; lra).
    destruct (Rlt_dec tolb 0); [lra|]. destruct (Rlt_dec 0 (- tolb)); [lra|reflexivity]. }
  rewrite C. set (l := ll a) in *. clearbody l.
  assert (D : is_derive (fun x => l * tb x - x * ta x) l (dtde a a - dtde b a - tau a)).
  { assert (D1 := is_derive_scal tb l l _ Db). assert (D2 := is_derive_mult (fun x => x) ta l _ _ (is_derive_id l) Da Rmult_comm).
    assert (D3 := is_derive_minus (V := R_NormedModule) _ _ _ _ _ D1 D2).
    match type of D3 with is_derive _ _ ?v => replace (dtde a a - dtde b a - tau a) with v; [exact D3|] end.
    unfold minus, plus, opp, one, mult, scal; cbn; unfold mult; cbn. rewrite Ea. field. lra. }
  apply is_derive_Reals in D. apply is_lim_spec. intros eps. destruct (D eps (cond_pos eps)) as (dl & Hd). exists dl. intros x Hx Hn.
  specialize (Hd (x - l) (Rminus_eq_contra _ _ Hn)). assert (Hx' : Rabs (x - l) < dl) by exact Hx. specialize (Hd Hx').
  rewrite (Rplus_minus l x) in Hd. rewrite Ea, Eb in Hd. replace (l * tb x - x * ta x - (l * tau a - l * tau a)) with (l * tb x - x * ta x) in Hd by ring. exact Hd.
Qed.

(** The Cauchy stress has the computed principal values and directions. *)
Lemma cauchy_principal F tau Jc i a : orth3 (trn F) -> (1 <= i <= 3)%nat -> (1 <= a <= 3)%nat ->
  mul3 (unvoigt (ReturnMap.cauchy F tau Jc)) F i a = tau a / Jc * F i a.
Proof.
  intros O Hi Ha. assert (E : eq3 (unvoigt (ReturnMap.cauchy F tau Jc)) (fun p q => mul3 F (mul3 (diag3 tau) (trn F)) p q * / Jc)).
  { intros p q Hp Hq. unfold unvoigt, ReturnMap.cauchy, mul3, diag3, trn. rng p; rng q; cbn [voigt p1 p2 Nat.eqb]; unfold Rdiv; ring. }
  rewrite (mul3_ext_l _ _ _ i a E Hi). transitivity (mul3 F (mul3 (diag3 tau) (mul3 (trn F) F)) i a * / Jc); [unfold mul3; ring|].
  assert (K : eq3 (mul3 (trn F) F) kron) by exact O.
  rewrite (mul3_ext_r F _ (mul3 (diag3 tau) kron) i a); [|intros x y Hx Hy; now apply mul3_ext_r|exact Ha].
  unfold mul3, diag3, kron. rng a; cbn [Nat.eqb]; unfold Rdiv; ring.
Qed.
