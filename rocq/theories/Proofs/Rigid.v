From Coquelicot Require Import Coquelicot.
From Verif Require Import Lib.Base Lib.Sums Lib.Vec3 Model.Rigid Spec.Rigid.

Lemma epsZ_pos : 0 < epsZ.
Proof. unfold epsZ. apply Rinv_0_lt_compat. apply pow_lt. lra. Qed.

Lemma normalize_far : forall v, epsZ < vlen v -> normalize v = (vlen v, vscal (/ vlen v) v).
Proof. intros v H. unfold normalize. destruct (Rle_dec (vlen v) epsZ); [lra|reflexivity]. Qed.

Lemma unit_len : forall v, 0 < vlen v -> vlen (vscal (/ vlen v) v) = 1.
Proof. intros v H. rewrite vlen_scal, Rabs_right by (left; now apply Rinv_0_lt_compat). field. lra. Qed.
Lemma unit_back : forall v, 0 < vlen v -> vscal (vlen v) (vscal (/ vlen v) v) = v.
Proof. intros v H. set (l := vlen v) in *. clearbody l. destruct v. unfold vscal; cbn. f_equal; field; lra. Qed.
Lemma unit_dot : forall v, 0 < vlen v -> vdot (vscal (/ vlen v) v) (vscal (/ vlen v) v) = 1.
Proof. intros v H. rewrite <- vlen_sq, unit_len by assumption. ring. Qed.

(** ** Sphere *)
Theorem sphere_distance : forall r C X, 0 <= r -> epsZ < vlen (vsub X C) ->
  let '(g, n, _) := sphereGap r C X in signedDistance (onSphere C r) (inSphere C r) X g n.
Proof.
  intros r C X Hr H. unfold sphereGap. rewrite normalize_far by assumption. assert (E := epsZ_pos).
  assert (L : 0 < vlen (vsub X C)) by lra. constructor.
  - now apply unit_len.
  - unfold onSphere. assert (Q : vsub (vsub X (vscal (vlen (vsub X C) - r) (vscal (/ vlen (vsub X C)) (vsub X C)))) C =
       vscal r (vscal (/ vlen (vsub X C)) (vsub X C))).
    { assert (U := unit_back (vsub X C) L). set (u := vscal (/ vlen (vsub X C)) (vsub X C)) in *. set (l := vlen (vsub X C)) in *. clearbody u l.
      destruct X, C, u. unfold vsub, vscal in *; cbn in *. injection U as U1 U2 U3. f_equal; nra. }
    rewrite Q, vlen_scal, unit_len, Rabs_right by lra. ring.
  - intros P HP. unfold onSphere in HP. rewrite <- HP.
    replace (vsub X P) with (vsub (vsub X C) (vsub P C)) by veq. apply triangle.
  - unfold inSphere. lra.
Qed.

Theorem sphere_outward : forall r C X s, epsZ < vlen (vsub X C) -> 0 <= s ->
  let '(g, n, _) := sphereGap r C X in fst (fst (sphereGap r C (vadd X (vscal s n)))) = g + s.
Proof.
  intros r C X s H S. unfold sphereGap. rewrite (normalize_far (vsub X C)) by assumption. assert (E := epsZ_pos).
  assert (L : 0 < vlen (vsub X C)) by lra. assert (U := unit_back (vsub X C) L). assert (K := unit_len (vsub X C) L).
  set (u := vscal (/ vlen (vsub X C)) (vsub X C)) in *.
  assert (Q : vsub (vadd X (vscal s u)) C = vscal (vlen (vsub X C) + s) u).
  { set (l := vlen (vsub X C)) in *. clearbody u l. destruct X, C, u. unfold vsub, vscal, vadd in *; cbn in *. injection U as U1 U2 U3. f_equal; nra. }
  rewrite Q. unfold normalize. rewrite vlen_scal, K, Rabs_right by lra. cbn. ring.
Qed.

(** ** Geometric stiffness *)

(** [(I - d d^T - n n^T)/l] with unit [n], and [d] a unit vector normal to it or zero. *)
Definition proj (d n : v3) (l : R) (i j : nat) : R := (kron i j - vc d i * vc d j - vc n i * vc n j) / l.

Lemma proj_symm : forall d n l i j, proj d n l i j = proj d n l j i.
Proof. intros. unfold proj. unfold kron. rewrite (Nat.eqb_sym j i). unfold Rdiv. ring. Qed.

Lemma proj_mv : forall d n l v i, (1 <= i <= 3)%nat -> l <> 0 -> mv3 (proj d n l) v i = (vc v i - vc d i * vdot d v - vc n i * vdot n v) / l.
Proof. intros d n l v i Hi Hl. unfold mv3, proj, vdot. idx i; unfold kron; cbn; field; assumption. Qed.

Lemma bessel : forall d n v, vdot n n = 1 -> vdot d n = 0 -> (vdot d d = 1 \/ d = vzero) ->
  vdot d v * vdot d v + vdot n v * vdot n v <= vdot v v.
Proof.
  intros d n v N DN D. set (w := vsub (vsub v (vscal (vdot d v) d)) (vscal (vdot n v) n)).
  assert (P := vdot_pos w). unfold w in P. clear w.
  destruct D as [D| ->].
  - repeat rewrite ?vdot_sub_l, ?vdot_sub_r, ?vdot_scal_l, ?vdot_scal_r in P. rewrite (vdot_sym v d), (vdot_sym v n), (vdot_sym n d), N, D, DN in P. lra.
  - replace (vdot vzero v) with 0 in * by vring. repeat rewrite ?vdot_sub_l, ?vdot_sub_r, ?vdot_scal_l, ?vdot_scal_r in P.
    rewrite (vdot_sym v n), N in P. replace (vdot vzero v) with 0 in P by vring. replace (vdot v vzero) with 0 in P by vring.
    replace (vdot n vzero) with 0 in P by vring. replace (vdot vzero n) with 0 in P by vring. replace (vdot vzero vzero) with 0 in P by vring. lra.
Qed.

Lemma proj_psd : forall d n l v, 0 < l -> vdot n n = 1 -> vdot d n = 0 -> (vdot d d = 1 \/ d = vzero) ->
  0 <= vx v * mv3 (proj d n l) v 1 + vy v * mv3 (proj d n l) v 2 + vz v * mv3 (proj d n l) v 3.
Proof.
  intros d n l v L N DN D. rewrite !proj_mv by (lia || lra). assert (B := bessel d n v N DN D).
  replace (_ + _) with ((vdot v v - vdot d v * vdot d v - vdot n v * vdot n v) / l).
  - unfold Rdiv. apply Rmult_le_pos; [lra|]. left. now apply Rinv_0_lt_compat.
  - unfold vdot, vc. field. lra.
Qed.

Lemma proj_normal : forall d n l i, (1 <= i <= 3)%nat -> l <> 0 -> vdot n n = 1 -> vdot d n = 0 -> mv3 (proj d n l) n i = 0.
Proof. intros d n l i Hi Hl N D. rewrite proj_mv, N, D by assumption. field. assumption. Qed.
Lemma proj_axis : forall d n l i, (1 <= i <= 3)%nat -> l <> 0 -> vdot d d = 1 -> vdot d n = 0 -> mv3 (proj d n l) d i = 0.
Proof. intros d n l i Hi Hl N D. rewrite proj_mv, N, (vdot_sym n d), D by assumption. field. assumption. Qed.

(** Derivative of a unit vector. *)
Lemma vlen_line : forall Y v s, vdot (vadd Y (vscal s v)) (vadd Y (vscal s v)) = vdot Y Y + 2 * s * vdot Y v + s * s * vdot v v.
Proof. vring. Qed.

Lemma unit_derive : forall Y v i, 0 < vlen Y -> (1 <= i <= 3)%nat ->
  is_derive (fun s : R => vc (vscal (/ vlen (vadd Y (vscal s v))) (vadd Y (vscal s v))) i) 0
    ((vc v i - vc (vscal (/ vlen Y) Y) i * vdot (vscal (/ vlen Y) Y) v) / vlen Y).
Proof.
  intros Y v i L Hi.
  assert (E : forall s, vc (vscal (/ vlen (vadd Y (vscal s v))) (vadd Y (vscal s v))) i =
     (vc Y i + s * vc v i) / sqrt (vdot Y Y + 2 * s * vdot Y v + s * s * vdot v v)).
  { intros s. unfold vlen. rewrite vlen_line. set (q := sqrt _). unfold vc, vadd, vscal, Rdiv. idx i; cbn; ring. }
  apply (is_derive_ext (fun s => (vc Y i + s * vc v i) / sqrt (vdot Y Y + 2 * s * vdot Y v + s * s * vdot v v))); [intros; symmetry; apply E|].
  assert (Q : 0 < vdot Y Y). { rewrite <- vlen_sq. nra. }
  assert (Z : vdot Y Y + 2 * 0 * vdot Y v + 0 * 0 * vdot v v = vdot Y Y) by ring.
  auto_derive.
  - rewrite Z. split; [exact Q|]. split; [|exact I]. apply Rgt_not_eq. now apply sqrt_lt_R0.
  - rewrite Z. change (sqrt (vdot Y Y)) with (vlen Y).
    assert (D : vdot (vscal (/ vlen Y) Y) v = / vlen Y * vdot Y v) by apply vdot_scal_l. rewrite D.
    assert (F : vc (vscal (/ vlen Y) Y) i = / vlen Y * vc Y i) by (unfold vc, vscal; idx i; reflexivity). rewrite F.
    field. lra.
Qed.

Lemma far_locally : forall Y v e, e < vlen Y -> locally 0 (fun s : R => e < vlen (vadd Y (vscal s v))).
Proof.
  intros Y v e H.
  assert (E : forall s, vlen (vadd Y (vscal s v)) = sqrt (vdot Y Y + 2 * s * vdot Y v + s * s * vdot v v)) by (intros; unfold vlen; now rewrite vlen_line).
  assert (C : continuous (fun s : R => sqrt (vdot Y Y + 2 * s * vdot Y v + s * s * vdot v v)) 0).
  { apply (continuous_comp (fun s : R => vdot Y Y + 2 * s * vdot Y v + s * s * vdot v v) sqrt); [|apply continuous_sqrt].
    apply (ex_derive_continuous (fun s : R => vdot Y Y + 2 * s * vdot Y v + s * s * vdot v v)). auto_derive. exact I. }
  assert (O : locally (sqrt (vdot Y Y + 2 * 0 * vdot Y v + 0 * 0 * vdot v v)) (fun r => e < r)).
  { apply open_gt. rewrite <- E. replace (vadd Y (vscal 0 v)) with Y by (destruct Y, v; unfold vadd, vscal; cbn; f_equal; ring). exact H. }
  specialize (C _ O). unfold filtermap in C. revert C. apply filter_imp. intros s X. rewrite E. exact X.
Qed.

(** The stiffness is the derivative of the unit normal with respect to the point. *)
Theorem sphere_stiffness : forall r C X n0, epsZ < vlen (vsub X C) ->
  let '(n, Tg, _) := sphereStiff C X n0 in
  n = snd (fst (sphereGap r C X)) /\
  (forall i j, Tg i j = Tg j i) /\
  (forall v, 0 <= vx v * mv3 Tg v 1 + vy v * mv3 Tg v 2 + vz v * mv3 Tg v 3) /\
  (forall i, (1 <= i <= 3)%nat -> mv3 Tg n i = 0) /\
  (forall v i, (1 <= i <= 3)%nat -> is_derive (fun s : R => vc (snd (fst (sphereGap r C (vadd X (vscal s v))))) i) 0 (mv3 Tg v i)).
Proof.
  intros r C X n0 H. unfold sphereStiff, sphereGap. rewrite (normalize_far (vsub X C)) by assumption.
  assert (E := epsZ_pos). destruct (Rlt_dec epsZ (vlen (vsub X C))) as [_|N]; [|contradiction]. cbn [fst snd].
  set (Y := vsub X C) in *. assert (L : 0 < vlen Y) by lra. assert (U := unit_dot Y L). set (n := vscal (/ vlen Y) Y) in *.
  assert (T : forall i j, (kron i j - vc n i * vc n j) / vlen Y = proj vzero n (vlen Y) i j).
  { intros i j. unfold proj. replace (vc vzero i) with 0 by (unfold vc; destruct i as [|[|[|i]]]; reflexivity). rewrite Rmult_0_l, Rminus_0_r. reflexivity. }
  assert (M : forall v i, mv3 (fun i j => (kron i j - vc n i * vc n j) / vlen Y) v i = mv3 (proj vzero n (vlen Y)) v i) by (intros; unfold mv3; now rewrite !T).
  assert (D0 : vdot vzero n = 0) by vring.
  split; [reflexivity|]. split; [intros; rewrite !T; apply proj_symm|]. split; [|split].
  - intros v. rewrite !M. apply proj_psd; auto.
  - intros i Hi. rewrite M. apply proj_normal; auto; lra.
  - intros v i Hi. rewrite M, proj_mv by (auto; lra).
    replace (vdot vzero v) with 0 by vring. rewrite Rmult_0_r, Rminus_0_r.
    assert (P : forall s, vsub (vadd X (vscal s v)) C = vadd Y (vscal s v)) by (intros; unfold Y; veq).
    apply (is_derive_ext_loc (fun s : R => vc (vscal (/ vlen (vadd Y (vscal s v))) (vadd Y (vscal s v))) i)); [|now apply unit_derive].
    generalize (far_locally Y v epsZ H). apply filter_imp. intros s F. rewrite P, normalize_far by assumption. reflexivity.
Qed.

(** ** Cylinder *)

Lemma radial_dot : forall C d X, vdot d d = 1 -> vdot d (radial C d X) = 0.
Proof. intros. unfold radial. rewrite vdot_sub_r, vdot_scal_r, H, (vdot_sym d). ring. Qed.
Lemma radial_sub : forall C d X P, vsub (radial C d X) (radial C d P) = vsub (vsub X P) (vscal (vdot (vsub X P) d) d).
Proof.
  intros. unfold radial. replace (vdot (vsub X P) d) with (vdot (vsub X C) d - vdot (vsub P C) d) by vring.
  set (a := vdot (vsub X C) d). set (b := vdot (vsub P C) d). clearbody a b. veq.
Qed.
Lemma radial_short : forall w d, vdot d d = 1 -> vlen (vsub w (vscal (vdot w d) d)) <= vlen w.
Proof.
  intros w d D. unfold vlen. apply sqrt_le_1; try apply vdot_pos.
  repeat rewrite ?vdot_sub_l, ?vdot_sub_r, ?vdot_scal_l, ?vdot_scal_r. rewrite D, (vdot_sym d w). assert (0 <= vdot w d * vdot w d) by apply Rle_0_sqr. lra.
Qed.

Theorem cylinder_distance : forall nsd r C d L X, 0 <= r -> vdot d d = 1 -> epsZ < vlen (radial C d X) ->
  let '(g, n, _) := cylGap nsd r C d L X in
  signedDistance (onCylinder C d r) (inCylinder C d r) X g n /\ vdot d n = 0.
Proof.
  intros nsd r C d L X Hr D H. unfold cylGap. fold (radial C d X). rewrite normalize_far by assumption. assert (E := epsZ_pos).
  assert (RD := radial_dot C d X D). set (Y := radial C d X) in *. assert (LY : 0 < vlen Y) by lra.
  assert (ND : vdot d (vscal (/ vlen Y) Y) = 0) by (rewrite vdot_scal_r, RD; ring).
  split; [constructor|exact ND].
  - now apply unit_len.
  - unfold onCylinder. assert (U := unit_back Y LY). assert (K := unit_len Y LY). set (u := vscal (/ vlen Y) Y) in *.
    assert (Q : radial C d (vsub X (vscal (vlen Y - r) u)) = vscal r u).
    { assert (A : radial C d (vsub X (vscal (vlen Y - r) u)) = vsub Y (vscal (vlen Y - r) u)).
      { unfold Y at 2, radial. replace (vdot (vsub (vsub X (vscal (vlen Y - r) u)) C) d) with (vdot (vsub X C) d).
        - set (z := vdot (vsub X C) d). set (k := vlen Y - r). clearbody z k. veq.
        - replace (vsub (vsub X (vscal (vlen Y - r) u)) C) with (vsub (vsub X C) (vscal (vlen Y - r) u)) by (set (k := vlen Y - r); clearbody k; veq).
          rewrite (vdot_sub_l d (vsub X C)), vdot_scal_l, (vdot_sym u d), ND. ring. }
      rewrite A. rewrite <- U at 1. set (l := vlen Y). clearbody l u. veq. }
    rewrite Q, vlen_scal, K, Rabs_right by lra. ring.
  - intros P HP. unfold onCylinder in HP. rewrite <- HP. apply Rle_trans with (vlen (vsub Y (radial C d P))); [apply triangle|].
    unfold Y. rewrite radial_sub. now apply radial_short.
  - unfold inCylinder. fold Y. lra.
Qed.

Theorem cylinder_weights : forall X1 X2 d L r X, cylAxis X1 X2 = Some (d, L) ->
  let '(_, _, N) := cylGap 3 r X1 d L X in
  vdot d d = 1 /\ total N = 1 /\ place N [X1; X2] = vsub X (radial X1 d X).
Proof.
  intros X1 X2 d L r X H. unfold cylAxis in H.
  destruct (Rle_dec (vlen (vsub X2 X1)) epsZ) as [A|A].
  { unfold normalize in H. destruct (Rle_dec (vlen (vsub X2 X1)) epsZ); [discriminate|contradiction]. }
  rewrite normalize_far in H by lra. destruct (Rle_dec (vlen (vsub X2 X1)) epsZ); [contradiction|]. injection H as <- <-.
  assert (E := epsZ_pos). assert (LY : 0 < vlen (vsub X2 X1)) by lra. unfold cylGap. set (r0 := normalize _). destruct r0 as [g n1].
  split; [now apply unit_dot|]. assert (U := unit_back _ LY). unfold cylWeights. cbn [Nat.eqb total fold_right place]. split; [ring|].
  unfold radial. set (d := vscal (/ vlen (vsub X2 X1)) (vsub X2 X1)) in *. set (l := vlen (vsub X2 X1)) in *. set (z := vdot (vsub X X1) d). clearbody z d.
  assert (X2E : X2 = vadd X1 (vscal l d)) by (rewrite U; veq). rewrite X2E. clear U X2E. clearbody l.
  destruct X1 as [a1 a2 a3], d as [b1 b2 b3], X as [c1 c2 c3]. unfold vadd, vscal, vsub, vzero; cbn. f_equal; field; lra.
Qed.

Theorem cylinder_stiffness : forall nsd r C d L X n0, vdot d d = 1 -> epsZ < vlen (radial C d X) ->
  let '(n, Tg, N) := cylStiff nsd C d L X n0 in
  n = snd (fst (cylGap nsd r C d L X)) /\ N = snd (cylGap nsd r C d L X) /\
  (forall i j, Tg i j = Tg j i) /\
  (forall v, 0 <= vx v * mv3 Tg v 1 + vy v * mv3 Tg v 2 + vz v * mv3 Tg v 3) /\
  (forall i, (1 <= i <= 3)%nat -> mv3 Tg n i = 0 /\ mv3 Tg d i = 0) /\
  (forall v i, (1 <= i <= 3)%nat -> is_derive (fun s : R => vc (snd (fst (cylGap nsd r C d L (vadd X (vscal s v))))) i) 0 (mv3 Tg v i)).
Proof.
  intros nsd r C d L X n0 D H. unfold cylStiff, cylGap. fold (radial C d X). rewrite (normalize_far (radial C d X)) by assumption.
  assert (E := epsZ_pos). destruct (Rlt_dec epsZ (vlen (radial C d X))) as [_|N]; [|contradiction]. cbn [fst snd].
  assert (RD := radial_dot C d X D). set (Y := radial C d X) in *. assert (LY : 0 < vlen Y) by lra. assert (U := unit_dot Y LY).
  assert (ND : vdot d (vscal (/ vlen Y) Y) = 0) by (rewrite vdot_scal_r, RD; ring). set (n := vscal (/ vlen Y) Y) in *.
  assert (T : forall i j, (kron i j - vc d i * vc d j - vc n i * vc n j) / vlen Y = proj d n (vlen Y) i j) by reflexivity.
  assert (M : forall v i, mv3 (fun i j => (kron i j - vc d i * vc d j - vc n i * vc n j) / vlen Y) v i = mv3 (proj d n (vlen Y)) v i) by reflexivity.
  split; [reflexivity|]. split; [reflexivity|]. split; [intros; rewrite !T; apply proj_symm|]. split; [|split].
  - intros v. rewrite !M. apply proj_psd; auto.
  - intros i Hi. rewrite !M. split; [apply proj_normal|apply proj_axis]; auto; lra.
  - intros v i Hi. rewrite M, proj_mv by (auto; lra).
    set (w := vsub v (vscal (vdot v d) d)).
    assert (W : vc v i - vc d i * vdot d v = vc w i) by (unfold w, vc, vsub, vscal; rewrite (vdot_sym d v); idx i; cbn; ring).
    assert (NW : vdot n v = vdot n w) by (unfold w; rewrite vdot_sub_r, vdot_scal_r, (vdot_sym n d), ND; ring).
    rewrite W, NW.
    assert (P : forall s, vsub (vsub (vadd X (vscal s v)) C) (vscal (vdot (vsub (vadd X (vscal s v)) C) d) d) = vadd Y (vscal s w)).
    { intros s. unfold Y, radial, w. replace (vdot (vsub (vadd X (vscal s v)) C) d) with (vdot (vsub X C) d + s * vdot v d) by vring.
      set (a := vdot (vsub X C) d). set (b := vdot v d). clearbody a b. clear. veq. }
    apply (is_derive_ext_loc (fun s : R => vc (vscal (/ vlen (vadd Y (vscal s w))) (vadd Y (vscal s w))) i)); [|now apply unit_derive].
    generalize (far_locally Y w epsZ H). apply filter_imp. intros s F. rewrite P, normalize_far by assumption. reflexivity.
Qed.

(** ** Plane *)

Lemma plane3 : forall X1 X2 X3 n a, planeUpdate 3 X1 X2 X3 = Some (n, a) ->
  0 < a /\ vdot n n = 1 /\ vdot n (vsub X2 X1) = 0 /\ vdot n (vsub X3 X1) = 0 /\ vcross (vsub X2 X1) (vsub X3 X1) = vscal a n.
Proof.
  intros X1 X2 X3 n a H. unfold planeUpdate in H. cbn [Nat.eqb] in H. set (c := vcross (vsub X2 X1) (vsub X3 X1)) in *.
  destruct (Rle_dec (vlen c) epsZ) as [A|A].
  { unfold normalize in H. destruct (Rle_dec (vlen c) epsZ); [discriminate|contradiction]. }
  rewrite normalize_far in H by lra. destruct (Rle_dec (vlen c) epsZ); [contradiction|]. injection H as <- <-.
  assert (E := epsZ_pos). assert (L : 0 < vlen c) by lra. split; [exact L|]. split; [now apply unit_dot|].
  split; [|split].
  - rewrite vdot_scal_l, vdot_sym. unfold c. rewrite cross_dot_l. ring.
  - rewrite vdot_scal_l, vdot_sym. unfold c. rewrite cross_dot_r. ring.
  - symmetry. now apply unit_back.
Qed.

(** The projection has coordinates [p], [q] along the two sides; the weights are their
    absolute values, in reverse order. *)
Theorem plane_weights : forall X1 X2 X3 n a g p q, planeUpdate 3 X1 X2 X3 = Some (n, a) ->
  let X := vadd (vadd X1 (vadd (vscal p (vsub X2 X1)) (vscal q (vsub X3 X1)))) (vscal g n) in
  planeGap 3 X1 X2 X3 n a X = (g, n, [1 - Rabs q - Rabs p; Rabs q; Rabs p]).
Proof.
  intros X1 X2 X3 n a g p q H X. destruct (plane3 _ _ _ _ _ H) as [A [N [N1 [N2 C]]]]. clear H.
  unfold planeGap. cbn [Nat.eqb]. set (t1 := vsub X2 X1) in *. set (t2 := vsub X3 X1) in *.
  assert (D : vsub X X1 = vadd (vadd (vscal p t1) (vscal q t2)) (vscal g n)) by (unfold X; clearbody t1 t2; veq).
  assert (G : vdot (vsub X X1) n = g).
  { rewrite D, !vdot_add_l, !vdot_scal_l, (vdot_sym t1), (vdot_sym t2), N, N1, N2. ring. }
  rewrite G. clear G.
  assert (T : vsub (vsub X X1) (vscal g n) = vadd (vscal p t1) (vscal q t2)) by (rewrite D; clearbody t1 t2; veq).
  rewrite T.
  assert (C1 : vcross (vadd (vscal p t1) (vscal q t2)) t1 = vscal (- q * a) n).
  { replace (vscal (- q * a) n) with (vscal (- q) (vscal a n)) by veq. rewrite <- C. clear. clearbody t1 t2. veq. }
  assert (C2 : vcross t2 (vadd (vscal p t1) (vscal q t2)) = vscal (- p * a) n).
  { replace (vscal (- p * a) n) with (vscal (- p) (vscal a n)) by veq. rewrite <- C. clear. clearbody t1 t2. veq. }
  rewrite C1, C2, !vlen_scal. assert (L : vlen n = 1) by (apply vlen_eq_sq; lra). rewrite L, !Rmult_1_r.
  assert (B : forall x, Rabs (- x * a) / a = Rabs x) by (intros x; rewrite Rabs_mult, Rabs_Ropp, (Rabs_right a) by lra; field; lra).
  rewrite !B. reflexivity.
Qed.

Lemma plane_independent : forall t1 t2 n a x y, 0 < a -> vdot n n = 1 -> vcross t1 t2 = vscal a n ->
  vadd (vscal x t1) (vscal y t2) = vzero -> x = 0 /\ y = 0.
Proof.
  intros t1 t2 n a x y A N C H.
  assert (C1 : vscal (x * a) n = vzero).
  { replace (vscal (x * a) n) with (vscal x (vscal a n)) by veq. rewrite <- C.
    replace (vscal x (vcross t1 t2)) with (vcross (vadd (vscal x t1) (vscal y t2)) t2) by veq. rewrite H. clear. veq. }
  assert (C2 : vscal (y * a) n = vzero).
  { replace (vscal (y * a) n) with (vscal y (vscal a n)) by veq. rewrite <- C.
    replace (vscal y (vcross t1 t2)) with (vcross t1 (vadd (vscal x t1) (vscal y t2))) by veq. rewrite H. clear. veq. }
  assert (Z : forall k, vscal (k * a) n = vzero -> k = 0).
  { intros k K. assert (Q : vdot (vscal (k * a) n) n = 0) by (rewrite K; vring). rewrite vdot_scal_l, N in Q. nra. }
  split; now apply Z.
Qed.

Theorem plane_projection_iff : forall X1 X2 X3 n a g p q, planeUpdate 3 X1 X2 X3 = Some (n, a) ->
  let P := vadd X1 (vadd (vscal p (vsub X2 X1)) (vscal q (vsub X3 X1))) in
  let '(_, _, N) := planeGap 3 X1 X2 X3 n a (vadd P (vscal g n)) in
  total N = 1 /\ (place N [X1; X2; X3] = P <-> p = q /\ 0 <= p).
Proof.
  intros X1 X2 X3 n a g p q H P. unfold P. rewrite plane_weights by assumption.
  destruct (plane3 _ _ _ _ _ H) as [A [N [N1 [N2 C]]]]. split; [cbn; ring|]. cbn [place].
  set (t1 := vsub X2 X1) in *. set (t2 := vsub X3 X1) in *.
  assert (S : vsub (vadd (vscal (1 - Rabs q - Rabs p) X1) (vadd (vscal (Rabs q) X2) (vadd (vscal (Rabs p) X3) vzero)))
     (vadd X1 (vadd (vscal p t1) (vscal q t2))) = vadd (vscal (Rabs q - p) t1) (vscal (Rabs p - q) t2)).
  { unfold t1, t2. set (u := Rabs q). set (v := Rabs p). clearbody u v. clear. veq. }
  split.
  - intros Q. rewrite Q in S. symmetry in S.
    replace (vsub (vadd X1 (vadd (vscal p t1) (vscal q t2))) (vadd X1 (vadd (vscal p t1) (vscal q t2)))) with vzero in S by (clear; clearbody t1 t2; veq).
    destruct (plane_independent t1 t2 n a _ _ A N C S) as [Z1 Z2].
    assert (p = Rabs q) by lra. assert (q = Rabs p) by lra.
    assert (0 <= p) by (rewrite H0; apply Rabs_pos). assert (0 <= q) by (rewrite H1; apply Rabs_pos).
    rewrite Rabs_right in H0 by lra. auto.
  - intros [<- Hp]. rewrite Rabs_right in * by lra. unfold t1, t2. clear. veq.
Qed.

(** Gap and normal of the plane. *)
Theorem plane_distance : forall X1 X2 X3 n a X, planeUpdate 3 X1 X2 X3 = Some (n, a) ->
  let '(g, m, _) := planeGap 3 X1 X2 X3 n a X in
  signedDistance (fun P => vdot (vsub P X1) n = 0) (fun P => vdot (vsub P X1) n < 0) X g m /\
  vdot m (vsub X2 X1) = 0 /\ vdot m (vsub X3 X1) = 0.
Proof.
  intros X1 X2 X3 n a X H. destruct (plane3 _ _ _ _ _ H) as [A [N [N1 [N2 C]]]]. unfold planeGap. split; [|auto].
  assert (L : vlen n = 1) by (apply vlen_eq_sq; lra). constructor; auto.
  - repeat rewrite ?vdot_sub_l, ?vdot_scal_l. rewrite N. ring.
  - intros P HP. assert (Q : vdot (vsub X X1) n = vdot (vsub X P) n).
    { transitivity (vdot (vsub X P) n + vdot (vsub P X1) n); [vring|rewrite HP; ring]. }
    rewrite Q. apply Rabs_le. assert (K := cauchy (vsub X P) n). assert (K2 := cauchy (vscal (-1) (vsub X P)) n).
    rewrite vlen_scal, vdot_scal_l, Rabs_left in K2 by lra. rewrite L in *. lra.
  - tauto.
Qed.

(** In two dimensions. *)
Theorem plane2_projection : forall X1 X2 n a g p, vz X1 = 0 -> vz X2 = 0 -> planeUpdate 2 X1 X2 vzero = Some (n, a) ->
  let P := vadd X1 (vscal p (vsub X2 X1)) in
  let '(g', m, N) := planeGap 2 X1 X2 vzero n a (vadd P (vscal g n)) in
  g' = g /\ m = n /\ vlen n = 1 /\ vdot n (vsub X2 X1) = 0 /\ total N = 1 /\ (place N [X1; X2] = P <-> 0 <= p).
Proof.
  intros X1 X2 n a g p Z1 Z2 H P. unfold planeUpdate in H. cbn [Nat.eqb] in H. set (t := vsub X2 X1) in *.
  destruct (Rle_dec (vlen t) epsZ) as [A|A].
  { unfold normalize in H. destruct (Rle_dec (vlen t) epsZ); [discriminate|contradiction]. }
  rewrite normalize_far in H by lra. destruct (Rle_dec (vlen t) epsZ); [contradiction|]. injection H as <- <-.
  assert (E := epsZ_pos). assert (L : 0 < vlen t) by lra. assert (TZ : vz t = 0) by (unfold t, vsub; cbn; lra).
  assert (SQ := vlen_sq t). set (l := vlen t) in *.
  set (n := V (- (/ l * (vy X2 - vy X1))) (/ l * (vx X2 - vx X1)) 0).
  assert (TX : vx X2 - vx X1 = vx t) by reflexivity. assert (TY : vy X2 - vy X1 = vy t) by reflexivity.
  assert (NT : vdot n t = 0) by (unfold n; rewrite TX, TY; unfold vdot; cbn [vx vy vz]; clearbody t; ring).
  assert (NN : vdot n n = 1).
  { unfold vdot in SQ. rewrite TZ in SQ. transitivity ((vx t * vx t + vy t * vy t + 0 * 0) / (l * l)).
    - clear SQ. unfold n. rewrite TX, TY. unfold vdot; cbn [vx vy vz]. clearbody l t. field. lra.
    - rewrite <- SQ. field. lra. }
  assert (NL : vlen n = 1) by (apply vlen_eq_sq; lra).
  unfold planeGap. cbn [Nat.eqb].
  assert (D : vsub (vadd P (vscal g n)) X1 = vadd (vscal p t) (vscal g n)) by (unfold P; clear; clearbody t n; veq).
  assert (G : vdot (vsub (vadd P (vscal g n)) X1) n = g) by (rewrite D, vdot_add_l, !vdot_scal_l, (vdot_sym t), NN, NT; ring).
  rewrite G. rewrite D. replace (vsub (vadd (vscal p t) (vscal g n)) (vscal g n)) with (vscal p t) by (clear; clearbody t n; veq).
  rewrite vlen_scal. fold l. replace (Rabs p * l / l) with (Rabs p) by (field; lra).
  repeat (split; [first [reflexivity|assumption|cbn; ring]|]). cbn [place].
  assert (S : vsub (vadd (vscal (1 - Rabs p) X1) (vadd (vscal (Rabs p) X2) vzero)) P = vscal (Rabs p - p) t).
  { unfold P, t. set (u := Rabs p). clearbody u. clear. veq. }
  split.
  - intros Q. rewrite Q in S. assert (Y : vdot (vscal (Rabs p - p) t) t = 0) by (rewrite <- S; clear; clearbody P t; vring).
    rewrite vdot_scal_l, <- SQ in Y. assert (0 < l * l) by nra. assert (Rabs p - p = 0) by nra. assert (0 <= Rabs p) by apply Rabs_pos. lra.
  - intros Hp. rewrite Rabs_right by lra. unfold P, t. clear. veq.
Qed.
