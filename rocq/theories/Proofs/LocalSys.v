From Coq Require Import Nsatz.
From Verif Require Import Lib.Base Lib.Vec3 Lib.Tensor3 Model.Analytic Proofs.Analytic Model.LocalSys.

Definition rhs3 (T : t3) : Prop := orth3 T /\ det3 T = 1.
(* a proper frame from its rows *)
Lemma frame a b c : vdot a a = 1 -> vdot b b = 1 -> vdot a b = 0 -> c = vcross a b -> rhs3 (rows3 a b c).
Proof.
  intros A B O ->. assert (C1 := cross_dot_l a b). assert (C2 := cross_dot_r a b). assert (L := lagrange a b).
  assert (L1 : vdot (vcross a b) (vcross a b) = 1) by (rewrite L, A, B, O; ring).
  assert (O' : vdot b a = 0) by (rewrite vdot_sym; exact O).
  assert (C1' : vdot (vcross a b) a = 0) by (rewrite vdot_sym; exact C1).
  assert (C2' : vdot (vcross a b) b = 0) by (rewrite vdot_sym; exact C2).
  split.
  - intros i j I J. unfold mul3, trn, rows3, vc, kron. destruct i as [|[|[|[|i]]]]; try lia; destruct j as [|[|[|[|j]]]]; try lia; cbn [Nat.eqb]; assumption.
  - rewrite <- L1. destruct a as [a1 a2 a3], b as [b1 b2 b3]. unfold det3, rows3, vc, vdot, vcross; cbn [vx vy vz]. ring.
Qed.
Lemma hypot_zero x y : hypot x y = 0 <-> x = 0 /\ y = 0.
Proof.
  split.
  - intros H. assert (Q := hypot_sq x y). rewrite H in Q. split; nra.
  - intros [-> ->]. unfold hypot. rewrite Rmult_0_l, Rplus_0_l. apply sqrt_0.
Qed.
Lemma cylinder_frame X : vx X <> 0 \/ vy X <> 0 -> exists T, cylinder X = Ret T /\ rhs3 T.
Proof.
  intros H. unfold cylinder. assert (P := hypot_gt0 _ _ H). assert (Q := hypot_sq (vx X) (vy X)). cbv zeta.
  destruct (Req_EM_T _ 0) as [E|_]; [lra|]. eexists. split; [reflexivity|]. set (r := hypot _ _) in *.
  apply frame; unfold vdot, vcross; cbn [vx vy vz]; [| | |f_equal]; field_simplify_eq; try lra; nra.
Qed.
Lemma capCyl_frame h X : vx X <> 0 \/ vy X <> 0 -> exists T, cylinderSphere h 1 X = Ret T /\ rhs3 T.
Proof.
  intros H. unfold cylinderSphere. assert (P := hypot_gt0 _ _ H). assert (Q := hypot_sq (vx X) (vy X)). cbn [Z.eqb Pos.eqb]. cbv zeta.
  destruct (Req_EM_T _ 0) as [E|_]; [lra|]. eexists. split; [reflexivity|]. set (r := hypot _ _) in *.
  apply frame; unfold vdot, vcross; cbn [vx vy vz]; [| | |f_equal]; field_simplify_eq; try lra; nra.
Qed.
(* unit vector w with x/l = cos theta sin phi etc. *)
Lemma polar_unit x y z : x * x + y * y + z * z = 1 -> let th := atan2 y x in let ph := acos z in
  x = cos th * sin ph /\ y = sin th * sin ph /\ z = cos ph.
Proof.
  intros U th ph. assert (B : -1 <= z <= 1) by nra.
  assert (C : cos ph = z) by (apply cos_acos; exact B).
  assert (S' : sin ph = sqrt (1 - z²)) by (apply sin_acos; exact B).
  assert (HS : sin ph = hypot x y) by (rewrite S'; unfold hypot, Rsqr; f_equal; lra).
  destruct (Req_dec (hypot x y) 0) as [Z|Z].
  - rewrite HS, Z, C. apply hypot_zero in Z. destruct Z as [-> ->]. repeat split; ring.
  - assert (N : x <> 0 \/ y <> 0).
    { destruct (Req_dec x 0) as [Hx|Hx]; [|now left]. destruct (Req_dec y 0) as [Hy|Hy]; [|now right].
      destruct Z. apply hypot_zero. now split. }
    destruct (atan2_spec x y N) as [A1 A2]. fold th in A1, A2. rewrite HS, A1, A2, C. repeat split; field; exact Z.
Qed.
Lemma atan2_scale x y l : 0 < l -> atan2 (y / l) (x / l) = atan2 y x.
Proof.
  intros L. unfold atan2.
  assert (I : 0 < / l) by now apply Rinv_0_lt_compat.
  assert (S1 : forall a, 0 < a / l <-> 0 < a).
  { intros a. split; intros H; [|unfold Rdiv; nra]. apply (Rmult_lt_compat_r l) in H; [|assumption]. field_simplify in H; lra. }
  assert (S2 : forall a, a / l < 0 <-> a < 0).
  { intros a. split; intros H; [|unfold Rdiv; nra]. apply (Rmult_lt_compat_r l) in H; [|assumption]. field_simplify in H; lra. }
  assert (S3 : forall a, 0 <= a / l <-> 0 <= a).
  { intros a. split; intros H; apply Rnot_lt_le; intros K; apply (S2 a) in K; lra. }
  assert (Q : x <> 0 -> y / l / (x / l) = y / x) by (intros; field; lra).
  repeat match goal with |- context [Rlt_dec ?a ?b] => destruct (Rlt_dec a b) | |- context [Rle_dec ?a ?b] => destruct (Rle_dec a b) end;
  try rewrite !S1 in *; try rewrite !S2 in *; try rewrite !S3 in *; try lra; try (rewrite Q by lra); try reflexivity; try lra.
Qed.
Definition tv (T : t3) (v : v3) : v3 :=
  V (T 1%nat 1%nat * vx v + T 1%nat 2%nat * vy v + T 1%nat 3%nat * vz v)
    (T 2%nat 1%nat * vx v + T 2%nat 2%nat * vy v + T 2%nat 3%nat * vz v)
    (T 3%nat 1%nat * vx v + T 3%nat 2%nat * vy v + T 3%nat 3%nat * vz v).
Lemma cylinder_axes X T : cylinder X = Ret T ->
  (forall z, tv T (V (vx X) (vy X) z) = V (hypot (vx X) (vy X)) 0 z) /\
  (forall z, tv T (V (- vy X) (vx X) z) = V 0 (hypot (vx X) (vy X)) z).
Proof.
  unfold cylinder. cbv zeta. assert (Q := hypot_sq (vx X) (vy X)). destruct (Req_EM_T _ 0) as [|N]; [discriminate|]. intros [= <-].
  set (r := hypot _ _) in *. clearbody r. split; intros z; unfold tv, rows3, vc; cbn [vx vy vz]; f_equal; field_simplify_eq; try assumption; nra.
Qed.
Lemma capCyl_axes h X T : cylinderSphere h 1 X = Ret T ->
  (forall z, tv T (V (vx X) (vy X) z) = V (- z) 0 (hypot (vx X) (vy X))) /\
  (forall z, tv T (V (- vy X) (vx X) z) = V (- z) (hypot (vx X) (vy X)) 0).
Proof.
  unfold cylinderSphere. cbn [Z.eqb Pos.eqb]. cbv zeta. assert (Q := hypot_sq (vx X) (vy X)). destruct (Req_EM_T _ 0) as [|N]; [discriminate|]. intros [= <-].
  set (r := hypot _ _) in *. clearbody r. split; intros z; unfold tv, rows3, vc; cbn [vx vy vz]; f_equal; field_simplify_eq; try assumption; nra.
Qed.
Lemma sphere_frame h p X : (p =? 1)%Z = false -> X <> V 0 0 h -> exists T, cylinderSphere h p X = Ret T /\ rhs3 T.
Proof.
  intros Hp N. unfold cylinderSphere. rewrite Hp. cbv zeta. set (v := V (vx X) (vy X) (vz X - h)).
  destruct (Req_EM_T (vlen v) 0) as [E|E].
  { destruct N. apply vlen_zero in E. unfold v, vzero in E. injection E as E1 E2 E3. destruct X as [x y z]; cbn in *. f_equal; lra. }
  eexists. split; [reflexivity|]. assert (P : 0 < vlen v) by (assert (H := vlen_pos v); lra).
  set (w := V (vx v / vlen v) (vy v / vlen v) (vz v / vlen v)).
  assert (U : vdot w w = 1).
  { assert (H := vlen_sq v). unfold w, vdot in *; cbn [vx vy vz] in *. set (l := vlen v) in *. clearbody l. field_simplify_eq; [|assumption]. cbn in *. nra. }
  assert (A : atan2 (vy X) (vx X) = atan2 (vy w) (vx w)).
  { unfold w, v; cbn [vx vy]. symmetry. apply atan2_scale. exact P. }
  rewrite A. destruct (polar_unit (vx w) (vy w) (vz w)) as (W1 & W2 & W3); [exact U|].
  set (th := atan2 (vy w) (vx w)) in *. set (ph := acos (vz w)) in *.
  assert (T1 := sin2_cos2 th). assert (T2 := sin2_cos2 ph). unfold Rsqr in T1, T2.
  assert (Ew : w = V (cos th * sin ph) (sin th * sin ph) (cos ph)) by (rewrite <- W1, <- W2, <- W3; now destruct w).
  clear - Ew T1 T2. rewrite Ew. clear Ew. set (c := cos th) in *; set (s := sin th) in *; set (cp := cos ph) in *; set (sp := sin ph) in *. clearbody c s cp sp.
  assert (E2 : vcross (V (c * sp) (s * sp) cp) (V (c * cp) (s * cp) (- sp)) = V (- s) c 0).
  { unfold vcross; cbn [vx vy vz]. f_equal; [replace (s * sp * - sp - cp * (s * cp)) with (- s * (sp * sp + cp * cp)) by ring|
      replace (cp * (c * cp) - c * sp * - sp) with (c * (sp * sp + cp * cp)) by ring|ring]; rewrite T2; ring. }
  rewrite E2. apply frame; unfold vdot, vcross; cbn [vx vy vz].
  - replace (c * cp * (c * cp) + s * cp * (s * cp) + - sp * - sp) with ((s * s + c * c) * (cp * cp) + sp * sp) by ring. rewrite T1. lra.
  - lra.
  - ring.
  - f_equal; [ring|ring|]. replace (c * cp * c - s * cp * - s) with ((s * s + c * c) * cp) by ring. rewrite T1. ring.
Qed.
(* third axis radial, second circumferential *)
Lemma sphere_axes h p X T : (p =? 1)%Z = false -> cylinderSphere h p X = Ret T ->
  tv T (V (vx X) (vy X) (vz X - h)) = V 0 0 (vlen (V (vx X) (vy X) (vz X - h))) /\
  (vx X <> 0 \/ vy X <> 0 -> tv T (V (- vy X) (vx X) 0) = V 0 (hypot (vx X) (vy X)) 0).
Proof.
  intros Hp. unfold cylinderSphere. rewrite Hp. cbv zeta. set (v := V (vx X) (vy X) (vz X - h)).
  destruct (Req_EM_T (vlen v) 0) as [E|E]; [discriminate|]. intros G. apply (f_equal (fun r => match r with Ret t => t | _ => T end)) in G. cbv beta iota in G. subst T.
  assert (P : 0 < vlen v) by (assert (H := vlen_pos v); lra).
  set (w := V (vx v / vlen v) (vy v / vlen v) (vz v / vlen v)).
  assert (U : vdot w w = 1).
  { assert (H := vlen_sq v). unfold w, vdot in *; cbn [vx vy vz] in *. set (l := vlen v) in *. clearbody l. field_simplify_eq; [|assumption]. cbn in *. nra. }
  assert (A : atan2 (vy X) (vx X) = atan2 (vy w) (vx w)).
  { unfold w, v; cbn [vx vy]. symmetry. apply atan2_scale. exact P. }
  assert (HN : vx X <> 0 \/ vy X <> 0 -> cos (atan2 (vy X) (vx X)) = vx X / hypot (vx X) (vy X) /\ sin (atan2 (vy X) (vx X)) = vy X / hypot (vx X) (vy X) /\ 0 < hypot (vx X) (vy X)).
  { intros N. destruct (atan2_spec _ _ N). repeat split; auto using hypot_gt0. }
  rewrite A in *. destruct (polar_unit (vx w) (vy w) (vz w)) as (W1 & W2 & W3); [exact U|].
  set (th := atan2 (vy w) (vx w)) in *. set (ph := acos (vz w)) in *.
  assert (T1 := sin2_cos2 th). assert (T2 := sin2_cos2 ph). unfold Rsqr in T1, T2.
  assert (V1 : vx X = vlen v * (cos th * sin ph)) by (rewrite <- W1; unfold w, v; cbn [vx]; field; exact E).
  assert (V2 : vy X = vlen v * (sin th * sin ph)) by (rewrite <- W2; unfold w, v; cbn [vy]; field; exact E).
  assert (V3 : vz X - h = vlen v * cos ph) by (rewrite <- W3; unfold w, v; cbn [vz]; field; exact E).
  assert (Q := hypot_sq (vx X) (vy X)).
  assert (Ew : w = V (cos th * sin ph) (sin th * sin ph) (cos ph)) by (rewrite <- W1, <- W2, <- W3; now destruct w).
  split.
  - rewrite Ew. replace v with (V (vlen v * (cos th * sin ph)) (vlen v * (sin th * sin ph)) (vlen v * cos ph)) at 1 by (unfold v at 4; rewrite <- V1, <- V2, <- V3; reflexivity).
    set (l := vlen v) in *. clearbody l th ph. clear -T1 T2.
    unfold tv, rows3, vc, vcross; cbn [vx vy vz]. f_equal; [ | ring | ].
    + transitivity (l * (cos ph * sin ph) * ((sin th * sin th + cos th * cos th) - 1)); [ring|]. rewrite T1. ring.
    + transitivity (l * ((sin th * sin th + cos th * cos th) * (sin ph * sin ph) + cos ph * cos ph)); [ring|]. rewrite T1, Rmult_1_l, T2. ring.
  - intros N. destruct (HN N) as (C & S' & R0). rewrite Ew. set (r := hypot _ _) in *. 
    assert (X1 : vx X = r * cos th) by (rewrite C; field; lra). assert (X2 : vy X = r * sin th) by (rewrite S'; field; lra).
    rewrite X1, X2. clearbody r. clear -T1 T2. unfold tv, rows3, vc, vcross; cbn [vx vy vz]. f_equal; [ring| |ring].
    transitivity (r * ((sin ph * sin ph + cos ph * cos ph) * (sin th * sin th + cos th * cos th))); [ring|]. rewrite T1, T2. ring.
Qed.
