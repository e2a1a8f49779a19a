From Coquelicot Require Import Coquelicot.
From Verif Require Import Lib.Base Lib.Sums Lib.Writes Lib.Congruence Lib.Script Lib.Vec3 Model.Beam Model.Section Model.BeamElm Spec.Beam Spec.BeamElm.
From Verif Require Import Proofs.Beam Proofs.BeamThy Proofs.BeamGlobal Proofs.BeamMass.

Ltac twelve i Hi := assert (i = 1 \/ i = 2 \/ i = 3 \/ i = 4 \/ i = 5 \/ i = 6 \/ i = 7 \/ i = 8 \/ i = 9 \/ i = 10 \/ i = 11 \/ i = 12)%nat as Hi12 by lia;
  clear Hi; repeat destruct Hi12 as [-> | Hi12]; try subst i.
Ltac open12 := unfold locV, loc, blk, toLocalVec, toGlobalVec, rd, rv; cbn [Nat.sub Nat.div Nat.divmod Nat.modulo Nat.mul Nat.add fst snd sumf].

(** ** Work of transformed forces *)
Lemma global_work T b v : work v (toGlobalVec T b) = work (locV T v) b.
Proof. unfold work. lazy -[Rplus Rmult IZR]. ring. Qed.
Lemma toLocal_locV T u i : toLocalVec T u i = locV T u i. Proof. reflexivity. Qed.
Lemma ecc_work e1 e2 b v : work v (eccVec e1 e2 b) = work (eccV e1 e2 v) b.
Proof. apply ecc_vec_work. Qed.
Lemma work_ext v v' b b' : (forall i, (1 <= i <= 12)%nat -> v i = v' i) -> (forall i, (1 <= i <= 12)%nat -> b i = b' i) -> work v b = work v' b'.
Proof. intros H1 H2. unfold work. apply sumf_ext. intros. now rewrite H1, H2. Qed.
Lemma work_plus v b c : work v (fun i => b i + c i) = work v b + work v c.
Proof. unfold work. cbn [sumf]. ring. Qed.
Lemma work_minus v b c : work v (fun i => b i - c i) = work v b - work v c.
Proof. unfold work. cbn [sumf]. ring. Qed.
Lemma work_mv A v u : work v (mv 12 A u) = bil 12 A v u. Proof. reflexivity. Qed.

(** ** End motions *)
Definition effEcc (d : beam) : option (v3 * v3) := if hasEcc d then Some (bE1 d, bE2 d) else None.
Definition E1 (d : beam) : v3 := if hasEcc d then bE1 d else vzero.
Definition E2 (d : beam) : v3 := if hasEcc d then bE2 d else vzero.
Definition ends (d : beam) : (nat -> R) -> nat -> R := endMotion (bT d) (E1 d) (E2 d).

Lemma ends_ecc T e1 e2 v i : (1 <= i <= 12)%nat -> locV T (eccV e1 e2 v) i = endMotion T e1 e2 v i.
Proof.
  intros Hi. twelve i Hi; open12; unfold endMotion, nodal, along, vdot, col, vsub, vcross, disp1, disp2, rot1, rot2, eccV; cbn [vx vy vz]; ring.
Qed.
Lemma ends_none T v i : (1 <= i <= 12)%nat -> locV T v i = endMotion T vzero vzero v i.
Proof.
  intros Hi. twelve i Hi; open12; unfold endMotion, nodal, along, vdot, col, vsub, vcross, disp1, disp2, rot1, rot2, vzero; cbn [vx vy vz]; ring.
Qed.
Lemma ends_eq d v i : (1 <= i <= 12)%nat -> locV (bT d) (toEnds (effEcc d) v) i = ends d v i.
Proof. intros Hi. unfold effEcc, ends, E1, E2. destruct (hasEcc d); cbn [toEnds]; [now apply ends_ecc|now apply ends_none]. Qed.

Definition finVec (d : beam) (b : nat -> R) : nat -> R :=
  let g := toGlobalVec (bT d) b in match effEcc d with None => g | Some (e1, e2) => eccVec e1 e2 g end.
Lemma finVec_work d v b : work v (finVec d b) = work (ends d v) b.
Proof.
  transitivity (work (locV (bT d) (toEnds (effEcc d) v)) b).
  - unfold finVec, effEcc. destruct (hasEcc d); cbn [toEnds]; [rewrite ecc_work|]; apply global_work.
  - apply work_ext; [|reflexivity]. intros; now apply ends_eq.
Qed.
Lemma fin_bil d A v u : bil 12 (finalize (Some (bT d)) (effEcc d) A) v u = bil 12 A (ends d v) (ends d u).
Proof. rewrite finalize_bil. apply bil_ext_in; intros; now apply ends_eq. Qed.

(** ** What evalInt delivers *)
Definition deformed (F : slots) (d : beam) (u : nat -> R) : bool := ((1 <=? iS F)%nat || (1 <=? eKg F)%nat) && hasDis d u && negb (hasEcc d).
Definition axial (F : slots) (d : beam) (u : nat -> R) : R :=
  if deformed F d u && (1 <=? eKg F)%nat then pEA (bP d) * (toLocalVec (bT d) u 7 - toLocalVec (bT d) u 1) / bL d else 0.
Definition localForce (F : slots) (d : beam) (u : nat -> R) (i : nat) : R :=
  (if hasGrF F d && (eS F =? iS F)%nat then gravityLoad (Mm d) (rowTimes (bT d) (bGrav d)) i else 0) -
  (if deformed F d u then mv 12 (Km d) (toLocalVec (bT d) u) i else 0).

Lemma put_same {X} k (x : X) f : put k x f k = x. Proof. unfold put. now rewrite Nat.eqb_refl. Qed.
Lemma put_other {X} k (x : X) f i : i <> k -> put k x f i = f i.
Proof. intros H. unfold put. destruct (Nat.eqb_spec i k); congruence. Qed.

Ltac outcome H m := match type of H with Ret ?x = Ret m => let E := fresh in assert (E : m = x) by congruence; clear H; subst m end.

Definition startOk (F : slots) (d : beam) (u : nat -> R) : Prop := / 10 ^ 8 < bL d /\ ((1 <=? eKg F)%nat && hasDis d u && hasEcc d) = false.

Lemma eval_start F d u m : evalInt F d u noElm = Ret m -> startOk F d u.
Proof.
  unfold evalInt, startOk, gtb. destruct (Rlt_dec _ _) as [H|]; cbn [negb]; [|discriminate].
  destruct (_ && _ && hasEcc d); [discriminate|]. auto.
Qed.
Lemma eval_accepts F d u : startOk F d u -> exists m, evalInt F d u noElm = Ret m.
Proof.
  intros [H1 H2]. unfold evalInt, gtb. destruct (Rlt_dec _ _); [|contradiction]. cbn [negb]. rewrite H2. eexists; reflexivity.
Qed.

Lemma eval_force F d u m : evalInt F d u noElm = Ret m -> (1 <= iS F)%nat -> forall i, eB m (iS F) i = localForce F d u i.
Proof.
  intros H Hi i. assert (S := eval_start _ _ _ _ H). destruct S as [S1 S2]. unfold evalInt, gtb in H.
  destruct (Rlt_dec (/ 10 ^ 8) (bL d)) as [_|]; [|contradiction]. cbn [negb] in H. rewrite S2 in H. outcome H m. cbn [eB].
  fold (deformed F d u). assert (Hb : (1 <=? iS F)%nat = true) by now apply Nat.leb_le. rewrite Hb, andb_true_r. unfold localForce.
  destruct (hasGrF F d); cbn [andb]; destruct (Nat.eqb_spec (eS F) (iS F)) as [E|E].
  - rewrite E, put_same. destruct (deformed F d u); rewrite !put_same; unfold rv; rewrite ?put_same; ring.
  - rewrite !put_other by congruence. destruct (deformed F d u); rewrite !put_same; unfold rv; rewrite ?put_same; ring.
  - destruct (deformed F d u); rewrite !put_same; unfold rv; rewrite ?put_same; ring.
  - destruct (deformed F d u); rewrite !put_same; unfold rv; rewrite ?put_same; ring.
Qed.
Lemma eval_external F d u m : evalInt F d u noElm = Ret m -> (1 <= eS F)%nat -> eS F <> iS F ->
  forall i, eB m (eS F) i = if hasGrF F d then gravityLoad (Mm d) (rowTimes (bT d) (bGrav d)) i else 0.
Proof.
  intros H Hi Hne i. assert (S := eval_start _ _ _ _ H). destruct S as [S1 S2]. unfold evalInt, gtb in H.
  destruct (Rlt_dec (/ 10 ^ 8) (bL d)) as [_|]; [|contradiction]. cbn [negb] in H. rewrite S2 in H. outcome H m. cbn [eB].
  fold (deformed F d u). destruct (Nat.eqb_spec (eS F) (iS F)); [contradiction|].
  destruct (hasGrF F d).
  - rewrite put_same. unfold rv. rewrite put_same. ring.
  - destruct (1 <=? iS F)%nat; destruct (deformed F d u); cbn [andb]; rewrite ?put_other by congruence; reflexivity.
Qed.
Lemma eval_stiffness F d u m : evalInt F d u noElm = Ret m -> (1 <= eKm F)%nat -> eM F <> eKm F -> eKg F <> eKm F -> eA m (eKm F) = Km d.
Proof.
  intros H Hk Hm Hg. assert (S := eval_start _ _ _ _ H). destruct S as [S1 S2]. unfold evalInt, gtb in H.
  destruct (Rlt_dec (/ 10 ^ 8) (bL d)) as [_|]; [|contradiction]. cbn [negb] in H. rewrite S2 in H. outcome H m. cbn [eA].
  assert (Hb : (1 <=? eKm F)%nat = true) by now apply Nat.leb_le. rewrite Hb.
  destruct (Nat.eqb_spec (eKg F) (eKm F)); [contradiction|].
  destruct (1 <=? eM F)%nat; [rewrite put_other by congruence|]; (match goal with |- (if ?c then _ else _) _ = _ => destruct c end; [rewrite put_other by congruence|]); apply put_same.
Qed.
Lemma geo_zero L Aly Alz ItoA Sy Sz v u : L <> 0 -> 1 + Aly <> 0 -> 1 + Alz <> 0 -> bil 12 (geometric 0 L Aly Alz ItoA Sy Sz) v u = 0.
Proof. intros HL Hy Hz. rewrite geo_bil by assumption. cbn zeta. unfold Rdiv. ring. Qed.
Lemma bil_plus A B v u : bil 12 (fun i j => A i j + B i j) v u = bil 12 A v u + bil 12 B v u.
Proof.
  unfold bil. rewrite <- sumf_plus. apply sumf_ext. intros i Hi. rewrite <- Rmult_plus_distr_l. f_equal. unfold mv. rewrite <- sumf_plus. apply sumf_ext. intros. ring.
Qed.
Definition regular (d : beam) : Prop := 1 + pAly (bP d) <> 0 /\ 1 + pAlz (bP d) <> 0.

Lemma start_L F d u : startOk F d u -> 0 < bL d.
Proof. intros [H _]. assert (0 < / 10 ^ 8) by (apply Rinv_0_lt_compat, pow_lt; lra). lra. Qed.

Lemma eval_tangent F d u m : evalInt F d u noElm = Ret m -> regular d -> (1 <= eKm F)%nat -> eM F <> eKm F -> eKg F = eKm F ->
  forall v w, bil 12 (eA m (eKm F)) v w = bil 12 (Km d) v w + bil 12 (Kg (axial F d u) d) v w.
Proof.
  intros H [R1 R2] Hk Hm Hg v w. assert (S := eval_start _ _ _ _ H). assert (HL := start_L _ _ _ S). destruct S as [S1 S2]. unfold evalInt, gtb in H.
  destruct (Rlt_dec (/ 10 ^ 8) (bL d)) as [_|]; [|contradiction]. cbn [negb] in H. rewrite S2 in H. outcome H m. cbn [eA].
  assert (Hb : (1 <=? eKm F)%nat = true) by now apply Nat.leb_le. fold (deformed F d u). rewrite Hb, Hg, Nat.eqb_refl, Hb.
  assert (EN : (if deformed F d u && true then pEA (bP d) * (rv (toLocalVec (bT d) u) 7 - rv (toLocalVec (bT d) u) 1) / bL d else 0) = axial F d u)
    by (unfold axial; rewrite Hg, Hb; reflexivity). rewrite EN.
  destruct (Req_EM_T (axial F d u) 0) as [E0|E0]; cbn [negb andb].
  - rewrite E0. unfold Kg. rewrite geo_zero by (assumption || lra).
    destruct (1 <=? eM F)%nat; [rewrite put_other by congruence|]; rewrite put_same; ring.
  - destruct (1 <=? eM F)%nat; [rewrite put_other by congruence|]; rewrite !put_same; unfold rd; apply bil_plus.
Qed.
Lemma eval_geometric F d u m : evalInt F d u noElm = Ret m -> regular d -> (1 <= eKg F)%nat -> eM F <> eKg F -> eKg F <> eKm F ->
  forall v w, bil 12 (eA m (eKg F)) v w = bil 12 (Kg (axial F d u) d) v w.
Proof.
  intros H [R1 R2] Hk Hm Hg v w. assert (S := eval_start _ _ _ _ H). assert (HL := start_L _ _ _ S). destruct S as [S1 S2]. unfold evalInt, gtb in H.
  destruct (Rlt_dec (/ 10 ^ 8) (bL d)) as [_|]; [|contradiction]. cbn [negb] in H. rewrite S2 in H. outcome H m. cbn [eA].
  assert (Hb : (1 <=? eKg F)%nat = true) by now apply Nat.leb_le. fold (deformed F d u). rewrite Hb. destruct (Nat.eqb_spec (eKg F) (eKm F)); [contradiction|].
  assert (EN : (if deformed F d u && true then pEA (bP d) * (rv (toLocalVec (bT d) u) 7 - rv (toLocalVec (bT d) u) 1) / bL d else 0) = axial F d u)
    by (unfold axial; rewrite Hb; reflexivity). rewrite EN.
  destruct (Req_EM_T (axial F d u) 0) as [E0|E0]; cbn [negb andb].
  - rewrite E0. unfold Kg. rewrite geo_zero by (assumption || lra).
    assert (Z : bil 12 zero v w = 0) by (entries; ring).
    destruct (1 <=? eM F)%nat; [rewrite put_other by congruence|]; (destruct (1 <=? eKm F)%nat; [rewrite put_other by congruence|]); exact Z.
  - destruct (1 <=? eM F)%nat; [rewrite put_other by congruence|]; rewrite !put_same; reflexivity.
Qed.
Lemma eval_mass F d u m : evalInt F d u noElm = Ret m -> (1 <= eM F)%nat -> eA m (eM F) = Mm d.
Proof.
  intros H Hm. assert (S := eval_start _ _ _ _ H). destruct S as [S1 S2]. unfold evalInt, gtb in H.
  destruct (Rlt_dec (/ 10 ^ 8) (bL d)) as [_|]; [|contradiction]. cbn [negb] in H. rewrite S2 in H. outcome H m. cbn [eA].
  assert (Hb : (1 <=? eM F)%nat = true) by now apply Nat.leb_le. rewrite Hb. apply put_same.
Qed.
