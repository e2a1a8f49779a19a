From Coquelicot Require Import Coquelicot.
From Verif Require Import Lib.Base Lib.Sums Lib.Writes Lib.Congruence Lib.Vec3 Model.LinIsotropic Model.Rigid Model.Shell.
From Verif Require Import Proofs.LinIsotropic Proofs.Cable Proofs.Plate.

(** ** Variations in vector form *)
Record var := mkVar { p1 : v3; p2 : v3; q11 : v3; q22 : v3; q12 : v3 }.
Definition varE (g1 g2 : v3) (d : var) : v3 := V (vdot g1 (p1 d)) (vdot g2 (p2 d)) (1 / 2 * (vdot g2 (p1 d) + vdot g1 (p2 d))).
Definition varG3 (g1 g2 : v3) (d : var) : v3 := vadd (vcross (p1 d) g2) (vcross g1 (p2 d)).
Definition varN (g1 g2 : v3) (d : var) : v3 :=
  let g3 := vcross g1 g2 in let l := vlen g3 in vsub (vscal (/ l) (varG3 g1 g2 d)) (vscal (vdot g3 (varG3 g1 g2 d) / (l * l * l)) g3).
Definition varK (n : v3) (g1 g2 : v3) (H : hess) (d : var) : v3 :=
  V (- vdot n (q11 d) - vdot (varN g1 g2 d) (h11 H)) (- vdot n (q22 d) - vdot (varN g1 g2 d) (h22 H)) (- vdot n (q12 d) - vdot (varN g1 g2 d) (h12 H)).

Lemma dirOf_range r : (1 <= dirOf r <= 3)%nat.
Proof. unfold dirOf. pose proof (Nat.mod_upper_bound (r - 1) 3 ltac:(lia)). lia. Qed.
Lemma nodeOf_dof a i : (1 <= a)%nat -> (1 <= i <= 3)%nat -> nodeOf (dof 3 a i) = a.
Proof.
  intros Ha Hi. unfold nodeOf, dof. replace (3 * (a - 1) + i - 1)%nat with ((i - 1) + (a - 1) * 3)%nat by lia. rewrite Nat.div_add by lia. rewrite Nat.div_small by lia. lia.
Qed.
Lemma dirOf_dof a i : (1 <= a)%nat -> (1 <= i <= 3)%nat -> dirOf (dof 3 a i) = i.
Proof.
  intros Ha Hi. unfold dirOf, dof. replace (3 * (a - 1) + i - 1)%nat with ((i - 1) + (a - 1) * 3)%nat by lia. rewrite Nat.mod_add by lia. rewrite Nat.mod_small by lia. lia.
Qed.
Lemma dof_split r n : (1 <= r <= 3 * n)%nat -> (1 <= nodeOf r <= n)%nat /\ dof 3 (nodeOf r) (dirOf r) = r.
Proof.
  intros H. destruct (dof_surj 3 n r H) as (a & i & Ha & Hi & ->). rewrite nodeOf_dof, dirOf_dof by lia. split; [lia|reflexivity].
Qed.
Ltac cases3 i H := let E := fresh in assert (E : (i = 1 \/ i = 2 \/ i = 3)%nat) by lia; destruct E as [E | [E | E]]; rewrite E in *; clear E.

Section S.
Variables (nen : nat) (dN : nat -> nat -> R) (d2N : nat -> nat -> nat -> R).
Definition sgl (r al : nat) : v3 := single (dirOf r) (dN (nodeOf r) al).
Definition sgl2 (r al be : nat) : v3 := single (dirOf r) (d2N (nodeOf r) al be).
(* direction of degree of freedom r *)
Definition dofVar (r : nat) : var := mkVar (sgl r 1) (sgl r 2) (sgl2 r 1 1) (sgl2 r 2 2) (sgl2 r 1 2).

Lemma dot_single v dir x : (1 <= dir <= 3)%nat -> vdot v (single dir x) = x * vc v dir.
Proof. intros H. destruct v as [a b c]. cases3 dir H; unfold vdot; cbn; ring. Qed.
Lemma dE_var g1 g2 r : dEcol dN g1 g2 (nodeOf r) (dirOf r) = varE g1 g2 (dofVar r).
Proof.
  assert (H := dirOf_range r). unfold dEcol, varE, dofVar, sgl; cbn [p1 p2]. rewrite !dot_single by assumption. reflexivity.
Qed.
Lemma dg3_var g1 g2 r : dg3col dN g1 g2 r = varG3 g1 g2 (dofVar r).
Proof. unfold dg3col, varG3, dofVar, sgl, vadd, vcross; cbn [p1 p2 vx vy vz]. f_equal; ring. Qed.
Lemma dn_var g1 g2 r : dncol dN g1 g2 r = varN g1 g2 (dofVar r).
Proof. unfold dncol, varN, g3dg3. rewrite dg3_var. reflexivity. Qed.
Lemma dKn_var g1 g2 H r : dKn dN d2N g1 g2 H r = varK (snd (normal g1 g2)) g1 g2 H (dofVar r).
Proof.
  assert (Hd := dirOf_range r). unfold dKn, varK, vtimesH; cbn [vx vy vz]. rewrite dn_var. unfold dofVar, sgl2; cbn [q11 q22 q12]. rewrite !dot_single by assumption. f_equal; ring.
Qed.
Lemma dK_var g1 g2 H r : 0 < vlen (vcross g1 g2) -> dKcol dN d2N g1 g2 H (nodeOf r) (dirOf r) = varK (snd (normal g1 g2)) g1 g2 H (dofVar r).
Proof.
  intros P. rewrite <- dKn_var. unfold dKn, dKcol. rewrite dn_var. unfold normal, normalize. cbn [fst snd].
  assert (E : vscal (/ vlen (vcross g1 g2)) (vsub (vadd (vcross g1 (single (dirOf r) (dN (nodeOf r) 2))) (vcross (single (dirOf r) (dN (nodeOf r) 1)) g2))
        (vscal (vdot (vcross g1 g2) (vadd (vcross g1 (single (dirOf r) (dN (nodeOf r) 2))) (vcross (single (dirOf r) (dN (nodeOf r) 1)) g2)) / (vlen (vcross g1 g2) * vlen (vcross g1 g2))) (vcross g1 g2)))
      = varN g1 g2 (dofVar r)).
  { unfold varN, varG3, dofVar, sgl; cbn [p1 p2]. set (l := vlen (vcross g1 g2)) in *.
    replace (vadd (vcross g1 (single (dirOf r) (dN (nodeOf r) 2))) (vcross (single (dirOf r) (dN (nodeOf r) 1)) g2))
       with (vadd (vcross (single (dirOf r) (dN (nodeOf r) 1)) g2) (vcross g1 (single (dirOf r) (dN (nodeOf r) 2)))) by (unfold vadd; f_equal; ring).
    set (w := vadd _ _). clearbody w. generalize (vcross g1 g2). intros c. clearbody l. generalize (vdot c w). intros z.
    destruct w as [a1 a2 a3], c as [c1 c2 c3]. unfold vscal, vsub; cbn [vx vy vz]. f_equal; field; lra. }
  rewrite E. reflexivity.
Qed.

(** ** Linear combinations of variations *)
Definition vAdd (a b : var) : var := mkVar (vadd (p1 a) (p1 b)) (vadd (p2 a) (p2 b)) (vadd (q11 a) (q11 b)) (vadd (q22 a) (q22 b)) (vadd (q12 a) (q12 b)).
Definition vScal (k : R) (a : var) : var := mkVar (vscal k (p1 a)) (vscal k (p2 a)) (vscal k (q11 a)) (vscal k (q22 a)) (vscal k (q12 a)).
Definition vZero : var := mkVar vzero vzero vzero vzero vzero.
Fixpoint vSum (n : nat) (f : nat -> var) : var := match n with O => vZero | S k => vAdd (vSum k f) (f (S k)) end.
Definition linear (F : var -> R) : Prop := F vZero = 0 /\ (forall a b, F (vAdd a b) = F a + F b) /\ forall k a, F (vScal k a) = k * F a.
Lemma linear_sum F n f u : linear F -> sumf n (fun r => F (f r) * u r) = F (vSum n (fun r => vScal (u r) (f r))).
Proof. intros [Z [A C]]. induction n as [|n IH]; cbn [sumf vSum]; [now rewrite Z|]. rewrite A, C, IH. ring. Qed.
Definition vmap (f : v3 -> R) := f.
Lemma vSum_p1 n f : p1 (vSum n f) = V (sumf n (fun r => vx (p1 (f r)))) (sumf n (fun r => vy (p1 (f r)))) (sumf n (fun r => vz (p1 (f r)))).
Proof. induction n as [|n IH]; cbn [vSum sumf p1 vAdd]; [reflexivity|]. rewrite IH. reflexivity. Qed.
Lemma vSum_p2 n f : p2 (vSum n f) = V (sumf n (fun r => vx (p2 (f r)))) (sumf n (fun r => vy (p2 (f r)))) (sumf n (fun r => vz (p2 (f r)))).
Proof. induction n as [|n IH]; cbn [vSum sumf p2 vAdd]; [reflexivity|]. rewrite IH. reflexivity. Qed.
Lemma vSum_q11 n f : q11 (vSum n f) = V (sumf n (fun r => vx (q11 (f r)))) (sumf n (fun r => vy (q11 (f r)))) (sumf n (fun r => vz (q11 (f r)))).
Proof. induction n as [|n IH]; cbn [vSum sumf q11 vAdd]; [reflexivity|]. rewrite IH. reflexivity. Qed.
Lemma vSum_q22 n f : q22 (vSum n f) = V (sumf n (fun r => vx (q22 (f r)))) (sumf n (fun r => vy (q22 (f r)))) (sumf n (fun r => vz (q22 (f r)))).
Proof. induction n as [|n IH]; cbn [vSum sumf q22 vAdd]; [reflexivity|]. rewrite IH. reflexivity. Qed.
Lemma vSum_q12 n f : q12 (vSum n f) = V (sumf n (fun r => vx (q12 (f r)))) (sumf n (fun r => vy (q12 (f r)))) (sumf n (fun r => vz (q12 (f r)))).
Proof. induction n as [|n IH]; cbn [vSum sumf q12 vAdd]; [reflexivity|]. rewrite IH. reflexivity. Qed.

(* the variation belonging to nodal displacements u *)
Definition uVar (u : nat -> R) : var := mkVar (gOf nen dN u 1) (gOf nen dN u 2) (hcol nen d2N u 1 1) (hcol nen d2N u 2 2) (hcol nen d2N u 1 2).
Lemma sum_single u (c : nat -> R) :
  V (sumf (3 * nen) (fun r => u r * vx (single (dirOf r) (c (nodeOf r))))) (sumf (3 * nen) (fun r => u r * vy (single (dirOf r) (c (nodeOf r))))) (sumf (3 * nen) (fun r => u r * vz (single (dirOf r) (c (nodeOf r)))))
  = V (sumf nen (fun a => u (3 * (a - 1) + 1)%nat * c a)) (sumf nen (fun a => u (3 * (a - 1) + 2)%nat * c a)) (sumf nen (fun a => u (3 * (a - 1) + 3)%nat * c a)).
Proof.
  rewrite !sumf_dof. f_equal; apply sumf_ext; intros a Ha; cbn [sumf]; rewrite !nodeOf_dof, !dirOf_dof by lia; unfold dof; cbn [single vx vy vz]; ring.
Qed.
Lemma sum_dofVar u : vSum (3 * nen) (fun r => vScal (u r) (dofVar r)) = uVar u.
Proof.
  assert (E : forall a b, p1 a = p1 b -> p2 a = p2 b -> q11 a = q11 b -> q22 a = q22 b -> q12 a = q12 b -> a = b) by (intros [] []; cbn; intros; subst; reflexivity).
  apply E; [rewrite vSum_p1|rewrite vSum_p2|rewrite vSum_q11|rewrite vSum_q22|rewrite vSum_q12]; unfold vScal, dofVar, uVar, sgl, sgl2, gOf, hcol; cbn [p1 p2 q11 q22 q12 vx vy vz vscal];
    [apply (sum_single u (fun a => dN a 1%nat))|apply (sum_single u (fun a => dN a 2%nat))|apply (sum_single u (fun a => d2N a 1%nat 1%nat))|apply (sum_single u (fun a => d2N a 2%nat 2%nat))|apply (sum_single u (fun a => d2N a 1%nat 2%nat))].
Qed.
Lemma linear_dofs F u : linear F -> sumf (3 * nen) (fun r => F (dofVar r) * u r) = F (uVar u).
Proof. intros L. rewrite linear_sum by assumption. now rewrite sum_dofVar. Qed.

Lemma varE_linear g1 g2 k : (1 <= k <= 3)%nat -> linear (fun d => vc (varE g1 g2 d) k).
Proof.
  intros Hk. unfold linear, varE, vAdd, vScal, vZero; cbn [p1 p2]. cases3 k Hk; cbn [vc vx vy vz];
    (split; [unfold vdot, vzero; cbn; ring|split; intros; rewrite ?vdot_add_r, ?vdot_scal_r; ring]).
Qed.
Lemma varG3_add g1 g2 a b : varG3 g1 g2 (vAdd a b) = vadd (varG3 g1 g2 a) (varG3 g1 g2 b).
Proof. unfold varG3, vAdd, vadd, vcross; cbn [p1 p2 vx vy vz]. f_equal; ring. Qed.
Lemma varG3_scal g1 g2 k a : varG3 g1 g2 (vScal k a) = vscal k (varG3 g1 g2 a).
Proof. unfold varG3, vScal, vadd, vscal, vcross; cbn [p1 p2 vx vy vz]. f_equal; ring. Qed.
Lemma varN_add g1 g2 a b : varN g1 g2 (vAdd a b) = vadd (varN g1 g2 a) (varN g1 g2 b).
Proof.
  unfold varN. rewrite varG3_add, vdot_add_r. generalize (vcross g1 g2) (varG3 g1 g2 a) (varG3 g1 g2 b). intros c x y. unfold Rdiv. generalize (/ (vlen c * vlen c * vlen c)) (/ vlen c) (vdot c x) (vdot c y). intros.
  destruct c, x, y. unfold vadd, vsub, vscal; cbn. f_equal; ring.
Qed.
Lemma varN_scal g1 g2 k a : varN g1 g2 (vScal k a) = vscal k (varN g1 g2 a).
Proof.
  unfold varN. rewrite varG3_scal, vdot_scal_r. generalize (vcross g1 g2) (varG3 g1 g2 a). intros c x. unfold Rdiv. generalize (/ (vlen c * vlen c * vlen c)) (/ vlen c) (vdot c x). intros.
  destruct c, x. unfold vadd, vsub, vscal; cbn. f_equal; ring.
Qed.
Lemma varN_zero g1 g2 : varN g1 g2 vZero = vzero.
Proof. replace vZero with (vScal 0 vZero) by (unfold vScal, vZero, vscal, vzero; cbn; rewrite !Rmult_0_l; reflexivity). rewrite varN_scal. unfold vscal, vzero. f_equal; ring. Qed.
Lemma varK_linear n g1 g2 H k : (1 <= k <= 3)%nat -> linear (fun d => vc (varK n g1 g2 H d) k).
Proof.
  intros Hk. unfold linear, varK; cbn [q11 q22 q12]. cases3 k Hk; cbn [vc vx vy vz];
    (split; [rewrite varN_zero; unfold vdot, vzero, vZero; cbn; ring|split; intros; rewrite ?varN_add, ?varN_scal; unfold vAdd, vScal; cbn [q11 q22 q12]; rewrite ?vdot_add_r, ?vdot_scal_r, ?vdot_add_l, ?vdot_scal_l; ring]).
Qed.
Lemma lin_comb F1 F2 F3 a b c : linear F1 -> linear F2 -> linear F3 -> linear (fun d => a * F1 d + b * F2 d + c * F3 d).
Proof.
  intros [Z1 [A1 C1]] [Z2 [A2 C2]] [Z3 [A3 C3]]. split; [rewrite Z1, Z2, Z3; ring|]. split; intros; [rewrite A1, A2, A3; ring|rewrite C1, C2, C3; ring].
Qed.
(* strains of a displacement field *)
Lemma Bm_u g1 g2 i u : sumf (3 * nen) (fun r => Bm dN g1 g2 i r * u r) = sumf 3 (fun k => Tmat g1 g2 i k * vc (varE g1 g2 (uVar u)) k).
Proof.
  set (F := fun d => Tmat g1 g2 i 1%nat * vc (varE g1 g2 d) 1 + Tmat g1 g2 i 2%nat * vc (varE g1 g2 d) 2 + Tmat g1 g2 i 3%nat * vc (varE g1 g2 d) 3).
  assert (L : linear F) by (apply lin_comb; apply varE_linear; lia).
  transitivity (sumf (3 * nen) (fun r => F (dofVar r) * u r)).
  - apply sumf_ext. intros r _. f_equal. unfold Bm, F. cbn [sumf]. rewrite dE_var. ring.
  - rewrite linear_dofs by assumption. unfold F. cbn [sumf]. ring.
Qed.
Lemma Bb_u g1 g2 H i u : 0 < vlen (vcross g1 g2) ->
  sumf (3 * nen) (fun r => Bb dN d2N g1 g2 H i r * u r) = sumf 3 (fun k => Tmat g1 g2 i k * vc (varK (snd (normal g1 g2)) g1 g2 H (uVar u)) k).
Proof.
  intros P. set (n := snd (normal g1 g2)).
  set (F := fun d => Tmat g1 g2 i 1%nat * vc (varK n g1 g2 H d) 1 + Tmat g1 g2 i 2%nat * vc (varK n g1 g2 H d) 2 + Tmat g1 g2 i 3%nat * vc (varK n g1 g2 H d) 3).
  assert (L : linear F) by (apply lin_comb; apply varK_linear; lia).
  transitivity (sumf (3 * nen) (fun r => F (dofVar r) * u r)).
  - apply sumf_ext. intros r _. f_equal. unfold Bb, F. cbn [sumf]. rewrite dK_var by assumption. fold n. ring.
  - rewrite linear_dofs by assumption. unfold F. cbn [sumf]. ring.
Qed.
End S.

(** ** Infinitesimal rigid motions *)
Section Rigid.
Variables (nen : nat) (dN : nat -> nat -> R) (d2N : nat -> nat -> nat -> R).
Definition posOf (X : nat -> R) (a : nat) : v3 := V (X (dof 3 a 1)) (X (dof 3 a 2)) (X (dof 3 a 3)).
(* u_a = t + w x X_a *)
Definition rigidMotion (X : nat -> R) (t w : v3) (u : nat -> R) : Prop :=
  forall a, (1 <= a <= nen)%nat -> posOf u a = vadd t (vcross w (posOf X a)).
Lemma rigid_field (c : nat -> R) X t w u : sumf nen c = 0 -> rigidMotion X t w u ->
  V (sumf nen (fun a => u (3 * (a - 1) + 1)%nat * c a)) (sumf nen (fun a => u (3 * (a - 1) + 2)%nat * c a)) (sumf nen (fun a => u (3 * (a - 1) + 3)%nat * c a)) =
  vcross w (V (sumf nen (fun a => X (3 * (a - 1) + 1)%nat * c a)) (sumf nen (fun a => X (3 * (a - 1) + 2)%nat * c a)) (sumf nen (fun a => X (3 * (a - 1) + 3)%nat * c a))).
Proof.
  intros Z Hr. destruct t as [t1 t2 t3], w as [w1 w2 w3]. unfold vcross; cbn [vx vy vz].
  assert (Q : forall a, (1 <= a <= nen)%nat -> u (3 * (a - 1) + 1)%nat = t1 + (w2 * X (3 * (a - 1) + 3)%nat - w3 * X (3 * (a - 1) + 2)%nat) /\
     u (3 * (a - 1) + 2)%nat = t2 + (w3 * X (3 * (a - 1) + 1)%nat - w1 * X (3 * (a - 1) + 3)%nat) /\
     u (3 * (a - 1) + 3)%nat = t3 + (w1 * X (3 * (a - 1) + 2)%nat - w2 * X (3 * (a - 1) + 1)%nat)).
  { intros a Ha. specialize (Hr a Ha). unfold posOf, vadd, vcross, dof in Hr; cbn [vx vy vz] in Hr. assert (E1 := f_equal vx Hr). assert (E2 := f_equal vy Hr). assert (E3 := f_equal vz Hr). cbn [vx vy vz] in E1, E2, E3. auto. }
  f_equal; rewrite <- !sumf_scal, <- sumf_minus.
  - transitivity (t1 * sumf nen c + sumf nen (fun a => w2 * (X (3 * (a - 1) + 3)%nat * c a) - w3 * (X (3 * (a - 1) + 2)%nat * c a))); [|rewrite Z; ring].
    rewrite <- sumf_scal, <- sumf_plus. apply sumf_ext. intros a Ha. destruct (Q a Ha) as [-> _]. ring.
  - transitivity (t2 * sumf nen c + sumf nen (fun a => w3 * (X (3 * (a - 1) + 1)%nat * c a) - w1 * (X (3 * (a - 1) + 3)%nat * c a))); [|rewrite Z; ring].
    rewrite <- sumf_scal, <- sumf_plus. apply sumf_ext. intros a Ha. destruct (Q a Ha) as [_ [-> _]]. ring.
  - transitivity (t3 * sumf nen c + sumf nen (fun a => w1 * (X (3 * (a - 1) + 2)%nat * c a) - w2 * (X (3 * (a - 1) + 1)%nat * c a))); [|rewrite Z; ring].
    rewrite <- sumf_scal, <- sumf_plus. apply sumf_ext. intros a Ha. destruct (Q a Ha) as [_ [_ ->]]. ring.
Qed.
Definition partition : Prop :=
  (forall al, (1 <= al <= 2)%nat -> sumf nen (fun a => dN a al) = 0) /\
  (forall al be, (1 <= al <= 2)%nat -> (1 <= be <= 2)%nat -> sumf nen (fun a => d2N a al be) = 0).
Lemma spin_dot w x y : vdot x (vcross w y) + vdot y (vcross w x) = 0. Proof. vring. Qed.
Lemma cross_spin w x y : vadd (vcross (vcross w x) y) (vcross x (vcross w y)) = vcross w (vcross x y). Proof. veq. Qed.
Definition rotVar (w g1 g2 : v3) (H : hess) : var := mkVar (vcross w g1) (vcross w g2) (vcross w (h11 H)) (vcross w (h22 H)) (vcross w (h12 H)).
Lemma varE_rot w g1 g2 H : varE g1 g2 (rotVar w g1 g2 H) = vzero.
Proof. unfold varE, rotVar, vzero; cbn [p1 p2]. f_equal; vring; field. Qed.
Lemma varN_rot w g1 g2 H : varN g1 g2 (rotVar w g1 g2 H) = vscal (/ vlen (vcross g1 g2)) (vcross w (vcross g1 g2)).
Proof.
  unfold varN, varG3, rotVar; cbn [p1 p2]. rewrite cross_spin. generalize (vcross g1 g2). intros c. rewrite cross_dot_r. unfold Rdiv. rewrite Rmult_0_l. destruct (vcross w c), c. unfold vsub, vscal; cbn. f_equal; ring.
Qed.
Lemma varK_rot w g1 g2 H : epsZ < vlen (vcross g1 g2) -> varK (snd (normal g1 g2)) g1 g2 H (rotVar w g1 g2 H) = vzero.
Proof.
  intros P. unfold varK. rewrite varN_rot. unfold normal, normalize; cbn [snd]. destruct (Rle_dec (vlen (vcross g1 g2)) epsZ); [lra|].
  unfold rotVar; cbn [q11 q22 q12]. generalize (vcross g1 g2) as c. intros c. generalize (/ vlen c). intros k. rewrite !vdot_scal_l. unfold vzero.
  f_equal; [generalize (h11 H)|generalize (h22 H)|generalize (h12 H)]; intros h; assert (Q := spin_dot w c h); rewrite (vdot_sym (vcross w c)); nra.
Qed.
Lemma uVar_rot X t w u : partition -> rigidMotion X t w u ->
  uVar nen dN d2N u = rotVar w (gOf nen dN X 1) (gOf nen dN X 2) (hessOf nen d2N X).
Proof.
  intros [P1 P2] Hr. unfold uVar, rotVar, hessOf, gOf, hcol; cbn [h11 h22 h12].
  f_equal; apply (rigid_field _ X t w u); try assumption; first [apply (P1 1%nat); lia|apply (P1 2%nat); lia|apply (P2 1%nat 1%nat); lia|apply (P2 2%nat 2%nat); lia|apply (P2 1%nat 2%nat); lia].
Qed.
Lemma epsZ_pos : 0 < epsZ. Proof. unfold epsZ. apply Rinv_0_lt_compat, pow_lt. lra. Qed.
Lemma rigid_strain X t w u i : partition -> rigidMotion X t w u ->
  let g1 := gOf nen dN X 1 in let g2 := gOf nen dN X 2 in epsZ < vlen (vcross g1 g2) ->
  sumf (3 * nen) (fun r => Bm dN g1 g2 i r * u r) = 0 /\ sumf (3 * nen) (fun r => Bb dN d2N g1 g2 (hessOf nen d2N X) i r * u r) = 0.
Proof.
  intros P Hr g1 g2 L. assert (Z := epsZ_pos). rewrite (Bm_u nen dN d2N), Bb_u by (fold g1 g2; lra). rewrite (uVar_rot X t w u P Hr). fold g1 g2.
  rewrite varE_rot, varK_rot by assumption. unfold vzero; cbn. split; ring.
Qed.
End Rigid.

Lemma formD_total E nu t : 0 <= nu < 1/2 -> exists D, formD E nu t false = Ret D /\
  (forall i j, (1 <= i <= 3)%nat -> (1 <= j <= 3)%nat -> el (fst D) i j = t * closed2 E nu i j) /\
  (forall i j, (1 <= i <= 3)%nat -> (1 <= j <= 3)%nat -> el (snd D) i j = t * t * t / 12 * closed2 E nu i j).
Proof.
  intros Hn. unfold formD. open_c. eexists. split; [reflexivity|]. split; intros i j Hi Hj; idx i; idx j; cbn; reflexivity.
Qed.
Lemma rigid_resultants nen dN d2N E nu th X t w u : 0 <= nu < 1/2 -> partition nen dN d2N -> rigidMotion nen X t w u ->
  let g1 := gOf nen dN X 1 in let g2 := gOf nen dN X 2 in epsZ < vlen (vcross g1 g2) ->
  exists n m, evalSol nen dN d2N E nu th g1 g2 (hessOf nen d2N X) u = Ret (n, m) /\ forall i, n i = 0 /\ m i = 0.
Proof.
  intros Hn P Hr g1 g2 L. destruct (formD_total E nu th Hn) as [D [HD _]]. unfold evalSol. rewrite HD. cbn [bind].
  do 2 eexists. split; [reflexivity|]. intros i.
  assert (Q := fun k => rigid_strain nen dN d2N X t w u k P Hr L). cbv zeta in Q. fold g1 g2 in Q.
  split; apply sumf_0; intros k _; destruct (Q k) as [Q1 Q2]; rewrite ?Q1, ?Q2; ring.
Qed.
Lemma rigid_stiffness nen dN d2N E nu th dj X t w u : 0 <= nu < 1/2 -> partition nen dN d2N -> rigidMotion nen X t w u ->
  let g1 := gOf nen dN X 1 in let g2 := gOf nen dN X 2 in epsZ < vlen (vcross g1 g2) ->
  exists K, evalK dN d2N E nu th dj g1 g2 (hessOf nen d2N X) (fun _ _ => 0) = Ret K /\ forall i, mv (3 * nen) K u i = 0.
Proof.
  intros Hn P Hr g1 g2 L. destruct (formD_total E nu th Hn) as [D [HD _]]. unfold evalK. rewrite HD. cbn [bind].
  eexists. split; [reflexivity|]. intros i.
  assert (Q := fun k => rigid_strain nen dN d2N X t w u k P Hr L). cbv zeta in Q. fold g1 g2 in Q. set (H := hessOf nen d2N X) in *.
  assert (C := cong_mv (3 * nen) 3 (Bm dN g1 g2) (el (fst D)) u i). assert (C' := cong_mv (3 * nen) 3 (Bb dN d2N g1 g2 H) (el (snd D)) u i).
  unfold mv in *. 
  rewrite (sumf_ext (3 * nen) _ (fun j => dj * (cong 3 (Bm dN g1 g2) (el (fst D)) i j * u j) + dj * (cong 3 (Bb dN d2N g1 g2 H) (el (snd D)) i j * u j))) by (intros; unfold cong; ring).
  rewrite sumf_plus, !sumf_scal, C, C'. rewrite !sumf_0; [ring| |]; intros k _; rewrite sumf_0; try ring; intros l _; destruct (Q l) as [Q1 Q2]; rewrite ?Q1, ?Q2; ring.
Qed.
