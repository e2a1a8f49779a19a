From Coquelicot Require Import Coquelicot.
From Verif Require Import Lib.Base Model.Section Spec.Section.

Lemma int_of (F f : R -> R) a b I : (forall x, is_derive F x (f x)) -> (forall x, continuous f x) -> I = F b - F a -> is_RInt f a b I.
Proof. intros H C ->. apply (is_RInt_derive (V := R_CompleteNormedModule) F f); intros; auto. Qed.
Lemma ex_cont (f : R -> R) x : ex_derive f x -> continuous f x.
Proof. intros H. now apply (ex_derive_continuous (K := R_AbsRing) (V := R_NormedModule)). Qed.

Lemma rect_area B H : rectIntegral (fun _ _ => 1) B H (B * H).
Proof.
  exists (fun _ => H). split.
  - intros y. apply (int_of (fun z => z)); [intros; auto_derive; [easy|field]|intros; apply continuous_const|field].
  - apply (int_of (fun z => H * z)); [intros; auto_derive; [easy|field]|intros; apply continuous_const|field].
Qed.
Lemma rect_zz B H : rectIntegral (fun _ z => z ^ 2) B H (B * H ^ 3 / 12).
Proof.
  exists (fun _ => H ^ 3 / 12). split.
  - intros y. apply (int_of (fun z => z ^ 3 / 3)); [intros; auto_derive; [easy|field]|intros; apply ex_cont; auto_derive; easy|field].
  - apply (int_of (fun z => H ^ 3 / 12 * z)); [intros; auto_derive; [easy|field]|intros; apply continuous_const|field].
Qed.
Lemma rect_yy B H : rectIntegral (fun y _ => y ^ 2) B H (H * B ^ 3 / 12).
Proof.
  exists (fun y => H * y ^ 2). split.
  - intros y. apply (int_of (fun z => y ^ 2 * z)); [intros; auto_derive; [easy|field]|intros; apply continuous_const|field].
  - apply (int_of (fun y => H * y ^ 3 / 3)); [intros; auto_derive; [easy|field]|intros; apply ex_cont; auto_derive; easy|field].
Qed.

Theorem hollow_geometry H B t1 t2 : let b := boxHollow H B t1 t2 in
  boxIntegral (fun _ _ => 1) B H (B - 2 * t2) (H - 2 * t1) (bA b) /\
  boxIntegral (fun _ z => z ^ 2) B H (B - 2 * t2) (H - 2 * t1) (bI1 b) /\
  boxIntegral (fun y _ => y ^ 2) B H (B - 2 * t2) (H - 2 * t1) (bI2 b).
Proof.
  cbn zeta. unfold boxHollow. cbn [bA bI1 bI2]. split; [|split].
  - do 2 eexists. split; [apply rect_area|split; [apply rect_area|]]. ring.
  - do 2 eexists. split; [apply rect_zz|split; [apply rect_zz|]]. field.
  - do 2 eexists. split; [apply rect_yy|split; [apply rect_yy|]]. field.
Qed.
Theorem solid_geometry H B : let b := boxSolid H B in
  rectIntegral (fun _ _ => 1) B H (bA b) /\ rectIntegral (fun _ z => z ^ 2) B H (bI1 b) /\ rectIntegral (fun y _ => y ^ 2) B H (bI2 b).
Proof.
  assert (E : bA (boxSolid H B) = B * H /\ bI1 (boxSolid H B) = B * H ^ 3 / 12 /\ bI2 (boxSolid H B) = H * B ^ 3 / 12).
  { unfold boxSolid. destruct (Rlt_dec B H); cbn [bA bI1 bI2]; repeat split; field. }
  destruct E as [E1 [E2 E3]]. cbn zeta. rewrite E1, E2, E3. split; [apply rect_area|split; [apply rect_zz|apply rect_yy]].
Qed.

Theorem hollow_valid H B t1 t2 : 0 < t1 -> 0 < t2 -> 2 * t1 < H -> 2 * t2 < B -> let b := boxHollow H B t1 t2 in
  0 < bA b /\ 0 < bI1 b /\ 0 < bI2 b /\ 0 < bK1 b /\ 0 < bK2 b /\ 0 < bJ b /\
  bJ b = bredt ((B - t2) * (H - t1)) (2 * (B - t2) / t1 + 2 * (H - t1) / t2).
Proof.
  intros P1 P2 P3 P4. cbn zeta. unfold boxHollow. cbn [bA bI1 bI2 bJ bK1 bK2].
  set (Bi := B - 2 * t2). set (Hi := H - 2 * t1).
  assert (Q1 : 0 < Bi < B) by (unfold Bi; lra). assert (Q2 : 0 < Hi < H) by (unfold Hi; lra). clearbody Bi Hi.
  assert (A : 0 < B * H - Bi * Hi) by nra.
  assert (Den : B * t2 + H * t1 - t2 * t2 - t1 * t1 = (B - t2) * t2 + (H - t1) * t1) by ring.
  assert (D : 0 < (B - t2) * t2 + (H - t1) * t1) by nra.
  assert (C : forall a b c d, 0 < a < b -> 0 < c < d -> 0 < b * d * d * d - a * c * c * c).
  { intros a b c d [X1 X2] [Y1 Y2]. assert (c * c < d * d) by nra. assert (a * c < b * d) by nra. assert (0 < a * c) by nra. assert (0 < c * c) by nra.
    assert (a * c * (c * c) < b * d * (d * d)) by nra. nra. }
  repeat split; try lra.
  - assert (K := C Bi B Hi H Q1 Q2). lra.
  - assert (K := C Hi H Bi B Q2 Q1). lra.
  - apply Rmult_lt_0_compat; [lra|]. apply Rinv_0_lt_compat. nra.
  - apply Rmult_lt_0_compat; [lra|]. apply Rinv_0_lt_compat. nra.
  - rewrite Den. apply Rmult_lt_0_compat; [|now apply Rinv_0_lt_compat]. apply Rmult_lt_0_compat; [nra|]. apply pow_lt. nra.
  - unfold bredt. rewrite Den. field. repeat split; try lra.
Qed.
Theorem solid_valid H B : 0 < H -> 0 < B -> let b := boxSolid H B in 0 < bA b /\ 0 < bI1 b /\ 0 < bI2 b /\ 0 < bJ b.
Proof.
  intros PH PB. cbn zeta.
  assert (J : forall b h, 0 < h <= b -> 0 < b * h * h * h * (1 - 63 / 100 * (h / b) * (1 - (h / b) ^ 4 / 12)) / 3).
  { intros b h [X1 X2]. assert (Q : 0 < h / b <= 1).
    { split; [apply Rmult_lt_0_compat; [lra|apply Rinv_0_lt_compat; lra]|]. apply (Rmult_le_reg_r b); [lra|]. unfold Rdiv. rewrite Rmult_assoc, Rinv_l by lra. lra. }
    assert (P4 : 0 <= (h / b) ^ 4 <= 1). { split; [apply pow_le; lra|]. rewrite <- (pow1 4). apply pow_incr. lra. }
    assert (0 < 1 - 63 / 100 * (h / b) * (1 - (h / b) ^ 4 / 12)).
    { assert (0 <= 1 - (h / b) ^ 4 / 12 <= 1) by lra. assert (63 / 100 * (h / b) * (1 - (h / b) ^ 4 / 12) <= 63 / 100) by nra. lra. }
    assert (0 < b * h * h * h) by (repeat apply Rmult_lt_0_compat; lra). nra. }
  assert (P3 : forall x y, 0 < x -> 0 < y -> 0 < x * y * y * y) by (intros; repeat apply Rmult_lt_0_compat; assumption).
  assert (K1 := P3 B H PB PH). assert (K2 := P3 H B PH PB).
  unfold boxSolid. destruct (Rlt_dec B H); cbn [bA bI1 bI2 bJ]; (split; [nra|split; [lra|split; [lra|apply J; lra]]]).
Qed.

(** ** Pipes *)
Lemma ring_area r Ro : ringIntegral (fun _ _ => 1) r Ro (PI * (Ro ^ 2 - r ^ 2)).
Proof.
  exists (fun s => 2 * PI * s). split.
  - intros s. apply (int_of (fun th => s * th)); [intros; auto_derive; [easy|field]|intros; apply continuous_const|ring].
  - apply (int_of (fun s => PI * s ^ 2)); [intros; auto_derive; [easy|field]|intros; apply ex_cont; auto_derive; easy|ring].
Qed.
Lemma ring_zz r Ro : ringIntegral (fun _ z => z ^ 2) r Ro (PI * (Ro ^ 4 - r ^ 4) / 4).
Proof.
  exists (fun s => PI * s ^ 3). split.
  - intros s. apply (int_of (fun th => s ^ 3 * (th - sin th * cos th) / 2)).
    + intros th. auto_derive; [easy|]. assert (T := sin2_cos2 th). unfold Rsqr in T.
      replace ((s * sin th) ^ 2 * s) with (s ^ 3 * (2 * (sin th * sin th)) / 2) by field.
      replace (2 * (sin th * sin th)) with (sin th * sin th + (1 - cos th * cos th)) by lra. field.
    + intros th. apply ex_cont. auto_derive. easy.
    + rewrite sin_0, sin_2PI. field.
  - apply (int_of (fun s => PI * s ^ 4 / 4)); [intros; auto_derive; [easy|field]|intros; apply ex_cont; auto_derive; easy|field].
Qed.
Lemma ring_yy r Ro : ringIntegral (fun y _ => y ^ 2) r Ro (PI * (Ro ^ 4 - r ^ 4) / 4).
Proof.
  exists (fun s => PI * s ^ 3). split.
  - intros s. apply (int_of (fun th => s ^ 3 * (th + sin th * cos th) / 2)).
    + intros th. auto_derive; [easy|]. assert (T := sin2_cos2 th). unfold Rsqr in T.
      replace ((s * cos th) ^ 2 * s) with (s ^ 3 * (2 * (cos th * cos th)) / 2) by field.
      replace (2 * (cos th * cos th)) with ((1 - sin th * sin th) + cos th * cos th) by lra. field.
    + intros th. apply ex_cont. auto_derive. easy.
    + rewrite sin_0, sin_2PI. field.
  - apply (int_of (fun s => PI * s ^ 4 / 4)); [intros; auto_derive; [easy|field]|intros; apply ex_cont; auto_derive; easy|field].
Qed.

Definition innerRadius (Ro : R) (t : option R) : R := match t with Some t => Ro - t | None => 0 end.
Theorem pipe_geometry Ro t : let '(A, In, _) := pipe Ro t in
  ringIntegral (fun _ _ => 1) (innerRadius Ro t) Ro A /\ ringIntegral (fun _ z => z ^ 2) (innerRadius Ro t) Ro In /\ ringIntegral (fun y _ => y ^ 2) (innerRadius Ro t) Ro In.
Proof.
  assert (E : let '(A, In, _) := pipe Ro t in A = PI * (Ro ^ 2 - innerRadius Ro t ^ 2) /\ In = PI * (Ro ^ 4 - innerRadius Ro t ^ 4) / 4).
  { unfold pipe, innerRadius. destruct t; split; field. }
  destruct (pipe Ro t) as [[A In] K]. destruct E as [-> ->]. split; [apply ring_area|split; [apply ring_zz|apply ring_yy]].
Qed.
Theorem pipe_valid Ro t : 0 < Ro -> (forall d, t = Some d -> 0 < d <= Ro) -> let '(A, In, K) := pipe Ro t in 0 < A /\ 0 < In /\ 0 < K.
Proof.
  intros HR Ht. assert (P := PI_RGT_0). unfold pipe.
  assert (B : 0 <= (match t with Some t => (Ro - t) * (Ro - t) | None => 0 end) < Ro * Ro).
  { destruct t as [d|]; [|nra]. assert (W := Ht d eq_refl). nra. }
  set (r2 := match t with Some t => (Ro - t) * (Ro - t) | None => 0 end) in *. clearbody r2. split; [nra|split].
  - assert (0 < Ro * Ro * (Ro * Ro) - r2 * r2) by nra. assert (0 < PI * (Ro * Ro * (Ro * Ro) - r2 * r2)) by (apply Rmult_lt_0_compat; lra). lra.
  - destruct (Rlt_dec 0 r2); lra.
Qed.
(* a wall thicker than the diameter is accepted and gives a negative area *)
Theorem pipe_thick Ro : 0 < Ro -> let '(A, In, _) := pipe Ro (Some (3 * Ro)) in A < 0 /\ In < 0.
Proof.
  intros HR. assert (P := PI_RGT_0). unfold pipe. replace ((Ro - 3 * Ro) * (Ro - 3 * Ro)) with (4 * (Ro * Ro)) by ring. assert (0 < Ro * Ro) by nra. split; [nra|].
  replace (Ro * Ro * (Ro * Ro) - 4 * (Ro * Ro) * (4 * (Ro * Ro))) with (- (15 * ((Ro * Ro) * (Ro * Ro)))) by ring. assert (0 < (Ro * Ro) * (Ro * Ro)) by nra.
  assert (0 < PI * ((Ro * Ro) * (Ro * Ro))) by (apply Rmult_lt_0_compat; lra). nra.
Qed.

(** ** Property functions *)
(** Functions returning the constant values: stiffness functions, the line mass and the area. *)
Theorem const_stiffness s L E G rho g m :
  evalProp (mkFuncs (Some (E * sA s)) (Some (E * sIy s)) (Some (E * sIz s)) (Some (G * sIt s)) (Some (rho * sA s)) (Some (sA s))
    None None (Some (sSy s)) (Some (sSz s)) None None None (Some 0) (Some 0)) s L E G rho g m = evalProp noFuncs s L E G rho g m.
Proof. unfold evalProp, orElse, orIf, noFuncs. cbn. destruct (Rlt_dec _ _); destruct m, g; reflexivity. Qed.
(** Shear areas equal to A/K. *)
Theorem const_shear s L E G rho g m : sA s <> 0 -> sKy s <> 0 -> sKz s <> 0 ->
  let p := evalProp (mkFuncs None None None None None None (Some (sA s / sKy s)) (Some (sA s / sKz s)) None None None None None None None) s L E G rho g m in
  let q := evalProp noFuncs s L E G rho g m in pAly p = pAly q /\ pAlz p = pAlz q.
Proof.
  intros HA H1 H2. cbn zeta. unfold evalProp, orElse, noFuncs. cbn. destruct (Rlt_dec _ _); cbn [pAly pAlz];
  (split; f_equal; field; auto).
Qed.
(** Section inertia functions give the same bending stiffness, but drop the density from the mass. *)
Theorem const_inertia s L E G rho g m :
  let p := evalProp (mkFuncs None None None None None None None None None None None (Some (sIy s)) (Some (sIz s)) None None) s L E G rho g m in
  let q := evalProp noFuncs s L E G rho g m in
  pEIy p = pEIy q /\ pEIz p = pEIz q /\ pAly p = pAly q /\ pAlz p = pAlz q /\ pRhoA p = pRhoA q /\
  (m = true -> pIyy q = rho * pIyy p /\ pIzz q = rho * pIzz p) /\ (m = false -> p = q).
Proof.
  cbn zeta. unfold evalProp, orElse, orIf, noFuncs. cbn. destruct (Rlt_dec _ _); destruct m; cbn; repeat split; intros; try discriminate.
Qed.
Theorem inertia_differs : exists s L E G rho,
  let p := evalProp (mkFuncs None None None None None None None None None None None (Some (sIy s)) None None None) s L E G rho false true in
  pIyy p <> pIyy (evalProp noFuncs s L E G rho false true).
Proof.
  exists (mkSec 1 2 1 1 1 1 1 0 0), 1, 1, 1, 7850. unfold evalProp, orElse, orIf, noFuncs. cbn. destruct (Rlt_dec _ _); cbn; lra.
Qed.
(** A function of the polar inertia replaces both the torsional constant and the polar mass
    inertia: for a box, where these differ, it cannot equal both constants. *)
Theorem polar_inertia v s L E G rho : G <> 0 ->
  let f := mkFuncs None None None None None None None None None None (Some v) None None None None in
  pGIt (evalProp f s L E G rho false true) = pGIt (evalProp noFuncs s L E G rho false true) ->
  pIxx (evalProp f s L E G rho false true) = pIxx (evalProp noFuncs s L E G rho false true) -> rho * sIx s = sIt s.
Proof.
  intros HG. cbn zeta. unfold evalProp, orElse, orIf, noFuncs. cbn. destruct (Rlt_dec _ _); cbn; intros H1 H2; rewrite <- H2; apply (Rmult_eq_reg_l G); auto.
Qed.

Lemma ring_plus f g r Ro I J : ringIntegral f r Ro I -> ringIntegral g r Ro J -> ringIntegral (fun y z => f y z + g y z) r Ro (I + J).
Proof.
  intros [F [F1 F2]] [G [G1 G2]]. exists (fun s => F s + G s). split.
  - intros s. apply (is_RInt_ext (fun th => plus (f (s * cos th) (s * sin th) * s) (g (s * cos th) (s * sin th) * s))); [intros; unfold plus; cbn; ring|].
    apply (is_RInt_plus (V := R_NormedModule)); [apply F1|apply G1].
  - apply (is_RInt_plus (V := R_NormedModule)); assumption.
Qed.
Theorem pipe_section Ro t : let s := ofPipe Ro t in
  ringIntegral (fun _ _ => 1) (innerRadius Ro t) Ro (sA s) /\ ringIntegral (fun _ z => z ^ 2) (innerRadius Ro t) Ro (sIy s) /\
  ringIntegral (fun y _ => y ^ 2) (innerRadius Ro t) Ro (sIz s) /\ ringIntegral (fun y z => y ^ 2 + z ^ 2) (innerRadius Ro t) Ro (sIx s) /\ sIt s = sIx s.
Proof.
  pose proof (pipe_geometry Ro t) as H. cbn zeta. unfold ofPipe. destruct (pipe Ro t) as [[A J] K]. destruct H as [H1 [H2 H3]]. cbn [sA sIy sIz sIx sIt].
  repeat split; try assumption. replace (J * 2) with (J + J) by ring. apply (ring_plus (fun y _ => y ^ 2) (fun _ z => z ^ 2)); assumption.
Qed.
Theorem shear_parameter f s L E G rho g m : G <> 0 -> L <> 0 -> let p := evalProp f s L E G rho g m in
  (forall Ay, fAy f = Some Ay -> Ay <> 0 -> pAly p * (G * Ay * L ^ 2) = 12 * pEIy p) /\
  (forall Az, fAz f = Some Az -> Az <> 0 -> pAlz p * (G * Az * L ^ 2) = 12 * pEIz p) /\
  (forall A, fAx f = Some A \/ (fAx f = None /\ sA s = A) -> A <> 0 ->
    (fAy f = None -> pAly p * (G * A * L ^ 2) = 12 * sKy s * pEIy p) /\ (fAz f = None -> pAlz p * (G * A * L ^ 2) = 12 * sKz s * pEIz p)).
Proof.
  intros HG HL. cbn zeta. unfold evalProp. destruct (Rlt_dec _ _); cbn [pAly pAlz pEIy pEIz];
  (split; [intros a -> Ha; field; auto|]; split; [intros a -> Ha; field; auto|]; intros a [HA|[HA HS]] Ha; rewrite HA; cbn [orElse]; try rewrite HS; split; intros ->; field; auto).
Qed.
Theorem functions_used f s L E G rho g m v : let p := evalProp f s L E G rho g m in
  (fEA f = Some v -> pEA p = v) /\ (fEIy f = Some v -> pEIy p = v) /\ (fEIz f = Some v -> pEIz p = v) /\ (fGIt f = Some v -> pGIt p = v) /\
  ((g = true \/ m = true) -> (fRho f = Some v -> pRhoA p = v) /\ (fCGy f = Some v -> pCGy p = v) /\ (fCGz f = Some v -> pCGz p = v)).
Proof.
  cbn zeta. unfold evalProp. destruct (Rlt_dec _ _); cbn [pEA pEIy pEIz pGIt pRhoA pCGy pCGz];
  (split; [intros ->; reflexivity|]; split; [intros ->; reflexivity|]; split; [intros ->; reflexivity|]; split; [intros ->; reflexivity|];
   intros H; assert (X : (m || g)%bool = true) by (destruct H as [-> | ->]; destruct m || destruct g; reflexivity); unfold orIf; rewrite X; repeat split; intros ->; reflexivity).
Qed.
Theorem shear_centre f s L E G rho g m : let p := evalProp f s L E G rho g m in
  let A := orElse (fAx f) (sA s) in let y := orElse (fSy f) (sSy s) in let z := orElse (fSz f) (sSz s) in
  (A <= 10 ^ 8 * (y ^ 2 + z ^ 2) -> pSy p = y /\ pSz p = z) /\ (10 ^ 8 * (y ^ 2 + z ^ 2) < A -> pSy p = 0 /\ pSz p = 0).
Proof. cbn zeta. unfold evalProp. destruct (Rlt_dec _ _); cbn [pSy pSz]; split; intros H; split; auto; exfalso; lra. Qed.
