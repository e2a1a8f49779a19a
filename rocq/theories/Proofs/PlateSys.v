(** Lemmas for Props/PlateSys.v: the assembled system of a plate. *)
From Coquelicot Require Import Coquelicot.
From Verif Require Import Lib.Base Lib.Sums Lib.Writes Lib.Vec3 Model.Plate Spec.Plate Proofs.Plate Proofs.PlateLoad Model.PlateSys Spec.PlateSys.
From Verif Require Model.LinSystem Spec.LinElement Spec.LinSystem Proofs.LinSystem.
Import ListNotations.
Notation bl := Spec.LinElement.bilin.

Definition loc (e : pelt) (w : nat -> R) (a : nat) : R := w (qConn e a).
Lemma bend_curv e p w : bend e p w = curvOf (qNen e) (qD2 p) (loc e w).
Proof. reflexivity. Qed.

(** Polarisation of a symmetric form. *)
Lemma quad_bl n A v w : symm n A -> quad n A (fun i => v i + w i) = quad n A v + quad n A w + 2 * bl n A v w.
Proof.
  intros S. assert (B : forall x y, sumf n (fun i => x i * mv n A y i) = bl n A x y) by reflexivity.
  assert (C : bl n A w v = bl n A v w).
  { unfold bl, mv. transitivity (sumf n (fun i => sumf n (fun j => A i j * w i * v j))).
    - apply sumf_ext. intros i Hi. rewrite <- sumf_scal. apply sumf_ext. intros j Hj. ring.
    - rewrite sumf_swap. apply sumf_ext. intros i Hi. rewrite <- sumf_scal. apply sumf_ext. intros j Hj. rewrite (S j i) by lia. ring. }
  assert (L : quad n A (fun i => v i + w i) = bl n A v v + bl n A v w + (bl n A w v + bl n A w w)).
  { unfold quad, bl. rewrite <- !sumf_plus. apply sumf_ext. intros i Hi. assert (M : mv n A (fun i => v i + w i) i = mv n A v i + mv n A w i).
    { unfold mv. rewrite <- sumf_plus. apply sumf_ext. intros j Hj. ring. } rewrite M. ring. }
  rewrite L, C. change (quad n A v) with (bl n A v v). change (quad n A w) with (bl n A w w). ring.
Qed.
Definition addc (c c' : curv) : curv := mkCurv (wxx c + wxx c') (wyy c + wyy c') (wxy c + wxy c').
Lemma curv_add n d2 v w : curvOf n d2 (fun i => v i + w i) = addc (curvOf n d2 v) (curvOf n d2 w).
Proof. unfold curvOf, addc; cbn [wxx wyy wxy]. f_equal; rewrite <- sumf_plus; apply sumf_ext; intros; ring. Qed.
Lemma bending_work p c U : 0 <= qNu p < 1 / 2 -> bending (qE p) (qNu p) (qT p) c U -> U = momentWork 1 p c c.
Proof. intros H B. destruct (bending_value _ _ _ c U H B) as [-> _]. unfold laplaceForm, gaussian, momentWork. ring. Qed.
Lemma evalK_form ver n p EK : 0 <= qNu p < 1 / 2 -> symm n EK -> exists K, evalK 2 (qE p) (qNu p) (qT p) (qD2 p) (qW p) ver EK = Ret K /\ symm n K /\
  forall v w, bl n K v w = bl n EK v w + qW p * momentWork ver p (curvOf n (qD2 p) v) (curvOf n (qD2 p) w).
Proof.
  intros Hn HS. destruct (K_symm n (qE p) (qNu p) (qT p) (qD2 p) (qW p) 2 ver EK (or_intror eq_refl) Hn HS) as [K [E SK]]. exists K. split; [exact E|]. split; [exact SK|].
  assert (Q : forall w, quad n K w = quad n EK w + qW p * momentWork ver p (curvOf n (qD2 p) w) (curvOf n (qD2 p) w)).
  { intros w. destruct (Nat.eq_dec ver 1) as [->|N1]; [|destruct (Nat.eq_dec ver 2) as [->|N2]].
    - destruct (K1_energy n (qE p) (qNu p) (qT p) (qD2 p) (qW p) EK w Hn) as [K' [U [E' [B Q]]]]. rewrite E in E'. injection E' as <-. rewrite Q, (bending_work p _ U Hn B). reflexivity.
    - destruct (K2_energy n (qE p) (qNu p) (qT p) (qD2 p) (qW p) EK w Hn) as [K' [E' Q]]. rewrite E in E'. injection E' as <-. rewrite Q. unfold hessianForm, momentWork. f_equal. f_equal. ring.
    - destruct (K3_energy n (qE p) (qNu p) (qT p) (qD2 p) (qW p) EK w ver Hn N1 N2) as [K' [E' Q]]. rewrite E in E'. injection E' as <-. rewrite Q.
      unfold laplaceForm, momentWork. destruct ver as [|[|[|ver]]]; try congruence; f_equal; f_equal; ring. }
  intros v w. pose proof (quad_bl n K v w SK) as P1. pose proof (quad_bl n EK v w HS) as P2. rewrite !Q, curv_add in P1.
  assert (M : forall a b, momentWork ver p (addc a b) (addc a b) = momentWork ver p a a + momentWork ver p b b + 2 * momentWork ver p a b).
  { intros [a1 a2 a3] [b1 b2 b3]. unfold momentWork, addc; cbn [wxx wyy wxy]. destruct ver as [|[|[|ver]]]; ring. }
  rewrite M in P1. nra.
Qed.

Section System.
Variables (ver : nat) (isZero : v3 -> bool) (g : R).
Hypothesis zeroOk : isZero vzero = true.
Definition load1 (p : ppt) : R := areaLoad isZero g p.
Lemma load_form n p ES sl : rows ES = n -> cols ES = 1%nat -> rows sl = 1%nat -> cols sl = 1%nat ->
  exists ES' sl', formBodyForce isZero 1 n (qN p) (getPressure isZero (qRho p) g (qT p) (qPress p) vzero false) (qW p) false ES sl = Ret (ES', sl') /\
  rows ES' = n /\ cols ES' = 1%nat /\ rows sl' = 1%nat /\ cols sl' = 1%nat /\
  (forall v, Spec.LinElement.lwork n ES' v = Spec.LinElement.lwork n ES v + qW p * (load1 p * sumf n (fun a => qN p a * v a))) /\
  el sl' 1%nat 1%nat = el sl 1%nat 1%nat + qW p * load1 p.
Proof.
  intros R1 R2 R3 R4. assert (PS : getPressure isZero (qRho p) g (qT p) (qPress p) vzero false = V 0 0 (qRho p * g * qT p + sumL (fun f => f) (qPress p))).
  { rewrite pressure_sum, zeroOk. unfold vadd, vscal; cbn [vx vy vz]. f_equal; ring. }
  rewrite PS. unfold load1, areaLoad. set (q := qRho p * g * qT p + sumL (fun f => f) (qPress p)). unfold formBodyForce. destruct (isZero (V 0 0 q)) eqn:Z.
  - exists ES, sl. repeat split; auto; intros; ring.
  - cbn [Nat.eqb vz]. set (ws := loop n _).
    assert (WB : forall i j x, In (i, j, x) ws -> (1 <= i <= n)%nat /\ j = 1%nat).
    { intros i j x H. apply In_loop in H. destruct H as [a [Ha [H|[]]]]. injection H as <- <- _. auto. }
    destruct (Proofs.LinSystem.run_vec n ws ES R1 R2 WB) as [ES' [E [A1 [A2 A3]]]]. rewrite E. cbn [bind]. rewrite R3. cbn [Nat.eqb negb andb].
    destruct (Proofs.LinSystem.run_vec 1 [(1%nat, 1%nat, q * qW p)] sl R3 R4) as [sl' [E' [B1 [B2 B3]]]].
    { intros i j x [H|[]]. injection H as <- <- _. lia. }
    rewrite E'. cbn [bind]. exists ES', sl'. repeat split; auto.
    + intros v. assert (L : forall M, Spec.LinElement.lwork n M v = Spec.LinSystem.work n (fun i => el M i 1%nat) v). { intros M. unfold Spec.LinElement.lwork, Spec.LinSystem.work. apply sumf_ext. intros; ring. }
      rewrite !L, A3. f_equal. unfold ws. rewrite Proofs.LinSystem.sumL_loop, <- !sumf_scal. apply sumf_ext. intros a Ha. unfold sumL, Proofs.LinSystem.wform. cbn [fold_right]. ring.
    + specialize (B3 (fun _ => 1)). unfold Spec.LinSystem.work, sumL, Proofs.LinSystem.wform in B3. cbn [sumf fold_right] in B3. lra.
Qed.
Definition okPts (e : pelt) (ps : list ppt) : Prop := forall p, In p ps -> 0 <= qNu p < 1 / 2.
Lemma points_form e ps : (forall p, In p ps -> 0 <= qNu p < 1 / 2) -> let n := qNen e in forall m, symm n (mK m) -> rows (mS m) = n -> cols (mS m) = 1%nat -> rows (mC m) = 1%nat -> cols (mC m) = 1%nat ->
  exists m', platePoints ver isZero g n ps m = Ret m' /\ rows (mS m') = n /\ cols (mS m') = 1%nat /\
  (forall v w, bl n (mK m') (loc e v) (loc e w) = bl n (mK m) (loc e v) (loc e w) + sumL (fun p => qW p * momentWork ver p (bend e p v) (bend e p w)) ps) /\
  (forall v, Spec.LinElement.lwork n (mS m') (loc e v) = Spec.LinElement.lwork n (mS m) (loc e v) + sumL (fun p => qW p * (load1 p * deflection e p v)) ps) /\
  el (mC m') 1%nat 1%nat = el (mC m) 1%nat 1%nat + sumL (fun p => qW p * load1 p) ps.
Proof.
  intros H n. induction ps as [|p ps IH]; intros m SK R1 R2 R3 R4.
  - exists m. unfold sumL; cbn [platePoints fold_right]. repeat split; auto; intros; ring.
  - cbn [platePoints]. unfold platePoint. destruct (load_form n p (mS m) (mC m) R1 R2 R3 R4) as [ES' [sl' [E [A1 [A2 [A3 [A4 [A5 A6]]]]]]]]. rewrite E. cbn [bind fst snd].
    destruct (evalK_form ver n p (mK m) (H p (or_introl eq_refl)) SK) as [K [EK [SK' B]]]. rewrite EK. cbn [bind].
    destruct (IH (fun x Hx => H x (or_intror Hx)) (mkPmat K ES' sl') SK' A1 A2 A3 A4) as [m' [E' [C1 [C2 [C3 [C4 C5]]]]]].
    exists m'. split; [exact E'|]. split; [exact C1|]. split; [exact C2|]. split; [|split].
    + intros v w. rewrite C3. cbn [mK]. rewrite B. unfold sumL; cbn [fold_right]. rewrite !bend_curv. unfold n. ring.
    + intros v. rewrite C4. cbn [mS]. rewrite A5. unfold sumL; cbn [fold_right]. unfold deflection at 1, loc at 1. unfold n. cbv beta. rewrite Rplus_assoc. f_equal.
    + rewrite C5. cbn [mC]. rewrite A6. unfold sumL; cbn [fold_right]. ring.
Qed.
Lemma restrict1 e w i : (1 <= i <= qNen e)%nat -> (1 <= qConn e i)%nat -> Spec.LinSystem.restrict 1 (pElt e) w i = loc e w i.
Proof.
  intros Hi Hc. replace i with (dof 1 i 1) at 1 by (unfold dof; lia). rewrite Proofs.LinSystem.restrict_dof by lia. unfold loc, dof. cbn [LinSystem.conn pElt]. f_equal. lia.
Qed.
Lemma bl_ext n A v v' w w' : (forall i, (1 <= i <= n)%nat -> v i = v' i /\ w i = w' i) -> bl n A v w = bl n A v' w'.
Proof. intros H. unfold bl, mv. apply sumf_ext. intros i Hi. rewrite (proj1 (H i Hi)). f_equal. apply sumf_ext. intros j Hj. rewrite (proj2 (H j Hj)). reflexivity. Qed.
Lemma lwork_ext n b v v' : (forall i, (1 <= i <= n)%nat -> v i = v' i) -> Spec.LinElement.lwork n b v = Spec.LinElement.lwork n b v'.
Proof. intros H. unfold Spec.LinElement.lwork. apply sumf_ext. intros i Hi. rewrite (H i Hi). reflexivity. Qed.
Lemma bl_zero n v w : bl n (fun _ _ => 0) v w = 0.
Proof. unfold bl, mv. apply sumf_0. intros i Hi. rewrite sumf_0; [ring|]. intros; ring. Qed.
Lemma lwork_zero n v : Spec.LinElement.lwork n (zeros n 1) v = 0.
Proof. unfold Spec.LinElement.lwork. apply sumf_0. intros i Hi. cbn. ring. Qed.
Lemma plate_assembled nnod es : goodPlate nnod es -> forall S, rows (gK S) = nnod -> cols (gK S) = nnod -> rows (gS S) = nnod -> cols (gS S) = 1%nat ->
  exists S', assemblePlate ver isZero g es S = Ret S' /\
  (forall v w, bl nnod (el (gK S')) v w = bl nnod (el (gK S)) v w + innerWork ver es v w) /\
  (forall v, Spec.LinSystem.work nnod (fun i => el (gS S') i 1%nat) v = Spec.LinSystem.work nnod (fun i => el (gS S) i 1%nat) v + loadWork isZero g es v) /\
  gC S' = gC S + totalLoad isZero g es.
Proof.
  intros H. induction es as [|e es IH]; intros S R1 R2 R3 R4.
  - exists S. unfold innerWork, loadWork, totalLoad, overPlate, sumL; cbn [assemblePlate fold_right]. repeat split; intros; ring.
  - destruct (H e (or_introl eq_refl)) as [HC HP]. cbn [assemblePlate].
    destruct (points_form e (qPts e) HP (mkPmat (fun _ _ => 0) (zeros (qNen e) 1) (zeros 1 1))) as [m [EM [M1 [M2 [MK [MS MC]]]]]]; try reflexivity.
    { intros i j _ _. reflexivity. }
    rewrite EM. cbn [bind]. set (Kw := LinSystem.asmMat 1 (pElt e) _). set (Bw := LinSystem.asmVec 1 (pElt e) _).
    assert (KB : forall i j x, In (i, j, x) Kw -> (1 <= i <= nnod)%nat /\ (1 <= j <= nnod)%nat).
    { intros i j x Hx. apply (Proofs.LinSystem.asmMat_range 1 nnod) in Hx; [lia|exact HC]. }
    assert (BB : forall i j x, In (i, j, x) Bw -> (1 <= i <= nnod)%nat /\ j = 1%nat).
    { intros i j x Hx. apply (Proofs.LinSystem.asmVec_range 1 nnod) in Hx; [lia|exact HC]. }
    destruct (Proofs.LinSystem.run_form nnod Kw (gK S) (fun _ => 0) (fun _ => 0) R1 R2 KB) as [K [EK [K1 [K2 _]]]].
    destruct (Proofs.LinSystem.run_vec nnod Bw (gS S) R3 R4 BB) as [B [EB [B1 [B2 BV]]]].
    rewrite EK. cbn [bind]. rewrite EB. cbn [bind].
    destruct (IH (fun x Hx => H x (or_intror Hx)) (mkPsys K B (gC S + el (mC m) 1%nat 1%nat)) K1 K2 B1 B2) as [S' [ES [A1 [A2 A3]]]].
    assert (RX : forall w i, (1 <= i <= 1 * qNen e)%nat -> Spec.LinSystem.restrict 1 (pElt e) w i = loc e w i).
    { intros w i Hi. apply restrict1; [lia|]. apply HC. lia. }
    exists S'. split; [exact ES|]. split; [|split].
    + intros v w. rewrite A1. cbn [gK]. destruct (Proofs.LinSystem.run_form nnod Kw (gK S) v w R1 R2 KB) as [K' [EK' [_ [_ [_ BL]]]]]. rewrite EK in EK'. injection EK' as <-.
      rewrite BL. unfold Kw. rewrite Proofs.LinSystem.asmMat_form. change (LinSystem.enen (pElt e)) with (qNen e). cbn [el].
      rewrite (bl_ext (1 * qNen e) _ _ (loc e v) _ (loc e w)) by (intros i Hi; split; apply RX; exact Hi). rewrite Nat.mul_1_l, MK. cbn [mK]. rewrite bl_zero.
      unfold innerWork, overPlate. rewrite Proofs.LinSystem.sumL_cons. ring.
    + intros v. rewrite A2. cbn [gS]. rewrite BV. unfold Bw. rewrite Proofs.LinSystem.asmVec_form. change (LinSystem.enen (pElt e)) with (qNen e).
      rewrite (lwork_ext _ _ _ (loc e v)) by (intros i Hi; apply RX; exact Hi). rewrite Nat.mul_1_l, MS. cbn [mS]. rewrite lwork_zero.
      unfold loadWork, overPlate. rewrite Proofs.LinSystem.sumL_cons. unfold load1. ring.
    + rewrite A3. cbn [gC]. rewrite MC. unfold totalLoad, overPlate. rewrite Proofs.LinSystem.sumL_cons. unfold load1. cbn. ring.
Qed.
Lemma plate_system nnod es : goodPlate nnod es -> exists S, plateSystem ver isZero g nnod es = Ret S /\
  (forall v w, bl nnod (el (gK S)) v w = innerWork ver es v w) /\ (forall v, nodeWork nnod (fun i => el (gS S) i 1%nat) v = loadWork isZero g es v) /\
  gC S = totalLoad isZero g es.
Proof.
  intros H. destruct (plate_assembled nnod es H (mkPsys (zeros nnod nnod) (zeros nnod 1) 0) eq_refl eq_refl eq_refl eq_refl) as [S [E [A [B C]]]].
  exists S. split; [exact E|]. split; [|split].
  - intros v w. rewrite A. cbn [gK]. change (el (zeros nnod nnod)) with (fun _ _ : nat => 0). rewrite bl_zero. ring.
  - intros v. etransitivity; [exact (B v)|]. cbn [gS]. unfold Spec.LinSystem.work. rewrite sumf_0; [ring|]. intros i Hi. cbn. ring.
  - rewrite C. cbn [gC]. ring.
Qed.
Lemma plate_ret nnod es S : goodPlate nnod es -> plateSystem ver isZero g nnod es = Ret S ->
  (forall v w, bl nnod (el (gK S)) v w = innerWork ver es v w) /\ (forall v, nodeWork nnod (fun i => el (gS S) i 1%nat) v = loadWork isZero g es v) /\
  gC S = totalLoad isZero g es.
Proof. intros H E. destruct (plate_system nnod es H) as [S' [E' A]]. rewrite E in E'. injection E' as <-. exact A. Qed.
(** Virtual work of an equilibrium. *)
Lemma held_work nnod es S : goodPlate nnod es -> plateSystem ver isZero g nnod es = Ret S -> forall p R w fixed, held nnod (el (gK S)) (fun i => el (gS S) i 1%nat) p R w fixed ->
  forall v, innerWork ver es v w = loadWork isZero g es v + nodeWork nnod p v + nodeWork nnod R v.
Proof.
  intros G E p R w fixed H v. destruct (plate_ret nnod es S G E) as [A [B _]]. rewrite <- A, <- B. unfold bl, nodeWork. rewrite <- !sumf_plus. apply sumf_ext.
  intros i Hi. rewrite (proj1 (H i Hi)). ring.
Qed.
End System.

(** The inner work as a form. *)
Lemma overPlate_ext es f f' : (forall e p, In e es -> In p (qPts e) -> f e p = f' e p) -> overPlate es f = overPlate es f'.
Proof.
  intros H. unfold overPlate. induction es as [|e es IH]; [reflexivity|]. rewrite !Proofs.LinSystem.sumL_cons. f_equal; [|apply IH; intros; apply H; [right|]; assumption].
  assert (X : forall p, In p (qPts e) -> f e p = f' e p) by (intros; apply H; [left; reflexivity|assumption]). clear - X.
  induction (qPts e) as [|p ps IH]; [reflexivity|]. rewrite !Proofs.LinSystem.sumL_cons. f_equal; [rewrite (X p (or_introl eq_refl)); reflexivity|apply IH; intros; apply X; right; assumption].
Qed.
Lemma overPlate_lin es f f' a b : overPlate es (fun e p => a * f e p + b * f' e p) = a * overPlate es f + b * overPlate es f'.
Proof.
  unfold overPlate. induction es as [|e es IH]; [unfold sumL; cbn; ring|]. rewrite !Proofs.LinSystem.sumL_cons, IH.
  assert (X : sumL (fun p => qW p * (a * f e p + b * f' e p)) (qPts e) = a * sumL (fun p => qW p * f e p) (qPts e) + b * sumL (fun p => qW p * f' e p) (qPts e)); [|rewrite X; ring].
  induction (qPts e) as [|p ps IHp]; [unfold sumL; cbn; ring|]. rewrite !Proofs.LinSystem.sumL_cons, IHp. ring.
Qed.
Lemma sumL_pos {A} (f : A -> R) l : (forall x, In x l -> 0 <= f x) -> 0 <= sumL f l /\ (sumL f l = 0 -> forall x, In x l -> f x = 0).
Proof.
  induction l as [|x l IH]; intros H; [split; [unfold sumL; cbn; lra|intros _ y []]|]. rewrite Proofs.LinSystem.sumL_cons.
  destruct IH as [PA PB]; [intros; apply H; right; assumption|]. pose proof (H x (or_introl eq_refl)). split; [lra|]. intros Z y [<-|Hy]; [lra|apply PB; [lra|exact Hy]].
Qed.
Lemma overPlate_pos es f : (forall e p, In e es -> In p (qPts e) -> 0 <= qW p * f e p) ->
  0 <= overPlate es f /\ (overPlate es f = 0 -> forall e p, In e es -> In p (qPts e) -> qW p * f e p = 0).
Proof.
  intros H. unfold overPlate. assert (X : forall e, In e es -> 0 <= sumL (fun p => qW p * f e p) (qPts e)) by (intros e He; apply (sumL_pos (fun p => qW p * f e p)); intros p Hp; apply H; assumption).
  destruct (sumL_pos _ es X) as [A B]. split; [exact A|]. intros Z e p He Hp. apply (proj2 (sumL_pos (fun p => qW p * f e p) (qPts e) (fun p Hp => H e p He Hp)) (B Z e He) p Hp).
Qed.
Definition subc (c c' : curv) : curv := mkCurv (wxx c - wxx c') (wyy c - wyy c') (wxy c - wxy c').
Lemma bend_sub e p v w : bend e p (fun i => v i - w i) = subc (bend e p v) (bend e p w).
Proof. unfold bend, subc; cbn [wxx wyy wxy]. f_equal; rewrite <- sumf_minus; apply sumf_ext; intros; ring. Qed.
Lemma momentWork_sym ver p c c' : momentWork ver p c c' = momentWork ver p c' c.
Proof. destruct c as [a1 a2 a3], c' as [b1 b2 b3]. unfold momentWork; cbn [wxx wyy wxy]. destruct ver as [|[|[|ver]]]; ring. Qed.
Lemma innerWork_sym ver es v w : innerWork ver es v w = innerWork ver es w v.
Proof. apply overPlate_ext. intros. apply momentWork_sym. Qed.
Lemma innerWork_sub ver es v w : innerWork ver es (fun i => v i - w i) (fun i => v i - w i) = innerWork ver es v v + innerWork ver es w w - 2 * innerWork ver es v w.
Proof.
  unfold innerWork. transitivity (overPlate es (fun e p => 1 * (1 * momentWork ver p (bend e p v) (bend e p v) + 1 * momentWork ver p (bend e p w) (bend e p w)) + -2 * momentWork ver p (bend e p v) (bend e p w))).
  - apply overPlate_ext. intros e p _ _. rewrite bend_sub. destruct (bend e p v) as [a1 a2 a3], (bend e p w) as [b1 b2 b3]. unfold momentWork, subc; cbn [wxx wyy wxy]. destruct ver as [|[|[|ver]]]; ring.
  - rewrite overPlate_lin, overPlate_lin. ring.
Qed.
Lemma loadWork_sub s g es v w : loadWork s g es (fun i => v i - w i) = loadWork s g es v - loadWork s g es w.
Proof.
  unfold loadWork. transitivity (overPlate es (fun e p => 1 * (areaLoad s g p * deflection e p v) + -1 * (areaLoad s g p * deflection e p w))).
  - apply overPlate_ext. intros e p _ _. assert (X : deflection e p (fun i => v i - w i) = deflection e p v - deflection e p w); [|rewrite X; ring].
    unfold deflection. rewrite <- sumf_minus. apply sumf_ext. intros; ring.
  - rewrite overPlate_lin. ring.
Qed.
Lemma nodeWork_sub n g v w : nodeWork n g (fun i => v i - w i) = nodeWork n g v - nodeWork n g w.
Proof. unfold nodeWork. rewrite <- sumf_minus. apply sumf_ext. intros; ring. Qed.
Lemma rigidity_pos p : 0 < qE p -> 0 < qT p -> 0 <= qNu p < 1 / 2 -> 0 < rigidity (qE p) (qNu p) (qT p).
Proof. intros. unfold rigidity. apply Rdiv_lt_0_compat; [|nra]. apply Rmult_lt_0_compat; [assumption|]. apply pow_lt; assumption. Qed.
Lemma momentWork_pos ver p c : 0 < qE p -> 0 < qT p -> 0 <= qNu p < 1 / 2 ->
  0 <= momentWork ver p c c /\ (ver = 1%nat \/ ver = 2%nat -> momentWork ver p c c = 0 -> c = mkCurv 0 0 0).
Proof.
  intros HE HT Hn. pose proof (rigidity_pos p HE HT Hn) as HD. unfold momentWork. set (D := rigidity _ _ _) in *. set (u := qNu p) in *. destruct c as [a b c]. cbn [wxx wyy wxy]. clearbody D u.
  assert (Z : forall F, D * F = 0 -> F = 0). { intros F H. destruct (Rmult_integral _ _ H); [lra|assumption]. }
  assert (F1 : (a + u * b) * a + (b + u * a) * b + 2 * (1 - u) * c * c = (1 - u) * (a * a + b * b + 2 * (c * c)) + u * ((a + b) * (a + b))) by ring.
  pose proof (Rle_0_sqr a) as Qa. pose proof (Rle_0_sqr b) as Qb. pose proof (Rle_0_sqr c) as Qc. pose proof (Rle_0_sqr (a + b)) as Qab. unfold Rsqr in *.
  assert (N : a * a + b * b + 2 * (c * c) = 0 -> mkCurv a b c = mkCurv 0 0 0).
  { intros H. f_equal; apply Rsqr_0_uniq; unfold Rsqr; lra. }
  destruct ver as [|[|[|ver]]].
  - split; [apply Rmult_le_pos; [lra|exact Qab]|intros [H|H]; discriminate].
  - rewrite F1. assert (0 <= (1 - u) * (a * a + b * b + 2 * (c * c))) by (apply Rmult_le_pos; lra). assert (0 <= u * ((a + b) * (a + b))) by (apply Rmult_le_pos; lra).
    split; [apply Rmult_le_pos; lra|]. intros _ H1. apply Z in H1. apply N. assert (Y : (1 - u) * (a * a + b * b + 2 * (c * c)) = 0) by lra. destruct (Rmult_integral _ _ Y); lra.
  - split; [apply Rmult_le_pos; lra|]. intros _ H1. apply Z in H1. apply N. lra.
  - split; [apply Rmult_le_pos; [lra|exact Qab]|intros [H|H]; discriminate].
Qed.
