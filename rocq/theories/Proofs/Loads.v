From Coq Require Import List Lia Lra.
From Verif.Lib Require Import Base Sums Vec3 Tensor3.
From Verif.Spec Require Import Loads.
From Verif.Model Require Import Loads.
Import ListNotations.
Local Open Scope R_scope.

Lemma sumL_ext {A} (f g : A -> R) l : (forall x, In x l -> f x = g x) -> sumL f l = sumL g l.
Proof.
  induction l as [|a l IH]; intros H; [reflexivity|]. change (f a + sumL f l = g a + sumL g l). rewrite (H a (or_introl eq_refl)), IH; [reflexivity|]. intros x X. apply H. right. exact X.
Qed.
Lemma sumL_plus {A} (f g : A -> R) l : sumL (fun x => f x + g x) l = sumL f l + sumL g l.
Proof. induction l as [|a l IH]; [unfold sumL; cbn; ring|]. change (f a + g a + sumL (fun x => f x + g x) l = f a + sumL f l + (g a + sumL g l)). rewrite IH. ring. Qed.
Lemma sumL_zero {A} (l : list A) : sumL (fun _ => 0) l = 0.
Proof. induction l as [|a l IH]; [reflexivity|]. change (0 + sumL (fun _ : A => 0) l = 0). rewrite IH. ring. Qed.
Lemma sumf_S n f : sumf (S n) f = sumf n f + f (S n). Proof. reflexivity. Qed.
Lemma sumf_eq n f g : (forall i, (1 <= i <= n)%nat -> f i = g i) -> sumf n f = sumf n g.
Proof. induction n as [|n IH]; intros H; [reflexivity|]. rewrite !sumf_S, IH, (H (S n)) by (intros; apply H || idtac; lia). reflexivity. Qed.
Lemma sumf_plus n f g : sumf n (fun i => f i + g i) = sumf n f + sumf n g.
Proof. induction n as [|n IH]; [cbn; ring|]. rewrite !sumf_S, IH. ring. Qed.
Lemma sumf_mul n f c : sumf n (fun i => c * f i) = c * sumf n f.
Proof. induction n as [|n IH]; [cbn; ring|]. rewrite !sumf_S, IH. ring. Qed.
Lemma sumf_sumL {A} n (f : nat -> A -> R) l : sumf n (fun a => sumL (f a) l) = sumL (fun q => sumf n (fun a => f a q)) l.
Proof.
  induction l as [|q l IH].
  - induction n as [|n IHn]; [reflexivity|]. rewrite sumf_S, IHn. unfold sumL. cbn. ring.
  - change (sumf n (fun a => f a q + sumL (f a) l) = sumf n (fun a => f a q) + sumL (fun q => sumf n (fun a => f a q)) l). rewrite sumf_plus, IH. reflexivity.
Qed.

Definition unity (nn : nat) (q : ipoint) : Prop := sumf nn (ipN q) = 1.
Lemma body_total p nn q i : unity nn q -> sumf nn (fun a => bodyES p q a i) = bodySum p q i.
Proof.
  intros U. unfold bodyES, bodySum. cbv zeta. destruct (isZero p (bodyforce p (ipX q))).
  - clear U. induction nn as [|n IH]; [reflexivity|]. rewrite sumf_S, IH. ring.
  - rewrite sumf_mul. unfold unity in U. rewrite U. ring.
Qed.
Lemma bou_total p nn q i : unity nn q -> sumf nn (fun a => bouES p q a i) = vc (traction p q) i * weight p q.
Proof.
  intros U. unfold bouES. rewrite (sumf_eq _ _ (fun a => (vc (traction p q) i * weight p q) * ipN q a)) by (intros; ring). rewrite sumf_mul. unfold unity in U. rewrite U. ring.
Qed.
Lemma total_load p nn l b i : lax2 p = false -> (forall q, In q (l ++ b) -> unity nn q) ->
  sumf nn (fun a => loadVector p l b a i) = totalLoad p l b i.
Proof.
  intros A U. unfold loadVector, totalLoad. rewrite sumf_plus, !sumf_sumL. f_equal; apply sumL_ext; intros q Q.
  - apply body_total, U, in_or_app. left. exact Q.
  - rewrite bou_total by (apply U, in_or_app; right; exact Q). unfold bouSum, weight. rewrite A. reflexivity.
Qed.
Lemma total_body p nn l i : (forall q, In q l -> unity nn q) -> sumf nn (fun a => loadVector p l [] a i) = totalLoad p l [] i.
Proof.
  intros U. unfold loadVector, totalLoad. rewrite sumf_plus, !sumf_sumL. f_equal. apply sumL_ext. intros q Q. apply body_total, U, Q.
Qed.

(** Work of forces [f] on nodal displacements = f dot displacement, for directions up to the dimension. *)
Lemma work_point p nn U (q : ipoint) f c : (ldim p = 2 \/ ldim p = 3)%nat ->
  sumf nn (fun a => sumf (ldim p) (fun i => vc f i * ipN q a * c * U a i)) = vdot f (dispAt p nn U q) * c.
Proof.
  intros D.
  assert (E : forall i, sumf nn (fun a => vc f i * ipN q a * c * U a i) = vc f i * c * sumf nn (fun a => U a i * ipN q a)).
  { intros i. rewrite <- sumf_mul. apply sumf_eq. intros; ring. }
  unfold dispAt, vdot. destruct f as [fx fy fz]. destruct D as [-> | ->]; cbn [Nat.leb vx vy vz].
  - rewrite (sumf_eq nn _ (fun a => vc (V fx fy fz) 1 * ipN q a * c * U a 1%nat + vc (V fx fy fz) 2 * ipN q a * c * U a 2%nat)) by (intros; cbn; ring).
    rewrite sumf_plus, !E. cbn [vc vx vy vz]. ring.
  - rewrite (sumf_eq nn _ (fun a => (vc (V fx fy fz) 1 * ipN q a * c * U a 1%nat + vc (V fx fy fz) 2 * ipN q a * c * U a 2%nat) + vc (V fx fy fz) 3 * ipN q a * c * U a 3%nat)) by (intros; cbn; ring).
    rewrite !sumf_plus, !E. cbn [vc vx vy vz]. ring.
Qed.
Lemma work_swap {A} nn n (f : nat -> nat -> A -> R) (U : nat -> nat -> R) l :
  sumf nn (fun a => sumf n (fun i => sumL (f a i) l * U a i)) = sumL (fun q => sumf nn (fun a => sumf n (fun i => f a i q * U a i))) l.
Proof.
  rewrite <- sumf_sumL. apply sumf_eq. intros a _. rewrite <- sumf_sumL. apply sumf_eq. intros i _.
  induction l as [|q l IH]; [unfold sumL; cbn; ring|]. change ((f a i q + sumL (f a i) l) * U a i = f a i q * U a i + sumL (fun q => f a i q * U a i) l). rewrite <- IH. ring.
Qed.
Lemma vdot_zero_l u : vdot vzero u = 0. Proof. vring. Qed.
Lemma no_gravity p i n : dens p vzero = 0 \/ (forall k, (i <= k < i + n)%nat -> vc (grav p) k = 0) -> gravityLoads p i n = false.
Proof.
  revert i. induction n as [|n IH]; intros i H; [reflexivity|]. cbn. destruct (Req_EM_T (vc (grav p) i) 0).
  - apply IH. destruct H as [H|H]; [left; exact H|right; intros k K; apply H; lia].
  - destruct H as [H|H]; [|exfalso; apply n0, H; lia]. destruct (Req_EM_T (dens p vzero) 0); [reflexivity|contradiction].
Qed.
Lemma gravity_off p : forall n i, gravityLoads p i n = false -> dens p vzero <> 0 -> forall k, (i <= k < i + n)%nat -> vc (grav p) k = 0.
Proof.
  induction n as [|n IH]; intros i H D k K; [lia|]. cbn in H. destruct (Req_EM_T (vc (grav p) i) 0) as [E|E].
  - destruct (Nat.eq_dec k i) as [->|N]; [exact E|]. apply (IH (S i) H D). lia.
  - destruct (Req_EM_T (dens p vzero) 0); [contradiction|discriminate].
Qed.

(** The body force does no work if there are no loads, unless the density vanishes at the origin only. *)
Definition uniformOrLoaded (p : loads) : Prop := trac p <> None \/ body p <> None \/ dens p vzero <> 0 \/ forall X, dens p X = 0.
Lemma idle_body p nn U q : (ldim p = 2 \/ ldim p = 3)%nat -> uniformOrLoaded p -> haveLoads p = false -> vdot (bodyforce p (ipX q)) (dispAt p nn U q) = 0.
Proof.
  intros D S H. unfold haveLoads in H. destruct (trac p) eqn:Tr; [discriminate|]. destruct (body p) eqn:Bd; [discriminate|].
  unfold bodyforce. rewrite Bd. destruct S as [S|[S|[S|S]]]; [congruence..| |].
  - pose proof (gravity_off p _ _ H S) as G. unfold vdot, vscal, dispAt.
    destruct D as [D|D]; rewrite D in *; cbn [vx vy vz Nat.leb]; rewrite ?(G 1%nat) by lia.
    + pose proof (G 1%nat ltac:(lia)) as G1. pose proof (G 2%nat ltac:(lia)) as G2. cbn [vc] in G1, G2. rewrite G1, G2. ring.
    + pose proof (G 1%nat ltac:(lia)) as G1. pose proof (G 2%nat ltac:(lia)) as G2. pose proof (G 3%nat ltac:(lia)) as G3. cbn [vc] in G1, G2, G3. rewrite G1, G2, G3. ring.
  - rewrite S. unfold vdot, vscal. cbn [vx vy vz]. ring.
Qed.
Lemma energy_work p nn U l b : (ldim p = 2 \/ ldim p = 3)%nat -> uniformOrLoaded p ->
  (forall q, In q l -> isZero p (bodyforce p (ipX q)) = true -> bodyforce p (ipX q) = vzero) ->
  sumf nn (fun a => sumf (ldim p) (fun i => loadVector p l b a i * U a i)) = externalEnergy p nn U l b.
Proof.
  intros D S Z. unfold loadVector, externalEnergy.
  rewrite (sumf_eq nn _ (fun a => sumf (ldim p) (fun i => sumL (fun q => bodyES p q a i) l * U a i) + sumf (ldim p) (fun i => sumL (fun q => bouES p q a i) b * U a i)))
    by (intros; rewrite <- sumf_plus; apply sumf_eq; intros; ring).
  rewrite sumf_plus, (work_swap nn (ldim p) (fun a i q => bodyES p q a i)), (work_swap nn (ldim p) (fun a i q => bouES p q a i)).
  f_equal; apply sumL_ext; intros q Q.
  - transitivity (vdot (bodyforce p (ipX q)) (dispAt p nn U q) * weight p q).
    + unfold bodyES. cbv zeta. destruct (isZero p (bodyforce p (ipX q))) eqn:E.
      * rewrite (Z q Q E), vdot_zero_l. rewrite (sumf_eq nn _ (fun a => 0 * ipN q a)); [rewrite sumf_mul; ring|].
        intros a _. rewrite (sumf_mul (ldim p) (U a) 0). ring.
      * rewrite <- (work_point p nn U q) by exact D. apply sumf_eq. intros a _. apply sumf_eq. intros i _.
        replace (vc (vscal (weight p q) (bodyforce p (ipX q))) i) with (weight p q * vc (bodyforce p (ipX q)) i); [ring|].
        destruct i as [|[|[|i]]]; reflexivity.
    + unfold bodyEnergy. destruct (haveLoads p) eqn:E; [reflexivity|]. rewrite (idle_body p nn U q D S E). ring.
  - unfold bouES. transitivity (vdot (traction p q) (dispAt p nn U q) * weight p q).
    + rewrite <- (work_point p nn U q) by exact D. apply sumf_eq. intros a _. apply sumf_eq. intros i _. ring.
    + unfold bouEnergy. destruct (haveLoads p) eqn:E; [reflexivity|]. unfold haveLoads in E. unfold traction. destruct (trac p); [discriminate|]. rewrite vdot_zero_l. ring.
Qed.

(** * Boundary forces *)
Lemma traction_cauchy nsd q : (nsd = 3%nat \/ nsd = 2%nat /\ vz (ipn (bip q)) = 0) ->
  forall i, (1 <= i <= nsd)%nat -> vc (tractionOf false nsd q) i = vc (cauchyTraction (bsig q) (ipn (bip q))) i.
Proof.
  intros D i I. unfold tractionOf, cauchyTraction. destruct D as [-> | [-> Z]]; cbn [Nat.leb].
  - assert (i = 1 \/ i = 2 \/ i = 3)%nat as [->|[->| ->]] by lia; cbn; ring.
  - assert (i = 1 \/ i = 2)%nat as [->| ->] by lia; cbn [vc vx vy vz]; rewrite Z; cbn; ring.
Qed.
Lemma vsum_c {A} (f : A -> v3) l i : vc (vsum f l) i = sumL (fun q => vc (f q) i) l.
Proof.
  induction l as [|a l IH]; [destruct i as [|[|[|i]]]; reflexivity|].
  change (vc (vadd (f a) (vsum f l)) i = vc (f a) i + sumL (fun q => vc (f q) i) l). rewrite <- IH. destruct i as [|[|[|i]]]; reflexivity.
Qed.
Lemma vsum_ext {A} (f g : A -> v3) l : (forall x, In x l -> f x = g x) -> vsum f l = vsum g l.
Proof. induction l as [|a l IH]; intros H; [reflexivity|]. cbn. rewrite (H a (or_introl eq_refl)), IH; [reflexivity|]. intros x X. apply H. right. exact X. Qed.
