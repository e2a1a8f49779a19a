(** Discrete point loads (C96 - C99). *)
From Coquelicot Require Import Coquelicot.
From Verif Require Import Lib.Base Lib.Sums Model.PointLoads Spec.PointLoads Proofs.PointLoads.
Import ListNotations.
Local Open Scope R_scope.

(** ** C96: every point load is added once to the external load vector *)

(** Bars, beams and cables, without numerical damping; the load vector is the separate external one when there is one. *)
Theorem C96_bar_loads_partial : forall o npv dyn sep mode t ls v, (0 < nvec o)%nat ->
  (sep = true -> dyn = true /\ (2 < nvec o)%nat /\ mode = DYNAMIC) -> mode <> VIBRATION ->
  (forall l, In l ls -> placeOk o npv (barPlace l)) ->
  exists w, barAssemble o npv dyn sep 0 mode t ls v = Ret (true, w) /\
    (forall n d, w (extIndex o sep) n d - v (extIndex o sep) n d
                 = totalForce (shape o) (map (fun l => (barPlace l, bl_p l t)) ls) n d) /\
    (forall k n d, k <> extIndex o sep -> (mode = ARCLEN -> k <> 1%nat) -> w k n d = v k n d).
Proof.
  intros o npv dyn sep mode t ls v Hn Hs Hm Hp. destruct (barAssemble_ok o npv dyn sep mode t ls v Hn Hs Hm Hp) as (w & Hw & W).
  exists w. split; [exact Hw|]. split.
  - intros. rewrite W, Nat.eqb_refl.
    assert (E : (arcOnly mode && (1 <? nvec o)%nat && Nat.eqb (extIndex o sep) 1)%bool = false).
    { unfold extIndex. destruct (_ && sep)%bool; cbn; apply andb_false_r. }
    rewrite E. ring.
  - intros k n d Hk Ha. rewrite W. destruct (Nat.eqb_spec k (extIndex o sep)); [contradiction|].
    destruct (Nat.eqb_spec k 1); [|rewrite andb_false_r; ring]. destruct mode; cbn [arcOnly andb]; try ring. now specialize (Ha eq_refl).
Qed.
(** Plates and shells. *)
Theorem C96_shell_loads_partial : forall o npv mode t ls v, (0 < nvec o)%nat -> (forall l, In l ls -> placeOk o npv (klPlace l)) ->
  exists w, klAssemble o npv mode t ls v = Ret (true, w) /\
    (forall n d, w 0%nat n d - v 0%nat n d = totalForce (shape o) (map (fun l => (klPlace l, sl_p l t)) ls) n d) /\
    (forall k n d, k <> 0%nat -> (mode = ARCLEN -> k <> 1%nat) -> w k n d = v k n d).
Proof.
  intros o npv mode t ls v Hn Hp. destruct (klAssemble_ok o npv mode t ls v Hn Hp) as (w & Hw & W).
  exists w. split; [exact Hw|]. split.
  - intros. rewrite W. cbn [Nat.eqb]. rewrite andb_false_r. ring.
  - intros k n d Hk Ha. rewrite W. destruct (Nat.eqb_spec k 0); [contradiction|].
    destruct (Nat.eqb_spec k 1); [|rewrite andb_false_r; ring]. destruct mode; cbn [arcOnly andb]; try ring. now specialize (Ha eq_refl).
Qed.
(** Rotation-free beams. *)
Theorem C96_beam_loads_partial : forall o mode ls v, (0 < nvec o)%nat -> mode <> VIBRATION ->
  (forall l, In l ls -> placeOk o 1 (c1Place l) /\ cl_inod l <> 0%Z) ->
  exists w, c1Assemble o mode ls v = Ret (true, w) /\
    (forall n d, w 0%nat n d - v 0%nat n d = totalForce (shape o) (map (fun l => (c1Place l, cl_p l)) ls) n d) /\
    (forall k n d, k <> 0%nat -> w k n d = v k n d).
Proof.
  intros o mode ls v Hn Hm Hp. destruct (c1Assemble_ok o mode ls v Hn Hm Hp) as (w & Hw & W). exists w. split; [exact Hw|]. split.
  - intros. rewrite W. cbn [Nat.eqb]. ring.
  - intros k n d Hk. rewrite W. destruct (Nat.eqb_spec k 0); [contradiction|]. ring.
Qed.
(** An analysis without load vectors ignores the point loads of bars, but a plate or shell with a point load, and a
    rotation-free beam even without one, then stop with an error. *)
Theorem C96_no_load_vector_refuted :
  (forall o npv dyn sep alpha mode t ls v, nvec o = 0%nat -> barAssemble o npv dyn sep alpha mode t ls v = Ret (true, v)) /\
  (forall o npv mode t l ls v, nvec o = 0%nat -> klAssemble o npv mode t (l :: ls) v = Ret (false, v)) /\
  (forall o mode ls v, nvec o = 0%nat -> c1Assemble o mode ls v = Ret (false, v)).
Proof.
  split; [|split].
  - intros. unfold barAssemble. rewrite H. cbn. now rewrite andb_false_r.
  - intros. unfold klAssemble. now rewrite H.
  - intros. unfold c1Assemble. now rewrite H.
Qed.
(** In an eigenvalue analysis loads on elements of a rotation-free beam are not added: any of them makes the assembly fail. *)
Theorem C96_vibration_refuted : forall o ls v, (0 < nvec o)%nat -> (forall l, In l ls -> (cl_inod l < 0)%Z) -> ls <> [] -> c1Assemble o VIBRATION ls v = Ret (false, v).
Proof.
  intros o ls v Hn H N. unfold c1Assemble. destruct (Nat.ltb_spec 0 (nvec o)) as [_|]; [|lia]. cbn [klES].
  assert (P : forall l, assemblePoint o 1 0 v (cl_patch l) (cl_xi l) (cl_p l) 1 = Ret (false, v)) by (intros l; unfold assemblePoint; destruct (patchOk o (cl_patch l)); reflexivity).
  assert (G : forall r ok, (forall l, In l r -> (cl_inod l < 0)%Z) -> c1Pass o 0 r ok v = Ret ((ok && match r with [] => true | _ => false end)%bool, v)).
  { induction r as [|l r IH]; intros ok Hr; cbn [c1Pass]; [rewrite andb_true_r; reflexivity|]. pose proof (Hr l (or_introl eq_refl)) as Hl.
    destruct (Z.ltb_spec 0 (cl_inod l)); [lia|]. destruct (Z.ltb_spec (cl_inod l) 0); [|lia]. rewrite P. cbn [bind fst snd]. rewrite IH by (intros; apply Hr; right; assumption).
    rewrite andb_false_r. reflexivity. }
  rewrite G by exact H. destruct ls; [congruence|reflexivity].
Qed.
(** A moment on an element of a beam writes outside the force vector of three components. *)
Theorem C96_element_moment_refuted : forall o npv dyn sep mode t patch xi p dp (k : Z) v,
  patchOk o patch = true -> nvec o = 1%nat -> (4 <= k <= 6)%Z ->
  barAssemble o npv dyn sep 0 mode t [BL patch (- k) xi p dp] v = UB.
Proof.
  intros. unfold barAssemble. rewrite H0. cbn [Nat.ltb Nat.leb andb barPass bl_ldof bl_inod bl_xi].
  destruct (Z.ltb_spec 0 (- k)); [lia|]. unfold assemblePoint. rewrite H. rewrite Z.opp_involutive.
  destruct (Z.ltb_spec 3 k); [|lia]. rewrite orb_true_r. reflexivity.
Qed.
(** A load on an element in a direction the element does not have is left out without a message. *)
Theorem C96_no_direction_refuted : forall o npv dyn t patch xi p dp (k : Z) v,
  patchOk o patch = true -> nvec o = 1%nat -> (npv < k <= 3)%Z -> (1 <= k)%Z ->
  barAssemble o npv dyn false 0 STATIC t [BL patch (- k) xi p dp] v = Ret (true, v).
Proof.
  intros. unfold barAssemble. rewrite H0. cbn [Nat.ltb Nat.leb andb barPass bl_ldof bl_inod bl_xi].
  destruct (Z.ltb_spec 0 (- k)); [lia|]. unfold assemblePoint. rewrite H. rewrite Z.opp_involutive.
  destruct (Z.ltb_spec 3 k); [lia|]. destruct (Z.ltb_spec k 1); [lia|]. cbn [orb barES]. destruct (Z.leb_spec k npv); [lia|]. reflexivity.
Qed.
(** With numerical damping the loads in nodes enter the residual multiplied by one plus the damping parameter. *)
Theorem C96_damped_nodal_loads_partial : forall o npv dyn alpha t n d p dp v, (0 < nvec o)%nat -> (0 < d)%Z -> dofOk o (n, d) = true ->
  exists w, barAssemble o npv dyn false alpha DYNAMIC t [BL n d (-1) p dp] v = Ret (true, w) /\
    w 0%nat n d = v 0%nat n d + (1 + alpha) * p t.
Proof.
  intros. unfold barAssemble. rewrite andb_false_r. replace (0 <? nvec o)%nat with true by (symmetry; now apply Nat.ltb_lt).
  cbn [barPass bl_ldof bl_inod bl_xi bl_p]. destruct (Z.ltb_spec 0 d); [|lia]. rewrite H1. cbn [andb bind].
  eexists. split; [reflexivity|]. cbn [snd]. unfold addv. rewrite !Z.eqb_refl. cbn. ring.
Qed.
Definition exOracle (nv : nat) : oracle :=
  Oracle (fun q u => ((if Z.eqb q 1 then 0 else -1)%Z, 3 * u)) (fun _ _ => 2%Z) (fun _ _ => 5%Z) (fun q => Z.eqb q 1)
         (fun _ u => [(4%Z, 1/4); (5%Z, 3/4)]) (fun x => (1 <=? fst x) && (fst x <=? 9) && (1 <=? snd x) && (snd x <=? 3))%Z%bool nv.
Example C96_ex : let o := exOracle 2 in
  let ls := [SL 1 5 3 (1/2) (fun t => 10 * t) (fun _ => 10); SL 1 2 (-3) (1/2) (fun t => 4 * t) (fun _ => 4)] in
  (forall l, In l ls -> placeOk o 3 (klPlace l)) /\
  totalForce (shape o) (map (fun l => (klPlace l, sl_p l 2)) ls) 5 3 = 26 /\
  totalForce (shape o) (map (fun l => (klPlace l, sl_p l 2)) ls) 4 3 = 2.
Proof.
  cbv zeta. split; [|split].
  - intros l [<-|[<-|[]]]; cbn; [reflexivity|]. repeat split; lia.
  - unfold totalForce, sumL; cbn. lra.
  - unfold totalForce, sumL; cbn. lra.
Qed.

(** ** C97: the load gradient is the time derivative of the point loads *)
Definition vecOf (r : res (bool * gvec)) : gvec := match r with Ret (_, w) => w | _ => gzero end.
Theorem C97_load_gradient : forall o npv t v n d, (1 < nvec o)%nat ->
  (forall ls, (forall l, In l ls -> placeOk o npv (barPlace l) /\ is_derive (bl_p l) t (bl_dp l t)) ->
     let A s := barAssemble o npv false false 0 ARCLEN s ls v in
     (forall s, exists w, A s = Ret (true, w)) /\
     is_derive (fun s => vecOf (A s) 0%nat n d) t (vecOf (A t) 1%nat n d - v 1%nat n d)) /\
  (forall ls, (forall l, In l ls -> placeOk o npv (klPlace l) /\ is_derive (sl_p l) t (sl_dp l t)) ->
     let A s := klAssemble o npv ARCLEN s ls v in
     (forall s, exists w, A s = Ret (true, w)) /\
     is_derive (fun s => vecOf (A s) 0%nat n d) t (vecOf (A t) 1%nat n d - v 1%nat n d)).
Proof.
  intros o npv t v n d Hn. assert (N : (1 <? nvec o)%nat = true) by now apply Nat.ltb_lt. split; intros ls Hl A.
  - assert (K : forall s, exists w, A s = Ret (true, w) /\ w 0%nat n d = v 0%nat n d + totalForce (shape o) (map (fun l => (barPlace l, bl_p l s)) ls) n d
                /\ w 1%nat n d = v 1%nat n d + totalForce (shape o) (map (fun l => (barPlace l, bl_dp l s)) ls) n d).
    { intros s. destruct (barAssemble_ok o npv false false ARCLEN s ls v ltac:(lia) ltac:(discriminate) ltac:(discriminate)) as (w & Hw & W).
      { intros l I. apply Hl, I. }
      exists w. split; [exact Hw|]. rewrite !W. unfold extIndex. rewrite andb_false_r, N. cbn [Nat.eqb arcOnly andb]. split; ring. }
    split; [intros s; destruct (K s) as (w & Hw & _); now exists w|].
    destruct (K t) as (wt & Ht & _ & Wt). rewrite Ht at 1. cbn [vecOf]. rewrite Wt.
    apply (is_derive_ext (fun s => v 0%nat n d + totalForce (shape o) (map (fun l => (barPlace l, bl_p l s)) ls) n d)).
    { intros s. destruct (K s) as (w & -> & W & _). cbn [vecOf]. now rewrite W. }
    replace (_ + _ - _) with (0 + totalForce (shape o) (map (fun l => (barPlace l, bl_dp l t)) ls) n d) by ring.
    apply (is_derive_plus (V := R_NormedModule)); [apply (is_derive_const (V := R_NormedModule))|].
    apply (totalForce_derive (shape o) barPlace bl_p bl_dp). intros l I. apply Hl, I.
  - assert (K : forall s, exists w, A s = Ret (true, w) /\ w 0%nat n d = v 0%nat n d + totalForce (shape o) (map (fun l => (klPlace l, sl_p l s)) ls) n d
                /\ w 1%nat n d = v 1%nat n d + totalForce (shape o) (map (fun l => (klPlace l, sl_dp l s)) ls) n d).
    { intros s. destruct (klAssemble_ok o npv ARCLEN s ls v ltac:(lia)) as (w & Hw & W).
      { intros l I. apply Hl, I. }
      exists w. split; [exact Hw|]. rewrite !W, N. cbn [Nat.eqb arcOnly andb]. split; ring. }
    split; [intros s; destruct (K s) as (w & Hw & _); now exists w|].
    destruct (K t) as (wt & Ht & _ & Wt). rewrite Ht at 1. cbn [vecOf]. rewrite Wt.
    apply (is_derive_ext (fun s => v 0%nat n d + totalForce (shape o) (map (fun l => (klPlace l, sl_p l s)) ls) n d)).
    { intros s. destruct (K s) as (w & -> & W & _). cbn [vecOf]. now rewrite W. }
    replace (_ + _ - _) with (0 + totalForce (shape o) (map (fun l => (klPlace l, sl_dp l t)) ls) n d) by ring.
    apply (is_derive_plus (V := R_NormedModule)); [apply (is_derive_const (V := R_NormedModule))|].
    apply (totalForce_derive (shape o) klPlace sl_p sl_dp). intros l I. apply Hl, I.
Qed.
Example C97_ex : let l := SL 1 2 (-3) (1/2) (fun t => 4 * t) (fun _ => 4) in
  (1 < nvec (exOracle 2))%nat /\ placeOk (exOracle 2) 3 (klPlace l) /\ is_derive (sl_p l) 7 (sl_dp l 7) /\
  vecOf (klAssemble (exOracle 2) 3 ARCLEN 7 [l] gzero) 1%nat 5%Z 3%Z = 3.
Proof.
  cbn [sl_p sl_dp]. split; [cbn; lia|]. split; [cbn; repeat split; lia|]. split.
  - auto_derive; [trivial|ring].
  - cbn. unfold addv, gzero; cbn. lra.
Qed.

(** ** C98: the external energy contains the work of the point loads *)
Theorem C98_shell_work_partial : forall o npv mode t ls v u dofs, (0 < nvec o)%nat -> NoDup dofs ->
  (forall l, In l ls -> placeOk o npv (klPlace l) /\ incl (touches (shape o) (klPlace l)) dofs) ->
  klEnergy o npv t ls u = work dofs (fun n d => vecOf (klAssemble o npv mode t ls v) 0%nat n d - v 0%nat n d) u.
Proof.
  intros o npv mode t ls v u dofs Hn Hd Hl.
  destruct (C96_shell_loads_partial o npv mode t ls v Hn) as (w & -> & W & _); [intros l I; apply Hl, I|]. cbn [vecOf].
  rewrite klEnergy_spec by (intros l I; apply Hl, I). unfold work.
  rewrite (sumL_ext _ (fun x : Z * Z => totalForce (shape o) (map (fun l => (klPlace l, sl_p l t)) ls) (fst x) (snd x) * u (fst x) (snd x)))
    by (intros x _; now rewrite W).
  symmetry. apply (work_total (shape o) dofs u); [exact Hd|]. intros x I. apply in_map_iff in I. destruct I as (l & <- & I). apply Hl, I.
Qed.
Theorem C98_beam_work_partial : forall o mode ls v u dofs, (0 < nvec o)%nat -> mode <> VIBRATION -> NoDup dofs ->
  (forall l, In l ls -> placeOk o 1 (c1Place l) /\ cl_inod l <> 0%Z /\ incl (touches (shape o) (c1Place l)) dofs) ->
  c1Energy o ls u = work dofs (fun n d => vecOf (c1Assemble o mode ls v) 0%nat n d - v 0%nat n d) u.
Proof.
  intros o mode ls v u dofs Hn Hm Hd Hl.
  destruct (C96_beam_loads_partial o mode ls v Hn Hm) as (w & -> & W & _).
  { intros l I. destruct (Hl l I) as (? & ? & _). now split. }
  cbn [vecOf]. rewrite c1Energy_spec by (intros l I; apply Hl, I). unfold work.
  rewrite (sumL_ext _ (fun x : Z * Z => totalForce (shape o) (map (fun l => (c1Place l, cl_p l)) ls) (fst x) (snd x) * u (fst x) (snd x)))
    by (intros x _; now rewrite W).
  symmetry. apply (work_total (shape o) dofs u); [exact Hd|]. intros x I. apply in_map_iff in I. destruct I as (l & <- & I). apply Hl, I.
Qed.
(** The energy of a bar, beam or cable leaves the work of its point loads out. *)
Theorem C98_bar_work_refuted : exists o npv t ls u dofs,
  NoDup dofs /\ (forall l, In l ls -> placeOk o npv (barPlace l) /\ incl (touches (shape o) (barPlace l)) dofs) /\
  barEnergy <> work dofs (fun n d => vecOf (barAssemble o npv false false 0 STATIC t ls gzero) 0%nat n d - 0) u.
Proof.
  exists (exOracle 1), 3%Z, 0, [BL 5 2 (-1) (fun _ => 7) (fun _ => 0)], (fun _ _ => 2), [(5, 2)%Z]. split; [|split].
  - constructor; [easy|constructor].
  - intros l [<-|[]]. split; [reflexivity|]. cbn. apply incl_refl.
  - unfold barEnergy, work, sumL; cbn. unfold addv, gzero; cbn. lra.
Qed.
Example C98_ex : let ls := [SL 1 2 (-3) (1/2) (fun t => 4 * t) (fun _ => 4)] in
  (forall l, In l ls -> placeOk (exOracle 1) 3 (klPlace l) /\ incl (touches (shape (exOracle 1)) (klPlace l)) [(4, 3); (5, 3)]%Z) /\
  klEnergy (exOracle 1) 3 2 ls (fun n d => IZR n) = 38.
Proof.
  cbv zeta. split; [intros l [<-|[]]; cbn; split; [repeat split; lia|apply incl_refl]|]. unfold klEnergy, solAt, sumL; cbn. lra.
Qed.

(** ** C99: load points are resolved when the model is set up *)
Theorem C99_shell_points_partial : forall o ls, (forall l, In l ls -> sl_ldof l <> 0%Z) ->
  let (ok, ls') := klPrep o ls in
  (ok = true <-> forall l, In l ls -> exists p, resolves o (sl_patch l) (sl_xi l) (sl_ldof l <? 0)%Z (Z.abs (sl_ldof l)) p) /\
  (ok = true -> Forall2 (fun l l' => sl_p l' = sl_p l /\ sl_dp l' = sl_dp l /\
     resolves o (sl_patch l) (sl_xi l) (sl_ldof l <? 0)%Z (Z.abs (sl_ldof l)) (klPlace l')) ls ls').
Proof.
  intros o ls Hd. unfold klPrep. split.
  - rewrite forallb_forall. split; intros H l I; specialize (H l I); specialize (Hd l I); assert (K := klPrep1_spec o l Hd);
      destruct (klPrep1 o l) as [ok l']; cbn [fst] in *; now apply K.
  - intros H. rewrite forallb_forall in H. induction ls as [|l ls IH]; cbn [map]; constructor.
    + specialize (H l (or_introl eq_refl)). assert (K := klPrep1_spec o l (Hd l (or_introl eq_refl))). destruct (klPrep1 o l) as [ok l'].
      cbn [fst snd] in *. destruct K as (K1 & K2 & _ & K4). now split; [|split; [|apply K4]].
    + apply IH; intros; [apply Hd|apply H]; now right.
Qed.
(** Loads on bars and rotation-free beams, on patches that exist. *)
Theorem C99_bar_points_partial : forall o ls, (forall q x, 0 <= elemOf o q x)%Z ->
  (forall l, In l ls -> 0 <= bl_xi l /\ (0 < bl_inod l)%Z /\ bl_ldof l <> 0%Z /\ (0 <= fst (evalPt o (bl_inod l) (bl_xi l)))%Z) ->
  let (ok, ls') := barPrep o ls in
  (ok = true <-> forall l, In l ls -> exists p, resolves o (bl_inod l) (bl_xi l) (bl_ldof l <? 0)%Z (Z.abs (bl_ldof l)) p) /\
  (ok = true -> Forall2 (fun l l' => bl_p l' = bl_p l /\ bl_dp l' = bl_dp l /\
     resolves o (bl_inod l) (bl_xi l) (bl_ldof l <? 0)%Z (Z.abs (bl_ldof l)) (barPlace l')) ls ls').
Proof.
  intros o ls He Hd. unfold barPrep. split.
  - rewrite forallb_forall. split; intros H l I; specialize (H l I); destruct (Hd l I) as (D1 & D2 & D3 & D4); assert (K := barPrep1_spec o l D1 D2 D3 D4 He);
      destruct (barPrep1 o l) as [ok l']; cbn [fst] in *; now apply K.
  - intros H. rewrite forallb_forall in H. induction ls as [|l ls IH]; cbn [map]; constructor.
    + specialize (H l (or_introl eq_refl)). destruct (Hd l (or_introl eq_refl)) as (D1 & D2 & D3 & D4). assert (K := barPrep1_spec o l D1 D2 D3 D4 He).
      destruct (barPrep1 o l) as [ok l']. cbn [fst snd] in *. destruct K as (K1 & K2 & _ & K4). now split; [|split; [|apply K4]].
    + apply IH; intros; [apply Hd|apply H]; now right.
Qed.
Theorem C99_beam_points_partial : forall o ls, (forall q x, 0 <= elemOf o q x)%Z ->
  (forall l, In l ls -> (0 <= fst (evalPt o (cl_patch l) (cl_xi l)))%Z) ->
  let (ok, ls') := c1Prep o ls in
  (ok = true <-> forall l, In l ls -> exists p, resolves o (cl_patch l) (cl_xi l) (cl_inod l <? 0)%Z 1 p) /\
  (ok = true -> Forall2 (fun l l' => cl_p l' = cl_p l /\ cl_inod l' <> 0%Z /\
     resolves o (cl_patch l) (cl_xi l) (cl_inod l <? 0)%Z 1 (c1Place l')) ls ls').
Proof.
  intros o ls He Hd. unfold c1Prep. split.
  - rewrite forallb_forall. split; intros H l I; specialize (H l I); assert (K := c1Prep1_spec o l (Hd l I) He);
      destruct (c1Prep1 o l) as [ok l']; cbn [fst] in *; now apply K.
  - intros H. rewrite forallb_forall in H. induction ls as [|l ls IH]; cbn [map]; constructor.
    + specialize (H l (or_introl eq_refl)). assert (K := c1Prep1_spec o l (Hd l (or_introl eq_refl)) He).
      destruct (c1Prep1 o l) as [ok l']. cbn [fst snd] in *. destruct K as (K1 & K2 & _ & K4). split; [exact K1|]. split; [now apply K2|now apply K4].
    + apply IH; intros; [apply Hd|apply H]; now right.
Qed.
(** On a patch that does not exist, a load allowed on elements of bars and rotation-free beams passes the set-up:
    the negative answer is taken for an element number.  The plate and shell simulators reject it. *)
Theorem C99_missing_patch_refuted : exists o patch u p dp,
  ~ (exists q, resolves o patch u true 1 q) /\
  fst (barPrep o [BL patch (-1) u p dp]) = true /\ fst (c1Prep o [CL patch (-1) u 1]) = true /\
  fst (klPrep o [SL patch 0 (-1) u p dp]) = false.
Proof.
  exists (exOracle 1), 2%Z, (1/2), (fun _ => 1), (fun _ => 0). split; [|split; [|split]].
  - intros (q & H). cbn in H. destruct H as [H _]. lia.
  - unfold barPrep, barPrep1; cbn. destruct (Rle_dec 0 (1/2)); [reflexivity|reflexivity].
  - reflexivity.
  - reflexivity.
Qed.
Example C99_ex : let o := exOracle 1 in
  resolves o 1 (1/2) false 2 (AtNode 5 2) /\ resolves o 1 (1/2) true 2 (AtPoint 1 (3 * (1/2)) 2).
Proof. cbn. split; split; try lia; [right|]; repeat split; lia. Qed.

Print Assumptions C96_vibration_refuted.
Print Assumptions C96_bar_loads_partial.
Print Assumptions C96_shell_loads_partial.
Print Assumptions C96_beam_loads_partial.
Print Assumptions C96_no_load_vector_refuted.
Print Assumptions C96_element_moment_refuted.
Print Assumptions C96_no_direction_refuted.
Print Assumptions C96_damped_nodal_loads_partial.
Print Assumptions C97_load_gradient.
Print Assumptions C98_shell_work_partial.
Print Assumptions C98_beam_work_partial.
Print Assumptions C98_bar_work_refuted.
Print Assumptions C99_shell_points_partial.
Print Assumptions C99_bar_points_partial.
Print Assumptions C99_beam_points_partial.
Print Assumptions C99_missing_patch_refuted.
