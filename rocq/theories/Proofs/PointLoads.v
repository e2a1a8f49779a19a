(** Proofs about the discrete point loads. *)
From Coquelicot Require Import Coquelicot.
From Verif Require Import Lib.Base Lib.Sums Model.PointLoads Spec.PointLoads.
Import ListNotations.
Local Open Scope R_scope.

Definition barPlace (l : bload) : place :=
  if (0 <? bl_ldof l)%Z then AtNode (bl_inod l) (bl_ldof l) else AtPoint (bl_inod l) (bl_xi l) (- bl_ldof l).
Definition klPlace (l : sload) : place :=
  if (0 <? sl_ldof l)%Z then AtNode (sl_node l) (sl_ldof l) else AtPoint (sl_patch l) (sl_xi l) (- sl_ldof l).
Definition c1Place (l : cload) : place :=
  if (0 <? cl_inod l)%Z then AtNode (cl_inod l) 1 else AtPoint (cl_patch l) (cl_xi l) 1.

(** The place exists: the node carries the direction, or the patch exists and the direction is one of its displacements. *)
Definition placeOk (o : oracle) (npv : Z) (p : place) : Prop :=
  match p with
  | AtNode n d => dofOk o (n, d) = true
  | AtPoint q _ d => patchOk o q = true /\ (1 <= d <= npv)%Z /\ (d <= 3)%Z
  end.

Lemma addv_at v k n d x k' n' d' :
  addv v k n d x k' n' d' = v k' n' d' + (if Nat.eqb k' k then (if (Z.eqb n' n && Z.eqb d' d)%bool then x else 0) else 0).
Proof. unfold addv. destruct (Nat.eqb k' k), (Z.eqb n' n), (Z.eqb d' d); cbn; ring. Qed.

Lemma fold_addv k d f : forall (sh : list (Z * R)) v k' n' d',
  fold_left (fun w (a : Z * R) => addv w k (fst a) d (f * snd a)) sh v k' n' d'
  = v k' n' d' + (if Nat.eqb k' k then (if Z.eqb d' d then sumL (fun a : Z * R => if Z.eqb n' (fst a) then f * snd a else 0) sh else 0) else 0).
Proof.
  induction sh as [|a sh IH]; intros; cbn [fold_left].
  - unfold sumL; cbn. destruct (Nat.eqb k' k), (Z.eqb d' d); ring.
  - rewrite IH, addv_at. unfold sumL; cbn [fold_right]. fold (sumL (fun a : Z * R => if Z.eqb n' (fst a) then f * snd a else 0) sh).
    destruct (Nat.eqb k' k), (Z.eqb n' (fst a)), (Z.eqb d' d); cbn; ring.
Qed.

Lemma assemblePoint_ok o npv k v q u f d : patchOk o q = true -> (1 <= d <= npv)%Z -> (d <= 3)%Z ->
  exists w, assemblePoint o npv (S k) v q u f d = Ret (true, w) /\
    forall k' n' d', w k' n' d' = v k' n' d' + (if Nat.eqb k' k then nodalForce (shape o) (AtPoint q u d) f n' d' else 0).
Proof.
  intros Hq Hd H3. unfold assemblePoint. rewrite Hq.
  replace ((d <? 1)%Z || (3 <? d)%Z)%bool with false by (symmetry; apply orb_false_intro; apply Z.ltb_ge; lia).
  replace (d <=? npv)%Z with true by (symmetry; apply Z.leb_le; lia).
  eexists. split; [reflexivity|]. intros. rewrite fold_addv. cbn [nodalForce]. reflexivity.
Qed.

(** A pass adds every load once to the vector it is meant for. *)
Lemma barPass_ok o npv eS k val : forall ls ok v, eS = S k -> (forall l, In l ls -> placeOk o npv (barPlace l)) ->
  exists w, barPass o npv eS k 1 val ls ok v = Ret (ok, w) /\
    forall k' n d, w k' n d = v k' n d + (if Nat.eqb k' k then totalForce (shape o) (map (fun l => (barPlace l, val l)) ls) n d else 0).
Proof.
  induction ls as [|l ls IH]; intros ok v He Hp; cbn [barPass].
  - exists v. split; [reflexivity|]. intros. unfold totalForce, sumL; cbn. destruct (Nat.eqb k' k); ring.
  - assert (Hl := Hp l (or_introl eq_refl)). assert (Hr : forall l', In l' ls -> placeOk o npv (barPlace l')) by (intros; apply Hp; now right).
    unfold barPlace in Hl. destruct (0 <? bl_ldof l)%Z eqn:E; cbn [placeOk] in Hl.
    + rewrite Hl, andb_true_r. destruct (IH ok (addv v k (bl_inod l) (bl_ldof l) (val l * 1)) He Hr) as (w & Hw & Ww).
      exists w. split; [exact Hw|]. intros. rewrite Ww, addv_at. cbn [map]. unfold totalForce at 2. unfold sumL; cbn [fold_right fst snd].
      unfold barPlace at 2. rewrite E. cbn [nodalForce]. fold (sumL (fun x => nodalForce (shape o) (fst x) (snd x) n d) (map (fun l0 => (barPlace l0, val l0)) ls)).
      unfold totalForce. destruct (Nat.eqb k' k), (Z.eqb n (bl_inod l) && Z.eqb d (bl_ldof l))%bool; ring.
    + destruct Hl as (Hq & Hd & H3). subst eS.
      destruct (assemblePoint_ok o npv k v (bl_inod l) (bl_xi l) (val l) (- bl_ldof l) Hq Hd H3) as (w1 & Hw1 & W1).
      rewrite Hw1. cbn [bind fst snd]. rewrite andb_true_r. destruct (IH ok w1 eq_refl Hr) as (w & Hw & Ww). exists w. split; [exact Hw|].
      intros. rewrite Ww, W1. cbn [map]. unfold totalForce at 2. unfold sumL at 1; cbn [fold_right fst snd].
      unfold barPlace at 2. rewrite E. fold (sumL (fun x => nodalForce (shape o) (fst x) (snd x) n d) (map (fun l0 => (barPlace l0, val l0)) ls)).
      unfold totalForce. destruct (Nat.eqb k' k); ring.
Qed.

Lemma klPass_ok o npv eS k val : forall ls ok v, eS = S k -> (forall l, In l ls -> placeOk o npv (klPlace l)) ->
  exists w, klPass o npv eS k val ls ok v = Ret (ok, w) /\
    forall k' n d, w k' n d = v k' n d + (if Nat.eqb k' k then totalForce (shape o) (map (fun l => (klPlace l, val l)) ls) n d else 0).
Proof.
  induction ls as [|l ls IH]; intros ok v He Hp; cbn [klPass].
  - exists v. split; [reflexivity|]. intros. unfold totalForce, sumL; cbn. destruct (Nat.eqb k' k); ring.
  - assert (Hl := Hp l (or_introl eq_refl)). assert (Hr : forall l', In l' ls -> placeOk o npv (klPlace l')) by (intros; apply Hp; now right).
    unfold klPlace in Hl. destruct (0 <? sl_ldof l)%Z eqn:E; cbn [placeOk] in Hl.
    + rewrite Hl, andb_true_r. destruct (IH ok (addv v k (sl_node l) (sl_ldof l) (val l)) He Hr) as (w & Hw & Ww).
      exists w. split; [exact Hw|]. intros. rewrite Ww, addv_at. cbn [map]. unfold totalForce at 2. unfold sumL; cbn [fold_right fst snd].
      unfold klPlace at 2. rewrite E. cbn [nodalForce]. fold (sumL (fun x => nodalForce (shape o) (fst x) (snd x) n d) (map (fun l0 => (klPlace l0, val l0)) ls)).
      unfold totalForce. destruct (Nat.eqb k' k), (Z.eqb n (sl_node l) && Z.eqb d (sl_ldof l))%bool; ring.
    + destruct Hl as (Hq & Hd & H3). subst eS.
      destruct (assemblePoint_ok o npv k v (sl_patch l) (sl_xi l) (val l) (- sl_ldof l) Hq Hd H3) as (w1 & Hw1 & W1).
      rewrite Hw1. cbn [bind fst snd]. rewrite andb_true_r. destruct (IH ok w1 eq_refl Hr) as (w & Hw & Ww). exists w. split; [exact Hw|].
      intros. rewrite Ww, W1. cbn [map]. unfold totalForce at 2. unfold sumL at 1; cbn [fold_right fst snd].
      unfold klPlace at 2. rewrite E. fold (sumL (fun x => nodalForce (shape o) (fst x) (snd x) n d) (map (fun l0 => (klPlace l0, val l0)) ls)).
      unfold totalForce. destruct (Nat.eqb k' k); ring.
Qed.

Lemma c1Pass_ok o : forall ls ok v, (forall l, In l ls -> placeOk o 1 (c1Place l) /\ cl_inod l <> 0%Z) ->
  exists w, c1Pass o 1 ls ok v = Ret (ok, w) /\
    forall k' n d, w k' n d = v k' n d + (if Nat.eqb k' 0 then totalForce (shape o) (map (fun l => (c1Place l, cl_p l)) ls) n d else 0).
Proof.
  induction ls as [|l ls IH]; intros ok v Hp; cbn [c1Pass].
  - exists v. split; [reflexivity|]. intros. unfold totalForce, sumL; cbn. destruct (Nat.eqb k' 0); ring.
  - destruct (Hp l (or_introl eq_refl)) as [Hl Hn]. assert (Hr : forall l', In l' ls -> placeOk o 1 (c1Place l') /\ cl_inod l' <> 0%Z) by (intros; apply Hp; now right).
    unfold c1Place in Hl. destruct (0 <? cl_inod l)%Z eqn:E; cbn [placeOk] in Hl.
    + rewrite Hl, andb_true_r. destruct (IH ok (addv v 0 (cl_inod l) 1 (cl_p l)) Hr) as (w & Hw & Ww).
      exists w. split; [exact Hw|]. intros. rewrite Ww, addv_at. cbn [map]. unfold totalForce at 2. unfold sumL; cbn [fold_right fst snd].
      unfold c1Place at 2. rewrite E. cbn [nodalForce]. fold (sumL (fun x => nodalForce (shape o) (fst x) (snd x) n d) (map (fun l0 => (c1Place l0, cl_p l0)) ls)).
      unfold totalForce. destruct (Nat.eqb k' 0), (Z.eqb n (cl_inod l) && Z.eqb d 1)%bool; ring.
    + replace (cl_inod l <? 0)%Z with true by (symmetry; apply Z.ltb_lt; apply Z.ltb_ge in E; lia).
      destruct Hl as (Hq & Hd & H3).
      destruct (assemblePoint_ok o 1 0 v (cl_patch l) (cl_xi l) (cl_p l) 1 Hq Hd H3) as (w1 & Hw1 & W1).
      rewrite Hw1. cbn [bind fst snd]. rewrite andb_true_r. destruct (IH ok w1 Hr) as (w & Hw & Ww). exists w. split; [exact Hw|].
      intros. rewrite Ww, W1. cbn [map]. unfold totalForce at 2. unfold sumL at 1; cbn [fold_right fst snd].
      unfold c1Place at 2. rewrite E. fold (sumL (fun x => nodalForce (shape o) (fst x) (snd x) n d) (map (fun l0 => (c1Place l0, cl_p l0)) ls)).
      unfold totalForce. destruct (Nat.eqb k' 0); ring.
Qed.

(** Which vector gets what, for a whole assembly. *)
Definition arcOnly (m : smode) : bool := match m with ARCLEN => true | _ => false end.
(** The external load vector of the bar simulator: the separately stored one if there is one. *)
Definition extIndex (o : oracle) (sep : bool) : nat := if ((2 <? nvec o)%nat && sep)%bool then 2 else 0.

Lemma barAssemble_ok o npv dyn sep mode t ls v : (0 < nvec o)%nat ->
  (sep = true -> dyn = true /\ (2 < nvec o)%nat /\ mode = DYNAMIC) ->
  mode <> VIBRATION -> (forall l, In l ls -> placeOk o npv (barPlace l)) ->
  exists w, barAssemble o npv dyn sep 0 mode t ls v = Ret (true, w) /\
    forall k n d, w k n d = v k n d
      + (if Nat.eqb k (extIndex o sep) then totalForce (shape o) (map (fun l => (barPlace l, bl_p l t)) ls) n d else 0)
      + (if (arcOnly mode && (1 <? nvec o)%nat && Nat.eqb k 1)%bool then totalForce (shape o) (map (fun l => (barPlace l, bl_dp l t)) ls) n d else 0).
Proof.
  intros Hn Hs Hm Hp. unfold barAssemble, extIndex.
  destruct ((2 <? nvec o)%nat && sep)%bool eqn:E.
  - apply andb_true_iff in E. destruct E as [E2 ->]. destruct (Hs eq_refl) as (-> & _ & ->). cbn [arcOnly andb barES].
    destruct (barPass_ok o npv 3 2 (fun l => bl_p l t) ls true v eq_refl Hp) as (w & -> & Ww). cbn [bind].
    exists w. split; [reflexivity|]. intros. rewrite Ww. ring.
  - assert (Hsep : sep = false).
    { destruct sep; [|reflexivity]. destruct (Hs eq_refl) as (_ & H & _). apply Nat.ltb_lt in H. rewrite H in E. discriminate. }
    subst sep. replace (0 <? nvec o)%nat with true by (symmetry; apply Nat.ltb_lt; lia).
    replace (0 + 1) with 1 by ring.
    assert (He : barES dyn false (if match mode with ARCLEN => true | _ => false end then match ls with [] => mode | _ => RHS_ONLY end else mode) = 1%nat)
      by (destruct mode; try congruence; destruct ls, dyn; reflexivity).
    destruct (barPass_ok o npv _ 0 (fun l => bl_p l t) ls true v He Hp) as (w & -> & Ww). cbn [bind fst snd].
    change (match mode with ARCLEN => true | _ => false end) with (arcOnly mode).
    destruct (arcOnly mode && (1 <? nvec o)%nat)%bool eqn:Ea.
    + destruct (barPass_ok o npv 2 1 (fun l => bl_dp l t) ls true w eq_refl Hp) as (w2 & -> & W2).
      exists w2. split; [reflexivity|]. intros. rewrite W2, Ww. cbn [andb]. ring.
    + exists w. split; [reflexivity|]. intros. rewrite Ww. cbn [andb]. ring.
Qed.

Lemma klAssemble_ok o npv mode t ls v : (0 < nvec o)%nat -> (forall l, In l ls -> placeOk o npv (klPlace l)) ->
  exists w, klAssemble o npv mode t ls v = Ret (true, w) /\
    forall k n d, w k n d = v k n d
      + (if Nat.eqb k 0 then totalForce (shape o) (map (fun l => (klPlace l, sl_p l t)) ls) n d else 0)
      + (if (arcOnly mode && (1 <? nvec o)%nat && Nat.eqb k 1)%bool then totalForce (shape o) (map (fun l => (klPlace l, sl_dp l t)) ls) n d else 0).
Proof.
  intros Hn Hp. unfold klAssemble. destruct ls as [|l0 ls0] eqn:El.
  - exists v. split; [reflexivity|]. intros. unfold totalForce, sumL; cbn. destruct (Nat.eqb k 0), (_ && _)%bool; ring.
  - rewrite <- El in *. clear El. replace (0 <? nvec o)%nat with true by (symmetry; apply Nat.ltb_lt; lia).
    destruct (klPass_ok o npv (klES RHS_ONLY) 0 (fun l => sl_p l t) ls true v eq_refl Hp) as (w & -> & Ww). cbn [bind fst snd].
    destruct (arcOnly mode && (1 <? nvec o)%nat)%bool eqn:Ea.
    + destruct mode; cbn [arcOnly andb] in Ea; try discriminate. rewrite Ea.
      destruct (klPass_ok o npv 2 1 (fun l => sl_dp l t) ls true w eq_refl Hp) as (w2 & -> & W2).
      exists w2. split; [reflexivity|]. intros. rewrite W2, Ww. cbn [andb]. ring.
    + exists w. split; [destruct mode; try reflexivity; cbn [arcOnly andb] in Ea; now rewrite Ea|]. intros. rewrite Ww. cbn [andb]. ring.
Qed.

Lemma c1Assemble_ok o mode ls v : (0 < nvec o)%nat -> mode <> VIBRATION ->
  (forall l, In l ls -> placeOk o 1 (c1Place l) /\ cl_inod l <> 0%Z) ->
  exists w, c1Assemble o mode ls v = Ret (true, w) /\
    forall k n d, w k n d = v k n d + (if Nat.eqb k 0 then totalForce (shape o) (map (fun l => (c1Place l, cl_p l)) ls) n d else 0).
Proof.
  intros Hn Hm Hp. unfold c1Assemble. replace (0 <? nvec o)%nat with true by (symmetry; apply Nat.ltb_lt; lia).
  replace (klES mode) with 1%nat by (destruct mode; try reflexivity; congruence). now apply c1Pass_ok.
Qed.

(** The total force is differentiable if the load functions are. *)
Lemma totalForce_derive {A} sh (pl : A -> place) (f df : A -> R -> R) n d t : forall ls,
  (forall l, In l ls -> is_derive (f l) t (df l t)) ->
  is_derive (fun s => totalForce sh (map (fun l => (pl l, f l s)) ls) n d) t (totalForce sh (map (fun l => (pl l, df l t)) ls) n d).
Proof.
  induction ls as [|l ls IH]; intros H.
  - unfold totalForce, sumL; cbn. apply (is_derive_const (V := R_NormedModule)).
  - unfold totalForce, sumL; cbn [map fold_right fst snd].
    apply (is_derive_plus (V := R_NormedModule)); [|apply IH; intros; apply H; now right].
    assert (Hl := H l (or_introl eq_refl)). destruct (pl l) as [n' d'|q xi d']; cbn [nodalForce].
    + destruct (_ && _)%bool; [exact Hl|apply (is_derive_const (V := R_NormedModule))].
    + destruct (Z.eqb d d'); [|apply (is_derive_const (V := R_NormedModule))].
      induction (sh q xi) as [|a s IHs]; unfold sumL; cbn [fold_right]; [apply (is_derive_const (V := R_NormedModule))|].
      apply (is_derive_plus (V := R_NormedModule)); [|exact IHs].
      destruct (Z.eqb n (fst a)); [|apply (is_derive_const (V := R_NormedModule))].
      apply (is_derive_scal_l (f l) t (df l t) (snd a) Hl).
Qed.

(** Work of a point load over the degrees of freedom is the load times the displacement of its point. *)
Lemma sumL_pick (dofs : list (Z * Z)) n d (g : Z -> Z -> R) f : NoDup dofs -> In (n, d) dofs ->
  sumL (fun x : Z * Z => (if (Z.eqb (fst x) n && Z.eqb (snd x) d)%bool then f else 0) * g (fst x) (snd x)) dofs = f * g n d.
Proof.
  induction dofs as [|[a b] r IH]; intros Hn Hi; [easy|]. inversion Hn as [|? ? Hx Hr]; subst. unfold sumL; cbn [fold_right fst snd].
  fold (sumL (fun x : Z * Z => (if (Z.eqb (fst x) n && Z.eqb (snd x) d)%bool then f else 0) * g (fst x) (snd x)) r).
  destruct Hi as [Hi|Hi].
  - injection Hi as -> ->. rewrite !Z.eqb_refl. cbn [andb]. rewrite (sumL_ext _ (fun _ => 0 * 0)).
    + assert (E : forall m : list (Z * Z), sumL (fun _ => 0 * 0) m = 0) by (induction m; unfold sumL in *; cbn; [ring|rewrite IHm; ring]). rewrite E. ring.
    + intros [a b] Hin. cbn [fst snd]. destruct (Z.eqb_spec a n), (Z.eqb_spec b d); cbn [andb]; try ring. subst. contradiction.
  - rewrite IH by assumption. destruct (Z.eqb_spec a n), (Z.eqb_spec b d); cbn [andb]; try ring. subst. contradiction.
Qed.

Lemma sumL_zero {A} (m : list A) : sumL (fun _ => 0) m = 0.
Proof. induction m; unfold sumL in *; cbn; [reflexivity|rewrite IHm; ring]. Qed.

Lemma work_place sh p f dofs u : NoDup dofs -> incl (touches sh p) dofs ->
  work dofs (nodalForce sh p f) u = f * dispAt sh u p.
Proof.
  intros Hn Hi. unfold work. destruct p as [n d|q xi d]; cbn [nodalForce dispAt touches] in *.
  - rewrite sumL_pick; [reflexivity|assumption|apply Hi; now left].
  - assert (E : forall s, incl (map (fun a : Z * R => (fst a, d)) s) dofs ->
      sumL (fun x : Z * Z => (if Z.eqb (snd x) d then sumL (fun a : Z * R => if Z.eqb (fst x) (fst a) then f * snd a else 0) s else 0) * u (fst x) (snd x)) dofs
      = f * sumL (fun a : Z * R => snd a * u (fst a) d) s).
    { induction s as [|a s IH]; intros Hs.
      - rewrite (sumL_ext _ (fun _ => 0)); [rewrite sumL_zero; unfold sumL; cbn; ring|]. intros x _. unfold sumL; cbn. destruct (Z.eqb _ _); ring.
      - rewrite (sumL_ext _ (fun x : Z * Z => (if (Z.eqb (fst x) (fst a) && Z.eqb (snd x) d)%bool then f * snd a else 0) * u (fst x) (snd x)
          + (if Z.eqb (snd x) d then sumL (fun a : Z * R => if Z.eqb (fst x) (fst a) then f * snd a else 0) s else 0) * u (fst x) (snd x))).
        + rewrite sumL_plus, sumL_pick, IH; [unfold sumL; cbn [fold_right]; ring| | assumption |].
          * intros y Hy. apply Hs. now right.
          * apply Hs. now left.
        + intros x _. unfold sumL; cbn [fold_right]. destruct (Z.eqb (snd x) d), (Z.eqb (fst x) (fst a)); cbn [andb]; ring. }
    apply E, Hi.
Qed.

Lemma work_total sh dofs u : forall l : list (place * R), NoDup dofs -> (forall x, In x l -> incl (touches sh (fst x)) dofs) ->
  work dofs (totalForce sh l) u = sumL (fun x => snd x * dispAt sh u (fst x)) l.
Proof.
  induction l as [|x l IH]; intros Hn Hi.
  - unfold work, totalForce, sumL. cbn. induction dofs as [|y r IHd]; cbn; [reflexivity|].
    inversion Hn; subst. rewrite IHd; [ring|assumption|]. intros z Hz; destruct Hz.
  - assert (W := work_place sh (fst x) (snd x) dofs u Hn (Hi x (or_introl eq_refl))).
    specialize (IH Hn (fun y Hy => Hi y (or_intror Hy))). unfold work in *.
    rewrite (sumL_ext _ (fun y : Z * Z => nodalForce sh (fst x) (snd x) (fst y) (snd y) * u (fst y) (snd y) + totalForce sh l (fst y) (snd y) * u (fst y) (snd y))).
    + rewrite sumL_plus, W, IH. reflexivity.
    + intros y _. unfold totalForce, sumL; cbn [fold_right]. ring.
Qed.

Lemma klEnergy_spec o npv t ls u : (forall l, In l ls -> placeOk o npv (klPlace l)) ->
  klEnergy o npv t ls u = sumL (fun x => snd x * dispAt (shape o) u (fst x)) (map (fun l => (klPlace l, sl_p l t)) ls).
Proof.
  intros Hp. unfold klEnergy. induction ls as [|l ls IH]; [reflexivity|]. unfold sumL; cbn [map fold_right fst snd].
  f_equal; [|apply IH; intros; apply Hp; now right]. assert (Hl := Hp l (or_introl eq_refl)). unfold klPlace in *.
  destruct (0 <? sl_ldof l)%Z eqn:E; [reflexivity|]. cbn [placeOk] in Hl. destruct Hl as (_ & Hd & _).
  replace (sl_ldof l <? 0)%Z with true by (symmetry; apply Z.ltb_lt; lia). replace (- sl_ldof l <=? npv)%Z with true by (symmetry; apply Z.leb_le; lia).
  reflexivity.
Qed.
Lemma c1Energy_spec o ls u : (forall l, In l ls -> cl_inod l <> 0%Z) ->
  c1Energy o ls u = sumL (fun x => snd x * dispAt (shape o) u (fst x)) (map (fun l => (c1Place l, cl_p l)) ls).
Proof.
  intros Hp. unfold c1Energy. induction ls as [|l ls IH]; [reflexivity|]. unfold sumL; cbn [map fold_right fst snd].
  f_equal; [|apply IH; intros; apply Hp; now right]. assert (Hl := Hp l (or_introl eq_refl)). unfold c1Place.
  destruct (0 <? cl_inod l)%Z eqn:E; [reflexivity|]. replace (cl_inod l <? 0)%Z with true by (symmetry; apply Z.ltb_lt; apply Z.ltb_ge in E; lia). reflexivity.
Qed.

(** How a load given by patch and parameter should be resolved: on an element of the patch at that parameter, or in the node
    there, or in the closest node if there is none. *)
Definition resolves (o : oracle) (patch : Z) (u : R) (onElement : bool) (d : Z) (p : place) : Prop :=
  let (m, u') := evalPt o patch u in
  (0 <= m)%Z /\
  if onElement then (0 < elemOf o patch u')%Z /\ p = AtPoint patch u' d
  else ((0 < m)%Z /\ p = AtNode m d) \/ (m = 0%Z /\ (0 < closest o patch u')%Z /\ p = AtNode (closest o patch u') d).

Ltac zb := repeat match goal with
  | |- context [Z.leb ?a ?b] => destruct (Z.leb_spec a b)
  | |- context [Z.ltb ?a ?b] => destruct (Z.ltb_spec a b)
  | |- context [Z.eqb ?a ?b] => destruct (Z.eqb_spec a b)
  | H : context [Z.leb ?a ?b] |- _ => destruct (Z.leb_spec a b)
  | H : context [Z.ltb ?a ?b] |- _ => destruct (Z.ltb_spec a b)
  | H : context [Z.eqb ?a ?b] |- _ => destruct (Z.eqb_spec a b)
  end; cbn [andb orb negb fst snd] in *; try lia; try discriminate.

Lemma klPrep1_spec o l : (sl_ldof l <> 0)%Z -> let (ok, l') := klPrep1 o l in
  sl_p l' = sl_p l /\ sl_dp l' = sl_dp l /\
  (ok = true <-> exists p, resolves o (sl_patch l) (sl_xi l) (sl_ldof l <? 0)%Z (Z.abs (sl_ldof l)) p) /\
  (ok = true -> resolves o (sl_patch l) (sl_xi l) (sl_ldof l <? 0)%Z (Z.abs (sl_ldof l)) (klPlace l')).
Proof.
  intros Hd. unfold klPrep1, resolves. destruct (evalPt o (sl_patch l) (sl_xi l)) as [m u'].
  destruct (Z.leb_spec 0 m); destruct (Z.ltb_spec (sl_ldof l) 0); cbn [andb].
  - destruct (Z.leb_spec (elemOf o (sl_patch l) u') 0); cbn [sl_p sl_dp]; (split; [reflexivity|]; split; [reflexivity|]); split.
    + split; [discriminate|]. intros (p & _ & H2 & _). lia.
    + discriminate.
    + split; [|reflexivity]. intros _. eexists. split; [lia|]. split; [lia|reflexivity].
    + intros _. split; [lia|]. split; [lia|]. unfold klPlace; cbn [sl_ldof sl_patch sl_xi sl_node].
      destruct (Z.ltb_spec 0 (sl_ldof l)); [lia|]. f_equal; lia.
  - destruct (Z.eqb_spec m 0) as [->|Hm]; cbn [andb].
    + destruct (Z.ltb_spec 0 (closest o (sl_patch l) u')).
      * destruct (Z.leb_spec (closest o (sl_patch l) u') 0); [lia|]. cbn [sl_p sl_dp]. split; [reflexivity|]. split; [reflexivity|]. split.
        -- split; [|reflexivity]. intros _. eexists. split; [lia|]. right. split; [reflexivity|]. split; [lia|reflexivity].
        -- intros _. split; [lia|]. right. split; [reflexivity|]. split; [lia|]. unfold klPlace; cbn [sl_ldof sl_patch sl_xi sl_node].
           destruct (Z.ltb_spec 0 (sl_ldof l)); [|lia]. f_equal; lia.
      * cbn [Z.leb Z.compare]. cbn [sl_p sl_dp]. split; [reflexivity|]. split; [reflexivity|]. split; [|discriminate].
        split; [discriminate|]. intros (p & _ & [[? _]|(_ & ? & _)]); lia.
    + destruct (Z.leb_spec m 0); [lia|]. cbn [sl_p sl_dp]. split; [reflexivity|]. split; [reflexivity|]. split.
      * split; [|reflexivity]. intros _. eexists. split; [lia|]. left. split; [lia|reflexivity].
      * intros _. split; [lia|]. left. split; [lia|]. unfold klPlace; cbn [sl_ldof sl_patch sl_xi sl_node].
        destruct (Z.ltb_spec 0 (sl_ldof l)); [|lia]. f_equal; lia.
  - destruct (Z.eqb_spec m 0); [lia|]. cbn [andb]. destruct (Z.leb_spec m 0); [|lia]. cbn [sl_p sl_dp].
    split; [reflexivity|]. split; [reflexivity|]. split; [|discriminate]. split; [discriminate|]. intros (p & ? & _). lia.
  - destruct (Z.eqb_spec m 0); [lia|]. cbn [andb]. destruct (Z.leb_spec m 0); [|lia]. cbn [sl_p sl_dp].
    split; [reflexivity|]. split; [reflexivity|]. split; [|discriminate]. split; [discriminate|]. intros (p & ? & _). lia.
Qed.

(** findLoadPoint on an existing patch. *)
Lemma findLoadPoint_spec o patch u onE : (0 <= fst (evalPt o patch u))%Z -> (forall q x, 0 <= elemOf o q x)%Z ->
  let (f, u') := findLoadPoint o patch u onE in
  u' = snd (evalPt o patch u) /\
  if onE then f = (- elemOf o patch u')%Z
  else f = (if (fst (evalPt o patch u) =? 0)%Z then Z.max 0 (closest o patch u') else fst (evalPt o patch u)).
Proof.
  unfold findLoadPoint. destruct (evalPt o patch u) as [m u'] eqn:Ev. cbn [fst snd]. intros Hm He. specialize (He patch u').
  destruct (Z.leb_spec 0 m); [|lia]. destruct onE; cbn [andb].
  - destruct (Z.ltb_spec (- elemOf o patch u') 0); cbn [andb].
    + split; reflexivity.
    + destruct (Z.ltb_spec 0 m); split; reflexivity || lia.
  - rewrite andb_false_r. destruct (Z.eqb_spec m 0); cbn [andb].
    + destruct (Z.ltb_spec 0 (closest o patch u')); [split; [reflexivity|lia]|]. destruct (Z.ltb_spec 0 m); [lia|]. split; [reflexivity|lia].
    + destruct (Z.ltb_spec 0 m); [|lia]. split; reflexivity.
Qed.

Lemma barPrep1_spec o l : 0 <= bl_xi l -> (0 < bl_inod l)%Z -> (bl_ldof l <> 0)%Z ->
  (0 <= fst (evalPt o (bl_inod l) (bl_xi l)))%Z -> (forall q x, 0 <= elemOf o q x)%Z ->
  let (ok, l') := barPrep1 o l in
  bl_p l' = bl_p l /\ bl_dp l' = bl_dp l /\
  (ok = true <-> exists p, resolves o (bl_inod l) (bl_xi l) (bl_ldof l <? 0)%Z (Z.abs (bl_ldof l)) p) /\
  (ok = true -> resolves o (bl_inod l) (bl_xi l) (bl_ldof l <? 0)%Z (Z.abs (bl_ldof l)) (barPlace l')).
Proof.
  intros Hx Hi Hd Hm He. assert (F := findLoadPoint_spec o (bl_inod l) (bl_xi l) (bl_ldof l <? 0)%Z Hm He).
  unfold barPrep1. destruct (Rle_dec 0 (bl_xi l)); [|contradiction]. replace (0 <? bl_inod l)%Z with true by (symmetry; apply Z.ltb_lt; lia).
  destruct (findLoadPoint o (bl_inod l) (bl_xi l) (bl_ldof l <? 0)%Z) as [f u']. destruct F as [Fu Ff]. unfold resolves.
  destruct (evalPt o (bl_inod l) (bl_xi l)) as [m u'']. cbn [fst snd] in *. subst u''. specialize (He (bl_inod l) u').
  destruct (Z.ltb_spec (bl_ldof l) 0) as [Hs|Hs].
  - destruct (Z.ltb_spec 0 f); [lia|]. destruct (Z.eqb_spec f 0); cbn [bl_p bl_dp]; (split; [reflexivity|]; split; [reflexivity|]); split.
    + split; [discriminate|]. intros (p & _ & ? & _). lia.
    + discriminate.
    + split; [|reflexivity]. intros _. eexists. split; [lia|]. split; [lia|reflexivity].
    + intros _. split; [lia|]. split; [lia|]. unfold barPlace; cbn [bl_ldof bl_inod bl_xi]. destruct (Z.ltb_spec 0 (bl_ldof l)); [lia|]. f_equal; lia.
  - destruct (Z.eqb_spec m 0) as [->|Hm0].
    + destruct (Z.ltb_spec 0 f).
      * cbn [bl_p bl_dp]. split; [reflexivity|]. split; [reflexivity|]. assert (f = closest o (bl_inod l) u') by lia. split.
        -- split; [|reflexivity]. intros _. eexists. split; [lia|]. right. split; [reflexivity|]. split; [lia|reflexivity].
        -- intros _. split; [lia|]. right. split; [reflexivity|]. split; [lia|]. unfold barPlace; cbn [bl_ldof bl_inod bl_xi].
           destruct (Z.ltb_spec 0 (bl_ldof l)); [|lia]. f_equal; lia.
      * destruct (Z.eqb_spec f 0); [|lia]. cbn [bl_p bl_dp]. split; [reflexivity|]. split; [reflexivity|]. split; [|discriminate].
        split; [discriminate|]. intros (p & _ & [[? _]|(_ & ? & _)]); lia.
    + destruct (Z.ltb_spec 0 f); [|lia]. cbn [bl_p bl_dp]. split; [reflexivity|]. split; [reflexivity|]. split.
      * split; [|reflexivity]. intros _. eexists. split; [lia|]. left. split; [lia|reflexivity].
      * intros _. split; [lia|]. left. split; [lia|]. unfold barPlace; cbn [bl_ldof bl_inod bl_xi]. destruct (Z.ltb_spec 0 (bl_ldof l)); [|lia]. f_equal; lia.
Qed.

Lemma c1Prep1_spec o l : (0 <= fst (evalPt o (cl_patch l) (cl_xi l)))%Z -> (forall q x, 0 <= elemOf o q x)%Z ->
  let (ok, l') := c1Prep1 o l in
  cl_p l' = cl_p l /\ (ok = true <-> cl_inod l' <> 0%Z) /\
  (ok = true <-> exists p, resolves o (cl_patch l) (cl_xi l) (cl_inod l <? 0)%Z 1 p) /\
  (ok = true -> resolves o (cl_patch l) (cl_xi l) (cl_inod l <? 0)%Z 1 (c1Place l')).
Proof.
  intros Hm He. assert (F := findLoadPoint_spec o (cl_patch l) (cl_xi l) (cl_inod l <? 0)%Z Hm He). unfold c1Prep1.
  destruct (findLoadPoint o (cl_patch l) (cl_xi l) (cl_inod l <? 0)%Z) as [f u']. destruct F as [Fu Ff]. unfold resolves.
  destruct (evalPt o (cl_patch l) (cl_xi l)) as [m u'']. cbn [fst snd cl_p cl_inod] in *. subst u''. specialize (He (cl_patch l) u').
  split; [reflexivity|]. split; [destruct (Z.eqb_spec f 0); cbn; intuition congruence|].
  destruct (Z.ltb_spec (cl_inod l) 0).
  - destruct (Z.eqb_spec f 0); cbn [negb]; split.
    + split; [discriminate|]. intros (p & _ & ? & _). lia.
    + discriminate.
    + split; [|reflexivity]. intros _. eexists. split; [lia|]. split; [lia|reflexivity].
    + intros _. split; [lia|]. split; [lia|]. unfold c1Place; cbn [cl_inod cl_patch cl_xi]. destruct (Z.ltb_spec 0 f); [lia|]. reflexivity.
  - destruct (Z.eqb_spec m 0) as [->|Hm0].
    + destruct (Z.eqb_spec f 0); cbn [negb]; split.
      * split; [discriminate|]. intros (p & _ & [[? _]|(_ & ? & _)]); lia.
      * discriminate.
      * split; [|reflexivity]. intros _. eexists. split; [lia|]. right. split; [reflexivity|]. split; [lia|reflexivity].
      * intros _. split; [lia|]. right. split; [reflexivity|]. split; [lia|]. unfold c1Place; cbn [cl_inod cl_patch cl_xi].
        destruct (Z.ltb_spec 0 f); [|lia]. f_equal; lia.
    + destruct (Z.eqb_spec f 0); [lia|]. cbn [negb]. split.
      * split; [|reflexivity]. intros _. eexists. split; [lia|]. left. split; [lia|reflexivity].
      * intros _. split; [lia|]. left. split; [lia|]. unfold c1Place; cbn [cl_inod]. destruct (Z.ltb_spec 0 f); [|lia]. f_equal; lia.
Qed.
