From Coq Require Import List String Ascii Arith Bool Reals Lra Lia Permutation.
From Verif Require Import Lib.Base Model.Labels Spec.Labels.
Import ListNotations.
Open Scope string_scope.
Open Scope nat_scope.

(** All indexed quantities. *)
Definition axes := [AX; AY; AZ; AR; AT].
Definition pairs (f : axis -> axis -> quantity) := flat_map (fun a => map (f a) axes) axes.
Definition allQ : list quantity :=
  [VonMises; EqPlastic; MeanStress; Triax; Lode; Pressure; Nothing; SurfMises true; SurfMises false; AxialForce; BendMoment]
  ++ map PrnStress [1; 2; 3] ++ map Principal [1; 2; 3] ++ map (SurfPrn true) [1; 2; 3] ++ map (SurfPrn false) [1; 2; 3]
  ++ map Shear axes ++ pairs Comp ++ pairs Moment ++ pairs Curv ++ pairs Force ++ pairs (SurfComp true) ++ pairs (SurfComp false).

Lemma axes_all : forall a, In a axes.
Proof. intros []; cbn; auto 6. Qed.
Lemma pairs_all : forall f a b, In (f a b) (pairs f).
Proof. intros f a b. apply in_flat_map. exists a. split; [apply axes_all|]. apply in_map, axes_all. Qed.

Lemma allQ_all : forall q, indexed q -> In q allQ.
Proof.
  intros q I. unfold allQ. rewrite !in_app_iff.
  destruct q; cbn [indexed] in I;
  try (assert (k = 1 \/ k = 2 \/ k = 3) as K by lia);
  try match goal with t : bool |- _ => destruct t end;
  try (left; cbn; auto 12; fail);
  repeat match goal with
  | |- In (?f ?a ?b) (pairs ?f) \/ _ => left; apply pairs_all
  | |- In (?f ?a ?b) (pairs ?f) => apply pairs_all
  | |- In (?f ?a) (map ?f axes) \/ _ => left; apply in_map, axes_all
  | K : _ = 1 \/ _ |- In (?f _) (map ?f [1;2;3]) \/ _ => left; apply in_map; destruct K as [-> | [-> | ->]]; cbn; auto
  | |- _ \/ _ => right
  end.
Qed.

Fixpoint nodupb (l : list string) : bool :=
  match l with [] => true | a :: r => negb (existsb (String.eqb a) r) && nodupb r end.

Lemma nodupb_inj : forall (A : Type) (f : A -> string) l, nodupb (map f l) = true ->
  forall x y, In x l -> In y l -> f x = f y -> x = y.
Proof.
  intros A f l. induction l as [|a l IH]; intros N x y; [intros []|].
  cbn in N. apply andb_prop in N. destruct N as [N1 N2].
  assert (G : forall z, In z l -> f a <> f z).
  { intros z Iz E. apply negb_true_iff in N1. rewrite <- not_true_iff_false in N1. apply N1.
    apply existsb_exists. exists (f z). split; [now apply in_map|]. rewrite E. apply String.eqb_refl. }
  intros [<- | Ix] [<- | Iy] E; auto; exfalso; eapply G; eauto.
Qed.

(** Distinct quantities have distinct descriptions. *)
Lemma describe_inj : forall strain q1 q2, indexed q1 -> indexed q2 ->
  describe strain q1 = describe strain q2 -> q1 = q2.
Proof.
  intros strain q1 q2 I1 I2. apply (nodupb_inj _ (describe strain) allQ); try apply allQ_all; auto.
  destruct strain; vm_compute; reflexivity.
Qed.

Fixpoint base (m : material) : material := match m with Forward m => base m | m => m end.

Lemma base_cases : forall m, base m = LinIso \/ base m = NeoHooke \/ base m = Plastic.
Proof. induction m; cbn; auto. Qed.
Lemma base_noInt : forall m, noInt m = noInt (base m).
Proof. induction m; cbn; auto. Qed.
Lemma base_value : forall m i, internalValue m i = internalValue (base m) i.
Proof. induction m; cbn; auto. Qed.
Lemma base_label : forall m i, internalLabel m i = internalLabel (base m) i.
Proof. induction m; cbn; auto. Qed.

Definition strip (c : config) : config :=
  mkConfig (nsd c) (axi c) (planeStrain c) (base (mat c)) (wantStrain c) (wantPrincipal c) (prinOk c).

Lemma strip_fields : forall c f, getNoFields (strip c) f = getNoFields c f.
Proof. intros c f. unfold getNoFields. cbn [nsd axi planeStrain mat wantPrincipal strip]. now rewrite <- base_noInt. Qed.
Lemma strip_cols : forall c b, evalSol2 (strip c) b = evalSol2 c b.
Proof.
  intros c b. unfold evalSol2, evalSol, tensorCols, principalCols.
  cbn [nsd axi planeStrain mat wantPrincipal prinOk strip]. rewrite <- base_noInt.
  destruct b; auto. f_equal. apply map_ext. intros a. symmetry. apply base_value.
Qed.
Lemma strip_ana : forall c, evalSolAna (strip c) = evalSolAna c.
Proof.
  intros c. unfold evalSolAna, tensorCols, principalCols.
  cbn [nsd axi planeStrain mat wantPrincipal prinOk strip]. now rewrite <- base_noInt.
Qed.
Lemma strip_name : forall c i p, getField2Name (strip c) i p = getField2Name c i p.
Proof.
  intros c i p. unfold getField2Name. rewrite !strip_fields.
  cbn [nsd axi mat wantStrain strip]. rewrite <- base_noInt, <- base_label. reflexivity.
Qed.

(** All Booleans and the kind of material of a continuum configuration. *)
Ltac cases c :=
  let n := fresh "n" in let a := fresh "a" in let ps := fresh "ps" in let m := fresh "m" in
  let ws := fresh "ws" in let wp := fresh "wp" in let po := fresh "po" in
  destruct c as [n a ps m ws wp po];
  unfold continuum, planeStress, strip in *;
  cbn [nsd axi planeStrain mat wantStrain wantPrincipal prinOk strip base] in *.

Lemma pfx_inj : forall p a b, Ret (pfx p a) = Ret (pfx p b) -> a = b.
Proof.
  intros p a b E. injection E as E. destruct p as [p|]; cbn in E; auto.
  induction p as [|x p IH]; cbn in E; [now injection E|]. injection E as E. auto.
Qed.

Theorem elasticity_exact : forall c, continuum c -> (wantPrincipal c = true -> prinOk c = true) ->
  (labelled (wantStrain c) (evalSol2 c false) (getNoFields c 2) (getField2Name c) <->
   ~ (wantPrincipal c = true /\ 0 < noInt (mat c)) /\ ~ (wantStrain c = true /\ planeStress c)).
Proof.
  intros c K O.
  rewrite base_noInt.
  assert (E : labelled (wantStrain c) (evalSol2 c false) (getNoFields c 2) (getField2Name c) <->
              labelled (wantStrain (strip c)) (evalSol2 (strip c) false) (getNoFields (strip c) 2) (getField2Name (strip c))).
  { unfold labelled. rewrite strip_cols, strip_fields. cbn [wantStrain strip].
    split; intros [L H]; split; auto; intros i p Hi; destruct (H i p Hi) as [q [A B]]; exists q; split; auto.
    - now rewrite strip_name. - now rewrite <- strip_name. }
  rewrite E. clear E. cases c. split.
  - intros [L H]. split.
    + intros [-> N].
      destruct (base_cases m) as [M|[M|M]]; rewrite M in *; [cbn in N; lia| |];
      specialize (O eq_refl); subst po;
      destruct K as [-> | [-> ->]];
      [destruct a, ps|destruct ps| destruct a, ps|destruct ps];
      match goal with |- False =>
        first [ destruct (H 4 None ltac:(cbn; lia)) as [q [A B]]; cbn in A, B; injection A as <-; cbn in B; discriminate B
              | destruct (H 5 None ltac:(cbn; lia)) as [q [A B]]; cbn in A, B; injection A as <-; cbn in B; discriminate B
              | destruct (H 7 None ltac:(cbn; lia)) as [q [A B]]; cbn in A, B; injection A as <-; cbn in B; discriminate B ]
      end.
    + intros [-> [-> [-> ->]]].
      destruct (H 2 None ltac:(cbn; destruct wp; lia)) as [q [A B]].
      cbn in A, B. injection A as <-. destruct wp; cbn in B; discriminate B.
  - intros [N S]. destruct (base_cases m) as [M|[M|M]]; rewrite M in *.
    + destruct K as [-> | [-> ->]]; [destruct a, ps|destruct ps]; destruct wp; try rewrite (O eq_refl);
      destruct ws; try (exfalso; apply S; auto; fail);
      (split; [reflexivity|]);
      cbn -[evalSol2 getField2Name]; intros i p Hi; idx i; eexists; split; reflexivity.
    + destruct wp; [exfalso; apply N; cbn; auto|].
      destruct K as [-> | [-> ->]]; [destruct a, ps|destruct ps];
      destruct ws; try (exfalso; apply S; auto; fail);
      (split; [reflexivity|]);
      cbn -[evalSol2 getField2Name]; intros i p Hi; idx i; eexists; split; reflexivity.
    + destruct wp; [exfalso; apply N; cbn; split; auto; lia|].
      destruct K as [-> | [-> ->]]; [destruct a, ps|destruct ps];
      destruct ws; try (exfalso; apply S; auto; fail);
      (split; [reflexivity|]);
      cbn -[evalSol2 getField2Name]; intros i p Hi; idx i; eexists; split; reflexivity.
Qed.

(** The tensor and von Mises columns are right in every case but plane-stress strains. *)
Theorem elasticity_tensor : forall c, continuum c -> ~ (wantStrain c = true /\ planeStress c) ->
  forall i prefix, i <= getNoFields c 3 -> exists q,
    nth_error (evalSol2 c false) i = Some q /\
    getField2Name c i prefix = Ret (pfx prefix (describe (wantStrain c) q)).
Proof.
  intros c K S i p Hi. rewrite <- strip_name, <- strip_cols. rewrite <- strip_fields in Hi. cases c.
  destruct (base_cases m) as [M|[M|M]]; rewrite M in *;
  (destruct K as [-> | [-> ->]]; [destruct a, ps|destruct ps]; destruct ws; try (exfalso; apply S; auto; fail);
   cbn in Hi; idx i; destruct wp; destruct po; eexists; split; reflexivity).
Qed.

(** The analytical values follow the order of the labels. *)
Theorem analytical_labels : forall c, continuum c -> wantPrincipal c = true -> ~ (wantStrain c = true /\ planeStress c) ->
  length (evalSolAna c) = getNoFields c 2 /\
  forall i prefix, i < getNoFields c 2 -> exists q, nth_error (evalSolAna c) i = Some q /\
   (q = Nothing \/ getField2Name c i prefix = Ret (pfx prefix (describe (wantStrain c) q))).
Proof.
  intros c K W S. rewrite <- strip_ana, <- strip_fields. 
  assert (X : length (evalSolAna (strip c)) = getNoFields (strip c) 2 /\ forall i prefix, i < getNoFields (strip c) 2 ->
     exists q, nth_error (evalSolAna (strip c)) i = Some q /\
     (q = Nothing \/ getField2Name (strip c) i prefix = Ret (pfx prefix (describe (wantStrain (strip c)) q)))).
  { cases c. subst wp.
    destruct (base_cases m) as [M|[M|M]]; rewrite M in *;
    (destruct K as [-> | [-> ->]]; [destruct a, ps|destruct ps]; destruct ws; try (exfalso; apply S; auto; fail);
     (split; [reflexivity|]);
     cbn -[evalSolAna getField2Name]; intros i p Hi; idx i; eexists; (split; [reflexivity|]); first [left; reflexivity | right; reflexivity]). }
  destruct X as [A B]. split; auto. intros i p Hi. destruct (B i p Hi) as [q [C D]]. exists q. split; auto.
  rewrite strip_name in D. exact D.
Qed.

(** The four extreme values the nonlinear driver prints for a plastic material. *)
Theorem driver_max : forall c, continuum c -> base (mat c) = Plastic -> wantPrincipal c = false ->
  map (fun k => nth_error (evalSol2 c false) (k - 1)) (driverMax c) =
  map Some [VonMises; EqPlastic; Triax; Lode].
Proof.
  intros c K M W. rewrite <- strip_cols. unfold driverMax. rewrite <- strip_fields. cases c. subst wp. rewrite M in *.
  destruct K as [-> | [-> ->]]; [destruct a, ps|destruct ps]; reflexivity.
Qed.

Theorem plate_labels : forall version nsd rec, 1 <= version <= 3 -> 1 <= nsd <= 2 ->
  labelled false (plateCols version nsd rec) (plateNoFields version nsd rec 2) (plateField2Name version nsd).
Proof.
  intros v n r Hv Hn. idx v; idx n; destruct r; (split; [reflexivity|]); cbn -[plateCols plateField2Name];
  intros i p Hi; idx i; eexists; split; reflexivity.
Qed.

Theorem shell_labels : labelled false shellCols 18 shellField2Name.
Proof. split; [reflexivity|]. intros i p Hi. idx i; eexists; split; reflexivity. Qed.

Theorem cable_labels : labelled false cableCols 2 (fun i p => Ret (cableField2Name i p)).
Proof. split; [reflexivity|]. intros i p Hi. idx i; eexists; split; reflexivity. Qed.

(** * Primary names *)

Theorem base_name : forall npv i prefix, exists s, baseField1Name npv i prefix = Ret s.
Proof.
  intros npv i p. unfold baseField1Name.
  destruct (6 <? i) eqn:A; cbn [orb]; [eexists; reflexivity|].
  destruct (npv <? i); [eexists; reflexivity|].
  apply Nat.ltb_ge in A. idx i; eexists; reflexivity.
Qed.

Theorem elasticity_name : forall c i prefix, (nsd c = 1 \/ continuum c) -> (axi c = true -> nsd c = 2) ->
  ((exists s, getField1Name c i prefix = Ret s) <-> ~ (axi c = true /\ nsd c < i /\ prefix <> None)).
Proof.
  intros c i p K A. unfold getField1Name. destruct (nsd c <? i) eqn:L.
  - apply Nat.ltb_lt in L. destruct p as [p|].
    + destruct (axi c); cbn.
      * split; [intros [s E]; discriminate E|]. intros N. exfalso. apply N. repeat split; auto. discriminate.
      * split; [intros _ [X _]; discriminate X|]. intros _. eexists. reflexivity.
    + split; [intros _ [_ [_ X]]; auto|]. intros _. eexists. reflexivity.
  - apply Nat.ltb_ge in L. split; [intros _ [_ [X _]]; lia|]. intros _.
    assert (i <= 3) by (unfold continuum in K; lia).
    destruct p as [p|]; [destruct (axi c)|]; idx i; eexists; reflexivity.
Qed.

(** Component names within the set. *)
Theorem elasticity_components : forall c i p, continuum c -> i < nsd c ->
  getField1Name c i (Some p) = Ret (p ++ " " ++ dispName (axi c) i) /\
  (axi c = false -> getField1Name c i None = Ret (dispName false i)).
Proof.
  intros c i p K Hi. cases c. destruct K as [-> | [-> ->]]; [destruct a|]; idx i; cbn; auto; split; auto; discriminate.
Qed.

(** * Extreme values *)
Section Ext.
Context {P : Type} (o : P).
Open Scope R_scope.

Lemma updAt_length : forall k X v cells, length (updAt (P:=P) k X v cells) = length cells.
Proof. intros k X v cells. revert k. induction cells as [|c r IH]; intros [|k]; cbn; auto. Qed.

Lemma updAt_nth : forall k X v cells p d, nth p (updAt (P:=P) k X v cells) d =
  if (Nat.eqb p k && Nat.ltb p (length cells))%bool then upd X v (nth p cells d) else nth p cells d.
Proof.
  intros k X v cells. revert k. induction cells as [|c r IH]; intros [|k] [|p] d; cbn; auto.
  - now rewrite andb_false_r.
  - rewrite IH. cbn. change (Nat.ltb (S p) (S (length r))) with (Nat.ltb p (length r)). reflexivity.
Qed.

Lemma updAll_nth : forall patch X s mv j, nth j (updAll (P:=P) patch X s mv) [] =
  match nth_error s j with
  | Some v => updAt (if Nat.ltb 1 (length (nth j mv [])) then patch else 0%nat) X v (nth j mv [])
  | None => nth j mv []
  end.
Proof.
  intros patch X s. induction s as [|v s IH]; intros [|c mv] [|j]; cbn; auto;
  try (destruct (nth_error s j); reflexivity); try apply IH.
Qed.

Definition shaped (nf nP : nat) (mv : maxvals (P:=P)) : Prop :=
  length mv = nf /\ forall cells, In cells mv -> length cells = nP.

Lemma updAll_length : forall patch X s mv, length (updAll (P:=P) patch X s mv) = length mv.
Proof. intros patch X s. induction s as [|v s IH]; intros [|c mv]; cbn; auto. Qed.

Lemma updAll_shaped : forall nf nP patch X s mv, shaped nf nP mv -> shaped nf nP (updAll patch X s mv).
Proof.
  intros nf nP patch X s mv [L H]. split; [now rewrite updAll_length|]. clear L.
  revert mv H. induction s as [|v s IH]; intros [|c mv] H cells; cbn [updAll]; auto.
  intros [<- | I]; [rewrite updAt_length; apply H; left; auto|]. apply (IH mv); auto. intros; apply H; now right.
Qed.

Lemma upd_step : forall X v (c : cellv (P:=P)), Rabs (snd (upd X v c)) = Rmax (Rabs (snd c)) (Rabs v) /\
  (upd X v c = c \/ upd X v c = (X, v)).
Proof.
  intros X v c. unfold upd. destruct (Rlt_dec (Rabs (snd c)) (Rabs v)); cbn.
  - split; auto. now rewrite Rmax_right by lra.
  - split; auto. now rewrite Rmax_left by lra.
Qed.

(** One visit seen from one cell. *)
Lemma visit_cell : forall nf nP mv w j p, shaped nf nP mv -> (j < nf)%nat -> (p < nP)%nat ->
  cellAt o (visitMax mv w) j p =
  match samples nP p j [w] with [(X, v)] => upd X v (cellAt o mv j p) | _ => cellAt o mv j p end.
Proof.
  intros nf nP mv w j p [L H] Hj Hp. unfold cellAt, visitMax. rewrite updAll_nth.
  assert (LC : length (nth j mv []) = nP) by (apply H, nth_In; lia).
  unfold samples, counts. cbn [flat_map]. rewrite app_nil_r.
  destruct (nth_error (vres w) j) as [v|]; [|destruct (Nat.eqb nP 1); auto; destruct (Nat.eqb (vpatch w) p); auto].
  rewrite updAt_nth, LC.
  assert (LT : Nat.ltb p nP = true) by (apply Nat.ltb_lt; lia). rewrite LT, andb_true_r.
  destruct (Nat.eqb nP 1) eqn:E1.
  - apply Nat.eqb_eq in E1. rewrite E1. cbn [Nat.ltb Nat.leb]. assert (p = 0)%nat as -> by lia. reflexivity.
  - apply Nat.eqb_neq in E1. assert (T : Nat.ltb 1 nP = true) by (apply Nat.ltb_lt; lia). rewrite T.
    rewrite (Nat.eqb_sym p (vpatch w)). destruct (Nat.eqb (vpatch w) p); reflexivity.
Qed.

Lemma samples_cons : forall nP p j (w : visitv (P:=P)) ws, samples nP p j (w :: ws) = (samples nP p j [w] ++ samples nP p j ws)%list.
Proof. intros. unfold samples. cbn. now rewrite app_nil_r. Qed.

Lemma samples_one : forall nP p j (w : visitv (P:=P)), samples nP p j [w] = [] \/ exists X v, samples nP p j [w] = [(X, v)].
Proof.
  intros. unfold samples. cbn. rewrite app_nil_r. destruct (counts nP p w); auto.
  destruct (nth_error (vres w) j); auto. right. eauto.
Qed.

Lemma visits_cell : forall nf nP ws mv j p, shaped nf nP mv -> (j < nf)%nat -> (p < nP)%nat ->
  let c := cellAt o (visitsMax mv ws) j p in
  let c0 := cellAt o mv j p in
  let l := samples nP p j ws in
  (forall v, In v (map snd l) -> Rabs v <= Rabs (snd c)) /\ Rabs (snd c0) <= Rabs (snd c) /\ (c = c0 \/ In c l).
Proof.
  intros nf nP ws. induction ws as [|w ws IH]; intros mv j p S Hj Hp; cbn -[samples cellAt].
  - repeat split; auto; [intros v []|apply Rle_refl].
  - specialize (IH (visitMax mv w) j p (updAll_shaped _ _ _ _ _ _ S) Hj Hp).
    change (visitsMax (visitMax mv w) ws) with (fold_left visitMax ws (visitMax mv w)) in IH.
    destruct IH as [A [B C]]. rewrite samples_cons, map_app.
    rewrite (visit_cell nf nP mv w j p S Hj Hp) in B, C.
    destruct (samples_one nP p j w) as [E | [X [v E]]]; rewrite E in *; cbn [app map].
    + repeat split; auto.
    + destruct (upd_step X v (cellAt o mv j p)) as [M Q].
      assert (V : Rabs v <= Rabs (snd (upd X v (cellAt o mv j p)))) by (rewrite M; apply Rmax_r).
      assert (W : Rabs (snd (cellAt o mv j p)) <= Rabs (snd (upd X v (cellAt o mv j p)))) by (rewrite M; apply Rmax_l).
      repeat split.
      * intros u [<- | I]; [cbn [snd]; lra | apply A, I].
      * lra.
      * destruct C as [C|C]; [|right; now right]. rewrite C. destruct Q as [-> | ->]; [left; auto | right; left; auto].
Qed.

Lemma init_shaped : forall nf mv nP, (0 < nP)%nat -> (mv = [] \/ shaped nf nP mv) -> shaped nf nP (fst (initMaxVals o nf mv nP)).
Proof.
  intros nf mv nP Hn [-> | [L H]].
  - cbn [initMaxVals fst]. assert (T : Nat.ltb 0 nP = true) by (apply Nat.ltb_lt; lia). rewrite T. split; [apply repeat_length|].
    intros cells I. apply repeat_spec in I. subst. apply repeat_length.
  - destruct mv as [|c mv].
    + cbn [initMaxVals fst]. cbn in L. assert (T : Nat.ltb 0 nP = true) by (apply Nat.ltb_lt; lia). rewrite T. subst nf. cbn. split; auto.
    + cbn [initMaxVals fst]. split; [now rewrite map_length|]. intros cells I. apply in_map_iff in I.
      destruct I as [x [<- I]]. rewrite map_length. auto.
Qed.

Lemma init_zero : forall nf mv nP j p, cellAt o (fst (initMaxVals o nf mv nP)) j p = (o, 0).
Proof.
  intros nf mv nP j p. unfold cellAt.
  assert (G : forall (m : maxvals (P:=P)), (forall cells, In cells m -> forall c, In c cells -> c = (o, 0)) ->
              nth p (nth j m []) (o, 0) = (o, 0)).
  { intros m H. destruct (nth_in_or_default j m []) as [I | ->]; [|destruct p; auto].
    destruct (nth_in_or_default p (nth j m []) (o, 0)) as [I2 | E]; auto. eapply H; eauto. }
  apply G. destruct mv as [|c mv].
  - cbn [initMaxVals fst]. destruct (Nat.ltb 0 nP); [|intros cells []]. intros cells I. apply repeat_spec in I. subst.
    intros c I. apply repeat_spec in I. auto.
  - cbn [initMaxVals fst]. intros cells I. apply in_map_iff in I. destruct I as [x [<- I]].
    intros d J. apply in_map_iff in J. destruct J as [y [<- _]]. auto.
Qed.

Theorem extreme_value : forall nf nP mv ws j p, (0 < nP)%nat -> (mv = [] \/ shaped nf nP mv) -> (j < nf)%nat -> (p < nP)%nat ->
  let c := cellAt o (visitsMax (fst (initMaxVals o nf mv nP)) ws) j p in
  isMaxAbs (Rabs (snd c)) (map snd (samples nP p j ws)) /\ (c = (o, 0) \/ In c (samples nP p j ws)).
Proof.
  intros nf nP mv ws j p Hn S Hj Hp c.
  destruct (visits_cell nf nP ws _ j p (init_shaped nf mv nP Hn S) Hj Hp) as [A [_ C]].
  rewrite init_zero in C. fold c in A, C. split; auto. split; auto.
  destruct C as [-> | C]; [left; cbn; apply Rabs_R0|]. right. exists (snd c). split; auto. now apply in_map.
Qed.

Lemma max_unique : forall l l' m m', (forall v : R, In v l <-> In v l') -> 0 <= m -> 0 <= m' ->
  isMaxAbs m l -> isMaxAbs m' l' -> m = m'.
Proof.
  intros l l' m m' E P0 P1 [A B] [A' B'].
  assert (m <= m').
  { destruct B as [-> | [v [I ->]]]; auto. apply A', E, I. }
  assert (m' <= m).
  { destruct B' as [-> | [v [I ->]]]; auto. apply A, E, I. }
  lra.
Qed.

Theorem extreme_order : forall nf nP mv ws ws' j p, (0 < nP)%nat -> (mv = [] \/ shaped nf nP mv) -> (j < nf)%nat -> (p < nP)%nat ->
  Permutation ws ws' ->
  Rabs (snd (cellAt o (visitsMax (fst (initMaxVals o nf mv nP)) ws) j p)) =
  Rabs (snd (cellAt o (visitsMax (fst (initMaxVals o nf mv nP)) ws') j p)).
Proof.
  intros nf nP mv ws ws' j p Hn S Hj Hp Q.
  eapply max_unique; [|apply Rabs_pos|apply Rabs_pos|apply (extreme_value nf nP mv ws j p)|apply (extreme_value nf nP mv ws' j p)]; auto.
  intros v. assert (PM : Permutation (map snd (samples nP p j ws)) (map snd (samples nP p j ws'))).
  { apply Permutation_map. unfold samples. now apply Permutation_flat_map. }
  split; apply Permutation_in; auto. now symmetry.
Qed.
End Ext.

Theorem mixed_name : forall c i prefix, (nsd c = 1 \/ continuum c) -> (axi c = true -> nsd c = 2) ->
  ((exists s, mixedField1Name c i prefix = Ret s) <-> ~ (axi c = true /\ S (nsd c) < i /\ i <> 12 /\ prefix <> None)).
Proof.
  intros c i p K A. unfold mixedField1Name.
  destruct (i <? nsd c) eqn:L; cbn [orb].
  - apply Nat.ltb_lt in L. rewrite (elasticity_name c i p K A). split; [intros _; lia|intros _; lia].
  - apply Nat.ltb_ge in L. destruct (S (nsd c) <? i) eqn:M; cbn [andb].
    + apply Nat.ltb_lt in M. destruct (i =? 12) eqn:T; cbn [negb].
      * apply Nat.eqb_eq in T. split; [intros _; lia|]. intros _. eexists. reflexivity.
      * apply Nat.eqb_neq in T. rewrite (elasticity_name c i p K A). split; intros H; intros [X Y]; apply H; repeat split; try tauto; lia.
    + apply Nat.ltb_ge in M. split; [intros _; lia|]. intros _. eexists. reflexivity.
Qed.
