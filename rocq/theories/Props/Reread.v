(** Re-reading the input after a mesh refinement (C140), and continuing on the new mesh (C141). *)
From Coq Require Import Sorting.Sorted QArith.
From Verif Require Import Lib.Base Lib.Vec3 Model.Couplings Model.ContactInput Model.Boundary Model.Tables Model.Reread Proofs.Couplings Proofs.Reread Spec.Reread.
Import ListNotations.
Local Open Scope nat_scope.

(** ** C140 *)
(** After any number of refinements the model has exactly the materials, boundary sections, rigid sets and dual functions of the
    input file, and the material the file chooses as that of the whole model. *)
Theorem C140_properties_partial : forall (M : Type) (dflt : M) file n s, after dflt file n = Ret s ->
  mats s = matsOf file /\
  (forall m, chosen file = Some m -> cur s = Some m) /\
  (StronglySorted Z.lt (secs s) /\ forall c, In c (secs s) <-> In (TForce c) (elastTags file)) /\
  (forall c, masters s c = rigidOf c file) /\ duals s = dualsOf file.
Proof.
  intros M dflt file n s E. pose proof (after_spec dflt file n) as H. rewrite E in H. destruct H as (_ & _ & A & B & C & D & _ & _ & _ & H).
  split; [exact A|]. split; [intros m K; rewrite B, K; reflexivity|]. split; [|split; [exact D|exact H]].
  rewrite C. destruct (addCodes_spec (codesIn (elastTags file)) []) as [S I]; [constructor|]. split; [exact S|]. intros c. rewrite I. unfold codesIn. rewrite in_flat_map. cbn. split.
  - intros [(t & T & K)|[]]. destruct t; cbn in K; try contradiction. destruct K as [->|[]]. exact T.
  - intros T. left. exists (TForce c). split; [exact T|now left].
Qed.
(** A file with a material and neither nodal couplings nor contact gives the same model after any number of refinements as a first reading. *)
Theorem C140_same_partial : forall (M : Type) (dflt : M) file n, chosen file <> None -> (forall p, linesOf p file = []) -> contactsOf file = [] ->
  exists s0 s, after dflt file 0 = Ret s0 /\ after dflt file n = Ret s /\ same s s0.
Proof.
  intros M dflt file n N L K. pose proof (after_spec dflt file 0) as H0. pose proof (after_spec dflt file n) as H.
  destruct (after dflt file 0) as [| |s0]; [contradiction|destruct H0; contradiction|]. destruct (after dflt file n) as [| |s]; [contradiction|destruct H; contradiction|].
  exists s0, s. split; [reflexivity|]. split; [reflexivity|]. destruct H as (_ & _ & A & B & C & D & E & F & G & H). destruct H0 as (_ & _ & A0 & B0 & C0 & D0 & E0 & F0 & G0 & H0).
  unfold same. rewrite A, A0, B, B0, C, C0, F, F0, G, G0, H, H0. destruct (chosen file); [|congruence].
  repeat split; try reflexivity; [intros c; rewrite D, D0; reflexivity|]. intros p. unfold patchCouplings. rewrite E, E0, L.
  replace (times (S n) (@nil line)) with (@nil line); [reflexivity|]. clear. induction (S n) as [|k IH]; [reflexivity|]. cbn. rewrite <- IH. reflexivity.
Qed.
Example C140_same_case : let file := [Elast [TMat 10; TForce 3%Z; TForce 1%Z; TRigid 2%Z 5%Z]; Finite [TMat 20; TMat 30]] in
  chosen file = Some 20 /\ matsOf file = [10; 20; 30] /\ rigidOf 2 file = Some 5%Z /\
  exists s, after 0 file 2 = Ret s /\ secs s = [1; 3]%Z /\ cur s = Some 20.
Proof. cbv zeta. split; [reflexivity|]. split; [reflexivity|]. split; [reflexivity|]. eexists. split; [vm_compute; reflexivity|split; reflexivity]. Qed.

(** Nodal couplings are added again by every reading: after [n] refinements the displacement of a slave node
    is [n+1] times the weighted sum of those of its masters. *)
Theorem C140_couplings : forall (M : Type) (dflt : M) file n s p, after dflt file n = Ret s ->
  (forall c u, In c (patchCouplings s p) -> slaveDisp c u = vscal (INR (S n)) (weighted (mastersOf (slaveOf c) (linesOf p file)) u)) /\
  NoDup (map slaveOf (patchCouplings s p)) /\
  (forall k, mastersOf k (linesOf p file) <> [] -> exists c, In c (patchCouplings s p) /\ slaveOf c = k).
Proof.
  intros M dflt file n s p E. pose proof (after_spec dflt file n) as H. rewrite E in H. destruct H as (_ & _ & _ & _ & _ & _ & H & _).
  unfold patchCouplings. rewrite H. fold (couplings (times (S n) (linesOf p file))). split; [|split; [apply couplings_unique|]].
  - intros c u I. rewrite (proj1 (couplings_spec _ _ I u)), mastersOf_times, weighted_times. reflexivity.
  - intros k K. apply couplings_complete. rewrite mastersOf_times. cbn [times]. intros Z. apply app_eq_nil in Z. destruct Z. contradiction.
Qed.
Theorem C140_couplings_refuted : exists file s c, after tt file 1 = Ret s /\ In c (patchCouplings s 1%Z) /\
  slaveDisp c (fun _ => V 1 0 0) = V 2 0 0 /\ weighted (mastersOf (slaveOf c) (linesOf 1%Z file)) (fun _ => V 1 0 0) = V 1 0 0.
Proof.
  exists [Elast [TMat tt; TCoupling 1%Z [(5%Z, [(6%Z, 1%R)])]]]. eexists. eexists. split; [reflexivity|]. split; [left; reflexivity|].
  unfold slaveDisp, weighted, vadd, vscal, vzero. cbn. split; f_equal; lra.
Qed.
Example C140_couplings_case : exists s, after tt [Elast [TMat tt; TCoupling 1%Z [(5%Z, [(6%Z, 1%R)])]]] 0 = Ret s /\
  forall c, In c (patchCouplings s 1%Z) -> slaveDisp c (fun _ => V 1 0 0) = V 1 0 0.
Proof.
  eexists. split; [reflexivity|]. intros c H. destruct (C140_couplings unit tt [Elast [TMat tt; TCoupling 1%Z [(5%Z, [(6%Z, 1%R)])]]] 0 _ 1%Z eq_refl) as (A & _).
  rewrite (A c _ H). destruct H as [<-|[]]. cbn. unfold weighted, vadd, vscal, vzero. cbn. destruct (Req_EM_T 1 1); cbn; f_equal; lra.
Qed.

(** A contact analysis can be read once only: no refinement succeeds. *)
Theorem C140_contact_refuted : forall (M : Type) (dflt : M) file n, contactsOf file <> [] -> after dflt file (S n) = Rejected.
Proof.
  intros M dflt file n K. pose proof (after_spec dflt file (S n)) as H. destruct (after dflt file (S n)) as [| |s]; [contradiction|reflexivity|].
  destruct H as (H & _). rewrite H in K by lia. congruence.
Qed.
Theorem C140_contact_once_partial : forall (M : Type) (dflt : M) file bs, contactsOf file = [bs] -> exists s, after dflt file 0 = Ret s /\ contact s = true /\ bodies s = map readBody bs.
Proof.
  intros M dflt file bs K. pose proof (after_spec dflt file 0) as H. destruct (after dflt file 0) as [| |s]; [contradiction| |].
  - destruct H as [_ H]. rewrite K in H. cbn in H. specialize (H eq_refl). lia.
  - exists s. split; [reflexivity|]. destruct H as (_ & _ & _ & _ & _ & _ & _ & F & G & _). rewrite F, G, K. cbn. rewrite app_nil_r. auto.
Qed.
Example C140_contact_case : contactsOf [Finite [TMat 1; TContact [[Slave [1%Z]; Eps 1]]]] = [[[Slave [1%Z]; Eps 1]]].
Proof. reflexivity. Qed.

(** A file without material uses the default material before, and none at all after, a refinement. *)
Theorem C140_default_refuted : forall (M : Type) (dflt : M) file n s, chosen file = None -> after dflt file n = Ret s ->
  cur s = if n =? 0 then Some dflt else None.
Proof.
  intros M dflt file n s N E. pose proof (after_spec dflt file n) as H. rewrite E in H. destruct H as (_ & _ & _ & B & _). rewrite B, N. reflexivity.
Qed.
Example C140_default_case : exists s, after 7 [Elast [TForce 1%Z]] 1 = Ret s /\ cur s = None. Proof. eexists. split; reflexivity. Qed.

(** Shells: a patch whose material has a constant non-zero thickness, or for whose material index there is a thickness function,
    gets the same material and thickness after any number of refinements; the function is one that exists. *)
Theorem C140_thickness_partial : forall (M F : Type) (l : list (iso M F)) ps p t n, (forall q, In q (ps ++ [p]) -> (0 <= q)%Z) -> l <> [] -> (Z.of_nat (length l) < wrap)%Z ->
  tableThick l (Z.min p (Z.of_nat (length l) - 1)) = Some t ->
  exists s, shellAfter l (ps ++ [p]) n = Ret s /\ curMat (klp s) = nth_error (map emat l) (Nat.min (Z.to_nat p) (length l - 1)) /\
    exists_ n (curThick (klp s)) = true /\
    match curThick (klp s) with Func (_, f) => t = Func f | Const x => t = Const x | NoThick => t = NoThick end.
Proof.
  intros M F l ps p t n P N W T. destruct (shell_table l ps p t n P N W T) as (s & E & K & Q). exists s. split; [exact E|]. split; [exact K|]. rewrite Q.
  destruct t; cbn; rewrite ?Nat.eqb_refl; split; reflexivity.
Qed.
Example C140_thickness_case : let l := [mkIso 1 (1#2)%Q 10 None; mkIso 1 0%Q 20 (Some 77)] in
  tableThick l 0 = Some (Const (1#2)%Q) /\ tableThick l 1 = Some (Func 77).
Proof. split; reflexivity. Qed.
(** Otherwise the thickness function deleted before the second reading is still in use. *)
Theorem C140_thickness_refuted : exists l : list (iso nat nat), exists s0 s1, shellAfter l [0%Z] 0 = Ret s0 /\ exists_ 0 (curThick (klp s0)) = true /\
  shellAfter l [0%Z] 1 = Ret s1 /\ exists_ 1 (curThick (klp s1)) = false.
Proof. exists [mkIso 1 0%Q 10 (Some 77)]. eexists. eexists. split; [vm_compute; reflexivity|]. split; [reflexivity|]. split; [vm_compute; reflexivity|reflexivity]. Qed.

(** ** C141 *)
(** What a successful or unsuccessful adaptation depends on, and that nothing changes without one. *)
Theorem C141_outcome : forall (M : Type) adap file a (d : driver M), 
  (adap = false \/ calc a = 0%Z -> adaptMesh adap file a d = Ret (true, d)) /\
  (adap = true -> (calc a < 0)%Z -> adaptMesh adap file a d = Ret (false, d)) /\
  (forall d', adap = true -> (0 < calc a)%Z -> adaptMesh adap file a d = Ret (true, d') ->
     refineOk a = true /\ readOk a = true /\ prepOk a = true /\ initOk a = true /\ (vtf a = true -> saveOk a = true) /\
     aStep d' = S (aStep d) /\ readFile file (clear (mdl d)) = Ret (mdl d')).
Proof.
  intros M adap file a d. split; [|split].
  - intros [->|E]; [reflexivity|]. unfold adaptMesh. rewrite E. destruct adap; reflexivity.
  - intros -> E. unfold adaptMesh. apply Z.ltb_lt in E. rewrite E. reflexivity.
  - intros d' -> E. unfold adaptMesh. cbn [negb]. destruct (Z.ltb_spec (calc a) 0); [lia|]. destruct (Z.eqb_spec (calc a) 0); [lia|].
    destruct (refineOk a); [|discriminate]. cbn [negb mdl]. destruct (readFile file (clear (mdl d))) as [| |m]; try discriminate.
    destruct (readOk a); [|discriminate]. destruct (prepOk a); [|discriminate]. destruct (initOk a); [|discriminate]. cbn [negb solution aStep weights].
    destruct (injectAll _ _ _ _ _); try discriminate. cbn [bind]. destruct (vtf a); cbn [negb]; intros Q; injection Q; intros; subst d'; cbn; repeat split; auto; discriminate.
Qed.
(** If every part succeeds, so does the adaptation; without a result file nothing has to be written. *)
Theorem C141_succeeds : forall (M : Type) file a (d : driver M) m l, (0 < calc a)%Z -> refineOk a = true -> readFile file (clear (mdl d)) = Ret m ->
  readOk a = true -> prepOk a = true -> initOk a = true -> injectAll (refined a) (length (solution d)) (length (solution d)) (patches a) (nDof a) = Ret l ->
  (vtf a = false \/ saveOk a = true) -> adaptMesh true file a d = Ret (true, mkDriver (refined a) (S (aStep d)) (weights d) m).
Proof.
  intros M file a d m l C R1 R2 R3 R4 R5 R6 V. unfold adaptMesh. cbn [negb]. destruct (Z.ltb_spec (calc a) 0); [lia|]. destruct (Z.eqb_spec (calc a) 0); [lia|].
  rewrite R1. cbn [negb mdl]. rewrite R2, R3, R4, R5. cbn [negb solution aStep weights]. rewrite R6. cbn [bind].
  destruct V as [-> | ->]; [reflexivity|]. destruct (vtf a); reflexivity.
Qed.
Example C141_succeeds_case : exists d', adaptMesh true [Elast [TMat 1]] (mkAnswers 1 true [[1; 2; 3]]%R true true true false false 3 [seq 0 3]) (mkDriver [[1; 3]%R] 0 [] (fresh 0)) = Ret (true, d') /\ aStep d' = 1.
Proof.
  eexists. split; [eapply C141_succeeds; try reflexivity; left; reflexivity | reflexivity].
Qed.
(** On a model of one patch, whose values are numbered as its unknowns, the solution vectors are those transferred by the refinement. *)
Theorem C141_one_patch_partial : forall (M : Type) file a (d d' : driver M), (0 < calc a)%Z -> adaptMesh true file a d = Ret (true, d') ->
  patches a = [seq 0 (nDof a)] -> length (refined a) = length (solution d) -> (forall v, In v (refined a) -> length v = nDof a) ->
  carried (nDof a) (patches a) (length (solution d)) (fun p i => nth (p * length (solution d) + i) (refined a) []) (solution d').
Proof.
  intros M file a d d' C E P L V. assert (S : solution d' = refined a).
  { unfold adaptMesh in E. cbn [negb] in E. destruct (Z.ltb_spec (calc a) 0); [lia|]. destruct (Z.eqb_spec (calc a) 0); [lia|].
    destruct (refineOk a); [|discriminate]. cbn [negb mdl] in E. destruct (readFile file (clear (mdl d))) as [| |m]; try discriminate.
    destruct (readOk a); [|discriminate]. destruct (prepOk a); [|discriminate]. destruct (initOk a); [|discriminate]. cbn [negb solution aStep weights] in E.
    destruct (injectAll _ _ _ _ _); try discriminate. cbn [bind] in E. destruct (vtf a); cbn [negb] in E; injection E; intros; subst d'; reflexivity. }
  rewrite S, P. split; [exact L|]. intros i g G. split; [apply V; exact (nth_error_In _ _ G)|]. intros p dofs k dof Hp Hk.
  destruct p as [|p]; [|destruct p; discriminate]. injection Hp as <-. cbn. rewrite (nth_error_nth _ _ _ G).
  assert (k < nDof a) by (apply nth_error_Some in Hk || (assert (N : nth_error (seq 0 (nDof a)) k <> None) by congruence; apply nth_error_Some in N; rewrite seq_length in N; exact N)).
  rewrite nth_error_nth' with (d := 0) in Hk by (rewrite seq_length; assumption). rewrite seq_nth in Hk by assumption. injection Hk as <-. reflexivity.
Qed.
(** The vectors assembled from the patches would be right on any number of patches whose common values agree ... *)
Theorem C141_assembled_partial : forall sol nsol ps nd, length ps * nsol <= length sol ->
  (forall p dofs v k i, nth_error ps p = Some dofs -> i < nsol -> nth_error sol (p * nsol + i) = Some v -> length v = length dofs /\ (forall dof, nth_error dofs k = Some dof -> dof < nd)) ->
  (forall i, i < nsol -> agree nsol sol ps i) ->
  exists l, injectAll sol nsol nsol ps nd = Ret l /\ carried nd ps nsol (fun p i => nth (p * nsol + i) sol []) l.
Proof.
  intros sol nsol ps nd L V A. destruct (injectAll_total nd nsol sol ps nsol (le_n _) L) as [l E]. exists l. split; [exact E|].
  destruct (injectAll_spec nd nsol sol ps nsol l E) as [N I]. split; [exact N|]. intros i g G. destruct (I i g G) as [Li Ig].
  split; [rewrite (injectPatches_length nsol sol i ps _ _ _ Ig), repeat_length; reflexivity|]. intros p dofs k dof Hp Hk.
  assert (Lp : p < length ps) by (apply nth_error_Some; congruence).
  destruct (nth_error sol (p * nsol + i)) as [v|] eqn:Ev; [|apply nth_error_None in Ev; nia]. rewrite (nth_error_nth _ _ _ Ev).
  destruct (V p dofs v k i Hp Li Ev) as [Lv B]. assert (Lk : k < length v) by (rewrite Lv; apply nth_error_Some; congruence).
  destruct (nth_error v k) as [x|] eqn:Ex; [|apply nth_error_None in Ex; lia].
  apply (injectPatches_get nsol sol i ps 0 _ g p dofs k dof v x Ig Hp Hk Ev Ex); [rewrite repeat_length; exact (B dof Hk)|].
  intros q dq j vq y Hq Hj Hs Hy. exact (A i Li q p dq dofs j k dof vq v y x Hq Hp Hj Hk Hs Ev Hy Ex).
Qed.
(** ... but they are dropped: with two patches the solution is left as a set of patch vectors. *)
Theorem C141_patches_refuted : exists file a (d d' : driver nat), adaptMesh true file a d = Ret (true, d') /\
  (exists l, injectAll (refined a) (length (solution d)) (length (solution d)) (patches a) (nDof a) = Ret l /\
     carried (nDof a) (patches a) (length (solution d)) (fun p i => nth (p * length (solution d) + i) (refined a) []) l) /\
  ~ carried (nDof a) (patches a) (length (solution d)) (fun p i => nth (p * length (solution d) + i) (refined a) []) (solution d').
Proof.
  exists [Elast [TMat 1]], (mkAnswers 1 true [[1; 2]; [2; 3]]%R true true true false true 3 [[0; 1]; [1; 2]]), (mkDriver [[1; 2; 3]%R] 0 [] (fresh 0)).
  eexists. split; [reflexivity|]. split.
  - eexists. split; [reflexivity|]. cbn. split; [reflexivity|]. intros [|[|i]] g G; try discriminate. injection G as <-. split; [reflexivity|].
    intros [|[|[|p]]] dofs k dof Hp Hk; try discriminate; injection Hp as <-; destruct k as [|[|[|k]]]; try discriminate; injection Hk as <-; reflexivity.
  - cbn. intros [H _]. discriminate.
Qed.
Example C141_one_patch_case : exists d', adaptMesh true [Elast [TMat 1]] (mkAnswers 1 true [[1; 2; 3]]%R true true true false true 3 [seq 0 3]) (mkDriver [[1; 3]%R] 0 [] (fresh 0)) = Ret (true, d') /\
  solution d' = [[1; 2; 3]%R].
Proof. eexists. split; reflexivity. Qed.

(** The history of all material points is lost: materials are those of a first reading. *)
Theorem C141_history_refuted : forall (P H : Type) (file : list (element (P * list H))) a (d d' : driver (P * list H)),
  (0 < calc a)%Z -> adaptMesh true file a d = Ret (true, d') -> (forall m, In m (matsOf file) -> snd m = []) ->
  forall m, In m (mats (mdl d')) -> snd m = [].
Proof.
  intros P H file a d d' C E N m I. destruct (C141_outcome _ true file a d) as (_ & _ & O). destruct (O d' eq_refl C E) as (_ & _ & _ & _ & _ & _ & R).
  pose proof (file_spec file (clear (mdl d))) as F. rewrite R in F. destruct F as (_ & _ & A & _). rewrite A in I. exact (N m I).
Qed.
Example C141_history_case : exists d d' : driver (nat * list nat), In (1, [5; 6]) (mats (mdl d)) /\
  adaptMesh true [Elast [TMat (1, [])]] (mkAnswers 1 true [[0]]%R true true true false true 1 [[0]]) d = Ret (true, d') /\ mats (mdl d') = [(1, [])].
Proof. exists (mkDriver [[0]%R] 0 [] (mkModel [(1, [5; 6])] None [] (fun _ => None) (fun _ => []) false [] [])). eexists. split; [now left|]. split; reflexivity. Qed.

(** Section forces: right at every step, as long as the mesh stays the same or there is only one section. *)
Definition goodWeights (w : list R) (nn : nat) (ss : list (list nat)) : Prop := w = [] \/ (1 < length ss /\ w = map (fun i => nodeWeight ss (S i)) (seq 0 nn)).
Theorem C141_forces_partial : forall w nn ss f, (forall s n, In s ss -> In n s -> 1 <= n <= nn) -> 0 < nn -> goodWeights w nn ss ->
  exists w' vs, calcForces w nn ss f = Ret (w', vs) /\ goodWeights w' nn ss /\
    Forall2 (fun s v => forall k, v k = sectionForce ss f s k) ss vs.
Proof.
  intros w nn ss f B N G. unfold calcForces.
  assert (I : initWeights w nn ss = if 1 <? length ss then map (fun i => nodeWeight ss (S i)) (seq 0 nn) else []).
  { destruct G as [->|[L ->]]; [reflexivity|]. apply Nat.ltb_lt in L. unfold initWeights. rewrite L. destruct nn; [lia|reflexivity]. }
  rewrite I. cbv zeta. set (w' := if 1 <? length ss then _ else _).
  assert (G' : goodWeights w' nn ss) by (unfold goodWeights, w'; destruct (Nat.ltb_spec 1 (length ss)); [right; auto|now left]).
  assert (Q : forall l, (forall s, In s l -> In s ss) -> exists vs, forcesAt w' f l = Ret vs /\ Forall2 (fun s v => forall k, v k = sectionForce ss f s k) l vs).
  { induction l as [|s l IH]; intros H; [exists []; split; [reflexivity|constructor]|]. destruct IH as (vs & E & V); [intros; apply H; now right|]. cbn [forcesAt].
    assert (K : exists v, forceAt w' f s = Ret v /\ forall k, v k = sectionForce ss f s k).
    { unfold sectionForce, w'. destruct (1 <? length ss); [|exact (forceAt_none f s)]. apply (forceAt_some f _ nn (nodeWeight ss)); [reflexivity|destruct nn; [lia|discriminate]|].
      intros n Hn. apply (B s n); [apply H; now left|exact Hn]. }
    destruct K as (v & Ev & Kv). rewrite Ev, E. exists (v :: vs). split; [reflexivity|]. constructor; assumption. }
  destruct (Q ss (fun s H => H)) as (vs & E & V). exists w', vs. rewrite E. split; [reflexivity|]. split; assumption.
Qed.
Example C141_forces_case : goodWeights [] 3 [[1; 2]; [2; 3]] /\ exists vs, calcForces [] 3 [[1; 2]; [2; 3]] (fun n _ => INR n) = Ret (map (fun i => nodeWeight [[1; 2]; [2; 3]] (S i)) (seq 0 3), vs).
Proof. split; [now left|]. eexists. reflexivity. Qed.
(** After a refinement the weights are still those of the nodes of the old mesh. *)
Theorem C141_weights_refuted : exists w ss ss' f, (exists vs, calcForces [] 3 ss f = Ret (w, vs)) /\
  (forall s n, In s ss' -> In n s -> 1 <= n <= 5) /\ calcForces w 5 ss' f = UB /\ forall M file a (d d' : driver M), adaptMesh true file a d = Ret (true, d') -> weights d' = weights d.
Proof.
  exists (map (fun i => nodeWeight [[1; 2]; [2; 3]] (S i)) (seq 0 3)), [[1; 2]; [2; 3]], [[1; 2; 3]; [3; 4; 5]], (fun _ _ => 0%R).
  split; [eexists; reflexivity|]. split; [intros s n [<-|[<-|[]]]; cbn; lia|]. split; [reflexivity|].
  intros M file a d d'. unfold adaptMesh. cbn [negb]. destruct (calc a <? 0)%Z; [discriminate|]. destruct (calc a =? 0)%Z; [intros [= <-]; reflexivity|].
  destruct (refineOk a); [|discriminate]. cbn [negb mdl]. destruct (readFile file (clear (mdl d))) as [| |m]; try discriminate.
  destruct (readOk a); [|discriminate]. destruct (prepOk a); [|discriminate]. destruct (initOk a); [|discriminate]. cbn [negb solution aStep weights].
  destruct (injectAll _ _ _ _ _); try discriminate. cbn [bind]. destruct (vtf a); cbn [negb]; intros Q; injection Q; intros; subst d'; reflexivity.
Qed.

Print Assumptions C140_properties_partial.
Print Assumptions C140_same_partial.
Print Assumptions C140_couplings.
Print Assumptions C140_couplings_refuted.
Print Assumptions C140_contact_refuted.
Print Assumptions C140_contact_once_partial.
Print Assumptions C140_default_refuted.
Print Assumptions C140_thickness_partial.
Print Assumptions C140_thickness_refuted.
Print Assumptions C141_outcome.
Print Assumptions C141_succeeds.
Print Assumptions C141_one_patch_partial.
Print Assumptions C141_assembled_partial.
Print Assumptions C141_patches_refuted.
Print Assumptions C141_history_refuted.
Print Assumptions C141_forces_partial.
Print Assumptions C141_weights_refuted.
