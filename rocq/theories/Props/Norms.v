(** Property C31: norm labels; property C78: external energy of the updated Lagrangian norm. *)
From Coq Require Import List String Ascii Arith Bool Reals Lra Lia.
From Verif Require Import Lib.Base Lib.Sums Model.Labels Model.Norms Spec.Norms Proofs.Norms Proofs.NormsPlate.
Import ListNotations.
Open Scope string_scope.
Open Scope nat_scope.

(** ** C31, continuum *)

(** With an analytical solution, first group.  Missing: a prefix is dropped from the names of
    the extraction entries when there are several extraction functions. *)
Theorem C31_first_partial : forall n j prefix, 1 <= j <= firstFields true n -> (prefix = None \/ n <= 1 \/ j <= 5) ->
  exists q, (forall d psol, fits true n d -> firstEntry d j = integrand d psol q) /\
            getName true n 1 j prefix = Some (Ret (pfx prefix (describeNorm n q))).
Proof. exact first_ana. Qed.
Print Assumptions C31_first_partial.

(** Without one, the entries before those of the extraction functions. *)
Theorem C31_first_plain_partial : forall n j prefix, 1 <= j <= 3 ->
  exists q, (forall d psol, fits false n d -> firstEntry d j = integrand d psol q) /\
            getName false n 1 j prefix = Some (Ret (pfx prefix (describeNorm n q))).
Proof. intros n j prefix J. apply first_plain; auto. right; right; lia. Qed.
Print Assumptions C31_first_plain_partial.

(** Every extraction entry is misnamed without an analytical solution. *)
Theorem C31_extraction_refuted : forall n j, 4 <= j <= firstFields false n ->
  (forall d psol, fits false n d -> firstEntry d j = integrand d psol (VirtH (j - 3))) /\
  exists s, getName false n 1 j None = Some (Ret s) /\ s <> describeNorm n (VirtH (j - 3)).
Proof. exact plain_wrong. Qed.
Print Assumptions C31_extraction_refuted.

(** The dropped prefix. *)
Theorem C31_prefix_refuted : forall n p, 2 <= n -> p <> "" ->
  getName true n 1 6 (Some p) = Some (Ret (describeNorm n (VirtH 1))) /\
  describeNorm n (VirtH 1) <> pfx (Some p) (describeNorm n (VirtH 1)).
Proof.
  intros n p N P. split.
  - unfold getName, describeNorm. change (1 <? 1) with false. change (1 =? 1) with true. change (1 =? 0) with false. change (6 =? 0) with false.
    cbn [andb orb negb]. assert (E1 : (5 + n * 2 <? 6) = false) by (apply Nat.ltb_ge; lia). rewrite E1.
    rewrite Nat.div_mul by lia. assert (E2 : (1 <? n) = true) by (apply Nat.ltb_lt; lia). rewrite E2.
    assert (E3 : (n =? 1) = false) by (apply Nat.eqb_neq; lia). rewrite E3. reflexivity.
  - intros E. apply (f_equal String.length) in E. unfold pfx in E.
    assert (L : forall a b, String.length (a ++ b)%string = String.length a + String.length b)
      by (induction a; intros; cbn; auto). rewrite !L in E. cbn in E. lia.
Qed.
Print Assumptions C31_prefix_refuted.

(** Projections, with and without analytical solution, in any group. *)
Theorem C31_projection_partial : forall anasol n g j prefix, 2 <= g -> 1 <= j <= projFields anasol ->
  exists q, (forall d k psol, fits anasol n d -> nth_error (prj d) k = Some (Some psol) ->
               projEntry anasol n d k j = integrand d psol q) /\
            getName anasol n g j prefix = Some (Ret (pfx prefix (describeNorm n q))).
Proof. exact proj_named. Qed.
Print Assumptions C31_projection_partial.

(** A name tells the quantities of a run apart. *)
Theorem C31_distinct_partial : forall n q1 q2, n <> 1 -> describeNorm n q1 = describeNorm n q2 ->
  q1 = q2.
Proof. exact describeNorm_inj. Qed.
Print Assumptions C31_distinct_partial.

(** The effectivity index is the projected error over the exact one; nothing else changes. *)
Theorem C31_effectivity_partial : forall n m pn, let size := firstFields true n + 6 * m in
  (forall k, k < m -> finalizeElement true n size pn (firstFields true n + 6 * k + 5) = Rdiv (pn (firstFields true n + 6 * k + 1)) (pn 3)) /\
  (forall i, (forall k, k < m -> i <> firstFields true n + 6 * k + 5) -> finalizeElement true n size pn i = pn i).
Proof. exact effectivity. Qed.
Print Assumptions C31_effectivity_partial.

(** A plane strain point with analytical solution, two extraction functions and two
    projections, the first one missing. *)
Definition somePoint : point :=
  mkPoint [[1; 0; 0]; [0; 1; 0]; [0; 0; 2]]%R [1; 2; 7; 3]%R (Some [2; 2; 8; 1]%R) (Some 5%R)
    [[1; 0; 0]; [0; 1; 0]]%R [None; Some (fun j => INR j)] 4 2 false 0 false.
Example C31_case : fits true 2 somePoint /\
  firstEntry somePoint 7 = (2 * 2)%R /\ getName true 2 1 7 None = Some (Ret "a(u,w1)") /\
  projEntry true 2 somePoint 1 3 = ((0 * 0 + 1 * 1 + 3 * 3) * 2)%R.
Proof.
  split; [repeat split; cbn; auto; intros; discriminate|].
  split; [cbn; lra|]. split; [reflexivity|]. cbn. lra.
Qed.

(** The boundary contributes to the entry of the external work only. *)
Theorem C31_boundary : forall anasol n d pn, exists j, getName anasol n 1 j None = Some (Ret (describeNorm n External)) /\
  forall k, evalBou d pn k = (pn k + if (S k =? j)%nat then boundaryPart d External else 0)%R.
Proof.
  intros anasol n d pn. exists 2. split.
  - unfold getName. change (1 <? 1) with false. change (1 =? 1) with true. change (1 =? 0) with false. change (2 =? 0) with false. cbn [orb andb negb].
    destruct anasol; cbn [negb andb]; (match goal with |- context [?a <? 2] => assert (E : (a <? 2) = false) by (apply Nat.ltb_ge; lia); rewrite E end); reflexivity.
  - intros k. unfold evalBou, boundaryPart. rewrite <- weight_eq. destruct (loads d); destruct (Nat.eqb_spec k 1) as [->|N]; cbn [Nat.eqb];
      try (assert (E : (k =? 1) = false) by (now apply Nat.eqb_neq)); rewrite ?E; ring.
Qed.
Print Assumptions C31_boundary.
Example C31_boundary_case : exists d, loads d <> None.
Proof. exists (mkPoint [] [] None (Some 1%R) [] [] 0 1 false 0 false). discriminate. Qed.

(** Updated Lagrangian norms: every entry is what its label says. *)
Theorem C31_updated : forall m S U vm detF JW j, 1 <= j <= 7 -> exists q,
  nth_error ulNames (j - 1) = Some (describeUL q) /\ nth (j - 1) (ulIncr (ulPoint m S U vm detF JW)) 0%R = ulIntegrand m S U vm detF JW q.
Proof.
  intros m S U vm detF JW j J.
  assert (E : forall A B : nat -> nat -> R, (forall i k, A i k = B i k) -> sumf m (fun i => sumf m (A i)) = sumf m (fun i => sumf m (B i))).
  { intros A B H. apply sumf_ext. intros i _. apply sumf_ext. intros k _. apply H. }
  assert (j = 1 \/ j = 2 \/ j = 3 \/ j = 4 \/ j = 5 \/ j = 6 \/ j = 7) as C by lia.
  destruct C as [->|[->|[->|[->|[->|[->| ->]]]]]]; [exists ULEnergy|exists ULExternal|exists ULStress|exists ULPressure|exists ULDev|exists ULMises|exists ULVolume];
    (split; [reflexivity|]); unfold ulIncr, ulPoint, ulIntegrand; cbn [ulU ulSS ulP ulDev ulVM ulDetF ulJW nth Nat.sub]; try ring.
  - unfold normSq. rewrite (E _ (fun i k => S i k ^ 2)%R) by (intros; ring). ring.
  - unfold meanOf. ring.
  - unfold normSq. rewrite (E _ (fun i k => deviator m S i k ^ 2)%R); [ring|]. intros i k. unfold deviator, meanOf, kron. destruct (i =? k); ring.
Qed.
Print Assumptions C31_updated.
Example C31_updated_case : nth 4 (ulIncr (ulPoint 3 (fun i j => if (i =? j)%nat then 2 else 0) 0 0 1 1)%R) 0%R = 0%R.
Proof. unfold ulIncr, ulPoint. cbn. field. Qed.

(** No name function reads outside its table. *)
Theorem C31_no_overrun : forall withAna n i j prefix,
  getName withAna n i j prefix <> Some UB /\ plateName withAna i j prefix <> Some UB /\ shellName i j prefix <> Some UB.
Proof.
  assert (N : forall (t : list string) k p, k < List.length t -> match nth_error t k with Some s => Ret (pfx p s) | None => UB end <> UB).
  { intros t k p K. apply nth_error_Some in K. destruct (nth_error t k); [discriminate|congruence]. }
  assert (SI : forall x y : res string, Some x = Some y -> x = y) by (intros x y e; now injection e).
  intros withAna n i j prefix. split; [|split].
  - unfold getName. destruct ((i =? 0) || (j =? 0) || _)%bool eqn:E; [discriminate|]. apply orb_false_elim in E. destruct E as [E E3]. apply orb_false_elim in E. destruct E as [E1 E2].
    apply Nat.ltb_ge in E3. apply Nat.eqb_neq in E2. intros H. apply SI in H. revert H.
    destruct (Nat.eqb_spec i 1) as [->|I1].
    + change (1 <? 1) with false in *. cbn [andb] in *. destruct withAna; cbn [negb andb] in *.
      * replace (n * 2 / 2) with n by (now rewrite Nat.div_mul). destruct (5 <? j) eqn:J5; cbn [andb].
        -- apply Nat.ltb_lt in J5. destruct (1 <? n) eqn:N1; [destruct (Nat.odd _); intros D; discriminate D|]. apply Nat.ltb_ge in N1. refine (N _ _ _ _); cbn; lia.
        -- apply Nat.ltb_ge in J5. refine (N _ _ _ _); cbn; lia.
      * destruct ((2 <? j) && (j <? 4))%bool eqn:J3.
        -- apply andb_prop in J3. destruct J3 as [A B]. apply Nat.ltb_lt in A, B. assert (j = 3) by lia. subst j. change (5 <? 3 + 2) with false. cbn [andb]. refine (N uNames (3 + 2 - 1) prefix _); cbn; lia.
        -- destruct (5 <? j) eqn:J5; cbn [andb].
           ++ destruct (1 <? n) eqn:N1; [intros D; discriminate D|]. apply Nat.ltb_ge in N1. refine (N _ _ _ _); cbn; lia.
           ++ apply Nat.ltb_ge in J5. refine (N _ _ _ _); cbn; lia.
    + apply Nat.eqb_neq in E1. assert (L : (1 <? i) = true) by (apply Nat.ltb_lt; lia). rewrite L in *. cbn [andb] in E3. refine (N _ _ _ _); cbn; lia.
  - unfold plateName. destruct ((i =? 0) || (j =? 0) || (9 <? j) || _)%bool eqn:E; [discriminate|]. repeat (apply orb_false_elim in E; destruct E as [E ?]).
    apply Nat.eqb_neq in H1. apply Nat.ltb_ge in H0. intros K. apply SI in K. revert K. apply Nat.eqb_neq in E.
    destruct (1 <? i) eqn:L.
    + assert (i =? 1 = false) as I1 by (apply Nat.eqb_neq; apply Nat.ltb_lt in L; lia). rewrite I1, andb_false_r. cbn [andb]. refine (N _ _ _ _); cbn; lia.
    + apply Nat.ltb_ge in L. assert (i = 1) by lia. subst i. cbn [Nat.eqb andb] in H. apply Nat.ltb_ge in H. destruct (negb withAna && (1 =? 1) && (j =? 3))%bool; [refine (N wNames (6 - 1) prefix _); cbn; lia|refine (N wNames (j - 1) prefix _); cbn; lia].
  - unfold shellName. destruct ((i =? 0) || (j =? 0) || (6 <? j) || _)%bool eqn:E; [discriminate|]. repeat (apply orb_false_elim in E; destruct E as [E ?]).
    apply Nat.eqb_neq in H1. apply Nat.ltb_ge in H0. intros K. apply SI in K. revert K. apply Nat.eqb_neq in E.
    destruct (1 <? i) eqn:L; [refine (N _ _ _ _); cbn; lia|]. apply Nat.ltb_ge in L. assert (i = 1) by lia. subst i. cbn [Nat.eqb andb] in H. apply Nat.ltb_ge in H. refine (N _ _ _ _); cbn; lia.
Qed.
Print Assumptions C31_no_overrun.

(** ** C31, plates *)

Theorem C31_plate_first_partial : forall withAna j prefix, 1 <= j <= wfirst withAna -> exists q,
  (forall d p, wfits withAna d -> 1 <= version d -> nth (j - 1) (plateInt d) 0%R = wIntegrand d p q) /\
  plateName withAna 1 j prefix = Some (Ret (pfx prefix (describeW q))).
Proof. exact plate_first. Qed.
Print Assumptions C31_plate_first_partial.

(** Missing: a nodal projection after another one, versions above 1, two-dimensional. *)
Theorem C31_plate_projection_partial : forall withAna g j prefix, 2 <= g -> 1 <= j <= wgroup withAna -> exists q,
  (forall d k p, wfits withAna d -> 1 <= version d -> nth_error (pprj d) k = Some p -> wpresent p = true ->
     (version d = 1 \/ length (mh d) <> 3 \/ nodal p = false \/ filter wpresent (firstn k (pprj d)) = []) ->
     nth (wslot withAna k (pprj d) + (j - 1)) (plateInt d) 0%R = wIntegrand d p q) /\
  plateName withAna g j prefix = Some (Ret (pfx prefix (describeW q))).
Proof. exact plate_proj. Qed.
Print Assumptions C31_plate_projection_partial.

(** That case: the energy of the second projection contains the twist of the first. *)
Theorem C31_plate_second_refuted : forall c JW, c <> 0%R -> JW <> 0%R ->
  let p := PNodal [0; 0; 0]%R 0%R in
  let d := mkPlate 2 [] [0; 0; 0]%R None 0 0 JW [PNodal [0; 0; c]%R 0%R; p] in
  wfits false d /\ nth (wslot false 1 (pprj d)) (plateInt d) 0%R <> wIntegrand d p WEnergyR.
Proof.
  intros c JW C J p d. split.
  - split; [split; [intros H; now destruct H | discriminate]|]. split; [cbn; auto|]. split; [discriminate|]. split.
    + intros v r [E|[E|[]]]; injection E as <- <-; reflexivity.
    + intros v r [E|[E|[]]]; discriminate E.
  - intros E. unfold wIntegrand, plateInt in E. cbn in E. assert (X : (c * c * JW <> 0)%R) by (repeat apply Rmult_integral_contrapositive_currified; auto).
    apply X. transitivity (c ^ 2 * JW)%R; [ring|]. ring_simplify in E. first [exact E | (transitivity (JW * c ^ 2)%R; [ring | exact E])].
Qed.
Print Assumptions C31_plate_second_refuted.

(** Boundary terms land in the external energy and in the residual and jump entries of
    their own projection: version 1 or no analytical solution, no projection on a basis of
    its own. *)
Theorem C31_plate_boundary_partial : forall ver withAna ps tw jana pn i, ver = 1 \/ withAna = false ->
  (forall x, In x ps -> nodal (fst x) = true \/ fst x = PNone) ->
  plateBou ver withAna false tw jana (jumpsOf ps) pn i = (pn i + wBoundary withAna ps tw jana i)%R.
Proof. exact plate_boundary. Qed.
Print Assumptions C31_plate_boundary_partial.

(** Version 2 with analytical second derivatives: the jump of the second projection lands in
    an entry of the first projection. *)
Theorem C31_plate_boundary_refuted : forall v, v <> 0%R ->
  let ps := [(PNodal [0; 0; 0]%R 0%R, 0%R); (PNodal [0; 0; 0]%R 0%R, v)] in
  let s := wslot true 1 (map fst ps) in
  plateBou 2 false true 0 0 (jumpsOf ps) (fun _ => 0%R) (s + 5) = 0%R /\
  plateBou 2 false true 0 0 (jumpsOf ps) (fun _ => 0%R) (s + 1) = v /\
  wBoundary true ps 0 0 (s + 5) = v /\ wBoundary true ps 0 0 (s + 1) = 0%R.
Proof.
  intros v V ps s. unfold s, ps. cbn.
  unfold wBoundary. cbn. repeat split; ring.
Qed.
Print Assumptions C31_plate_boundary_refuted.

(** A projection on a basis of its own takes entries inside but is passed over on the
    boundary, so the next projection's jump lands in its entries. *)
Theorem C31_plate_own_basis_refuted : forall v, v <> 0%R ->
  let ps := [(POwn [0; 0; 0]%R 0%R, 0%R); (PNodal [0; 0; 0]%R 0%R, v)] in
  let s := wslot true 1 (map fst ps) in
  plateBou 1 true false 0 0 (jumpsOf ps) (fun _ => 0%R) (s + 5) = 0%R /\ wBoundary true ps 0 0 (s + 5) = v.
Proof. intros v V ps s. unfold s, ps, wBoundary. cbn. split; ring. Qed.
Print Assumptions C31_plate_own_basis_refuted.

(** Entry "jump(w^r)^0.5" of a moment jump: a square in version 1, of any sign above. *)
Theorem C31_plate_jump_partial : forall mr nx ny h JW, (0 <= h)%R -> (0 <= JW)%R -> (0 <= momentJump 1 mr nx ny h JW)%R.
Proof.
  intros. unfold momentJump. cbn [Nat.eqb]. repeat apply Rmult_le_pos; auto.
  apply Rplus_le_le_0_compat; apply Rle_0_sqr.
Qed.
Print Assumptions C31_plate_jump_partial.

Theorem C31_plate_jump_refuted : forall ver h JW, 1 < ver -> (0 < h)%R -> (0 < JW)%R ->
  exists mr, (momentJump ver mr 1 0 h JW < 0)%R.
Proof.
  intros ver h JW V H J. exists [-1; 0; 0]%R. unfold momentJump. assert (E : (ver =? 1) = false) by (apply Nat.eqb_neq; lia). rewrite E.
  cbn [nth]. assert (0 < h * JW)%R by (now apply Rmult_lt_0_compat). lra.
Qed.
Print Assumptions C31_plate_jump_refuted.

Theorem C31_plate_effectivity_partial : forall m pn, let size := 6 + 9 * m in
  (forall k, k < m ->
    plateFinalize true size pn (6 + 9 * k + 7) = Rdiv (pn (6 + 9 * k + 1)) (pn 3) /\
    plateFinalize true size pn (6 + 9 * k + 8) = Rdiv (pn (6 + 9 * k + 1) + pn (6 + 9 * k + 4)) (pn 3)) /\
  (forall i, (forall k, k < m -> i <> 6 + 9 * k + 7 /\ i <> 6 + 9 * k + 8) -> plateFinalize true size pn i = pn i).
Proof. exact plate_effectivity. Qed.
Print Assumptions C31_plate_effectivity_partial.

Definition somePlate : plate :=
  mkPlate 2 [] [1; 2; 3]%R (Some ([1; 1; 1]%R, 2%R)) 4 5 2 [PNone; PNodal [1; 2; 4]%R 3%R].
Example C31_plate_case : wfits true somePlate /\
  nth 3 (plateInt somePlate) 0%R = ((0 + 1 + 2 * 4) * 2)%R /\
  nth (wslot true 1 (pprj somePlate) + 1) (plateInt somePlate) 0%R = (2 * 2)%R.
Proof.
  split; [|split; cbn; lra]. split; [split; [reflexivity | discriminate]|]. split; [cbn; auto|]. split; [|split].
  - intros m r E. injection E as <- <-. reflexivity.
  - intros v r [E|[E|[]]]; [discriminate E|]. injection E as <- <-. reflexivity.
  - intros v r [E|[E|[]]]; discriminate E.
Qed.

(** ** C31, shells *)

Theorem C31_shell_first : forall j prefix, 1 <= j <= 2 -> exists q,
  (forall d p, nth (j - 1) (shellInt d) 0%R = sIntegrand d p q) /\ shellName 1 j prefix = Some (Ret (pfx prefix (describeS q))).
Proof. exact shell_first. Qed.
Print Assumptions C31_shell_first.

Theorem C31_shell_projection : forall g j prefix, 2 <= g -> 1 <= j <= 6 -> exists q,
  (forall d k p, nth_error (sprj d) k = Some (Some p) ->
     nth (2 + 6 * length (filter spresent (firstn k (sprj d))) + (j - 1)) (shellInt d) 0%R = sIntegrand d p q) /\
  shellName g j prefix = Some (Ret (pfx prefix (describeS q))).
Proof. exact shell_proj. Qed.
Print Assumptions C31_shell_projection.

Example C31_shell_case :
  let d := mkShell [[2]]%R [[3]]%R [1]%R [1]%R 7 1 [Some ([1]%R, [1]%R); None; Some ([2]%R, [4]%R)] in
  nth (2 + 6 * length (filter spresent (firstn 2 (sprj d))) + 1) (shellInt d) 0%R = (2 + 3 * 9)%R.
Proof. cbn. lra. Qed.

(** ** C78 *)

Definition rest : path := mkPath 0 [0; 0; 0]%R [0; 0; 0]%R.
Definition after (h : list (list R * list R)) : path := fold_left (fun s x => pathStep s (fst x) (snd x)) h rest.

(** The external energy of a history is the trapezoidal work of the tractions along it. *)
Theorem C78_work : forall h, Ux (after h) = work [0; 0; 0]%R [0; 0; 0]%R h.
Proof. intros h. unfold after. rewrite path_work. cbn. lra. Qed.
Print Assumptions C78_work.

(** Evaluating the norms again in the same configuration leaves it unchanged. *)
Theorem C78_repeat : forall s t u, pathStep (pathStep s t u) t u = pathStep s t u.
Proof. exact path_repeat. Qed.
Print Assumptions C78_repeat.

Lemma last_cons : forall (A : Type) (us : list A) u u0, last (u :: us) u0 = last us u.
Proof.
  intros A us. induction us as [|v us IH]; intros u u0; auto. change (last (u :: v :: us) u0) with (last (v :: us) u0). now rewrite !IH.
Qed.

(** Tractions that are a fixed symmetric linear function of the displacement: the work depends
    on the final displacement only, whatever the steps in between. *)
Theorem C78_conservative : forall a b c d e f us, 
  let K u := match u with [x; y; z] => [a * x + b * y + c * z; b * x + d * y + e * z; c * x + e * y + f * z]%R | _ => [] end in
  (forall u, In u us -> length u = 3) ->
  Ux (after (map (fun u => (K u, u)) us)) = (1 / 2 * dotl (K (last us [0; 0; 0]%R)) (last us [0; 0; 0]%R))%R.
Proof.
  intros a b c d e f us K L. rewrite C78_work.
  assert (X : forall us u0, length u0 = 3 -> (forall u, In u us -> length u = 3) ->
     work (K u0) u0 (map (fun u => (K u, u)) us) = (1 / 2 * dotl (K (last us u0)) (last us u0) - 1 / 2 * dotl (K u0) u0)%R).
  { clear us L. induction us as [|u us IH]; intros u0 L0 L; [cbn; lra|]. cbn [map work]. rewrite IH; auto; [|apply L; now left|intros; apply L; now right].
    assert (E : last (u :: us) u0 = last us u) by apply last_cons.
    rewrite E. assert (Lu := L u ltac:(now left)).
    destruct (list3 u Lu) as [x [y [z ->]]]. destruct (list3 u0 L0) as [x0 [y0 [z0 ->]]]. cbn. field. }
  replace (work [0; 0; 0]%R [0; 0; 0]%R) with (work (K [0; 0; 0]%R) [0; 0; 0]%R).
  2:{ f_equal. cbn. repeat f_equal; ring. }
  rewrite X; auto. cbn. field.
Qed.
Print Assumptions C78_conservative.

Example C78_case : Ux (after [([1; 0; 0]%R, [1; 0; 0]%R); ([1; 0; 0]%R, [1; 0; 0]%R); ([3; 0; 0]%R, [3; 0; 0]%R)]) = (9 / 2)%R.
Proof. cbn. lra. Qed.
