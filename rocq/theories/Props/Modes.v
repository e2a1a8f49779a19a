(** Properties C28 and C29: solution modes and element containers, buffered element matrices. *)
From Coq Require Import ZArith QArith List Bool Lia.
From Verif Require Import Lib.Base Model.Modes Spec.Modes Proofs.Modes Proofs.Buffers.
Import ListNotations.
Open Scope Z_scope.

(** For every integrand and every sequence of set-up calls ending with the choice of the mode: everything interior
    (b = false) or boundary (b = true) evaluation writes exists, exactly outside the listed gaps. *)
Theorem C28_slots_exact_partial : forall k mo mt lc la l m (b : bool),
  let s := runCalls k (l ++ [SetMode m]) (construct k mo mt lc la) in
  (if b then hasBoundary m else assembles m) ->
  (safeNow k s b <-> ~ (if b then boundaryGap k (cfg s) m else interiorGap k (cfg s) (negb (dual s =? 0)%nat) m)).
Proof. exact calls_exact. Qed.
Print Assumptions C28_slots_exact_partial.

(** The integrands without any gap. *)
Theorem C28_no_gap_partial : forall k, In k [TotLag; NonLin; UpdLag; Plate; Shell] -> forall mo mt lc la l m,
  let s := runCalls k (l ++ [SetMode m]) (construct k mo mt lc la) in
  (assembles m -> safeNow k s false) /\ (hasBoundary m -> safeNow k s true).
Proof.
  intros k Hk mo mt lc la l m s. split; intros A.
  - apply (calls_exact k mo mt lc la l m false A). intros G. cbn in Hk. repeat (destruct Hk as [<-|Hk]; [exact G|]). destruct Hk.
  - apply (calls_exact k mo mt lc la l m true A). intros G. cbn in Hk. repeat (destruct Hk as [<-|Hk]; [exact G|]). destruct Hk.
Qed.
Print Assumptions C28_no_gap_partial.

(** Each of the following set-ups leads to an access outside the element container:
    a beam with the HHT time integrator, a bar evaluated for the right-hand side in a dynamic analysis,
    F-bar elements in a dynamic or arc-length analysis, pressure-mode elements in a dynamic analysis, the nonlinear
    shell when internal forces are asked for, a cable with an end moment in a dynamic analysis. *)
Theorem C28_gaps_refuted :
  ~ safeNow Beam (runCalls Beam [SetPrm 4 1; SetMode DYNAMIC] (construct Beam false false false false)) false /\
  ~ safeNow Bar (runCalls Bar [SetPrm 2 (-1 # 10); SetMode RHS_ONLY] (construct Bar false false false false)) false /\
  ~ safeNow Fbar (runCalls Fbar [SetPrm 2 (-1 # 10); SetMode DYNAMIC] (construct Fbar false false false false)) false /\
  ~ safeNow Fbar (runCalls Fbar [SetMode ARCLEN] (construct Fbar false false false false)) false /\
  ~ safeNow PresModes (runCalls PresModes [SetPrm 2 (-1 # 10); SetMode DYNAMIC] (construct PresModes false false false false)) false /\
  ~ safeNow NLShell (runCalls NLShell [SetMode INT_FORCES] (construct NLShell false false false false)) false /\
  ~ safeNow Cable (runCalls Cable [SetPrm 2 (-1 # 10); SetMode DYNAMIC] (construct Cable false true true false)) true.
Proof.
  assert (D : assembles DYNAMIC) by (repeat split; discriminate).
  repeat split.
  - intros H. apply (proj1 (calls_exact Beam false false false false [SetPrm 4 1] DYNAMIC false D) H). cbn. repeat split; auto; reflexivity.
  - intros H. apply (proj1 (calls_exact Bar false false false false [SetPrm 2 (-1 # 10)] RHS_ONLY false ltac:(repeat split; discriminate)) H). right. split; [reflexivity|cbn; lia].
  - intros H. apply (proj1 (calls_exact Fbar false false false false [SetPrm 2 (-1 # 10)] DYNAMIC false D) H). cbn. auto.
  - intros H. apply (proj1 (calls_exact Fbar false false false false [] ARCLEN false ltac:(repeat split; discriminate)) H). cbn. auto.
  - intros H. apply (proj1 (calls_exact PresModes false false false false [SetPrm 2 (-1 # 10)] DYNAMIC false D) H). reflexivity.
  - intros H. apply (proj1 (calls_exact NLShell false false false false [] INT_FORCES false ltac:(repeat split; discriminate)) H). reflexivity.
  - intros H. apply (proj1 (calls_exact Cable false true true false [SetPrm 2 (-1 # 10)] DYNAMIC true ltac:(unfold hasBoundary; auto)) H).
    right. left. repeat split; auto. cbn. intros Q. discriminate Q.
Qed.
Print Assumptions C28_gaps_refuted.

(** Changing an integration parameter after the mode was chosen also breaks the agreement. *)
Theorem C28_late_parameter_refuted :
  ~ safeNow TotLag (runCalls TotLag [SetPrm 2 (-1 # 10); SetPrm 3 (-1); SetMode DYNAMIC; SetPrm 3 0] (construct TotLag false false false false)) false.
Proof.
  intros H. destruct (H _ eq_refl) as [A _]. destruct (A 4 ltac:(cbn; auto)) as [Z|[_ Z]]; cbn in Z; discriminate Z.
Qed.
Print Assumptions C28_late_parameter_refuted.

Example C28_case : safeNow TotLag (runCalls TotLag [SetPrm 4 1; SetMode DYNAMIC] (construct TotLag false false false false)) false
  /\ eS (slt (runCalls TotLag [SetPrm 4 1; SetMode DYNAMIC] (construct TotLag false false false false))) = 3.
Proof. split; [|reflexivity]. apply (C28_no_gap_partial TotLag ltac:(cbn; auto) false false false false [SetPrm 4 1] DYNAMIC). repeat split; discriminate. Qed.

(** After one assembly in any order (repetitions allowed), re-using the buffers gives every element its own last
    stiffness and mass matrices, touches no other matrix and leaves the buffers unchanged. *)
Theorem C29_roundtrip_partial : forall (M : Type) (emptyM : M) t n l A0, (1 < n)%nat -> bothSlots t (length A0) ->
  exists s, visits emptyM (changeMode M t (initLHSbuffers M emptyM n (mkLin M t [] []))) A0 l = Ret s /\
    forall iel K' M' A, (1 <= iel <= n)%nat -> length A = length A0 ->
      let s2 := initLHSbuffers M emptyM 0 (changeMode M t s) in
      exists A', visit M emptyM s2 iel K' M' A = Ret (s2, A') /\
        forall K Mm, lastFor iel l = Some (K, Mm) ->
          nth (Z.to_nat (eKm t - 1)) A' emptyM = K /\ nth (Z.to_nat (eM t - 1)) A' emptyM = Mm /\
          forall i, i <> Z.to_nat (eKm t - 1) -> i <> Z.to_nat (eM t - 1) -> nth i A' emptyM = nth i A emptyM.
Proof. exact @buffers_roundtrip. Qed.
Print Assumptions C29_roundtrip_partial.

(** The modes meeting the hypothesis: linear dynamics, vibration, and right-hand side with time integration. *)
Theorem C29_modes_partial : forall c d C,
  let ok m := let '(m', t) := setMode LinEl c d m in getLocalIntegral LinEl c (dS t) m' false = Some C -> bothSlots t (length (mats C)) in
  (modal c = false -> ok DYNAMIC) /\ ok VIBRATION /\ ((nCS c < nSV c)%nat -> ok RHS_ONLY).
Proof.
  intros [p nc ns bd mo mt lc la] d C. cbn [modal nCS nSV]. unfold setMode, slotsLin, getLocalIntegral, contElasticity, slotsBase, newmark. cbn [modal nCS nSV prm bdf mode_eqb andb]. split; [|split].
  - intros ->. intros E. injection E as <-. unfold bothSlots. cbn. destruct (isNeg (p 3%nat)); cbn; destruct bd; cbn; lia.
  - rewrite !andb_false_r. intros E. injection E as <-. unfold bothSlots. cbn. lia.
  - intros H. apply Nat.ltb_lt in H. rewrite !andb_false_r. rewrite H. intros E. injection E as <-. unfold bothSlots. cbn. destruct (isNeg (p 3%nat)); cbn; lia.
Qed.
Print Assumptions C29_modes_partial.

(** In a static analysis there is no mass matrix, yet its buffer is read whenever the stiffness is buffered:
    the element matrices are indexed with -1. *)
Theorem C29_static_refuted : forall (M : Type) (emptyM x : M), exists s,
  let t := snd (slotsLin (mkCfg (fun _ => 0%Q) 1 1 false false false false false) false STATIC) in
  visits emptyM (changeMode M t (initLHSbuffers M emptyM 2 (mkLin M t [] []))) [emptyM] [(1%nat, x, x); (2%nat, x, x)] = Ret s /\
  visit M emptyM (initLHSbuffers M emptyM 0 (changeMode M t s)) 1 x x [emptyM] = UB.
Proof. intros M emptyM x. eexists. cbv zeta. split; [cbn; reflexivity|]. cbn. reflexivity. Qed.
Print Assumptions C29_static_refuted.

(** Mass-only assembly stores the mass matrix but never reads it back. *)
Theorem C29_mass_only_refuted : forall (M : Type) (emptyM zero x : M), exists s,
  let t := snd (slotsLin (mkCfg (fun _ => 0%Q) 1 1 false false false false false) false MASS_ONLY) in
  visits emptyM (changeMode M t (initLHSbuffers M emptyM 2 (mkLin M t [] []))) [zero] [(1%nat, x, x)] = Ret s /\
  nth 0 (Mb M s) emptyM = x /\
  exists s', visit M emptyM (initLHSbuffers M emptyM 0 (changeMode M t s)) 1 x x [zero] = Ret (s', [zero]).
Proof. intros M emptyM zero x. eexists. cbv zeta. split; [cbn; reflexivity|]. split; [reflexivity|]. eexists. cbn. reflexivity. Qed.
Print Assumptions C29_mass_only_refuted.

(** If nothing was stored, the (empty) buffer is read all the same. *)
Theorem C29_unstored_refuted : forall (M : Type) (emptyM zero x : M),
  let t := snd (slotsLin (mkCfg (fun _ => 0%Q) 1 3 false false false false false) false DYNAMIC) in
  exists s', visit M emptyM (initLHSbuffers M emptyM 0 (changeMode M t (initLHSbuffers M emptyM 2 (mkLin M t [] [])))) 1 x x [zero; zero; zero]
    = Ret (s', [zero; emptyM; emptyM]).
Proof. intros M emptyM zero x. eexists. cbn. reflexivity. Qed.
Print Assumptions C29_unstored_refuted.

Example C29_case : bothSlots (snd (slotsLin (mkCfg (fun _ => 0%Q) 1 3 false false false false false) false DYNAMIC)) 3
  /\ lastFor 2 [(2, 10, 20); (1, 11, 21); (2, 12, 22)]%nat = Some (12, 22)%nat.
Proof. split; [unfold bothSlots; cbn; lia|reflexivity]. Qed.

(** Linear elasticity, any set-up: a geometric stiffness matrix is formed in a buckling analysis only, and a static
    analysis forms exactly one matrix and the load vector (and that of the dual problem): no internal forces. *)
Theorem C28_linear_partial : forall mo mt lc la l m,
  let s := runCalls LinEl (l ++ [SetMode m]) (construct LinEl mo mt lc la) in
  (m <> BUCKLING -> length (nonzero (matWrites LinEl (slt s))) = length (nonzero [eKm (slt s); eM (slt s)])) /\
  (m = BUCKLING -> nonzero (matWrites LinEl (slt s)) = [1; 2]) /\
  (m = STATIC -> nonzero (matWrites LinEl (slt s)) = [1] /\ nonzero (vecWrites LinEl (slt s)) = if (dual s =? 0)%nat then [1] else [1; 2]).
Proof.
  intros mo mt lc la l m s. unfold s, runCalls. rewrite fold_left_app. cbn [fold_left]. set (s0 := fold_left _ _ _). unfold step, setMode, slotsLin.
  destruct (modal (cfg s0)), (dual s0 =? 0)%nat eqn:D, m; cbn [mode_eqb andb orb negb matWrites vecWrites slt slotsBase eKm eKg eM eS gS iS dS dual];
    rewrite ?D; repeat split; intros; try congruence; try reflexivity; destruct (newmark (cfg s0)); reflexivity.
Qed.
Print Assumptions C28_linear_partial.
Example C28_linear_case : nonzero (vecWrites LinEl (slt (runCalls LinEl [AddDual; SetMode STATIC] (construct LinEl false false false false)))) = [1; 2].
Proof. reflexivity. Qed.

(** Asking twice for the use of the buffers is the same as asking once. *)
Theorem C29_idempotent : forall (M : Type) (emptyM : M) s,
  initLHSbuffers M emptyM 0 (initLHSbuffers M emptyM 0 s) = initLHSbuffers M emptyM 0 s.
Proof.
  intros M emptyM [[a b c d e f g] [|k K] Mm]; [reflexivity|]. unfold initLHSbuffers, neg. cbn.
  assert (E : forall z, (if 0 <? (if 0 <? z then - z else z) then - (if 0 <? z then - z else z) else (if 0 <? z then - z else z)) = if 0 <? z then - z else z).
  { intros z. destruct (Z.ltb_spec 0 z) as [L|L]; [|destruct (Z.ltb_spec 0 z); [lia|reflexivity]]. destruct (Z.ltb_spec 0 (- z)); [lia|reflexivity]. }
  now rewrite !E.
Qed.
Print Assumptions C29_idempotent.
Example C29_idempotent_case : eKm (sl nat (initLHSbuffers nat 0%nat 0 (initLHSbuffers nat 0%nat 0 (mkLin nat (mkSlots 3 0 2 1 0 1 0) [5%nat] [])))) = -3.
Proof. reflexivity. Qed.

(** The number of solution vectors of an analysis without dual fields and backward differences: the displacements of each state, in dynamics
    also velocities and accelerations, with the HHT driver two more; whatever was set before. *)
Definition plainCall (e : call) : Prop := match e with SetPrm i _ => (i < 5)%nat | AddDual => False | SetMode _ => True end.
Theorem C28_solutions : forall k mo mt lc la l, isKL k = false -> Forall plainCall l ->
  let c := cfg (runCalls k l (construct k mo mt lc la)) in let n := nCS (cfg (construct k mo mt lc la)) in
  let after e := nSV (cfg (step k (runCalls k l (construct k mo mt lc la)) e)) in
  nCS c = n /\ (nSV c = n \/ nSV c = 3 * n \/ nSV c = 3 * n + 2)%nat /\
  (forall v, v == 1 -> after (SetPrm 4 v) = (3 * n + 2)%nat)%Q /\ (forall v, v == 0 -> after (SetPrm 2 v) = n)%Q /\
  (forall v, ~ v == 0 -> after (SetPrm 2 v) = (3 * n)%nat \/ after (SetPrm 2 v) = (3 * n + 2)%nat)%Q.
Proof.
  intros k mo mt lc la l HK F c n after.
  assert (N1 : (1 <= n)%nat) by (unfold n; destruct k; cbn; lia).
  assert (ST : forall s e, nCS (cfg s) = n -> (nSV (cfg s) = n \/ nSV (cfg s) = 3 * n \/ nSV (cfg s) = 3 * n + 2)%nat -> plainCall e ->
    nCS (cfg (step k s e)) = n /\ (nSV (cfg (step k s e)) = n \/ nSV (cfg (step k s e)) = 3 * n \/ nSV (cfg (step k s e)) = 3 * n + 2)%nat).
  { intros s [i v| |m] A B P; [|destruct P|unfold step; destruct (setMode _ _ _ m); cbn; auto].
    cbn [step]. rewrite HK. cbn [plainCall] in P. unfold setPrm. destruct (Nat.ltb_spec i 5); [|lia]. cbn [negb andb cfg nCS nSV]. rewrite A. split; [reflexivity|].
    destruct ((i =? 4)%nat && _)%bool; [lia|]. destruct ((i =? 2)%nat && (_ <? _)%nat && _)%bool; [lia|]. destruct ((i =? 2)%nat && _)%bool; [lia|exact B]. }
  assert (INV : nCS c = n /\ (nSV c = n \/ nSV c = 3 * n \/ nSV c = 3 * n + 2)%nat).
  { unfold c, runCalls. assert (G : forall s, nCS (cfg s) = n -> (nSV (cfg s) = n \/ nSV (cfg s) = 3 * n \/ nSV (cfg s) = 3 * n + 2)%nat -> nCS (cfg (fold_left (step k) l s)) = n /\
      (nSV (cfg (fold_left (step k) l s)) = n \/ nSV (cfg (fold_left (step k) l s)) = 3 * n \/ nSV (cfg (fold_left (step k) l s)) = 3 * n + 2)%nat).
    { clear c after. induction F as [|e l Pe F IH]; intros s A B; [auto|]. cbn [fold_left]. destruct (ST s e A B Pe) as [A' B']. apply IH; assumption. }
    apply G; [reflexivity|]. left. reflexivity. }
  destruct INV as [A B]. split; [exact A|]. split; [exact B|]. unfold after. unfold c in A, B. set (s := runCalls k l _) in *. cbn [step]. rewrite HK. unfold setPrm. cbn [Nat.ltb Nat.leb negb andb Nat.eqb cfg nSV]. rewrite A.
  split; [|split]; intros v Hv.
  - apply Qeq_bool_iff in Hv. cbn [Nat.eqb]. rewrite Hv. lia.
  - apply Qeq_bool_iff in Hv. rewrite Hv, andb_false_r. reflexivity.
  - destruct (Qeq_bool v 0) eqn:E; [apply Qeq_bool_iff in E; contradiction|]. change (match (n * 3)%nat with O => false | S m => (nSV (cfg s) <=? m)%nat end) with (nSV (cfg s) <? n * 3)%nat. rewrite andb_true_r. cbn [negb]. destruct (Nat.ltb_spec (nSV (cfg s)) (n * 3)); lia.
Qed.
Print Assumptions C28_solutions.
Example C28_solutions_case : nSV (cfg (runCalls PresModes [SetPrm 2 (-1 # 10); SetMode STATIC; SetPrm 4 1] (construct PresModes false false false false))) = 8%nat.
Proof. reflexivity. Qed.
