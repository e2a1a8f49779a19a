(** Property C139: printed norms and error estimates. *)
From Coq Require Import List String Arith Bool Reals Lra Lia.
From Verif Require Import Lib.Base Lib.Sums Model.Labels Model.Norms Spec.Norms Proofs.Norms Proofs.NormsPlate Model.NormPrint Spec.NormPrint Proofs.NormPrint.
Import ListNotations.
Open Scope string_scope.
Open Scope nat_scope.

(** ** The groups hold what the order of their entries says *)

(** First group, any number of points and extraction functions: the volume is not touched
    by the final operation, everything else is. *)
Theorem C139_first_group : forall root withAna n ds bs k, Forall (fits withAna n) ds ->
  normGroup root (totals ds bs) 0 (firstFields withAna n) (volumeIndexC withAna) = map (measured root ds bs k) (orderFirst withAna n).
Proof. exact first_group. Qed.
Print Assumptions C139_first_group.

(** Any projection. *)
Theorem C139_projection_group : forall root withAna n ds bs k, Forall (fits withAna n) ds ->
  Forall (fun d => k < List.length (prj d) /\ ~ In None (prj d)) ds ->
  normGroup root (totals ds bs) (firstFields withAna n + projFields withAna * k) (projFields withAna) 0 =
  map (measured root ds bs k) (orderProj withAna).
Proof. exact projection_group. Qed.
Print Assumptions C139_projection_group.

(** Plates: interior integrands. *)
Theorem C139_plate_groups : forall withAna j q, nth_error (orderPlate withAna) j = Some q ->
  forall d p, wfits withAna d -> 1 <= version d -> nth j (plateInt d) 0%R = wIntegrand d p q.
Proof.
  intros withAna j q E d p F V.
  assert (J : 1 <= S j <= wfirst withAna). { split; [lia|]. assert (L : j < List.length (orderPlate withAna)) by (apply nth_error_Some; congruence). destruct withAna; cbn in *; lia. }
  destruct (plate_first withAna (S j) None J) as [q' [A B]]. specialize (A d p F V). replace (S j - 1) with j in A by lia. rewrite A. f_equal.
  assert (I : forall a b, describeW a = describeW b -> a = b) by (intros [] [] H; try reflexivity; discriminate H).
  apply I. destruct withAna; cbn [orderPlate] in E; do 6 (destruct j as [|j]; [first [injection E as <-; injection B as B; symmetry; exact B | discriminate E]|]); destruct j; discriminate E.
Qed.
Print Assumptions C139_plate_groups.

(** The simulators and their norm integrands agree on whether there is an analytical
    solution, and on where the volume is: its entry, and no other, is the one reverted. *)
Theorem C139_analytical : forall version a, 1 <= version ->
  haveAnaC a = normAnaC a /\ haveAnaP version a = normAnaP version a /\ haveAnaB version a = normAnaP version a.
Proof.
  intros version a V. split; [destruct a as [[[] []]|]; reflexivity|].
  destruct version as [|[|version]]; [lia| |]; (destruct a as [[[] []]|]; split; reflexivity).
Qed.
Print Assumptions C139_analytical.

Theorem C139_volume : forall withAna n k,
  (nth_error (orderFirst withAna n) k = Some Volume <-> S k = volumeIndexC withAna) /\
  (nth_error (orderPlate withAna) k = Some WArea <-> S k = volumeIndexP withAna) /\
  (nth_error orderUL k = Some ULVolume <-> S k = volumeIndexUL).
Proof.
  intros withAna n k. split; [|split].
  - destruct (lt_dec k (firstFields withAna n)) as [K|K].
    + rewrite <- (order_volume withAna n k K). rewrite (nth_error_nth' _ EnergyR) by (rewrite order_length; exact K). split; [now intros [= E]|now intros ->].
    + split; [intros E|intros E].
      * exfalso. apply K. rewrite <- order_length. apply nth_error_Some. congruence.
      * exfalso. destruct withAna; cbn in E, K; lia.
  - destruct withAna; do 7 (destruct k as [|k]; [split; intros E; try discriminate E; reflexivity|]); split; intros E; try discriminate E; destruct k; discriminate E.
  - do 8 (destruct k as [|k]; [split; intros E; try discriminate E; reflexivity|]); split; intros E; try discriminate E; destruct k; discriminate E.
Qed.
Print Assumptions C139_volume.

(** A plate of version 0 is read as one without analytical solution, its norms are not. *)
Theorem C139_version_refuted : exists a, haveAnaP 0 a = false /\ normAnaP 0 a = true /\
  nth_error (orderPlate (normAnaP 0 a)) (volumeIndexP (haveAnaP 0 a) - 1) = Some WEnergyU.
Proof. exists (Some (mkAna true true)). repeat split. Qed.
Print Assumptions C139_version_refuted.

(** ** What is printed of them *)

(** Linear program, continuum, from the integration points to the report: with or without
    analytical solution, dual solution and any number of extraction functions. *)
Theorem C139_report : forall root withAna n ds bs (Z : option (list point)) ZP p x,
  Forall (fits withAna n) ds -> (forall zs, Z = Some zs -> Forall (fits withAna n) zs) ->
  let grp ps := normGroup root (totals ps bs) 0 (firstFields withAna n) (volumeIndexC withAna) in
  let V := measured root ds bs 0 in
  let z := dualC (match Z with Some zs => measured root zs bs 0 | None => fun _ => 0%R end) ZP in
  exists l, printFirst withAna (sectionIndex withAna n) (grp ds) (option_map grp Z) = Ret l /\
  right (says (solC V) p x z) (refers (solC V) p z) None l /\
  headings l = headingsFirst withAna (ext (V External)) (match Z with Some _ => true | None => false end) n.
Proof.
  intros root withAna n ds bs Z ZP p x F FZ grp V z.
  destruct (first_report withAna n V (option_map (fun zs => measured root zs bs 0) Z) ZP p x) as [l [A [B C]]].
  exists l. unfold grp at 1. rewrite (first_group root withAna n ds bs 0 F).
  replace (option_map grp Z) with (option_map (fun Zv => map Zv (orderFirst withAna n)) (option_map (fun zs => measured root zs bs 0) Z)).
  2:{ destruct Z as [zs|]; auto. cbn. f_equal. unfold grp. symmetry. apply first_group. now apply FZ. }
  split; [exact A|]. destruct Z as [zs|]; cbn [option_map] in *; auto.
Qed.
Print Assumptions C139_report.

Lemma proj_report : forall withAna n V VP (X : option (nq -> R)) (D : option (nq -> R)) Z, (X <> None -> withAna = true) ->
  let z := dualC Z (match D with Some Dv => Dv | None => fun _ => 0%R end) in
  let x := projC (match X with Some Xv => Xv | None => fun _ => 0%R end) in
  exists l, printProjection (printNorms withAna) false (map V (orderFirst withAna n)) (map VP (orderProj withAna))
    (option_map (fun Xv => map Xv (orderProj withAna)) X) (option_map (fun Dv => map Dv (orderProj withAna)) D) = Ret l /\
  right (says (solC V) (projC VP) x z) (refers (solC V) (projC VP) z) None l /\
  headings l = headingsProj withAna false (match X with Some _ => true | None => false end) (match D with Some _ => true | None => false end).
Proof.
  intros withAna n V VP X D Z HX z x. unfold printProjection. rewrite (size_first V withAna n).
  assert (T : (2 <? (if withAna then 5 + 2 * n else 3 + n)) = true) by (destruct withAna; reflexivity). rewrite T.
  set (s := solC V). set (p := projC VP).
  destruct withAna.
  - destruct X as [Xv|]; destruct D as [Dv|]; cbn -[right headings Rdiv Rmult Rplus]; (eexists; split; [reflexivity|]; split; [|reflexivity]);
      subst z x; cbn [option_map];
      repeat match goal with
      | |- right _ _ _ [] => exact Logic.I
      | |- right _ _ _ (Line _ _ :: _) => split; [ first [exact (p_energy s p _ _) | exact (p_error s p _ _) | exact (p_exact s p _ _) | exact (p_effect s p _ _) | exact (p_l2 s p _ _) | exact (p_l2e s p _ _)
          | exact (x_energy s p (projC Xv) _) | exact (x_error s p (projC Xv) _) | exact (x_exact s p (projC Xv) _) | exact (z_energyR s p _ (dualC Z Dv)) | exact (z_errorR s p _ (dualC Z Dv))]|]
      | |- right _ _ _ (Rel _ _ :: _) => split; [ do 2 eexists; split; [reflexivity|]; split; [ first [exact (r_u s p _) | exact (r_sr s p _) | exact (r_zr s p (dualC Z Dv))] | unfold s, p; cbn; unfold Rdiv; ring ] |]
      end.
  - destruct X as [Xv|]; [specialize (HX ltac:(discriminate)); discriminate HX|].
    destruct D as [Dv|]; cbn -[right headings Rdiv Rmult Rplus]; (eexists; split; [reflexivity|]; split; [|reflexivity]);
      subst z x; cbn [option_map];
      repeat match goal with
      | |- right _ _ _ [] => exact Logic.I
      | |- right _ _ _ (Line _ _ :: _) => split; [ first [exact (p_energy s p _ _) | exact (p_error s p _ _) | exact (p_l2 s p _ _) | exact (p_l2e s p _ _)
          | exact (z_energyR s p _ (dualC Z Dv)) | exact (z_errorR s p _ (dualC Z Dv))]|]
      | |- right _ _ _ (Rel _ _ :: _) => split; [ do 2 eexists; split; [reflexivity|]; split; [ first [exact (r_ur s p _) | exact (r_sr s p _) | exact (r_zr s p (dualC Z Dv))] | unfold s, p; cbn; unfold Rdiv; ring ] |]
      end.
Qed.

(** The report of projection [k]; [xs] : the points with the projections of the analytical
    solution, [zs] with those of the dual solution. *)
Theorem C139_projection_report : forall root withAna n k ds bs (xs zs : option (list point)) Z,
  let ok ps := Forall (fits withAna n) ps /\ Forall (fun d => k < List.length (prj d) /\ ~ In None (prj d)) ps in
  ok ds -> (forall l, xs = Some l -> ok l /\ withAna = true) -> (forall l, zs = Some l -> ok l) ->
  let first ps := normGroup root (totals ps bs) 0 (firstFields withAna n) (volumeIndexC withAna) in
  let grp ps := normGroup root (totals ps bs) (firstFields withAna n + projFields withAna * k) (projFields withAna) 0 in
  let val o := match o with Some ps => measured root ps bs k | None => fun _ => 0%R end in
  let s := solC (measured root ds bs k) in let p := projC (measured root ds bs k) in
  let z := dualC Z (val zs) in
  exists l, printProjection (printNorms withAna) false (first ds) (grp ds) (option_map grp xs) (option_map grp zs) = Ret l /\
  right (says s p (projC (val xs)) z) (refers s p z) None l /\
  headings l = headingsProj withAna false (match xs with Some _ => true | None => false end) (match zs with Some _ => true | None => false end).
Proof.
  intros root withAna n k ds bs xs zs Z ok [F P] HX HZ first grp val s p z.
  destruct (proj_report withAna n (measured root ds bs k) (measured root ds bs k) (option_map (fun ps => measured root ps bs k) xs)
    (option_map (fun ps => measured root ps bs k) zs) Z) as [l [A [B C]]].
  { destruct xs as [l|]; [intros _; now apply (HX l)|intros H; now elim H]. }
  exists l. unfold first, grp at 1. rewrite (first_group root withAna n ds bs k F), (projection_group root withAna n ds bs k F P).
  assert (M : forall o : option (list point), (forall l, o = Some l -> ok l) -> option_map grp o =
    option_map (fun Xv : nq -> R => map Xv (orderProj withAna)) (option_map (fun ps => measured root ps bs k) o)).
  { intros [ps|] H; auto. cbn. f_equal. destruct (H ps eq_refl). now apply projection_group. }
  rewrite (M xs) by (intros l0 E; now apply HX). rewrite (M zs HZ). split; [exact A|].
  destruct xs; destruct zs; cbn [option_map] in *; auto.
Qed.
Print Assumptions C139_projection_report.

(** Two points in plane strain with two extraction functions and a projection. *)
Definition aPoint (w : R) : point :=
  mkPoint [[1; 0; 0]; [0; 1; 0]; [0; 0; 2]]%R [1; 2; 7; 3]%R (Some [2; 2; 8; 1]%R) (Some 5%R)
    [[1; 0; 0]; [0; 1; 0]]%R [Some (fun j => INR j)] 4 w false 0 false.
Example C139_case : exists l, Forall (fits true 2) [aPoint 1; aPoint 2] /\
  printFirst true (sectionIndex true 2) (normGroup sqrt (totals [aPoint 1; aPoint 2] []) 0 9 5) None = Ret l /\
  headings l = ["Energy norm |u^h| = a(u^h,u^h)^0.5"; "External energy ((f,u^h)+(t,u^h)^0.5"; "Exact norm  |u|   = a(u,u)^0.5"; "Exact error a(e,e)^0.5, e=u-u^h";
    "Recovered section force a(u^h,w)"; "Exact section force a(u,w)"; "Recovered section force a(u^h,w2)"; "Exact section force       a(u,w2)"].
Proof.
  assert (F : Forall (fits true 2) [aPoint 1; aPoint 2]).
  { repeat constructor; cbn; auto; intros; discriminate. }
  destruct (C139_report sqrt true 2 [aPoint 1; aPoint 2] [] None (fun _ => 0%R) (mkProj 0 0 0 0 0 0 0) (mkProj 0 0 0 0 0 0 0) F ltac:(discriminate)) as [l [A [_ C]]].
  exists l. split; [exact F|]. split; [exact A|]. rewrite C.
  assert (E : ext (measured sqrt [aPoint 1; aPoint 2] [] 0 External) = true).
  { unfold ext. destruct (Req_EM_T _ 0) as [e|]; auto. exfalso. unfold measured, sumL in e. cbn in e. unfold integrand, weight in e. cbn in e. apply sqrt_eq_0 in e; lra. }
  rewrite E. reflexivity.
Qed.

(** ** Plates *)

Theorem C139_plate_report : forall withAna V Z p x,
  exists l, printFirst withAna (fun _ => 0) (map V (orderPlate withAna)) None = Ret l /\
  right (says (solP V) p x Z) (refers (solP V) p Z) None l /\ headings l = headingsPlate withAna (ext (V WExternal)).
Proof.
  intros withAna V Z p x. unfold printFirst, ext. set (s := solP V).
  destruct withAna; cbn -[right headings Rdiv Rmult Rplus Req_EM_T]; destruct (Req_EM_T (V WExternal) 0);
    (eexists; split; [reflexivity|]; split; [|reflexivity]); cbn [app];
    repeat match goal with
    | |- right _ _ _ [] => exact Logic.I
    | |- right _ _ _ (Line _ _ :: _) => split; [ first [exact (s_energy s p x Z) | exact (s_external s p x Z) | exact (s_exact s p x Z) | exact (s_error s p x Z) | exact (s_residual s p x Z)]|]
    | |- right _ _ _ (Rel _ _ :: _) => split; [ do 2 eexists; split; [reflexivity|]; split; [ exact (r_u s p Z) | unfold s; cbn; unfold Rdiv; ring ] |]
    end.
Qed.
Print Assumptions C139_plate_report.

Theorem C139_plate_projection_report : forall withAna V VP (X D : option (wq -> R)) Z, (X <> None -> withAna = true) ->
  let z := dualP Z (match D with Some Dv => Dv | None => fun _ => 0%R end) in
  let x := projP (match X with Some Xv => Xv | None => fun _ => 0%R end) in
  exists l, printProjection (printNorms withAna) false (map V (orderPlate withAna)) (map VP (orderPlateProj withAna))
    (option_map (fun Xv => map Xv (orderPlateProj withAna)) X) (option_map (fun Dv => map Dv (orderPlateProj withAna)) D) = Ret l /\
  right (says (solP V) (projP VP) x z) (refers (solP V) (projP VP) z) None l /\
  headings l = headingsProj withAna true (match X with Some _ => true | None => false end) (match D with Some _ => true | None => false end).
Proof.
  intros withAna V VP X D Z HX z x. unfold printProjection. set (s := solP V). set (p := projP VP).
  destruct withAna; destruct X as [Xv|]; try discriminate (HX ltac:(discriminate)); destruct D as [Dv|];
    cbn -[right headings Rdiv Rmult Rplus]; (eexists; split; [reflexivity|]; split; [|reflexivity]); subst z x; cbn [option_map];
    repeat match goal with
    | |- right _ _ _ [] => exact Logic.I
    | |- right _ _ _ (Line _ _ :: _) => split; [ first [exact (p_energy s p _ _) | exact (p_error s p _ _) | exact (p_residual s p _ _) | exact (p_jump s p _ _) | exact (p_exact s p _ _) | exact (p_effect s p _ _) | exact (p_theta_ex s p _ _) | exact (p_theta_res s p _ _) | exact (p_l2 s p _ _) | exact (p_l2e s p _ _)
        | exact (x_energy s p (projP Xv) _) | exact (x_error s p (projP Xv) _) | exact (x_residual s p (projP Xv) _) | exact (x_exact s p (projP Xv) _) | exact (z_energyR s p _ (dualP Z Dv)) | exact (z_errorR s p _ (dualP Z Dv))]|]
    | |- right _ _ _ (Rel _ _ :: _) => split; [ do 2 eexists; split; [reflexivity|]; split; [ first [exact (r_u s p _) | exact (r_ur s p _) | exact (r_sr s p _) | exact (r_zr s p (dualP Z Dv))] | unfold s, p; cbn; unfold Rdiv; ring ] |]
    end.
Qed.
Print Assumptions C139_plate_projection_report.

Example C139_plate_case : exists l, printProjection (printNorms true) false [1; 2; 3; 4; 5; 6]%R [7; 8; 9; 10; 11; 12; 13; 14; 15]%R None None = Ret l /\
  In (Line "Exact error a(e,e)^0.5, e=u-u^r" 13%R) l /\ In (Line "Jump term J(u^r)^0.5" 12%R) l.
Proof. eexists. split; [reflexivity|]. cbn. split; tauto. Qed.

(** ** Shells *)

Theorem C139_shell_report : forall trunc V, exists l, printShell trunc (map V orderShellProj) = Ret l /\
  right (saysShell V) (refersShell V) None l /\
  (trunc (V SEnergyR) <> 0%R -> In (Line "Error norm a(e,e)^0.5, e=u^r-u^h" (V SErrorR)) l) /\
  ((trunc (V SEnergyR) <> 0)%R -> (0 < trunc (V SNR))%R -> In (Line "L2 error (e,e)^0.5, e=n^r-n^h" (V SErrN)) l) /\
  ((trunc (V SEnergyR) <> 0)%R -> (0 < trunc (V SMR))%R -> In (Line "L2 error (e,e)^0.5, e=m^r-m^h" (V SErrM)) l).
Proof.
  intros trunc V. unfold printShell. cbn [map orderShellProj at1 nth_error bind].
  destruct (Req_EM_T (trunc (V SEnergyR)) 0) as [e|N0].
  - exists []. repeat split; intros; contradiction.
  - destruct (Rlt_dec 0 (trunc (V SNR))) as [P1|P1]; destruct (Rlt_dec 0 (trunc (V SMR))) as [P2|P2]; cbn [bind app];
    (eexists; split; [reflexivity|]; split; [|cbn [In]; repeat split; intros; try (exfalso; contradiction); tauto]);
    repeat match goal with
    | |- right _ _ _ [] => exact Logic.I
    | |- right _ _ _ (Line _ _ :: _) => split; [constructor|]
    | |- right _ _ _ (Rel _ _ :: _) => split; [ do 2 eexists; split; [reflexivity|]; split; [constructor|reflexivity] |]
    end.
Qed.
Print Assumptions C139_shell_report.
Example C139_shell_case : exists l, printShell (fun v => v) [1; 2; 3; 4; 5; 6]%R = Ret l /\ In (Rel "|m^r|" (100 * 6 / 4)%R) l.
Proof.
  unfold printShell. cbn [at1 nth_error bind]. destruct (Req_EM_T 1 0); [lra|]. destruct (Rlt_dec 0 3); [|lra]. destruct (Rlt_dec 0 4); [|lra].
  cbn [bind]. eexists. split; [reflexivity|]. cbn. tauto.
Qed.

(** ** Nonlinear programs *)

(** With the updated Lagrangian norms every value is the quantity of its heading, and only
    a vanishing external energy is left out. *)
Theorem C139_updated : forall trunc V, exists l, printNonlinear trunc (map V orderUL) = Ret l /\
  (forall t v, In (Line t v) l -> exists q, t = heading q /\ v = match q with NLEnergy => trunc (V ULEnergy) | _ => V (ulOf q) end) /\
  (forall q, (q = NLExternal -> trunc (V ULExternal) <> 0%R) -> In (heading q) (headings l)).
Proof.
  intros trunc V. unfold printNonlinear. cbn -[Req_EM_T heading ulOf]. destruct (Req_EM_T (trunc (V ULExternal)) 0) as [e|N0];
    (eexists; split; [reflexivity|]; split).
  - intros t v I. cbn in I. repeat destruct I as [I|I]; try contradiction; injection I as <- <-;
      [exists NLEnergy|exists NLStress|exists NLPressure|exists NLDev|exists NLMises]; split; reflexivity.
  - intros [] H; cbn; try tauto.
  - intros t v I. cbn in I. repeat destruct I as [I|I]; try contradiction; injection I as <- <-;
      [exists NLEnergy|exists NLExternal|exists NLStress|exists NLPressure|exists NLDev|exists NLMises]; split; reflexivity.
  - intros [] H; cbn; tauto.
Qed.
Print Assumptions C139_updated.
Example C139_updated_case : exists l, printNonlinear (fun v => v) [1; 2; 3; 4; 5; 6; 7]%R = Ret l /\ In (Line (heading NLMises) 6%R) l.
Proof. unfold printNonlinear. cbn. destruct (Req_EM_T 2 0); [lra|]. eexists. split; [reflexivity|]. cbn. tauto. Qed.

(** With the other norms (total Lagrangian and small deformations) the two energies are
    right.  Missing: the lines after them, see below. *)
Theorem C139_energies_partial : forall trunc withAna n V, exists l rest, printNonlinear trunc (map V (orderFirst withAna n)) = Ret l /\
  l = (Line (heading NLEnergy) (trunc (V EnergyH)) ::
       (if Req_EM_T (trunc (V External)) 0 then [] else [Line (heading NLExternal) (V External)]) ++ rest)%list /\
  ~ In (heading NLEnergy) (headings rest) /\ ~ In (heading NLExternal) (headings rest).
Proof.
  intros trunc withAna n V. set (norm := map V (orderFirst withAna n)).
  assert (T : forall i t, 1 <= i -> exists l, (if i <=? size norm then let* v := at1 norm i in Ret (map (Line t) ((fun v => [v]) v)) else Ret []) = Ret l /\ incl (headings l) [t]).
  { intros i t I. destruct (i <=? size norm) eqn:E; [|exists []; split; [reflexivity|intros a []]].
    apply Nat.leb_le in E. destruct i as [|i]; [lia|]. cbn [at1]. destruct (nth_error norm i) as [v|] eqn:G.
    - exists [Line t v]. split; [reflexivity|]. cbn. apply incl_refl.
    - exfalso. apply nth_error_None in G. unfold size in E. lia. }
  unfold printNonlinear. fold norm.
  destruct (T 3 "Stress norm, L2: (sigma^h,sigma^h)^0.5" ltac:(lia)) as [l3 [E3 I3]]. destruct (T 4 "Pressure norm, L2:       (p^h,p^h)^0.5" ltac:(lia)) as [l4 [E4 I4]].
  destruct (T 5 "Deviatoric stress norm:  (s^d,s^d)^0.5" ltac:(lia)) as [l5 [E5 I5]]. destruct (T 6 "Stress norm, von Mises: vm(sigma^h)" ltac:(lia)) as [l6 [E6 I6]].
  cbv beta in E3, E4, E5, E6. rewrite E3, E4, E5, E6.
  assert (S1 : (1 <=? size norm) = true /\ (2 <=? size norm) = true). { unfold norm. rewrite size_first. destruct withAna; auto. } destruct S1 as [S1 S2]. rewrite S1, S2.
  assert (A1 : at1 norm 1 = Ret (V EnergyH)) by (destruct withAna; reflexivity). assert (A2 : at1 norm 2 = Ret (V External)) by (destruct withAna; reflexivity). rewrite A1, A2.
  cbn [bind map]. eexists. exists (l3 ++ l4 ++ l5 ++ l6)%list. split; [reflexivity|]. split; [destruct (Req_EM_T (trunc (V External)) 0); reflexivity|].
  rewrite !headings_app. split; intros I; repeat (apply in_app_or in I; destruct I as [I|I]);
    first [apply I3 in I | apply I4 in I | apply I5 in I | apply I6 in I]; destruct I as [I|[]]; discriminate I.
Qed.
Print Assumptions C139_energies_partial.

(** A body free of stress is reported to have its volume for stress norm. *)
Theorem C139_total_refuted : forall root trunc, exists ds l, Forall (fits false 0) ds /\ Forall (fun d => Forall (eq 0%R) (sigh d)) ds /\
  printNonlinear trunc (normGroup root (totals ds []) 0 (firstFields false 0) (volumeIndexC false)) = Ret l /\
  In (Line (heading NLStress) 1%R) l.
Proof.
  intros root trunc. set (d := mkPoint [[1; 0; 0]; [0; 1; 0]; [0; 0; 1]]%R [0; 0; 0]%R None None [] [] 3 1 false 0 false).
  exists [d]. assert (F : Forall (fits false 0) [d]). { constructor; [|constructor]. split; [split; intros H; [now elim H|discriminate H]|]. repeat split; cbn; auto. }
  rewrite (first_group root false 0 [d] [] 0 F). cbn [orderFirst seq map app]. eexists. split; [exact F|]. split; [repeat constructor|].
  split; [reflexivity|]. apply in_or_app. right. apply in_or_app. right. left. unfold heading. f_equal. unfold measured, sumL, integrand, weight, boundaryPart, d. cbn. ring.
Qed.
Print Assumptions C139_total_refuted.

(** With an analytical solution, three error measures are printed for stress norms. *)
Theorem C139_total_analytical_refuted : forall trunc n V, exists l, printNonlinear trunc (map V (orderFirst true n)) = Ret l /\
  In (Line (heading NLStress) (V EnergyU)) l /\ In (Line (heading NLPressure) (V ErrorU)) l /\ In (Line (heading NLDev) (V Volume)) l.
Proof.
  intros trunc n V. unfold printNonlinear. rewrite size_first.
  destruct n as [|n].
  - cbn -[Req_EM_T]. eexists. split; [reflexivity|]. repeat split; apply in_cons, in_or_app; right; cbn; tauto.
  - rewrite (proj2 (Nat.leb_le 6 (5 + 2 * S n))) by lia. cbn [Nat.leb Nat.add]. cbn -[Req_EM_T]. eexists. split; [reflexivity|]. repeat split; apply in_cons, in_or_app; right; cbn; tauto.
Qed.
Print Assumptions C139_total_analytical_refuted.
