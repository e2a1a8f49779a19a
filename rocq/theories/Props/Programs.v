(** The simulation programs (C89, C90, C92, C94). *)
From Coq Require Import List Bool Arith ZArith Lia Permutation.
From Verif Require Import Model.Programs Proofs.Programs.
From Verif Require Model.Driver.
Import ListNotations.

(** C89: storage for projected results. It is missing exactly in these cases. *)
Theorem C89_exact_partial : forall p o steps, projUB p o steps = true <->
  (p = LinDynamic \/ p = LinMultiLoad) /\ nProject o <> 0 /\ steps <> [] \/
  newmark p = false /\ nProject o = 0 /\ isElasticity o = true /\ vtf o = true /\ pSolOnly o = false /\ In false steps.
Proof. exact proj_exact. Qed.
(** Linear dynamics with a projection: first step. *)
Theorem C89_dynamic_refuted : exists o steps, projUB LinDynamic o steps = true /\ steps <> [].
Proof. exists (POpts 1 false false true), [true]. split; [reflexivity|discriminate]. Qed.
(** Nonlinear statics with visualisation but no projection: first step that is not saved. *)
Theorem C89_unsaved_refuted : exists o steps, nProject o = 0 /\ projUB NonLinStatic o steps = true.
Proof. exists (POpts 0 true false true), [true; false]. split; reflexivity. Qed.
Example C89_ex : projUB NonLinStatic (POpts 2 true false true) [true; false; true] = false /\ projUB LinModal (POpts 1 true false true) [true; false] = false.
Proof. split; reflexivity. Qed.

(** C90: exit code zero exactly if the program succeeded. *)
Theorem C90_nonlinear_partial : forall s solve, (0 <= solve < 256)%Z ->
  (mainNonLin s solve = 0%Z <-> readOk s = true /\ prepOk s = true /\ glvOk s = true /\
     if checkOnly s then checkOk s = true else eqOk s = true /\ restartOk s = true /\ solve = 0%Z).
Proof. exact nonlin_exit. Qed.
(** The statuses of the drivers are in that range. *)
Theorem C90_driver_range : (forall Sol c l e, Driver.solveProblem Sol c l = Some e -> e < 256) /\ (forall c l, Driver.newmarkSolve c l < 256).
Proof. split; [exact static_range|exact newmark_range]. Qed.
(** The shell program exits with zero whatever fails. *)
Theorem C90_shell_refuted : (exists s, readOk s = false /\ mainShell s 0 = 0%Z) /\ (exists solve, solve <> 0%Z /\ mainShell (Setup true true true false true true true) solve = 0%Z).
Proof. split; [exists (Setup false true true false true true true)|exists 7%Z]; split; (reflexivity || discriminate). Qed.
(** The linear program: zero exactly if all calls but the last two succeeded; a failing HDF5 export goes unnoticed. *)
Theorem C90_linear_partial : forall r, (forall b c, In (b, c) (lFields r) -> (12 <= c <= 19)%Z) ->
  (mainLin r = 0%Z <-> lRead r = true /\ lPrep r = true /\ lAssemble r = true /\ lSolve r = true /\ Forall (eq true) (lProject r) /\
     (forall l, lNorms r = Some l -> Forall (eq true) l) /\ Forall (fun f => fst f = true) (lFields r)).
Proof. exact lin_exit. Qed.
Theorem C90_export_refuted : exists r, lHdf5 r = Some false /\ mainLin r = 0%Z.
Proof. exists (LinRun true true true true [] None [] true (Some false)). split; reflexivity. Qed.
Example C90_ex : mainNonLin (Setup true true true false true true true) 7 = 7%Z /\
  mainLin (LinRun true true true true [true] (Some [true]) [(true, 12%Z); (false, 16%Z)] true None) = 16%Z.
Proof. split; reflexivity. Qed.

(** C92: everything allocated is released exactly once, except the exporter, which never is. *)
Theorem C92_release_partial : forall adap multi hdf5, let '(new, deleted) := linObjects adap multi hdf5 in
  NoDup deleted /\ incl deleted new /\ (forall o, In o new -> o = Exporter \/ In o deleted) /\ ~ In Exporter deleted.
Proof. exact release. Qed.
Theorem C92_exporter_refuted : forall adap multi, let '(new, deleted) := linObjects adap multi true in In Exporter new /\ ~ In Exporter deleted.
Proof. intros [] []; cbn; intuition discriminate. Qed.

(** C94: the adaptive flag reaches the driver, except in the arc-length solver of the continuum program. *)
Theorem C94_adaptive_partial : forall p linear adap, In p [NonLinStatic; ShellStatic; ShellArcLength] -> isAdaptive p linear adap = adap.
Proof. intros p linear adap [<-|[<-|[<-|[]]]]; reflexivity. Qed.
Theorem C94_arclength_refuted : exists linear adap, adap = true /\ isAdaptive NonLinArcLength linear adap <> adap.
Proof. exists false, true. split; [reflexivity|discriminate]. Qed.
Example C94_ex : isAdaptive ShellArcLength false true = true. Proof. reflexivity. Qed.

Print Assumptions C89_exact_partial.
Print Assumptions C89_dynamic_refuted.
Print Assumptions C89_unsaved_refuted.
Print Assumptions C90_nonlinear_partial.
Print Assumptions C90_driver_range.
Print Assumptions C90_shell_refuted.
Print Assumptions C90_linear_partial.
Print Assumptions C90_export_refuted.
Print Assumptions C92_release_partial.
Print Assumptions C92_exporter_refuted.
Print Assumptions C94_adaptive_partial.
Print Assumptions C94_arclength_refuted.
