(** Names of result files (C91, C95). *)
From Coq Require Import List Ascii String Arith Bool Lia.
From Verif Require Import Model.FileNames Proofs.FileNames.
Import ListNotations.
Local Open Scope list_scope.

(** C91: the name with its extension replaced, for all names whose only dot is that of an extension at least as long as the new ones ... *)
Theorem C91_extension_partial : forall stem ext news, noDot stem -> stem <> [] -> Forall (fun x => (exists y, x = dot :: y) /\ List.length x <= S (List.length ext)) news ->
  linDumps (stem ++ dot :: ext) news = Some (map (app stem) news) /\ nonlinDumps (stem ++ dot :: ext) news = Some (map (app stem) news).
Proof.
  intros stem ext news H N F. apply dumps_stem; try assumption.
  - eapply Forall_impl; [|exact F]. cbn. tauto.
  - eapply Forall_impl; [|exact F]. cbn. intros x [_ L]. rewrite !app_length. cbn. lia.
Qed.
(** ... and in the nonlinear program also after any number of leading dots. *)
Theorem C91_leading_dots_partial : forall n stem ext news, noDot stem -> stem <> [] -> Forall (fun x => (exists y, x = dot :: y) /\ List.length x <= S (List.length ext)) news ->
  nonlinDumps (repeat dot n ++ stem ++ dot :: ext) news = Some (map (fun x => repeat dot n ++ stem ++ x) news).
Proof.
  intros n stem ext news H N F. apply dumpsNL_dots; try assumption.
  - eapply Forall_impl; [|exact F]. cbn. tauto.
  - eapply Forall_impl; [|exact F]. cbn. intros x [_ L]. rewrite !app_length. cbn. lia.
Qed.
(** The linear program writes to the root directory if the file is given as ./model.xinp. *)
Theorem C91_root_refuted : linDumps (str "./model.xinp") [str ".g2"; str ".dis"] = Some [str "/model.g2"; str "/model.dis"].
Proof. reflexivity. Qed.
(** A dot in a directory name cuts the name there. *)
Theorem C91_directory_refuted : linDumps (str "run.1/model.xinp") [str ".g2"] = Some [str "run.g2"] /\ nonlinDumps (str "run.1/model.xinp") [str ".g2"] = Some [str "run.g2"].
Proof. split; reflexivity. Qed.
(** A name without extension is written past its end. *)
Theorem C91_no_extension_refuted : forall name ext, noDot name -> name <> [] -> ext <> [] -> linDumps name [ext] = None.
Proof.
  intros name ext H N E. unfold linDumps. cbn [dumpFiles]. unfold strcatExt, strtokDot. assert (S0 := skip_nodot name [] H N). rewrite app_nil_r in S0. rewrite S0.
  assert (T : token name = name).
  { clear N S0. induction name as [|c s IH]; [reflexivity|]. apply noDot_cons in H. destruct H as [H1 H2]. cbn. destruct (Ascii.eqb_spec c dot); [contradiction|]. now rewrite IH. }
  rewrite T. destruct name as [|c s]; [congruence|]. cbn [repeat app]. destruct ext as [|d r]; [congruence|].
  match goal with |- context [Nat.leb ?a ?b] => destruct (Nat.leb_spec a b) as [L|] end; [|reflexivity]. cbn in L. rewrite app_length in L. cbn in L. lia.
Qed.
Example C91_ex : linDumps (str "model.xinp") [str ".g2"; str ".dis"; str ".sol"; str ".m"] = Some [str "model.g2"; str "model.dis"; str "model.sol"; str "model.m"].
Proof. reflexivity. Qed.

(** C95: restart output. The nonlinear program finds a name, and never that of an existing file: the first free one of the sequence. *)
Theorem C95_fresh_partial : forall files exist stem ext, noDot ext -> (forall f, exist f = true -> In f files) ->
  forall fuel, List.length files < fuel -> exists r, restartNonLin fuel exist [] (stem ++ dot :: ext) = Some r /\ exist (r ++ str ".hdf5") = false /\
    exists k, r = nm (stem ++ str "_restart") k /\ forall j, j < k -> exist (nm (stem ++ str "_restart") j ++ str ".hdf5") = true.
Proof.
  intros files exist stem ext H F fuel L. unfold restartNonLin, restartBase. rewrite blast by assumption. cbn [option_map].
  destruct (fresh_total files exist (stem ++ str "_restart") F fuel L) as [r R]. exists r. split; [exact R|].
  destruct (fresh_sound exist (stem ++ str "_restart") fuel 0 r R) as [A (k & K & B & C)]. split; [assumption|]. exists k. split; [assumption|]. intros j J. apply C. lia.
Qed.
(** The other programs overwrite an existing file ... *)
Theorem C95_overwrite_refuted : exists (exist : chars -> bool) hdf5 infile r, restartOther hdf5 infile = Some r /\ exist (r ++ str ".hdf5") = true.
Proof. exists (fun _ => true), [], (str "a.xinp"), (str "a_restart"). split; reflexivity. Qed.
(** ... and all end with an exception if the input file name has no dot and no HDF5 file name is given. *)
Theorem C95_exception_refuted : forall infile, noDot infile -> restartOther [] infile = None /\ forall fuel exist, restartNonLin fuel exist [] infile = None.
Proof. intros infile H. unfold restartOther, restartNonLin, restartBase. rewrite blast_none by assumption. split; reflexivity. Qed.
Example C95_ex : restartNonLin 5 (fun f => existsb (fun g => if list_eq_dec ascii_dec f g then true else false) [str "a_restart.hdf5"; str "a_restart1.hdf5"]) [] (str "a.xinp") = Some (str "a_restart2").
Proof. reflexivity. Qed.

Print Assumptions C91_extension_partial.
Print Assumptions C91_leading_dots_partial.
Print Assumptions C91_root_refuted.
Print Assumptions C91_directory_refuted.
Print Assumptions C91_no_extension_refuted.
Print Assumptions C95_fresh_partial.
Print Assumptions C95_overwrite_refuted.
Print Assumptions C95_exception_refuted.
