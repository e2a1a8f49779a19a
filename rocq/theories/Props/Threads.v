(** Property C128: every point gets the result of its own properties, whatever other points are evaluated before or at the same time. *)
From Coq Require Import List Lia Lra Permutation.
From Verif.Lib Require Import Base.
From Verif.Spec Require Import Threads.
From Verif.Model Require Import LinIsotropic NeoHooke History Threads.
From Verif.Proofs Require Import Threads.
Import ListNotations.
Local Open Scope R_scope.

(** What is expected of the linear material at a point with strain [eps]: the stress for its own E and nu. *)
Definition ownStress {Pt} (m : linMat Pt) (nu : R) (p : Pt * (nat -> R)) :=
  stress (lnsd m) (lps m) (lax m) (lsig4 m) (lE m (fst p)) (nuAt (lnuFunc m) nu (fst p)) (snd p).

(** Any number of threads, any points, any interleaving; no function for Poisson's ratio, or a constant one. *)
Theorem C128_linear_partial : forall (Pt : Type) (m : linMat Pt) nu c tr (pts : nat -> list (Pt * (nat -> R))),
  (forall x, nuAt (lnuFunc m) nu x = c) ->
  (forall i, by_thread i tr = concat (map (fun p => linOps m (fst p)) (pts i))) ->
  forall i, stresses m (pts i) (by_thread i (fst (exec tr nu))) = map (ownStress m nu) (pts i).
Proof. intros. eapply parallel_const; eassumption. Qed.
Print Assumptions C128_linear_partial.
(** Any function, evaluations not overlapping in time (for instance a single thread), in any order. *)
Theorem C128_linear_sequential_partial : forall (Pt : Type) (m : linMat Pt) nu (sched : list (nat * (Pt * (nat -> R)))) i,
  stresses m (by_thread i sched) (by_thread i (fst (exec (blocks (fun p => linOps m (fst p)) sched) nu))) = map (ownStress m nu) (by_thread i sched).
Proof. intros. apply sequential_lin. Qed.
Print Assumptions C128_linear_sequential_partial.

(** Two threads, a function for Poisson's ratio: the first thread gets the stress of the point of the second. *)
Definition graded : linMat R := mkLM 2 false false false (fun _ => 1) (Some (fun x => x)).
Definition stretch : nat -> R := fun i => if Nat.eqb i 1 then 1 else 0.
Definition two : nat -> list (R * (nat -> R)) := fun i => match i with 0%nat => [(0, stretch)] | 1%nat => [(1/4, stretch)] | _ => [] end.
Definition overlap : list (nat * op R R) :=
  [(0%nat, wr (fun _ => 0)); (1%nat, wr (fun _ => 1/4))] ++ repeat (0%nat, rd (fun n => n)) 4 ++ repeat (1%nat, rd (fun n => n)) 4.
Lemma graded_stress nu : 0 <= nu < 1/2 -> exists s, stress 2 false false false 1 nu stretch = Ret s /\ fst s 1%nat = (1 - nu) / ((1 + nu) * (1 - 2 * nu)).
Proof.
  intros Hn. unfold stress, cmatrix. cbn [Nat.eqb andb orb negb]. destruct (Rlt_dec nu 0); [lra|]. destruct (Rle_dec (1/2) nu); [lra|].
  eexists. split; [reflexivity|]. cbn [fst]. unfold mv, stretch, nst. cbn [Nat.eqb andb]. cbn. field. lra.
Qed.
Theorem C128_linear_race_refuted : exists (m : linMat R) nu tr (pts : nat -> list (R * (nat -> R))),
  (forall i, by_thread i tr = concat (map (fun p => linOps m (fst p)) (pts i))) /\
  exists p s s', pts 0%nat = [p] /\ stresses m (pts 0%nat) (by_thread 0 (fst (exec tr nu))) = [Ret s] /\
  ownStress m nu p = Ret s' /\ fst s 1%nat = 6/5 /\ fst s' 1%nat = 1.
Proof.
  destruct (graded_stress 0 ltac:(lra)) as (s' & E' & V'). destruct (graded_stress (1/4) ltac:(lra)) as (s & E & V).
  exists graded, 0, overlap, two. split; [intros [|[|i]]; reflexivity|]. exists (0, stretch), s, s'.
  split; [reflexivity|]. split. { change (stresses graded (two 0%nat) (by_thread 0 (fst (exec overlap 0)))) with [stress 2 false false false 1 (1/4) stretch]. rewrite E. reflexivity. }
  split; [exact E'|]. split; [rewrite V|rewrite V']; field.
Qed.
Print Assumptions C128_linear_race_refuted.
(** The hypotheses of the positive theorem are met by the same two threads with a constant function. *)
Example C128_linear_nonvacuous : let m := mkLM 2 false false false (fun x : R => x + 1) (Some (fun _ => 1/4)) in
  let tr := [(0%nat, wr (fun _ => 1/4)); (1%nat, wr (fun _ => 1/4))] ++ repeat (0%nat, rd (fun n => n)) 4 ++ repeat (1%nat, rd (fun n : R => n)) 4 in
  (forall x, nuAt (lnuFunc m) 0 x = 1/4) /\ (forall i, by_thread i tr = concat (map (fun p => linOps m (fst p)) (two i))).
Proof. split; [reflexivity|]. intros [|[|i]]; reflexivity. Qed.

(** Hyperelastic material: a stiffness function which is positive, evaluations not overlapping, in any order. *)
Theorem C128_hyperelastic_sequential_partial : forall (Pt : Type) (M : neoMat Pt) f m (sched : list (nat * Pt)) i,
  hE M = Some f -> -1 < nNu m < 1/2 -> (forall p, In p sched -> 0 < f (snd p)) ->
  by_thread i (fst (exec (blocks (neoOps M) sched) m)) =
  concat (map (fun x => [bulkOf (mVER m) (f x) (nNu m); shearOf (f x) (nNu m)]) (by_thread i sched)).
Proof. intros. apply sequential_neo; auto. Qed.
Print Assumptions C128_hyperelastic_sequential_partial.
(** No stiffness function: any threads, any interleaving. *)
Theorem C128_hyperelastic_partial : forall (Pt : Type) (M : neoMat Pt) m tr (pts : nat -> list Pt), hE M = None ->
  (forall i, by_thread i tr = concat (map (neoOps M) (pts i))) ->
  forall i, by_thread i (fst (exec tr m)) = concat (map (fun _ => [Bmod m; Smod m]) (pts i)).
Proof. intros. eapply parallel_neo; eassumption. Qed.
Print Assumptions C128_hyperelastic_partial.
Example C128_hyperelastic_nonvacuous : let M := mkNM (Some (fun x : R => x)) None in let m := newNeo 3 (1/4) 11 in
  hE M = Some (fun x => x) /\ -1 < nNu m < 1/2 /\
  by_thread 0 (fst (exec (blocks (neoOps M) [(0%nat, 5); (1%nat, 7); (0%nat, 5)]) m)) = [2; 2; 2; 2].
Proof.
  assert (N : nNu (newNeo 3 (1/4) 11) = 1/4) by (unfold newNeo, findLame; cbn [nNu]; destruct (Rlt_dec (1/2) (1/4)); [lra|]; reflexivity).
  assert (V : mVER (newNeo 3 (1/4) 11) = 1%nat) by (unfold newNeo, findLame; cbn [nNu]; destruct (Rlt_dec (1/2) (1/4)); [lra|]; reflexivity).
  cbv zeta. rewrite N. split; [reflexivity|]. split; [lra|].
  rewrite (C128_hyperelastic_sequential_partial _ _ (fun x => x)); [|reflexivity|rewrite N; lra|].
  - rewrite N, V. cbn. unfold bulkOf, shearOf. cbn [Nat.eqb]. repeat f_equal; field.
  - intros p [<-|[<-|[<-|[]]]]; cbn; lra.
Qed.
(** Two threads: the first gets the constants of the point of the second. *)
Theorem C128_hyperelastic_race_refuted : exists (M : neoMat R) m f tr (pts : nat -> list R),
  hE M = Some f /\ (forall x, 0 < x -> 0 < f x) /\ -1 < nNu m < 1/2 /\
  (forall i, by_thread i tr = concat (map (neoOps M) (pts i))) /\ pts 0%nat = [1] /\
  by_thread 0 (fst (exec tr m)) <> [bulkOf (mVER m) (f 1) (nNu m); shearOf (f 1) (nNu m)].
Proof.
  set (M := mkNM (Some (fun x : R => x)) None). set (m := mkNeo 1 0 1 0 0 0). set (w := fun e => [wr (setEmod e); wr setSmod; wr setBmod; wr subBmod] : list (op neo R)).
  exists M, m, (fun x => x), (map (pair 0%nat) (w 1) ++ map (pair 1%nat) (w 2) ++ map (pair 0%nat) [rd Bmod; rd Smod] ++ map (pair 1%nat) [rd Bmod; rd Smod]),
    (fun i => match i with 0%nat => [1] | 1%nat => [2] | _ => [] end).
  split; [reflexivity|]. split; [auto|]. split; [cbn; lra|]. split; [|split; [reflexivity|]].
  - intros [|[|i]]; [| |reflexivity]; cbn [map concat]; unfold neoOps; cbn [hE M].
    + destruct (Rlt_dec 0 1); [reflexivity|lra].
    + destruct (Rlt_dec 0 2); [reflexivity|lra].
  - intros Q. apply (f_equal (fun l => nth 1 l 0)) in Q. cbn in Q. unfold shearOf in Q. lra.
Qed.
Print Assumptions C128_hyperelastic_race_refuted.
(** Where the stiffness function is not positive, the constants are those of the point evaluated before, even with one thread. *)
Theorem C128_hyperelastic_order_refuted : exists (M : neoMat R) m x y z, -1 < nNu m < 1/2 /\
  by_thread 1 (fst (exec (blocks (neoOps M) [(0%nat, x); (1%nat, z)]) m)) <> by_thread 1 (fst (exec (blocks (neoOps M) [(0%nat, y); (1%nat, z)]) m)).
Proof.
  exists (mkNM (Some (fun x : R => x)) None), (mkNeo 1 0 1 0 0 0), 1, 2, 0. split; [cbn; lra|].
  intros Q. apply (f_equal (fun l => nth 1 l 0)) in Q. unfold blocks, neoOps in Q. cbn [map concat fst snd hE] in Q.
  destruct (Rlt_dec 0 1); [|lra]. destruct (Rlt_dec 0 2); [|lra]. destruct (Rlt_dec 0 0); [lra|]. cbn in Q. lra.
Qed.
Print Assumptions C128_hyperelastic_order_refuted.
(** The function of the tag <poisson> is not used by the hyperelastic material. *)
Theorem C128_hyperelastic_poisson_refuted : exists (M : neoMat R) m f g x, hE M = Some f /\ hnuFunc M = Some g /\ 0 < f x /\ 0 <= g x < 1/2 /\
  by_thread 0 (fst (exec (blocks (neoOps M) [(0%nat, x)]) m)) <> [bulkOf (mVER m) (f x) (nuAt (hnuFunc M) (nNu m) x); shearOf (f x) (nuAt (hnuFunc M) (nNu m) x)].
Proof.
  exists (mkNM (Some (fun x : R => x)) (Some (fun _ => 1/4))), (mkNeo 1 0 1 0 0 0), (fun x => x), (fun _ => 1/4), 1.
  split; [reflexivity|]. split; [reflexivity|]. split; [lra|]. split; [lra|].
  intros Q. apply (f_equal (fun l => nth 1 l 0)) in Q. unfold blocks, neoOps in Q. cbn [map concat fst snd hE] in Q.
  destruct (Rlt_dec 0 1); [|lra]. cbn in Q. unfold shearOf in Q. lra.
Qed.
Print Assumptions C128_hyperelastic_poisson_refuted.

(** Plastic material: integration points evaluated in any order by any threads, each once.  Every evaluation gives the result it
    gives alone, and the history afterwards does not depend on the order. *)
Theorem C128_plastic : forall (H T O : Type) (upd : H -> T -> T -> nat -> bool -> option (H * O)) h0 f0 first it
  (tr tr' : list (nat * (nat * T))) l, Permutation tr tr' -> NoDup (map (fun p => fst (snd p)) tr) ->
  let go q := exec (map (fun p => (fst p, plasticOp upd h0 f0 first it (snd p))) q) l in
  snd (go tr) = snd (go tr') /\ Permutation (fst (go tr)) (fst (go tr')) /\
  fst (go tr) = map (fun p => (fst p, (fst (snd p), snd (plasticEval upd h0 f0 first it (fst (snd p)) (snd (snd p)) l)))) tr.
Proof.
  intros H T O upd h0 f0 first it tr tr' l P N go. split; [|split].
  - apply (exec_final upd h0 f0 first it tr tr' P l N).
  - unfold go. fold (accesses upd h0 f0 first it tr). fold (accesses upd h0 f0 first it tr'). rewrite !exec_results.
    + apply Permutation_map, P.
    + eapply Permutation_NoDup; [|exact N]. apply Permutation_map, P.
    + exact N.
  - apply (exec_results upd h0 f0 first it tr l N).
Qed.
Print Assumptions C128_plastic.
Example C128_plastic_nonvacuous :
  let upd := fun (h fp f : nat) (_ : nat) (_ : bool) => Some ((h + f)%nat, (10 * h + f)%nat) in
  let l := [Some (mkP 3 3 1 false); Some (mkP 5 5 1 false); None]%nat in
  let tr := [(0, (1, 7)); (4, (0, 2)); (0, (2, 1)); (1, (9, 1))]%nat in
  NoDup (map (fun p => fst (snd p)) tr) /\
  exec (map (fun p => (fst p, plasticOp upd 0%nat 1%nat false 1 (snd p))) tr) l =
  ([(0, (1, Some (Some 57))); (4, (0, Some (Some 32))); (0, (2, None)); (1, (9, None))], [Some (mkP 5 3 1 true); Some (mkP 12 5 1 true); None])%nat.
Proof. split; [|reflexivity]. repeat constructor; cbn; lia. Qed.
