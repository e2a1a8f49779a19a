(** Property C129: plastic results at a result point follow the deformation history of that point. *)
From Coq Require Import List Lia QArith.
From Verif.Spec Require Import History ResultPoints.
From Verif.Model Require Import History ResultPoints.
From Verif.Proofs Require Import History ResultPoints.
Import ListNotations.

(** The deformations of a body at the times results are evaluated, and the points visited each time. *)
Definition visits {L T} (ss : list ((L -> T) * list L)) : list (list T) := map (fun p => map (fst p) (snd p)) ss.

(** The same points in the same order each time: every point has its own history. *)
Theorem C129_fixed_points_partial : forall (H T O L : Type) (upd : H -> T -> T -> nat -> bool -> option (H * O)) h0 f0 (us : list (L -> T)) (pts : list L) i x,
  nth_error pts i = Some x ->
  map (fun os => nth i os None) (sweeps upd h0 f0 [] (visits (map (fun u => (u, pts)) us))) =
  follow (fun h f F => upd h f F 1%nat false) h0 f0 (map (fun u => u x) us).
Proof.
  intros H T O L upd h0 f0 us pts i x Hx.
  destruct us as [|u0 us0]; [reflexivity|]. set (us := u0 :: us0).
  assert (Li : (i < length pts)%nat) by (apply nth_error_Some; rewrite Hx; discriminate).
  rewrite (sweeps_follow upd h0 f0 (length pts) (u0 x) i Li).
  - assert (Nn : nth i ([] : list (point H T)) (newPoint h0 f0) = newPoint h0 f0) by (destruct i; reflexivity). rewrite Nn. f_equal.
    unfold visits. rewrite !map_map. apply map_ext. intros u. cbn [fst snd].
    apply nth_error_nth. apply map_nth_error, Hx.
  - intros s Hs. unfold visits in Hs. rewrite map_map in Hs. apply in_map_iff in Hs. destruct Hs as (u & <- & _). apply map_length.
  - cbn. lia.
Qed.
Print Assumptions C129_fixed_points_partial.

(** If results are evaluated after every increment, at the same points, a result point reports what the equilibrium iterations
    have found at an integration point with the same deformations (for a material law not depending on the iteration number). *)
Theorem C129_integration_partial : forall (H T O L : Type) (upd : H -> T -> T -> nat -> bool -> option (H * O)) law h0 f0 (us : list (L -> T)) (u : L -> T) (pts : list L) i x
  l s' m h o d,
  (forall h f F it b, (1 <= it)%nat -> upd h f F it b = law h f F) ->
  nth_error pts i = Some x -> map (fun u => u x) us = map (fun a => last (trials a) d) l ->
  Forall (fun a => converged a = true) l -> driven upd true (h0, f0) l -> spec_run upd (h0, f0) l = Some s' ->
  let b := still_first true l in
  upd (fst s') (snd s') (u x) (length (snd s' :: m)) b = Some (h, o) ->
  snd (assemble upd b (length (snd s' :: m)) (u x) (iterate upd b 0 (snd s' :: m) (run upd (newPoint h0 f0) l))) = Some o /\
  nth i (nth (length us) (sweeps upd h0 f0 [] (visits (map (fun u => (u, pts)) (us ++ [u])))) []) None = Some o.
Proof.
  intros H T O L upd law h0 f0 us u pts i x l s' m h o d St Hx Hus Hc Hd Hs b Hu. split.
  - apply (history_used upd l true (newPoint h0 f0) (h0, f0) s' m (u x) h o); try assumption; [split; reflexivity|].
    eapply Forall_impl; [|exact Hc]. intros a A. left. exact A.
  - pose proof (C129_fixed_points_partial H T O L upd h0 f0 (us ++ [u]) pts i x Hx) as E.
    rewrite (map_app (fun u => u x)), Hus in E.
    assert (F : skipn (length l) (follow law h0 f0 (map (fun a => last (trials a) d) l ++ [u x])) = follow law (fst s') (snd s') [u x]).
    { exact (follow_converged upd law St d l true (h0, f0) s' [u x] Hc Hd Hs). }
    assert (Lu : length us = length l) by (rewrite <- (map_length (fun u => u x) us), Hus, map_length; reflexivity).
    assert (Eq : forall h f F, follow (fun h f F => upd h f F 1%nat false) h f F = follow law h f F).
    { intros h1 f1 F1. revert h1 f1. induction F1 as [|F2 q IH]; intros h1 f1; [reflexivity|]. cbn [follow]. rewrite St by lia. destruct (law h1 f1 F2) as [[? ?]|]; rewrite IH; reflexivity. }
    rewrite Eq in E. set (sw := sweeps upd h0 f0 [] _) in *.
    cbn [map] in E. rewrite <- E in F. cbn [follow] in F. rewrite St in Hu by (cbn; lia). rewrite Hu in F.
    assert (G : nth (length l) (map (fun os => nth i os None) sw) None = Some o).
    { set (q := map (fun os => nth i os None) sw) in *.
      assert (K : (length (skipn (length l) q) = 1)%nat) by (rewrite F; reflexivity). rewrite skipn_length in K.
      rewrite <- (firstn_skipn (length l) q), app_nth2; rewrite ?firstn_length_le; [rewrite F, Nat.sub_diag; reflexivity|lia..]. }
    rewrite Lu. rewrite <- G. symmetry.
    replace None with (nth i (@nil (option O)) None) at 1 by (destruct i; reflexivity).
    apply (map_nth (fun os => nth i os None)).
Qed.
Print Assumptions C129_integration_partial.

(** A bar of unit length, stiffness and yield stress with unit hardening: plastic strain, and stress at a strain [F]. *)
Local Open Scope Q_scope.
Definition rod (h : Q) (_ F : Q) (_ : nat) (_ : bool) : option (Q * Q) :=
  let h' := if Qle_bool (F - h) (1 + h) then h else Qred ((F - 1) / 2) in Some (h', Qred (F - h')).
(** The bar is stretched plastically and relaxed; with results saved at both times the bar is free of stress, with results saved at
    the second time only the stress is reported as 1. *)
Theorem C129_saving_interval_refuted : exists u1 u2 : unit -> Q,
  last (sweeps rod 0 0 [] (visits [(u1, [tt]); (u2, [tt])])) [] = [Some 0] /\ last (sweeps rod 0 0 [] (visits [(u2, [tt])])) [] = [Some 1].
Proof. exists (fun _ => 3), (fun _ => 1). split; vm_compute; reflexivity. Qed.
Print Assumptions C129_saving_interval_refuted.
(** ... whereas the equilibrium iterations see both increments and find no stress. *)
Example C129_interval_equilibrium :
  snd (assemble rod false 1 1 (iterate rod false 0 [3] (run rod (newPoint 0 0) [mkA true [0; 3] true]))) = Some 0.
Proof. vm_compute. reflexivity. Qed.
(** Results at other points in between (for instance the grid of the visualisation, and a few result points): a point which
    is never deformed is reported to be under stress, as it is given the history of another point. *)
Theorem C129_other_points_refuted : exists (u : bool -> Q) (pts : list bool) x, In x pts /\ u x = 0 /\
  sweeps rod 0 0 [] (visits [(u, pts); (u, [x])]) = [[Some 2; Some 0]; [Some (-1)]] /\ follow (fun h f F => rod h f F 1%nat false) 0 0 [u x; u x] = [Some 0; Some 0].
Proof. exists (fun b : bool => if b then 3 else 0), [true; false], false. split; [right; left; reflexivity|]. repeat split; vm_compute; reflexivity. Qed.
Print Assumptions C129_other_points_refuted.
Example C129_nonvacuous : (* hypotheses of the integration theorem *)
  let l := [mkA true [0; 3] true] in
  Forall (fun a : attempt Q => converged a = true) l /\ driven rod true (0, 0) l /\ spec_run rod (0, 0) l = Some (1, 3) /\
  rod 1 3 1 1 false = Some (1, 0) /\ nth_error [true; false] 1 = Some false.
Proof. cbv zeta. split; [repeat constructor|]. split; [|repeat split]. cbn. split; [reflexivity|]. split; [exists [], 3; reflexivity|exact I]. Qed.
