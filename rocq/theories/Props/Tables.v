(** Material and thickness look-up (C62, C88). *)
From Coq Require Import List ZArith QArith Bool Lia.
From Verif Require Import Lib.Base Model.Tables Proofs.Tables.
Import ListNotations.
Open Scope Z_scope.

(** ** C62 *)
(** Without any material the clamped index wraps around and the table is read out of bounds. *)
Theorem C62_empty_refuted : forall (M F : Type) p, 0 <= p ->
  @initElasticity M true [] p = UB /\ (forall tF k, initShell (mkShell (M := M) (F := F) [] [] tF k) p = UB) /\
  forall tV (i : integrand M F), initBeamC1 [] tV i p = UB.
Proof.
  intros M F p P. split; [now apply init_empty|]. assert (E : @at_ M [] (@clampIdx M [] p) = UB) by exact (init_empty (M := M) p P).
  split; intros; unfold initShell, initBeamC1; cbn [mVec]; rewrite E; reflexivity.
Qed.
(** With at least one material every index works: the last one is used beyond the table. *)
Theorem C62_nonempty_partial : forall (M : Type) (l : list M) p, 0 <= p -> l <> [] -> Z.of_nat (length l) < wrap ->
  exists m, initElasticity true l p = Ret m /\ initElasticity false l p = Rejected /\ nth_error l (Nat.min (Z.to_nat p) (length l - 1)) = Some m.
Proof. intros M l p P N W. destruct (init_spec l p P N W) as (m & A & B). exists m. auto. Qed.
(** The beam program, whose two tables have one entry for each material. *)
Theorem C62_beam_partial : forall (M F : Type) (l : list (M * Q)) (i : integrand M F) p, 0 <= p -> l <> [] -> Z.of_nat (length l) < wrap ->
  exists m t k, nth_error l (Nat.min (Z.to_nat p) (length l - 1)) = Some (m, t) /\ initBeamC1 (map fst l) (map snd l) i p = Ret k /\
    curMat k = Some m /\ curThick k = if Qeq_bool t 0 then curThick i else Const t.
Proof.
  intros M F l i p P N W. unfold initBeamC1. rewrite clamp_nonempty; [|assumption|destruct l; [congruence|discriminate]|now rewrite map_length].
  rewrite map_length. assert (L0 : (0 < length l)%nat) by (destruct l; [congruence|cbn; lia]). set (q := Z.min p _).
  assert (I : Z.to_nat q = Nat.min (Z.to_nat p) (length l - 1)) by lia.
  destruct (nth_error l (Nat.min (Z.to_nat p) (length l - 1))) as [[m t]|] eqn:E; [|apply nth_error_None in E; lia].
  exists m, t. unfold at_. rewrite I, (map_nth_error fst _ _ E), (map_nth_error snd _ _ E). cbn [bind fst snd]. unfold isZeroQ.
  eexists. split; [reflexivity|]. split; [reflexivity|]. destruct (Qeq_bool t 0); split; reflexivity.
Qed.
Example C62_beam_case : exists k, initBeamC1 (map fst [(10%nat, 1#2); (20%nat, 1#4)]%Q) (map snd [(10%nat, 1#2); (20%nat, 1#4)]%Q) (mkInt (F := nat) None NoThick) 5 = Ret k /\ curMat k = Some 20%nat.
Proof. eexists. split; reflexivity. Qed.
(** The shell tables are filled in step by the parser, so the same holds there for any sequence of patches. *)
Theorem C62_shell_partial : forall (M F : Type) (l : list (iso M F)) ps, l <> [] -> Z.of_nat (length l) < wrap -> (forall p, In p ps -> 0 <= p) ->
  exists s, visit (parseAllIso l emptyShell) ps = Ret s /\
    forall p, 0 <= p -> exists s', initShell s p = Ret s' /\
      curMat (klp s') = nth_error (map emat l) (Nat.min (Z.to_nat p) (length l - 1)).
Proof.
  intros M F l ps N W P. destruct (parse_tables l (@emptyShell M F)) as [A B]. cbn in A, B.
  assert (N' : map emat l <> []) by (destruct l; [congruence|discriminate]).
  destruct (visit_safe ps (parseAllIso l emptyShell)) as (s & E & A1 & B1 & C1); [assumption|now rewrite A, B, !map_length|now rewrite A|now rewrite A, map_length|].
  exists s. split; [assumption|]. intros p Pp.
  destruct (init_safe s p) as (s' & E' & K & _); [assumption|now rewrite A1, B1, A, B, !map_length|now rewrite A1, A|now rewrite A1, A, map_length|].
  exists s'. split; [assumption|]. rewrite K, A1, A, map_length. reflexivity.
Qed.
Example C62_ex : initElasticity true [10; 20; 30]%nat 7 = Ret 30%nat. Proof. reflexivity. Qed.

(** ** C88 *)
(** Thickness functions are stored under the property code but looked up by the material index:
    the function given with material 0 (code 1) is not used for its patches,
    but for those of material 1. *)
Theorem C88_function_refuted :
  let l := [mkIso 1 (1#2)%Q 10%nat (Some 77%nat); mkIso 2 (1#4)%Q 20%nat None] in
  (exists s, visit (parseAllIso l emptyShell) [0] = Ret s /\ klp s = mkInt (Some 10%nat) (Const (1#2)%Q)) /\
  (exists s, visit (parseAllIso l emptyShell) [1] = Ret s /\ klp s = mkInt (Some 20%nat) (Func 77%nat)).
Proof. cbv zeta. split; eexists; (split; [vm_compute; reflexivity|reflexivity]). Qed.
(** A material without a thickness takes that of the patch visited before it. *)
Theorem C88_history_refuted :
  let l := [mkIso 1 (1#2)%Q 10%nat None; mkIso 2 (1#4)%Q 20%nat None; mkIso (F := nat) 3 0%Q 30%nat None] in
  (exists s, visit (parseAllIso l emptyShell) [0; 2] = Ret s /\ klp s = mkInt (Some 30%nat) (Const (1#2)%Q)) /\
  (exists s, visit (parseAllIso l emptyShell) [1; 2] = Ret s /\ klp s = mkInt (Some 30%nat) (Const (1#4)%Q)).
Proof. cbv zeta. split; eexists; (split; [vm_compute; reflexivity|reflexivity]). Qed.
(** With constant non-zero thicknesses only, every patch gets the material and thickness given
    together, whatever patches were visited before. *)
Theorem C88_constant_partial : forall (M F : Type) (l : list (iso M F)) ps p e,
  (forall q, In q (ps ++ [p]) -> 0 <= q) -> (forall e, In e l -> efunc e = None) -> Z.of_nat (length l) < wrap ->
  nth_error l (Nat.min (Z.to_nat p) (length l - 1)) = Some e -> ~ (ethick e == 0)%Q ->
  exists s, visit (parseAllIso l emptyShell) (ps ++ [p]) = Ret s /\ klp s = mkInt (Some (emat e)) (Const (ethick e)).
Proof. intros M F l ps p e P N W K Z. now apply visit_thick. Qed.
Example C88_ex : exists s, visit (parseAllIso [mkIso (F := nat) 1 (1#2)%Q 10%nat None; mkIso 2 (1#4)%Q 20%nat None] emptyShell) [0; 1; 0] = Ret s /\
  klp s = mkInt (Some 10%nat) (Const (1#2)%Q).
Proof. eexists; (split; [vm_compute; reflexivity|reflexivity]). Qed.

Print Assumptions C62_empty_refuted.
Print Assumptions C62_nonempty_partial.
Print Assumptions C62_shell_partial.
Print Assumptions C88_function_refuted.
Print Assumptions C88_history_refuted.
Print Assumptions C88_constant_partial.
Print Assumptions C62_beam_partial.
