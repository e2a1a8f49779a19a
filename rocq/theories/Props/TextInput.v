(** Pressures (C125) and materials (C126) in text input files. *)
From Coq Require Import List ZArith QArith Bool Lia Permutation.
From Verif.Lib Require Import Base.
From Verif.Model Require Import TextInput.
From Verif.Spec Require Import TextInput.
From Verif.Proofs Require Import TextInput.
Import ListNotations.
Local Open Scope Z_scope.
Definition n (z : Z) : word := Num (inject_Z z).

(** ** C125: every pressure acts where it is specified, with its own direction and value.
    Full statement: for every accepted file, the loads are exactly those of its lines, and an invalid line is refused. *)
Theorem C125_loads_partial : forall dim local stress sets f s, parseFile dim local stress f (before sets) = Ret s ->
  (forall e, In e (fileLines f) -> plain e) -> NoDup (flat_map codeOf (fileLines f)) ->
  Permutation (loads s) (flat_map (wantedLoad local stress sets) (fileLines f)).
Proof. intros dim local stress sets f s E Pl ND. exact (i_loads _ _ _ _ _ (file_inv dim local stress sets f s E Pl ND)). Qed.
Theorem C125_accepted : forall dim local stress sets f, 2 * dim <= 127 -> (forall e, In e (fileLines f) -> valid dim local stress e) ->
  exists s, parseFile dim local stress f (before sets) = Ret s.
Proof. intros dim local stress sets f D V. exact (valid_lines dim local stress (fileLines f) D V (before sets)). Qed.
(** Two PRESSURE sections: the first pressure of the second section replaces the first one of the first section. *)
Definition two : list section := [mkSec PRESSURE 1 [[n 1; n 1; n 1; n 10]]; mkSec PRESSURE 1 [[n 2; n 6; n 3; n 20]]].
Theorem C125_sections_refuted : exists f s, parseFile 3 (fun p => p) false f (before []) = Ret s /\
  flat_map (wantedLoad (fun p => p) false []) (fileLines f) = [(1, 1, Pressure (Const 10) 1); (2, 6, Pressure (Const 20) 3)] /\
  loads s = [(1, 1, Pressure (Const 20) 3); (2, 6, Pressure (Const 20) 3)].
Proof. exists two. eexists. repeat split. Qed.
(** A PRESSURE section and a pressure for code 1. *)
Theorem C125_codes_refuted : exists f s, parseFile 3 (fun p => p) false f (before [(1, 2, 6)]) = Ret s /\
  flat_map (wantedLoad (fun p => p) false [(1, 2, 6)]) (fileLines f) = [(1, 1, Pressure (Const 10) 1); (2, 6, Pressure (Const 20) 3)] /\
  loads s = [(2, 6, Pressure (Const 20) 3); (1, 1, Pressure (Const 20) 3)].
Proof. exists [mkSec PRESSURE 1 [[n 1; n 1; n 1; n 10]]; mkSec CONSTANT_PRESSURE 1 [[n 1; n 3; n 20]]]. eexists. repeat split. Qed.
(** Face 257 is accepted as face 1. *)
Theorem C125_face_refuted : exists f s, parseFile 3 (fun p => p) false f (before []) = Ret s /\
  fileLines f = [(PRESSURE, 0%nat, [n 1; n 257; n 1; n 10])] /\ loads s = [(1, 1, Pressure (Const 10) 1)].
Proof. exists [mkSec PRESSURE 1 [[n 1; n 257; n 1; n 10]]]. eexists. repeat split. Qed.
(** A line without a value dereferences a null pointer. *)
Theorem C125_short_line_refuted : parseFile 3 (fun p => p) false [mkSec PRESSURE 1 [[n 1; n 1; n 1]]] (before []) = UB /\
  parseFile 3 (fun p => p) false [mkSec CONSTANT_PRESSURE 1 [[n 1; n 1]]] (before []) = UB.
Proof. split; reflexivity. Qed.
Definition good : list section :=
  [mkSec PRESSURE 2 [[n 1; n 1; n 1; n 10]; [n 2; n 6; n 3; n 20; Word 7]]; mkSec LINEAR_PRESSURE 1 [[n 5; n 2; n 30]; [n 99]]].
Example C125_case : exists s, parseFile 3 (fun p => p) false good (before [(5, 1, 2); (5, 2, 3); (6, 1, 4)]) = Ret s /\
  (forall e, In e (fileLines good) -> plain e) /\ NoDup (flat_map codeOf (fileLines good)) /\
  loads s = [(1, 2, Pressure (Linear 30) 2); (2, 3, Pressure (Linear 30) 2); (1, 1, Pressure (Const 10) 1); (2, 6, Pressure (Func (Word 7) 20) 3)].
Proof.
  eexists. split; [reflexivity|]. split; [|split; [|reflexivity]].
  - intros e [<-|[<-|[<-|[]]]]; cbn; try exact Logic.I; lia.
  - cbn. repeat constructor; cbn; lia.
Qed.

(** ** C126: every patch is integrated once, with the material given for it.
    Full statement: also if a material for all patches is combined with materials for some patches. *)
Theorem C126_regions_partial : forall dim local stress sets f s nPatch, parseFile dim local stress f (before sets) = Ret s ->
  (forall e, In e (fileLines f) -> plain e) -> NoDup (flat_map codeOf (fileLines f)) ->
  flat_map (wantedMat local sets) (fileLines f) <> [] ->
  Permutation (integrated nPatch s) (map (fun x => (fst x, Some (snd x))) (flat_map (wantedMat local sets) (fileLines f))).
Proof. intros dim local stress sets f s nPatch E Pl ND NE. exact (integrated_mats _ _ _ _ _ _ (file_inv dim local stress sets f s E Pl ND) NE). Qed.
(** Without materials for codes or patches, all patches get the material given last. *)
Theorem C126_one_material : forall dim local stress sets f s nPatch, parseFile dim local stress f (before sets) = Ret s ->
  (forall e, In e (fileLines f) -> plain e) -> NoDup (flat_map codeOf (fileLines f)) ->
  flat_map (wantedMat local sets) (fileLines f) = [] ->
  integrated nPatch s = map (fun k => (Z.of_nat k, last (map Some (flat_map given (fileLines f))) None)) (seq 1 nPatch).
Proof.
  intros dim local stress sets f s nPatch E Pl ND NE. rewrite (integrated_none _ _ _ nPatch _ _ (file_inv dim local stress sets f s E Pl ND) NE).
  now rewrite (parse_current _ _ _ _ _ _ E).
Qed.
(** A material for all patches, and another one for patch 3: only patch 3 is integrated. *)
Theorem C126_all_refuted : exists f s, parseFile 3 (fun p => p) false f (before []) = Ret s /\
  fileLines f = [(MATERIALS, 0%nat, [n 200; n 0; n 7; Word ALL]); (MATERIALS, 1%nat, [n 70; n 0; n 3; n 3])] /\
  integrated 3 s = [(3, Some (mkM 70 0 3))].
Proof. exists [mkSec MATERIALS 2 [[n 200; n 0; n 7; Word ALL]; [n 70; n 0; n 3; n 3]]]. eexists. repeat split. Qed.
(** A line without density. *)
Theorem C126_short_line_refuted : parseFile 3 (fun p => p) false [mkSec MATERIALS 1 [[n 200; n 0]]] (before []) = UB.
Proof. reflexivity. Qed.
Example C126_case : exists s, let f := [mkSec ISOTROPIC 2 [[n 5; n 200; n 0; n 7]; [n 6; n 70; n 0; n 3]]; mkSec MATERIALS 1 [[n 1; n 0; n 1; n 4]]] in
  parseFile 3 (fun p => p) false f (before [(5, 1, 0); (6, 2, 0); (5, 3, 0)]) = Ret s /\ NoDup (flat_map codeOf (fileLines f)) /\
  integrated 4 s = [(1, Some (mkM 200 0 7)); (2, Some (mkM 70 0 3)); (3, Some (mkM 200 0 7)); (4, Some (mkM 1 0 1))].
Proof. eexists. cbv zeta. split; [reflexivity|]. split; [cbn; repeat constructor; cbn; lia|reflexivity]. Qed.

Print Assumptions C125_loads_partial.
Print Assumptions C125_accepted.
Print Assumptions C125_sections_refuted.
Print Assumptions C125_codes_refuted.
Print Assumptions C125_face_refuted.
Print Assumptions C125_short_line_refuted.
Print Assumptions C126_regions_partial.
Print Assumptions C126_one_material.
Print Assumptions C126_all_refuted.
Print Assumptions C126_short_line_refuted.
