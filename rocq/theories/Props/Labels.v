(** Properties C30, C32 and C33: result labels, extreme values, component names. *)
From Coq Require Import List String Ascii Arith Bool Reals Lra Lia Permutation.
From Verif Require Import Lib.Base Model.Labels Spec.Labels Proofs.Labels.
Import ListNotations.
Open Scope string_scope.
Open Scope nat_scope.

(** ** C30 *)

(** Two- and three-dimensional continua: all labels are right exactly when principal values
    are not combined with internal variables, and strains not with plane stress. *)
Theorem C30_elasticity_partial : forall c, continuum c -> (wantPrincipal c = true -> prinOk c = true) ->
  (labelled (wantStrain c) (evalSol2 c false) (getNoFields c 2) (getField2Name c) <->
   ~ (wantPrincipal c = true /\ 0 < noInt (mat c)) /\ ~ (wantStrain c = true /\ planeStress c)).
Proof. exact elasticity_exact. Qed.
Print Assumptions C30_elasticity_partial.

(** The tensor and von Mises columns are right whatever else is asked for. *)
Theorem C30_tensor_partial : forall c, continuum c -> ~ (wantStrain c = true /\ planeStress c) ->
  forall i prefix, i <= getNoFields c 3 -> exists q,
    nth_error (evalSol2 c false) i = Some q /\
    getField2Name c i prefix = Ret (pfx prefix (describe (wantStrain c) q)).
Proof. exact elasticity_tensor. Qed.
Print Assumptions C30_tensor_partial.

(** The description tells quantities apart, so a wrong label names another quantity. *)
Theorem C30_distinct_partial : forall strain q1 q2, indexed q1 -> indexed q2 ->
  describe strain q1 = describe strain q2 -> q1 = q2.
Proof. exact describe_inj. Qed.
Print Assumptions C30_distinct_partial.

(** Principal values together with internal variables: for every continuum and every such
    material the column after von Mises holds the first principal value and is labelled as
    the first internal variable. *)
Theorem C30_principal_refuted : forall c, continuum c -> wantPrincipal c = true -> prinOk c = true -> 0 < noInt (mat c) ->
  let i := S (getNoFields c 3) in
  nth_error (evalSol2 c false) i = Some (Principal 1) /\
  getField2Name c i None = Ret (describe (wantStrain c) (internalValue (mat c) 1)).
Proof.
  intros c K W O N i. unfold i. rewrite <- strip_cols, <- strip_name, <- strip_fields, base_value. rewrite base_noInt in N. cases c. subst wp po.
  destruct (base_cases m) as [M|[M|M]]; rewrite M in *; [cbn in N; lia| |];
  (destruct K as [-> | [-> ->]]; [destruct a, ps|destruct ps]; split; reflexivity).
Qed.
Print Assumptions C30_principal_refuted.

(** Strain output in plane stress: the shear strain is labelled as a stress. *)
Theorem C30_strain_refuted : exists c, continuum c /\
  nth_error (evalSol2 c false) 2 = Some (Comp AX AY) /\ wantStrain c = true /\
  getField2Name c 2 None = Ret (describe false (Comp AX AY)).
Proof. exists (mkConfig 2 false false LinIso true false true). repeat split; auto. now left. Qed.
Print Assumptions C30_strain_refuted.

(** One-dimensional problems: stress and von Mises stress carry the same label. *)
Theorem C30_one_dim_refuted : forall c, nsd c = 1 ->
  nth_error (evalSol2 c false) 0 = Some (Comp AX AX) /\ nth_error (evalSol2 c false) 1 = Some VonMises /\
  forall prefix, getField2Name c 0 prefix = getField2Name c 1 prefix.
Proof.
  intros [n a ps m ws wp po] E. cbn in E. subst n. split; [reflexivity|]. split; [reflexivity|].
  intros p. unfold getField2Name, getNoFields. cbn. destruct wp; cbn; rewrite ?Nat.add_1_r; reflexivity.
Qed.
Print Assumptions C30_one_dim_refuted.

(** Analytical secondary solutions follow the label order also with internal variables. *)
Theorem C30_analytical_partial : forall c, continuum c -> wantPrincipal c = true -> ~ (wantStrain c = true /\ planeStress c) ->
  length (evalSolAna c) = getNoFields c 2 /\
  forall i prefix, i < getNoFields c 2 -> exists q, nth_error (evalSolAna c) i = Some q /\
   (q = Nothing \/ getField2Name c i prefix = Ret (pfx prefix (describe (wantStrain c) q))).
Proof. exact analytical_labels. Qed.
Print Assumptions C30_analytical_partial.

(** The extreme values the nonlinear driver picks by position are the ones it means. *)
Theorem C30_driver_partial : forall c, continuum c -> base (mat c) = Plastic -> wantPrincipal c = false ->
  map (fun k => nth_error (evalSol2 c false) (k - 1)) (driverMax c) =
  map Some [VonMises; EqPlastic; Triax; Lode].
Proof. exact driver_max. Qed.
Print Assumptions C30_driver_partial.

(** Plates in one and two dimensions and all versions, shells and cables. *)
Theorem C30_structures : 
  (forall version nsd rec, 1 <= version <= 3 -> 1 <= nsd <= 2 ->
    labelled false (plateCols version nsd rec) (plateNoFields version nsd rec 2) (plateField2Name version nsd)) /\
  labelled false shellCols 18 shellField2Name /\
  labelled false cableCols 2 (fun i p => Ret (cableField2Name i p)).
Proof. split; [exact plate_labels|]. split; [exact shell_labels|exact cable_labels]. Qed.
Print Assumptions C30_structures.

(** A plane-strain plastic material: thirteen columns, all labelled. *)
Example C30_case :
  let c := mkConfig 2 false true Plastic false false true in
  continuum c /\ labelled (wantStrain c) (evalSol2 c false) 12 (getField2Name c) /\
  getField2Name c 5 (Some "Max") = Ret "Max E_pp".
Proof.
  cbn zeta. split; [now left|]. split; [|reflexivity].
  apply (elasticity_exact (mkConfig 2 false true Plastic false false true)); [now left|discriminate|].
  split; intros [A B]; discriminate A.
Qed.

(** ** C32 *)

(** After any sequence of visits each cell holds the largest absolute value of its component
    over the visits that count for it, at one of the points where it was found. *)
Theorem C32_maximum_partial : forall P (o : P) nf nP mv ws j p,
  0 < nP -> (mv = [] \/ shaped nf nP mv) -> j < nf -> p < nP ->
  let c := cellAt o (visitsMax (fst (initMaxVals o nf mv nP)) ws) j p in
  isMaxAbs (Rabs (snd c)) (map snd (samples nP p j ws)) /\ (c = (o, 0%R) \/ In c (samples nP p j ws)).
Proof. exact @extreme_value. Qed.
Print Assumptions C32_maximum_partial.

(** The magnitude does not depend on the order of the visits. *)
Theorem C32_order_partial : forall P (o : P) nf nP mv ws ws' j p,
  0 < nP -> (mv = [] \/ shaped nf nP mv) -> j < nf -> p < nP -> Permutation ws ws' ->
  Rabs (snd (cellAt o (visitsMax (fst (initMaxVals o nf mv nP)) ws) j p)) =
  Rabs (snd (cellAt o (visitsMax (fst (initMaxVals o nf mv nP)) ws') j p)).
Proof. exact @extreme_order. Qed.
Print Assumptions C32_order_partial.

(** Sign and place are not schedule independent: two visits with opposite values. *)
Theorem C32_sign_refuted : exists ws ws' : list (visitv (P := nat)), Permutation ws ws' /\
  cellAt 0 (visitsMax (fst (initMaxVals 0 1 [] 1)) ws) 0 0 <>
  cellAt 0 (visitsMax (fst (initMaxVals 0 1 [] 1)) ws') 0 0.
Proof.
  exists [mkVisit 0 1 [1%R]; mkVisit 0 2 [(-1)%R]], [mkVisit 0 2 [(-1)%R]; mkVisit 0 1 [1%R]].
  split; [constructor|]. unfold cellAt, visitsMax, initMaxVals, visitMax. cbn. unfold upd. cbn [snd].
  assert (A1 : Rabs (-1) = 1%R) by (rewrite Rabs_left; lra).
  rewrite Rabs_R0, A1, Rabs_R1. destruct (Rlt_dec 0 1) as [_|n]; [|exfalso; lra]. cbn [snd].
  rewrite A1, Rabs_R1. destruct (Rlt_dec 1 1) as [n|_]; [exfalso; lra|].
  intros E. injection E as E1 E2. discriminate E1.
Qed.
Print Assumptions C32_sign_refuted.

(** A request made while the default material is in place allocates no cell for the internal
    variables of the material assigned later: their extreme values are never reported. *)
Theorem C32_late_material_refuted : exists c c', nsd c = nsd c' /\
  forall (ws : list (visitv (P := nat))),
    length (visitsMax (fst (initMaxVals 0 (getNoFields c 2) [] 1)) ws) < getNoFields c' 2 /\
    length (visitsMax (fst (initMaxVals 0 (getNoFields c' 2) (visitsMax (fst (initMaxVals 0 (getNoFields c 2) [] 1)) ws) 1)) ws)
      < getNoFields c' 2.
Proof.
  exists (mkConfig 2 true false LinIso false false true), (mkConfig 2 true false Plastic false false true).
  split; [reflexivity|]. intros ws.
  assert (L : forall (ws : list (visitv (P := nat))) mv, length (visitsMax mv ws) = length mv).
  { intros w. induction w as [|x w IH]; intros mv; cbn; auto.
    change (length (visitsMax (visitMax mv x) w) = length mv). rewrite IH. apply updAll_length. }
  split; [rewrite L; cbn; lia|]. rewrite L.
  set (mv := visitsMax _ ws). assert (M : length mv = 5) by (unfold mv; rewrite L; reflexivity).
  destruct mv as [|c mv]; [discriminate M|]. cbn [initMaxVals fst]. rewrite map_length, M. cbn. lia.
Qed.
Print Assumptions C32_late_material_refuted.

Example C32_case :
  let ws := [mkVisit 0 7 [3%R; 1%R]; mkVisit 1 8 [(-5)%R; 0%R]; mkVisit 0 9 [2%R; (-4)%R]] in
  samples 2 0 1 ws = [(7, 1%R); (9, (-4)%R)] /\
  Rabs (snd (cellAt 0 (visitsMax (fst (initMaxVals 0 2 [] 2)) ws) 1 0)) = 4%R.
Proof.
  cbn zeta. split; [reflexivity|].
  destruct (extreme_value (P := nat) 0 2 2 [] [mkVisit 0 7 [3%R; 1%R]; mkVisit 1 8 [(-5)%R; 0%R]; mkVisit 0 9 [2%R; (-4)%R]] 1 0) as [[A B] _];
    auto. set (m := Rabs _) in *. cbn in A, B.
  assert (4 <= m)%R. { replace 4%R with (Rabs (-4)) by (rewrite Rabs_left; lra). apply A. auto. }
  destruct B as [B | [v [[<- | [<- | []]] B]]]; rewrite B in *; auto.
  - lra.
  - rewrite Rabs_R1 in *. lra.
  - rewrite Rabs_left; lra.
Qed.

(** ** C33 *)

(** Beams, bars, shells and plates: any index, any prefix. *)
Theorem C33_base : forall npv i prefix, exists s, baseField1Name npv i prefix = Ret s.
Proof. exact base_name. Qed.
Print Assumptions C33_base.

(** Continua: a name is returned except for an axisymmetric model asked, with a prefix, for
    an index past the components. *)
Theorem C33_elasticity_partial : forall c i prefix, (nsd c = 1 \/ continuum c) -> (axi c = true -> nsd c = 2) ->
  ((exists s, getField1Name c i prefix = Ret s) <-> ~ (axi c = true /\ nsd c < i /\ prefix <> None)).
Proof. exact elasticity_name. Qed.
Print Assumptions C33_elasticity_partial.

Theorem C33_axisymmetric_refuted : forall c i p, axi c = true -> nsd c < i -> getField1Name c i (Some p) = UB.
Proof.
  intros c i p A L. unfold getField1Name. apply Nat.ltb_lt in L. rewrite L, A. reflexivity.
Qed.
Print Assumptions C33_axisymmetric_refuted.

(** Names of the components that exist. *)
Theorem C33_components : forall c i p, continuum c -> i < nsd c ->
  getField1Name c i (Some p) = Ret (p ++ " " ++ dispName (axi c) i) /\
  (axi c = false -> getField1Name c i None = Ret (dispName false i)).
Proof. exact elasticity_components. Qed.
Print Assumptions C33_components.

(** The mixed formulation: the same exception, now past the pressure component. *)
Theorem C33_mixed_partial : forall c i prefix, (nsd c = 1 \/ continuum c) -> (axi c = true -> nsd c = 2) ->
  ((exists s, mixedField1Name c i prefix = Ret s) <-> ~ (axi c = true /\ S (nsd c) < i /\ i <> 12 /\ prefix <> None)).
Proof. exact mixed_name. Qed.
Print Assumptions C33_mixed_partial.

(** Without prefix the axisymmetric model names Cartesian components. *)
Theorem C33_no_prefix_refuted : forall c, axi c = true -> nsd c = 2 ->
  getField1Name c 0 None = Ret "u_x" /\ dispName (axi c) 0 = "u_r".
Proof. intros c A N. unfold getField1Name. rewrite N, A. split; reflexivity. Qed.
Print Assumptions C33_no_prefix_refuted.

Example C33_case : getField1Name (mkConfig 2 true false LinIso false false true) 1 (Some "Max") = Ret "Max u_z".
Proof. reflexivity. Qed.

(** The fields of the mixed formulation: displacements, volume change, pressure; 12 is both together. *)
Theorem C33_mixed_fields : forall c p, 1 <= nsd c <= 3 ->
  mixedField1Name c (nsd c) p = Ret (pfx p "theta") /\ mixedField1Name c (S (nsd c)) p = Ret (pfx p "p") /\
  mixedField1Name c 12 p = Ret (pfx p "theta+p") /\ forall i, i < nsd c -> mixedField1Name c i p = getField1Name c i p.
Proof.
  intros c p N. unfold mixedField1Name. assert (nsd c = 1 \/ nsd c = 2 \/ nsd c = 3) as D by lia.
  split; [|split; [|split]]; [destruct D as [-> | [-> | ->]]; reflexivity..|]. intros i I. apply Nat.ltb_lt in I. now rewrite I.
Qed.
Print Assumptions C33_mixed_fields.
Theorem C33_shell : forall i p, shellField1Name i p = pfx p (nth i shellDisp "displacement").
Proof. intros i p. unfold shellField1Name. do 4 (destruct i as [|i]; [reflexivity|]). cbn [Nat.eqb nth shellDisp]. change (3 <? S (S (S (S i)))) with true. now destruct i. Qed.
Print Assumptions C33_shell.
Example C33_mixed_case : mixedField1Name (mkConfig 2 false true LinIso false false true) 3 (Some "Max") = Ret "Max p".
Proof. reflexivity. Qed.
