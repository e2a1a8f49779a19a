(** Selecting the finite deformation formulation (C57). *)
From Coq Require Import List ZArith Bool String Ascii Permutation Lia.
From Verif Require Import Model.Options Spec.Options Proofs.Options.
Import ListNotations.
Open Scope string_scope.
Open Scope Z_scope.

(** The full claim fails: the guard that should keep -UL from replacing a mixed or F-bar formulation
    compares with a variable that is always -1, so -UL after -MX falls back to plain updated Lagrange. *)
Theorem C57_order_refuted : forall base,
  exists l l', Permutation l l' /\ chosenForm (parseAll base l args0) <> chosenForm (parseAll base l' args0) /\
    chosenForm (parseAll base l args0) = 5 /\ chosenForm (parseAll base l' args0) = 4.
Proof.
  intros base. exists ["-UL"; "-MX1"], ["-MX1"; "-UL"]. split; [apply perm_swap|]. vm_compute. repeat split; discriminate.
Qed.
(** <planestrain/> in the input file is lost if the dimension option comes after the file name. *)
Theorem C57_dimension_refuted : forall base, (forall d, base "-2D" d = (true, 2)) ->
  planeStrain (runMain base ["-2D"] [PlaneStrain] [] args0) = true /\
  planeStrain (runMain base [] [PlaneStrain] ["-2D"] args0) = false.
Proof. intros base B. unfold runMain, parseAll, parseFormulation. cbn. rewrite !B. cbn. rewrite ?B. cbn. split; reflexivity. Qed.
(** What holds: the last request counts, whatever else is on the command line ... *)
Theorem C57_last_request_partial : forall base l a,
  (forall f, lastOf asksForm l f -> chosenForm (parseAll base l a) = f) /\
  (forall p, lastOf asksOrder l p -> chosenOrder (parseAll base l a) = p) /\
  (noneOf asksForm l -> chosenForm (parseAll base l a) = chosenForm a) /\
  (noneOf asksOrder l -> chosenOrder (parseAll base l a) = chosenOrder a).
Proof. intros. repeat split; intros; auto using last_form, last_order, none_form, none_order. Qed.
(** ... so the order is immaterial exactly when the requests do not contradict each other ... *)
Theorem C57_permutation_partial : forall base l l' a, Permutation l l' ->
  agree asksForm l -> agree asksOrder l -> agree asksMx l -> agree asksAlg l ->
  let x := parseAll base l a in let y := parseAll base l' a in
  chosenForm x = chosenForm y /\ chosenOrder x = chosenOrder y /\ mx x = mx y /\ algor x = algor y /\
  planeStrain x = planeStrain y /\ axiSymmetry x = axiSymmetry y.
Proof. exact perm_all. Qed.
(** ... and command-line requests override the input file, wherever its name is given. *)
Theorem C57_overrides_file_partial : forall base before file after a f p,
  (lastOf asksForm (before ++ after) f -> chosenForm (runMain base before file after a) = f) /\
  (lastOf asksOrder (before ++ after) p -> chosenOrder (runMain base before file after a) = p).
Proof. intros. unfold runMain. split; intros; auto using last_form, last_order. Qed.
(** In the input file <updatedlagrange/> never replaces a mixed or F-bar formulation (numbers from 5). *)
Theorem C57_file_partial : forall cs1 cs2 a, 5 <= fst (fst (fold_left (formStep (dim a)) (cs1 ++ cs2)%list (-1, -1, a))) ->
  parseFormulation (cs1 ++ UpdatedLagrange :: cs2) a = parseFormulation (cs1 ++ cs2) a.
Proof. exact file_UL. Qed.

(** The last request in the input file counts, and <updatedlagrange/> after it refines it. *)
Theorem C57_last_in_file_partial : forall cs a f, lastChild asksChild cs f ->
  (~ refinedBy cs f -> chosenForm (parseFormulation cs a) = f) /\ (refinedBy cs f -> chosenForm (parseFormulation cs a) = Z.max f 4).
Proof. exact last_child. Qed.
Theorem C57_order_in_file_partial : forall cs a p, 0 <= p -> lastChild orderChild cs p -> chosenOrder (parseFormulation cs a) = p.
Proof. exact last_child_order. Qed.
Example C57_file_ex : lastChild asksChild [Linear; Mixed "Fbar" (Some 2); UpdatedLagrange; PlaneStrain] 7 /\
  refinedBy [Linear; Mixed "Fbar" (Some 2); UpdatedLagrange; PlaneStrain] 7.
Proof.
  assert (N : forall b y, In b [UpdatedLagrange; PlaneStrain] -> ~ asksChild b y) by (intros b y [<-|[<-|[]]] H; inversion H).
  split; exists [Linear], (Mixed "Fbar" (Some 2)), [UpdatedLagrange; PlaneStrain]; repeat split; auto using chl_Fbar. now left.
Qed.

Example C57_ex : lastOf asksForm ["-MX2"; "-2Dpstrain"; "-UL"; "-HHT"] 4 /\ lastOf asksOrder ["-MX2"; "-2Dpstrain"; "-UL"; "-HHT"] 2.
Proof.
  split.
  - exists ["-MX2"; "-2Dpstrain"], "-UL", ["-HHT"]. repeat split; [constructor|]. intros b y [<-|[]] H. inversion H.
  - exists [], "-MX2", ["-2Dpstrain"; "-UL"; "-HHT"]. repeat split.
    + apply (ord_MX "2" 2 ""); [|apply (dec_more _ _ 2); [|constructor]]; cbv; repeat split; discriminate.
    + intros b y [<-|[<-|[<-|[]]]] H; inversion H.
Qed.
Example C57_ex2 : agree asksForm ["-Fbar2"; "-Fbar2"; "-GA"] /\
  chosenOrder (parseAll (fun _ d => (false, d)) ["-Fbar2"; "-GA"; "-Fbar2"] args0) = 2.
Proof. split; [|reflexivity]. intros a b x y A B H K. destruct A as [<-|[<-|[<-|[]]]], B as [<-|[<-|[<-|[]]]]; inversion H; inversion K; subst; congruence. Qed.
Example C57_ex3 : 5 <= fst (fst (fold_left (formStep 2) ([Mixed "Fbar" (Some 2)] ++ [PlaneStrain])%list (-1, -1, args0))).
Proof. cbv. discriminate. Qed.

Print Assumptions C57_order_refuted.
Print Assumptions C57_dimension_refuted.
Print Assumptions C57_last_request_partial.
Print Assumptions C57_permutation_partial.
Print Assumptions C57_overrides_file_partial.
Print Assumptions C57_file_partial.
Print Assumptions C57_last_in_file_partial.
Print Assumptions C57_order_in_file_partial.
