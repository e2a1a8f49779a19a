(** The analytical solution of a model refers to the material of the model (C135). *)
From Coq Require Import List String Lra ZArith.
From Verif.Lib Require Import Base.
From Verif.Model Require Import MatInput AnaInput.
From Verif.Model Require Analytic.
From Verif.Props Require Analytic.
Import ListNotations.
Local Open Scope R_scope.

(** What is meant: the elastic constants of the solution are those of the material, and the thickness that of the plate. *)
Definition refersTo (E nu al : R) (q : anaSol) : Prop :=
  match q with
  | Hole _ _ n _ | Lshape _ _ n _ => n = nu
  | Curved _ _ _ e => e = E
  | PipeSol _ _ _ _ _ e n a _ _ => e = E /\ n = nu /\ a = al
  | NavierU _ _ _ e n _ _ | NavierP _ _ _ e n _ _ _ _ _ _ | Circular _ _ e n _ => e = E /\ n = nu
  | CanTS _ _ _ _ | CanTM _ _ | Expr _ _ => True
  end.
Definition ofThickness (t : R) (q : anaSol) : Prop :=
  match q with NavierU _ _ h _ _ _ _ | NavierP _ _ h _ _ _ _ _ _ _ _ | Circular _ h _ _ _ => h = t | _ => True end.
Definition isAna (i : item) : bool := match i with Mat _ => false | _ => true end.
Definition matTags (l : list item) : list matTag := flat_map (fun i => match i with Mat e => [e] | _ => [] end) l.
Definition given (a : option R) (def : R) : R := match a with Some x => x | None => def end.

Section Oracles.
Context {Pt : Type} (pr : string -> string -> option (Pt -> R)) (pt : string -> string -> option (R -> R)) (origin : Pt)
  (atof : string -> R) (atoi : string -> Z) (isTrue : string -> bool).
Notation read := (readItems pr pt origin atof atoi isTrue).
Notation read1 := (readItem pr pt origin atof atoi isTrue).

(** Once a solution has been given it stays. *)
Lemma keeps1 d3 s i s' q : read1 d3 s i = Ret s' -> mySol s = Some q -> mySol s' = Some q.
Proof.
  intros H Q. destruct i as [e|k a|k ts]; cbn [readItem] in H.
  - injection H as <-. exact Q.
  - destruct k; try (destruct (dimTag _ _ _ d3 (cur s) _ a) as [| |[q'|]] eqn:D; cbn in H; try discriminate; injection H as <-; cbn; rewrite ?Q; reflexivity).
    injection H as <-. cbn. rewrite Q. reflexivity.
  - destruct k; try (destruct (dimText _ _ d3 (cur s) _ ts) as [| |[[q' r']|]] eqn:D; cbn in H; try discriminate; injection H as <-; cbn; rewrite ?Q; reflexivity).
    injection H as <-. cbn. rewrite Q. reflexivity.
Qed.
Lemma keeps d3 l : forall s s' q, read d3 s l = Ret s' -> mySol s = Some q -> mySol s' = Some q.
Proof.
  induction l as [|i l IH]; intros s s' q H Q; cbn in H; [congruence|].
  destruct (read1 d3 s i) as [| |s1] eqn:E; cbn in H; try discriminate. exact (IH _ _ _ H (keeps1 _ _ _ _ _ E Q)).
Qed.
Lemma read_app d3 l1 : forall l2 s, read d3 s (l1 ++ l2) = match read d3 s l1 with Ret s1 => read d3 s1 l2 | UB => UB | Rejected => Rejected end.
Proof.
  induction l1 as [|i l1 IH]; intros l2 s; cbn; [reflexivity|]. destruct (read1 d3 s i) as [| |s1]; cbn; auto.
Qed.
Definition fromMat (m : @linMat Pt) (q : anaSol) : Prop :=
  refersTo (getStiffness m origin 0) (getPoissonRatio m origin) (getThermalExpansion m 0) q.
Lemma ana1 d3 s i s' m : isAna i = true -> cur s = Some m -> (forall q, mySol s = Some q -> fromMat m q) -> read1 d3 s i = Ret s' ->
  cur s' = Some m /\ mats s' = mats s /\ (forall q, mySol s' = Some q -> fromMat m q).
Proof.
  intros A C Q H. destruct i as [e|k a|k ts]; [discriminate| |]; cbn [readItem] in H.
  - destruct k, d3; cbn in H; rewrite ?C in H; cbn in H; injection H as <-; cbn; (split; [assumption|split; [reflexivity|]]); intros q K;
      try (apply Q; exact K); injection K as <-; unfold keep; destruct (mySol s) eqn:S; try (apply Q; reflexivity); cbn; repeat split.
  - destruct k, d3; cbn in H; rewrite ?C in H; destruct ts as [|t1 [|t2 [|t3 ts]]]; cbn in H; try discriminate; injection H as <-; cbn;
      (split; [assumption|split; [reflexivity|]]); intros q K; try (apply Q; exact K); injection K as <-; unfold keep; destruct (mySol s) eqn:S; try (apply Q; reflexivity); cbn; repeat split.
Qed.
Lemma anas d3 m l : forall s s', forallb isAna l = true -> cur s = Some m -> (forall q, mySol s = Some q -> fromMat m q) -> read d3 s l = Ret s' ->
  mats s' = mats s /\ (forall q, mySol s' = Some q -> fromMat m q).
Proof.
  induction l as [|i l IH]; intros s s' A C Q H; cbn in H; [injection H as <-; auto|].
  cbn in A. apply Bool.andb_true_iff in A. destruct A as [A1 A2]. destruct (read1 d3 s i) as [| |s1] eqn:E; cbn in H; try discriminate.
  destruct (ana1 _ _ _ _ _ A1 C Q E) as (C1 & M1 & Q1). rewrite <- M1. exact (IH _ _ A2 C1 Q1 H).
Qed.
Lemma mats_only d3 l : forall s, (forall i, In i l -> isAna i = false) ->
  exists s', read d3 s l = Ret s' /\ mySol s' = mySol s /\ tracs s' = tracs s /\ mats s' = mats s ++ map (fun e => parse pr pt e steel) (matTags l).
Proof.
  induction l as [|i l IH]; intros s N; [exists s; cbn; rewrite app_nil_r; auto|].
  assert (Ni := N i (or_introl eq_refl)). destruct i as [e|k a|k ts]; try discriminate.
  destruct (IH (mkState (Some (parse pr pt e steel)) (mats s ++ [parse pr pt e steel]) (mySol s) (tracs s)) (fun j J => N j (or_intror J))) as (s' & R1 & R2 & R3 & R4).
  exists s'. cbn [readItems readItem bind]. rewrite R1, R2, R3, R4. cbn. rewrite <- app_assoc. auto.
Qed.
(** Every boundary with analytical tractions uses the solution which the errors are computed with. *)
Lemma tracs1 d3 s i s' : read1 d3 s i = Ret s' -> (forall c q, In (c, q) (tracs s) -> mySol s = Some q /\ hasStress q = true /\ (0 < c)%Z) ->
  forall c q, In (c, q) (tracs s') -> mySol s' = Some q /\ hasStress q = true /\ (0 < c)%Z.
Proof.
  intros H Q.
  assert (P : forall q0 code c q, In (c, q) (tracs (setSol (Pt:=Pt) s q0 code)) -> mySol (setSol s q0 code) = Some q /\ hasStress q = true /\ (0 < c)%Z).
  { intros q0 code c q J. unfold setSol in *. cbn [tracs mySol cur mats] in J |- *.
    destruct ((0 <? code)%Z && hasStress (keep (mySol s) q0))%bool eqn:B.
    - apply Bool.andb_true_iff in B. destruct B as [B1 B2]. apply Z.ltb_lt in B1. destruct J as [J|J].
      + inversion J; subst. auto.
      + destruct (Q c q J) as (A1 & A2). unfold keep. rewrite A1. auto.
    - destruct (Q c q J) as (A1 & A2). unfold keep. rewrite A1. auto. }
  destruct i as [e|k a|k ts]; cbn [readItem] in H.
  - injection H as <-. exact Q.
  - destruct k; try (destruct (dimTag _ _ _ d3 (cur s) _ a) as [| |[q'|]] eqn:D; cbn [bind] in H; try discriminate; injection H as <-; first [apply P|exact Q]).
    injection H as <-. apply P.
  - destruct k; try (destruct (dimText _ _ d3 (cur s) _ ts) as [| |[[q' r']|]] eqn:D; cbn [bind] in H; try discriminate; injection H as <-; first [apply P|exact Q]).
    injection H as <-. apply P.
Qed.
Lemma tracsAll d3 l : forall s s', read d3 s l = Ret s' -> (forall c q, In (c, q) (tracs s) -> mySol s = Some q /\ hasStress q = true /\ (0 < c)%Z) ->
  forall c q, In (c, q) (tracs s') -> mySol s' = Some q /\ hasStress q = true /\ (0 < c)%Z.
Proof.
  induction l as [|i l IH]; intros s s' H Q; cbn in H; [injection H as <-; exact Q|].
  destruct (read1 d3 s i) as [| |s1] eqn:E; cbn in H; try discriminate. exact (IH _ _ H (tracs1 _ _ _ _ E Q)).
Qed.
End Oracles.

(** Bodies: if the material is given before any analytical solution, and no other one after it, whatever solution is given (as a tag
    or as text, in two or three dimensions) has the constants of that material. *)
Theorem C135_material_partial : forall Pt pr pt (origin : Pt) atof atoi isTrue d3 l1 e l2 s q,
  (forall i, In i l1 -> isAna i = false) -> (forall i, In i l2 -> isAna i = true) ->
  readItems pr pt origin atof atoi isTrue d3 start (l1 ++ Mat e :: l2) = Ret s -> mySol s = Some q ->
  let m := parse pr pt e steel in
  refersTo (getStiffness m origin 0) (getPoissonRatio m origin) (getThermalExpansion m 0) q /\
  mats s = map (fun e => parse pr pt e steel) (matTags l1 ++ [e]) /\
  (children e = [] -> refersTo (given (aE e) 205000000000) (given (anu e) (29/100)) (given (aalpha e) (12/100000000)) q).
Proof.
  intros Pt pr pt origin atof atoi isTrue d3 l1 e l2 s q N A H Q m.
  rewrite read_app in H. destruct (mats_only pr pt origin atof atoi isTrue d3 l1 start N) as (s1 & R1 & R2 & R3 & R4).
  rewrite R1 in H. cbn [readItems readItem bind] in H. fold m in H.
  apply anas with (m := m) in H; [|apply forallb_forall; exact A|reflexivity|cbn; rewrite R2; discriminate].
  destruct H as [M F]. specialize (F q Q). split; [exact F|]. split.
  - rewrite M. cbn [mats]. rewrite R4, map_app. reflexivity.
  - intros Ch. unfold fromMat in F. revert F. unfold m, parse. rewrite Ch. cbn.
    destruct (Rle_dec 0 205000000000); [|lra]. unfold orElse, getStiffness, getPoissonRatio, getThermalExpansion, given. cbn. auto.
Qed.
Print Assumptions C135_material_partial.
(** Then the stresses around a hole are a state of plane strain of that material. *)
Theorem C135_plane_strain_partial : forall Pt pr pt (origin : Pt) atof atoi isTrue d3 l1 e l2 s a F0 nu d x y,
  (forall i, In i l1 -> isAna i = false) -> (forall i, In i l2 -> isAna i = true) -> children e = [] ->
  readItems pr pt origin atof atoi isTrue d3 start (l1 ++ Mat e :: l2) = Ret s -> mySol s = Some (Hole a F0 nu d) -> 0 < a -> a <= Analytic.hypot x y ->
  exists t, stressOf (Hole a F0 nu d) x y = Some t /\ Analytic.szz t = given (anu e) (29/100) * (Analytic.sxx t + Analytic.syy t).
Proof.
  intros Pt pr pt origin atof atoi isTrue d3 l1 e l2 s a F0 nu d x y N A Ch H Q Pa Px.
  destruct (C135_material_partial _ _ _ _ _ _ _ _ _ _ _ _ _ N A H Q) as (_ & _ & F). specialize (F Ch). cbn in F. subst nu.
  eexists. split; [reflexivity|]. apply Analytic.C55_hole_plane_strain; assumption.
Qed.
Print Assumptions C135_plane_strain_partial.
(** The same material given after the solution: the solution is that of steel, and no state of plane strain of the material. *)
Theorem C135_material_refuted : forall Pt pr pt (origin : Pt) atof atoi isTrue, exists a e,
  matTags [AnaTag KHole a; Mat e] = [e] /\ children e = [] /\ anu e = Some (3/10) /\
  forall d3, atof "1"%string = 1 -> atof "10"%string = 10 ->
  exists s q, readItems pr pt origin atof atoi isTrue d3 start [AnaTag KHole a; Mat e] = Ret s /\ mySol s = Some q /\
  exists t, stressOf q 2 0 = Some t /\ Analytic.szz t <> 3/10 * (Analytic.sxx t + Analytic.syy t).
Proof.
  intros Pt pr pt origin atof atoi isTrue.
  exists (fun n => if string_dec n "a" then Some "1"%string else if string_dec n "F0" then Some "10"%string else None), (mkMT (Some 1000) (Some (3/10)) None None None None []).
  repeat split. intros d3 Ha0 HF0.
  eexists. eexists. split; [reflexivity|]. split; [reflexivity|]. eexists. split; [reflexivity|].
  unfold real. cbn [string_dec]. cbn -[Analytic.hole]. unfold getPoissonRatio, orValue. cbn [nuFunc nu steel].
  rewrite Ha0, HF0.
  assert (H2 : Analytic.hypot 2 0 = 2) by (unfold Analytic.hypot; replace (2 * 2 + 0 * 0) with (2 * 2) by ring; apply sqrt_square; lra).
  rewrite Analytic.C55_hole_plane_strain by lra.
  assert (S : Analytic.sxx (Analytic.hole 1 10 (29/100) 2 0) + Analytic.syy (Analytic.hole 1 10 (29/100) 2 0) = 5).
  { unfold Analytic.hole. cbn [Analytic.sxx Analytic.syy]. rewrite H2. unfold Analytic.atan2. destruct (Rlt_dec 0 2); [|lra].
    replace (0 / 2) with 0 by field. rewrite atan_0, !Rmult_0_r, cos_0. destruct (Rle_dec 2 1); [lra|]. field. }
  intros K. rewrite S in K. lra.
Qed.
Print Assumptions C135_material_refuted.
(** Whatever the input: the boundaries with analytical tractions use the solution of the model, and the first solution given stays. *)
Theorem C135_tractions : forall Pt pr pt (origin : Pt) atof atoi isTrue d3 l s c q,
  readItems pr pt origin atof atoi isTrue d3 start l = Ret s -> In (c, q) (tracs s) -> mySol s = Some q /\ (0 < c)%Z.
Proof.
  intros Pt pr pt origin atof atoi isTrue d3 l s c q H I0. destruct (tracsAll pr pt origin atof atoi isTrue d3 l _ _ H) with (c := c) (q := q) as (A & _ & B); auto. intros ? ? [].
Qed.
Print Assumptions C135_tractions.
Theorem C135_first_solution : forall Pt pr pt (origin : Pt) atof atoi isTrue d3 l1 l2 s1 s q,
  readItems pr pt origin atof atoi isTrue d3 start l1 = Ret s1 -> mySol s1 = Some q ->
  readItems pr pt origin atof atoi isTrue d3 start (l1 ++ l2) = Ret s -> mySol s = Some q.
Proof. intros Pt pr pt origin atof atoi isTrue d3 l1 l2 s1 s q H1 Q H. rewrite read_app, H1 in H. exact (keeps pr pt origin atof atoi isTrue d3 l2 _ _ _ H Q). Qed.
Print Assumptions C135_first_solution.
(** The same solution as a tag and as a line of text. *)
Definition names (k : kind) : option (list string) :=
  match k with
  | KHole | KLshape => Some ["a"; "F0"]%string | KCanTS => Some ["L"; "H"; "F0"]%string | KCanTM => Some ["H"; "M0"]%string
  | KCurved => Some ["a"; "b"; "u0"]%string | _ => None end.
Theorem C135_text_partial : forall Pt pr pt (origin : Pt) atof atoi isTrue d3 s k ns a ws c,
  names k = Some ns -> map a ns = map Some ws -> a "code"%string = Some c ->
  readItem pr pt origin atof atoi isTrue d3 s (AnaText k (ws ++ [c])) = readItem pr pt origin atof atoi isTrue d3 s (AnaTag k a).
Proof.
  intros Pt pr pt origin atof atoi isTrue d3 s k ns a ws c N M C.
  destruct k; cbn in N; try discriminate; injection N as <-; destruct ws as [|w1 [|w2 [|w3 [|w4 ws]]]]; cbn in M; try discriminate; injection M as;
    cbn [readItem]; rewrite C; destruct d3; cbn -[deref]; unfold real;
    repeat match goal with H : a _ = Some _ |- _ => rewrite H; clear H end; try reflexivity;
    destruct (deref (cur s)); reflexivity.
Qed.
Print Assumptions C135_text_partial.
(** A line with too few words is not the tag with the attribute left out: it reads a null pointer. *)
Theorem C135_text_refuted : forall Pt pr pt (origin : Pt) atof atoi isTrue d3 s w, cur s <> None ->
  readItem pr pt origin atof atoi isTrue d3 s (AnaText KHole [w]) = UB /\
  exists s', readItem pr pt origin atof atoi isTrue d3 s (AnaTag KHole (fun n => if string_dec n "a" then Some w else None)) = Ret s'.
Proof.
  intros Pt pr pt origin atof atoi isTrue d3 s w C. split; [reflexivity|]. destruct (cur s) as [m|] eqn:E; [|congruence].
  eexists. cbn. rewrite E. destruct d3; reflexivity.
Qed.
Print Assumptions C135_text_refuted.

(** Plates: the solution has the constants and the thickness of the first material, if that is given first. *)
Lemma plate_inv {Pt} pr pt (origin : Pt) atof atoi m t l : forall s s',
  pcur s = Some m -> pmats s <> [] -> hd_error (pmats s) = Some m -> pthk s <> [] -> hd 0 (pthk s) = t -> t <> 0 -> thickness s = (fun _ => t) -> constT s = true ->
  (forall q, pSol s = Some q -> refersTo (getStiffness m origin 0) (getPoissonRatio m origin) 0 q /\ ofThickness t q) ->
  (forall e h f, In (PMat e h (Some f)) l -> False) -> readPItems pr pt origin atof atoi s l = Ret s' ->
  pcur s' = Some m /\ forall q, pSol s' = Some q -> refersTo (getStiffness m origin 0) (getPoissonRatio m origin) 0 q /\ ofThickness t q.
Proof.
  induction l as [|i l IH]; intros s s' C Mn Mh Tn Th T0 Tt Ct Q Nf H; cbn in H; [injection H as <-; auto|].
  assert (Put : forall q, refersTo (getStiffness m origin 0) (getPoissonRatio m origin) 0 q /\ ofThickness t q -> readPItems pr pt origin atof atoi (putSol s q) l = Ret s' ->
    pcur s' = Some m /\ forall q, pSol s' = Some q -> refersTo (getStiffness m origin 0) (getPoissonRatio m origin) 0 q /\ ofThickness t q).
  { intros q Hq H'. apply (IH (putSol s q)); auto. 2: intros e h f J; exact (Nf e h f (or_intror J)).
    cbn. intros q' K. injection K as <-. unfold keep. destruct (pSol s) eqn:S; [apply Q; reflexivity|exact Hq]. }
  assert (Same : readPItems pr pt origin atof atoi s l = Ret s' ->
    pcur s' = Some m /\ forall q, pSol s' = Some q -> refersTo (getStiffness m origin 0) (getPoissonRatio m origin) 0 q /\ ofThickness t q).
  { intros H'. apply (IH s); auto. intros e h f J; exact (Nf e h f (or_intror J)). }
  destruct i as [e h [f|]|k a|k ts]; cbn [readPItem] in H.
  - destruct (Nf e h f (or_introl eq_refl)).
  - rewrite Ct in H. cbn [bind] in H. destruct (pmats s) as [|m0 ms] eqn:Em; [congruence|]. destruct (pthk s) as [|t0 ths] eqn:Et; [congruence|].
    cbn in Th. subst t0. cbn [app hd hd_error] in H. cbn in Mh. injection Mh as ->. destruct (Req_EM_T t 0); [congruence|].
    revert H. apply IH; try reflexivity; try discriminate; auto. intros e' h' f' J; exact (Nf e' h' f' (or_intror J)).
  - destruct k; cbn [plateTag] in H; try (exact (Same H)).
    + rewrite C in H. cbn [deref bind] in H. rewrite Tt in H.
      revert H. repeat (destruct (Req_EM_T _ 0)); intros H; apply Put in H; auto; cbn; auto.
    + rewrite C in H. cbn [deref bind] in H. rewrite Tt in H. apply Put in H; auto. cbn; auto.
    + apply Put in H; auto. cbn; auto.
  - destruct k; cbn [plateText] in H; try (exact (Same H)).
    + destruct ts as [|w1 [|w2 [|w3 ts]]]; try discriminate. cbn [word bind snd fst] in H. rewrite C in H. cbn [deref bind] in H. rewrite Tt in H.
      destruct ts as [|w4 [|w5 ts]]; try discriminate; cbn [word bind snd fst] in H; [apply Put in H; auto; cbn; auto|].
      destruct ts as [|w6 [|w7 ts]]; try discriminate; cbn [word bind snd fst] in H; apply Put in H; auto; cbn; auto.
    + apply Put in H; auto. cbn; auto.
Qed.
Theorem C135_plate_partial : forall Pt pr pt (origin : Pt) atof atoi e t l s q, t <> 0 -> children e = [] ->
  (forall e' h f, In (PMat e' h (Some f)) l -> False) ->
  readPItems pr pt origin atof atoi startP (PMat e (Some t) None :: l) = Ret s -> pSol s = Some q ->
  refersTo (given (aE e) 205000000000) (given (anu e) (29/100)) 0 q /\ ofThickness t q.
Proof.
  intros Pt pr pt origin atof atoi e t l s q T0 Ch Nf H Q. cbn [readPItems readPItem startP pmats pthk app hd hd_error constT thickness pSol bind] in H.
  destruct (Req_EM_T t 0); [congruence|]. cbn [bind] in H.
  apply plate_inv with (m := parse pr pt e steel) (t := t) in H; cbn; auto; try discriminate.
  destruct H as [_ F]. specialize (F q Q). revert F. unfold parse. rewrite Ch. cbn.
  destruct (Rle_dec 0 205000000000); [|lra]. unfold orElse, getStiffness, getPoissonRatio, given. cbn. auto.
Qed.
Print Assumptions C135_plate_partial.
(** A plate solution before the material reads a null pointer. *)
Theorem C135_plate_refuted : forall Pt pr pt (origin : Pt) atof atoi a l, readPItems pr pt origin atof atoi startP (PAnaTag KNavier a :: l) = UB.
Proof. reflexivity. Qed.
Print Assumptions C135_plate_refuted.

(** A body with two materials, a solution with tractions on boundary 3, and another solution; and a plate. *)
Example C135_case : let rd := readItems (fun _ _ => None) (fun _ _ => None) tt (fun s => if string_dec s "2" then 2 else 1) (fun _ => 3%Z) (fun _ => false) in
  let e1 := mkMT (Some 1000) (Some (1/4)) None None None None [] in let e2 := mkMT (Some 2000) (Some (3/10)) None None None None [] in
  exists s, rd false start [Mat e1; Mat e2; AnaText KHole ["2"; "1"; "3"]%string; AnaTag KCanTM (fun _ => Some "1"%string)] = Ret s /\
  mySol s = Some (Hole 2 1 (3/10) false) /\ tracs s = [(3%Z, Hole 2 1 (3/10) false); (3%Z, Hole 2 1 (3/10) false)].
Proof. eexists. split; [reflexivity|]. split; reflexivity. Qed.
Example C135_plate_case : let rd := readPItems (fun _ _ => None) (fun _ _ => None) tt (fun _ => 1) (fun _ => 100%Z) in
  let e1 := mkMT (Some 1000) (Some (1/4)) None None None None [] in
  exists s, rd startP [PMat e1 (Some 2) None; PAnaText KNavier ["1"; "1"; "1"]%string] = Ret s /\ pSol s = Some (NavierU 1 1 2 1000 (1/4) 1 100).
Proof.
  cbn. destruct (Req_EM_T 2 0); [lra|]. cbn. eexists. split; [reflexivity|]. unfold getStiffness, orValue. cbn. destruct (Rle_dec 0 205000000000); [reflexivity|lra].
Qed.

(** The numbers of a solution by their names, those of the documentation with their defaults, and the kind of a solution. *)
Definition arguments (q : anaSol) : list (string * R) :=
  match q with
  | Hole a F0 _ _ | Lshape a F0 _ _ => [("a", a); ("F0", F0)] | CanTS L H F0 _ => [("L", L); ("H", H); ("F0", F0)] | CanTM H M0 => [("H", H); ("M0", M0)]
  | Curved u0 a b _ => [("a", a); ("b", b); ("u0", u0)]
  | PipeSol Ri Ro Ti To T0 _ _ _ _ _ => [("Ri", Ri); ("Ro", Ro); ("Ti", Ti); ("To", To); ("Tref", T0)]
  | NavierU a b _ _ _ pz _ => [("a", a); ("b", b); ("pz", pz)]
  | NavierP a b _ _ _ pz xi eta c d _ => [("a", a); ("b", b); ("pz", pz); ("xi", xi); ("eta", eta); ("c", c); ("d", d)]
  | Circular R0 _ _ _ P => [("R", R0); ("P", P)] | Expr _ _ => []
  end%string.
Definition documented (k : kind) : list (string * R) :=
  match k with
  | KHole | KLshape => [("a", 0); ("F0", 0)] | KCanTS => [("L", 0); ("H", 0); ("F0", 0)] | KCanTM => [("H", 0); ("M0", 0)]
  | KCurved => [("a", 0); ("b", 0); ("u0", 0)] | KPipe => [("Ri", 0); ("Ro", 0); ("Ti", 0); ("To", 0); ("Tref", 273)]
  | KNavier => [("a", 0); ("b", 0); ("pz", 1); ("xi", 0); ("eta", 0); ("c", 0); ("d", 0)] | KCircular => [("R", 0); ("P", 1000000)]
  | _ => []
  end%string.
Definition kindOf (q : anaSol) : kind :=
  match q with
  | Hole _ _ _ _ => KHole | Lshape _ _ _ _ => KLshape | CanTS _ _ _ _ => KCanTS | CanTM _ _ => KCanTM | Curved _ _ _ _ => KCurved
  | PipeSol _ _ _ _ _ _ _ _ _ _ => KPipe | NavierU _ _ _ _ _ _ _ | NavierP _ _ _ _ _ _ _ _ _ _ _ => KNavier | Circular _ _ _ _ _ => KCircular
  | Expr id b => KExpr id b
  end.
Definition spatial (q : anaSol) : option bool :=
  match q with Hole _ _ _ d | Lshape _ _ _ d | CanTS _ _ _ d | PipeSol _ _ _ _ _ _ _ _ d _ => Some d | CanTM _ _ | Curved _ _ _ _ => Some false | _ => None end.
Definition values (atof : string -> R) (a : attrs) (l : list (string * R)) : list (string * R) :=
  map (fun nd => (fst nd, given (option_map atof (a (fst nd))) (snd nd))) l.
Definition bodyKind (d3 : bool) (k : kind) : bool := match k, d3 with KHole, _ | KLshape, _ | KCanTS, _ | KPipe, _ => true | KCanTM, false | KCurved, false => true | _, _ => false end.

(** The first solution of the input is of the kind of its tag, with the dimension of the model and the attributes of the tag; a
    boundary named in the tag gets the tractions of this solution. *)
Theorem C135_arguments : forall Pt pr pt (origin : Pt) atof atoi isTrue d3 l1 k a l2 s,
  (forall i, In i l1 -> isAna i = false) -> bodyKind d3 k = true ->
  readItems pr pt origin atof atoi isTrue d3 start (l1 ++ AnaTag k a :: l2) = Ret s ->
  exists q, mySol s = Some q /\ kindOf q = k /\ spatial q = Some d3 /\ arguments q = values atof a (documented k) /\
    (forall c, a "code"%string = Some c -> (0 < atoi c)%Z -> In (atoi c, q) (tracs s)).
Proof.
  intros Pt pr pt origin atof atoi isTrue d3 l1 k a l2 s N K H.
  rewrite read_app in H. destruct (mats_only pr pt origin atof atoi isTrue d3 l1 start N) as (s1 & R1 & R2 & R3 & R4). rewrite R1 in H. cbn [readItems] in H.
  destruct (readItem pr pt origin atof atoi isTrue d3 s1 (AnaTag k a)) as [| |s2] eqn:E; cbn [bind] in H; try discriminate.
  assert (T : forall l s s', readItems pr pt origin atof atoi isTrue d3 s l = Ret s' -> forall x, In x (tracs s) -> In x (tracs s')).
  { induction l as [|i l IH]; intros u u' Hu x X; cbn in Hu; [injection Hu as <-; exact X|].
    destruct (readItem pr pt origin atof atoi isTrue d3 u i) as [| |v] eqn:Ev; cbn in Hu; try discriminate. apply (IH _ _ Hu).
    assert (P : forall q0 code, In x (tracs (setSol u q0 code))) by (intros q0 code; cbn; destruct (_ && _)%bool; [right|]; exact X).
    destruct i as [e|k0 a0|k0 ts]; cbn [readItem] in Ev; [injection Ev as <-; exact X| |].
    - destruct k0; try (destruct (dimTag _ _ _ d3 (cur u) _ a0) as [| |[q'|]]; cbn [bind] in Ev; try discriminate; injection Ev as <-; auto). injection Ev as <-. apply P.
    - destruct k0; try (destruct (dimText _ _ d3 (cur u) _ ts) as [| |[[q' r']|]]; cbn [bind] in Ev; try discriminate; injection Ev as <-; auto). injection Ev as <-. apply P. }
  assert (G : exists q, s2 = setSol s1 q (match a "code"%string with Some v => atoi v | None => 0%Z end) /\ kindOf q = k /\ spatial q = Some d3 /\
     arguments q = values atof a (documented k) /\ hasStress q = true).
  { unfold values, documented, real, given. destruct k, d3; try discriminate K; cbn [readItem] in E; destruct (cur s1) as [m|]; cbn in E; try discriminate E;
      injection E as <-; eexists; (split; [reflexivity|]); cbn; repeat (split; [reflexivity|]); (split; [|reflexivity]); unfold real;
      repeat match goal with |- context[a ?n] => destruct (a n) end; reflexivity. }
  destruct G as (q & -> & G1 & G2 & G3 & G4). exists q.
  assert (M : mySol (setSol s1 q (match a "code"%string with Some v => atoi v | None => 0%Z end)) = Some q) by (cbn; rewrite R2; reflexivity).
  split; [exact (keeps pr pt origin atof atoi isTrue d3 l2 _ _ _ H M)|]. split; [exact G1|]. split; [exact G2|]. split; [exact G3|].
  intros c C P. apply (T _ _ _ H). unfold setSol. cbn [tracs]. rewrite C, R2. cbn [mySol start keep]. rewrite G4.
  apply Z.ltb_lt in P. rewrite P. left. reflexivity.
Qed.
Print Assumptions C135_arguments.

(** Plates: the thickness is that of the first <thickness> function among the materials, else of the first material, else 0.1. *)
Definition plateThickness {Pt} (origin : Pt) (ms : list (matTag * option R * option (Pt -> R))) : R :=
  match flat_map (fun m => match snd m with Some f => [f] | None => [] end) ms with
  | f :: _ => f origin
  | [] => match ms with (_, Some t, _) :: _ => if Req_EM_T t 0 then 1/10 else t | _ => 1/10 end
  end.
Definition pmatItem {Pt} (m : matTag * option R * option (Pt -> R)) : pitem := PMat (fst (fst m)) (snd (fst m)) (snd m).
Lemma plate_state {Pt} pr pt (origin : Pt) atof atoi ms : forall s, (pmats s <> []) -> pthk s <> [] -> hd_error (pmats s) = pcur s ->
  exists s', readPItems pr pt origin atof atoi s (map pmatItem ms) = Ret s' /\ pcur s' = pcur s /\ pSol s' = pSol s /\
    thickness s' origin = if constT s then match flat_map (fun m => match snd m with Some f => [f] | None => [] end) ms with
                                           | f :: _ => f origin
                                           | [] => match ms with [] => thickness s origin | _ => if Req_EM_T (hd 0 (pthk s)) 0 then thickness s origin else hd 0 (pthk s) end end
                          else thickness s origin.
Proof.
  induction ms as [|m ms IH]; intros s M T C.
  - exists s. cbn. repeat split. destruct (constT s); reflexivity.
  - destruct m as [[e t] tf]. cbn [map pmatItem fst snd readPItems readPItem bind].
    assert (Hm : hd_error (pmats s ++ [parse pr pt e steel]) = pcur s) by (destruct (pmats s); [congruence|exact C]).
    assert (Ht : forall v, hd 0 (pthk s ++ [v]) = hd 0 (pthk s)) by (intros v; destruct (pthk s); [congruence|reflexivity]).
    rewrite Ht. rewrite Hm.
    set (ms' := pmats s ++ [parse pr pt e steel]) in *. set (ths := pthk s ++ [match t with Some t0 => t0 | None => 0 end]).
    assert (Nm : ms' <> []) by (unfold ms'; destruct (pmats s); discriminate).
    assert (Nt : ths <> []) by (unfold ths; destruct (pthk s); discriminate).
    assert (Hths : hd 0 ths = hd 0 (pthk s)) by apply Ht.
    destruct tf as [f|]; destruct (constT s) eqn:K.
    + destruct (IH (mkPlate (pcur s) ms' ths f false (pSol s)) Nm Nt Hm) as (s' & A & B & D & F). exists s'. cbn in B, D, F. cbn [flat_map snd app]. auto.
    + destruct (IH (mkPlate (pcur s) ms' ths (thickness s) false (pSol s)) Nm Nt Hm) as (s' & A & B & D & F). exists s'. cbn in B, D, F. auto.
    + destruct (Req_EM_T (hd 0 (pthk s)) 0) as [Z|Z].
      * destruct (IH (mkPlate (pcur s) ms' ths (thickness s) true (pSol s)) Nm Nt Hm) as (s' & A & B & D & F). exists s'. cbn [constT thickness pthk pcur pSol] in B, D, F.
        rewrite Hths in F. cbn [flat_map snd app]. repeat split; auto. rewrite F. destruct (flat_map _ ms); [|reflexivity]. destruct ms; [reflexivity|].
        destruct (Req_EM_T _ 0); [reflexivity|contradiction].
      * destruct (IH (mkPlate (pcur s) ms' ths (fun _ => hd 0 (pthk s)) true (pSol s)) Nm Nt Hm) as (s' & A & B & D & F). exists s'. cbn [constT thickness pthk pcur pSol] in B, D, F.
        rewrite Hths in F. cbn [flat_map snd app]. repeat split; auto. rewrite F. destruct (flat_map _ ms); [|reflexivity]. destruct ms; [reflexivity|].
        destruct (Req_EM_T _ 0); [contradiction|reflexivity].
    + destruct (IH (mkPlate (pcur s) ms' ths (thickness s) false (pSol s)) Nm Nt Hm) as (s' & A & B & D & F). exists s'. cbn in B, D, F. auto.
Qed.
Theorem C135_plate_thickness : forall Pt pr pt (origin : Pt) atof atoi ms e t tf,
  exists s, readPItems pr pt origin atof atoi startP (map pmatItem ((e, t, tf) :: ms)) = Ret s /\
    pcur s = Some (parse pr pt e steel) /\ thickness s origin = plateThickness origin ((e, t, tf) :: ms) /\ pSol s = None.
Proof.
  intros. cbn [map pmatItem fst snd readPItems readPItem startP pmats pthk app hd hd_error constT thickness pSol bind].
  unfold plateThickness. destruct tf as [f|]; cbn [flat_map snd app].
  - match goal with |- context[readPItems _ _ _ _ _ ?s0 _] => destruct (plate_state pr pt origin atof atoi ms s0) as (s & A & B & C & D); try discriminate; try reflexivity end.
    exists s. cbn in B, C, D. repeat split; auto.
  - set (v := match t with Some t0 => t0 | None => 0 end).
    destruct (Req_EM_T v 0) as [Z|Z];
    match goal with |- context[readPItems _ _ _ _ _ ?s0 _] => destruct (plate_state pr pt origin atof atoi ms s0) as (s & A & B & C & D); try discriminate; try reflexivity end;
    exists s; cbn [constT thickness pthk pcur pSol hd] in B, C, D; repeat split; auto; rewrite D; (destruct (flat_map _ ms); [|reflexivity]).
    + assert (X : match ms with [] => 1/10 | _ :: _ => if Req_EM_T v 0 then 1/10 else v end = 1/10) by (destruct ms; [reflexivity|destruct (Req_EM_T v 0); [reflexivity|contradiction]]).
      rewrite X. destruct t as [t0|]; [|reflexivity]. cbn in Z. destruct (Req_EM_T t0 0); [reflexivity|contradiction].
    + assert (X : match ms with [] => v | _ :: _ => if Req_EM_T v 0 then v else v end = v) by (destruct ms; [reflexivity|destruct (Req_EM_T v 0); reflexivity]).
      rewrite X. destruct t as [t0|]; [|exfalso; apply Z; reflexivity]. cbn in Z |- *. destruct (Req_EM_T t0 0); [contradiction|reflexivity].
Qed.
Print Assumptions C135_plate_thickness.
(** The plate solution is of the kind of its tag with its attributes: a load at a point if both coordinates are given and not zero, and
    on a rectangle around it if both widths are. *)
Theorem C135_plate_arguments : forall Pt pr pt (origin : Pt) atof atoi ms m k a s, k = KNavier \/ k = KCircular ->
  readPItems pr pt origin atof atoi startP (map pmatItem (m :: ms) ++ [PAnaTag k a]) = Ret s ->
  let v := fun n d => given (option_map atof (a n)) d in
  exists q, pSol s = Some q /\ kindOf q = k /\ ofThickness (plateThickness origin (m :: ms)) q /\
    (k = KCircular -> arguments q = values atof a (documented k)) /\
    (k = KNavier -> v "xi"%string 0 <> 0 -> v "eta"%string 0 <> 0 -> v "c"%string 0 <> 0 -> v "d"%string 0 <> 0 -> arguments q = values atof a (documented k)) /\
    (k = KNavier -> v "xi"%string 0 <> 0 -> v "eta"%string 0 <> 0 -> v "c"%string 0 = 0 \/ v "d"%string 0 = 0 ->
      arguments q = values atof a (firstn 5 (documented k)) ++ [("c", 0); ("d", 0)]%string) /\
    (k = KNavier -> v "xi"%string 0 = 0 \/ v "eta"%string 0 = 0 -> arguments q = values atof a (firstn 3 (documented k))).
Proof.
  intros Pt pr pt origin atof atoi ms [[e t] tf] k a s K H v.
  destruct (C135_plate_thickness Pt pr pt origin atof atoi ms e t tf) as (s1 & A & B & C & D).
  assert (App : forall l1 l2 u, readPItems pr pt origin atof atoi u (l1 ++ l2) = match readPItems pr pt origin atof atoi u l1 with Ret u1 => readPItems pr pt origin atof atoi u1 l2 | UB => UB | Rejected => Rejected end).
  { induction l1 as [|i l1 IH]; intros l2 u; cbn; [reflexivity|]. destruct (readPItem pr pt origin atof atoi u i); cbn; auto. }
  rewrite App, A in H. cbn [readPItems readPItem bind] in H.
  assert (RV : forall n d, real atof a n d = v n d) by (intros n d; unfold real, v, given; destruct (a n); reflexivity).
  destruct K as [-> | ->]; cbn [plateTag] in H; rewrite B in H; cbn [deref bind] in H; rewrite ?C, ?RV in H; injection H as <-; cbn [putSol pSol]; rewrite D; cbn [keep].
  - repeat (destruct (Req_EM_T _ 0)); (eexists; split; [reflexivity|]; split; [reflexivity|]; split; [reflexivity|]); cbn [documented firstn];
      (split; [discriminate|]); (split; [|split]); intros; try contradiction; try (intuition contradiction); reflexivity.
  - eexists; split; [reflexivity|]; split; [reflexivity|]; split; [reflexivity|]. split; [reflexivity|]. repeat split; discriminate.
Qed.
Print Assumptions C135_plate_arguments.
(** A plate solution as text is the same as the tag. *)
Theorem C135_plate_text : forall Pt pr pt (origin : Pt) atof atoi s a ws n, (n = 3 \/ n = 5 \/ n = 7)%nat ->
  map a (firstn n ["a"; "b"; "pz"; "xi"; "eta"; "c"; "d"])%string = map Some ws -> (forall x, In x (skipn n ["a"; "b"; "pz"; "xi"; "eta"; "c"; "d"; "nTerm"])%string -> a x = None) ->
  a "nTerm"%string = None -> (forall x w, In x ["xi"; "eta"; "c"; "d"]%string -> a x = Some w -> atof w <> 0) ->
  readPItem pr pt origin atof atoi s (PAnaText KNavier ws) = readPItem pr pt origin atof atoi s (PAnaTag KNavier a).
Proof.
  intros Pt pr pt origin atof atoi s a ws n Hn M Z N4 NZ.
  assert (Zs : forall x, In x (skipn n ["a"; "b"; "pz"; "xi"; "eta"; "c"; "d"; "nTerm"])%string -> a x = None) by exact Z.
  cbn [readPItem plateTag]. rewrite N4. unfold real.
  destruct Hn as [-> |[-> | ->]]; cbn [firstn map] in M; destruct ws as [|w1 [|w2 [|w3 ws]]]; cbn in M; try discriminate.
  - destruct ws; [|discriminate]. injection M as H1 H2 H3. rewrite H1, H2, H3. rewrite (Zs "xi"%string), (Zs "eta"%string) by (cbn; auto).
    cbn. destruct (deref (pcur s)); cbn; try reflexivity. destruct (Req_EM_T 0 0); [reflexivity|congruence].
  - destruct ws as [|w4 [|w5 [|w6 ws]]]; try discriminate. injection M as H1 H2 H3 H4 H5. rewrite H1, H2, H3, H4, H5. rewrite (Zs "c"%string), (Zs "d"%string) by (cbn; auto).
    cbn. destruct (deref (pcur s)); cbn; try reflexivity.
    destruct (Req_EM_T (atof w4) 0) as [Q|_]; [destruct (NZ "xi"%string w4 (or_introl eq_refl) H4 Q)|].
    destruct (Req_EM_T (atof w5) 0) as [Q|_]; [destruct (NZ "eta"%string w5 (or_intror (or_introl eq_refl)) H5 Q)|].
    destruct (Req_EM_T 0 0); [reflexivity|congruence].
  - destruct ws as [|w4 [|w5 [|w6 [|w7 [|w8 ws]]]]]; try discriminate. injection M as H1 H2 H3 H4 H5 H6 H7. rewrite H1, H2, H3, H4, H5, H6, H7.
    cbn. destruct (deref (pcur s)); cbn; try reflexivity.
    destruct (Req_EM_T (atof w4) 0) as [Q|_]; [destruct (NZ "xi"%string w4 (or_introl eq_refl) H4 Q)|].
    destruct (Req_EM_T (atof w5) 0) as [Q|_]; [destruct (NZ "eta"%string w5 (or_intror (or_introl eq_refl)) H5 Q)|].
    destruct (Req_EM_T (atof w6) 0) as [Q|_]; [destruct (NZ "c"%string w6 (or_intror (or_intror (or_introl eq_refl))) H6 Q)|].
    destruct (Req_EM_T (atof w7) 0) as [Q|_]; [destruct (NZ "d"%string w7 (or_intror (or_intror (or_intror (or_introl eq_refl)))) H7 Q)|reflexivity].
Qed.
Print Assumptions C135_plate_text.
