(** Properties of a linear-elastic material as given in its tag (C133). *)
From Coq Require Import List String Lra.
From Verif.Lib Require Import Base.
From Verif.Model Require Import MatInput.
Import ListNotations.
Local Open Scope R_scope.

(** What is meant by the tag: a property is the function of the child with its name, if there is one with a readable text,
    else the attribute, else the value for steel. *)
Definition same (a b : tag) : bool := match a, b with
  | TStiffness, TStiffness | TPoisson, TPoisson | TDensity, TDensity | TExpansion, TExpansion | THeatCapacity, THeatCapacity | TConductivity, TConductivity => true
  | _, _ => false end.
Definition meant {A} (parser : string -> string -> option (A -> R)) (pick : child -> bool) (cs : list child) (x : A) (a : option R) (def : R) : R :=
  match filter pick cs with
  | c :: _ => match ctext c with
              | Some v => match parser v (ctype c) with Some f => f x | None => match a with Some r => r | None => def end end
              | None => match a with Some r => r | None => def end
              end
  | [] => match a with Some r => r | None => def end
  end.
Definition asMeant {Pt} (pr : string -> string -> option (Pt -> R)) (pt : string -> string -> option (R -> R)) (e : matTag) (X : Pt) (T age : R) : Prop :=
  let m := parse pr pt e steel in let cs := children e in
  getPoissonRatio m X = meant pr (fun c => same (ctag c) TPoisson) cs X (anu e) (29/100) /\
  getMassDensity m X = meant pr (fun c => same (ctag c) TDensity) cs X (arho e) 7850 /\
  getThermalExpansion m T = meant pt (fun c => same (ctag c) TExpansion) cs T (aalpha e) (12/100000000) /\
  getHeatCapacity m T = meant pt (fun c => same (ctag c) THeatCapacity) cs T (acp e) 1 /\
  getThermalConductivity m T = meant pt (fun c => same (ctag c) TConductivity) cs T (akappa e) 1 /\
  ((forall c, In c cs -> ctag c = TStiffness -> caging c = false) -> (forall x, aE e = Some x -> 0 <= x) ->
   getStiffness m X age = meant pr (fun c => same (ctag c) TStiffness) cs X (aE e) 205000000000) /\
  ((forall c, In c cs -> ctag c = TStiffness -> caging c = true) ->
   getStiffness m X age = meant pt (fun c => same (ctag c) TStiffness) cs age (aE e) 205000000000).

(** Tags without children, with one child, and with children of different names that all carry the text and type of the first. *)
Theorem C133_functions_partial : forall Pt (pr : string -> string -> option (Pt -> R)) pt e X T age,
  NoDup (map ctag (children e)) ->
  (forall c d, In c (children e) -> In d (children e) -> ctext c = ctext d /\ ctype c = ctype d) -> asMeant pr pt e X T age.
Proof.
  intros Pt pr pt e X T age N H.
  assert (E0 : Emod (@readAttributes Pt e steel) = match aE e with Some x => x | None => 205000000000 end) by (cbn; destruct (Rle_dec 0 205000000000); [reflexivity|lra]).
  assert (K : forall first cs, NoDup (map ctag cs) -> (forall c, In c cs -> ctext c = ctext first /\ ctype c = ctype first) -> forall m0,
    let m := fold_left (readChild pr pt first) cs m0 in
    (Emod m, nu m, rho m, alpha m, cp m, kappa m) = (Emod m0, nu m0, rho m0, alpha m0, cp m0, kappa m0) /\
    nuFunc m = match filter (fun c => same (ctag c) TPoisson) cs with c :: _ => spatialFunc pr c | [] => nuFunc m0 end /\
    rhoFunc m = match filter (fun c => same (ctag c) TDensity) cs with c :: _ => spatialFunc pr c | [] => rhoFunc m0 end /\
    Afunc m = match filter (fun c => same (ctag c) TExpansion) cs with c :: _ => scalarFunc pt c | [] => Afunc m0 end /\
    Cpfunc m = match filter (fun c => same (ctag c) THeatCapacity) cs with c :: _ => scalarFunc pt c | [] => Cpfunc m0 end /\
    condFunc m = match filter (fun c => same (ctag c) TConductivity) cs with c :: _ => scalarFunc pt c | [] => condFunc m0 end /\
    Efunc m = match filter (fun c => same (ctag c) TStiffness) cs with
      c :: _ => if caging c then Efunc m0 else match Efunc m0 with Some f => Some f | None => if Rle_dec 0 (Emod m0) then spatialFunc pr c else None end | [] => Efunc m0 end /\
    Eaging m = match filter (fun c => same (ctag c) TStiffness) cs with c :: _ => if caging c then scalarFunc pt c else Eaging m0 | [] => Eaging m0 end).
  { intros first cs. induction cs as [|c cs IH]; intros Nd Hs m0; [cbn; repeat split|].
    inversion Nd as [|? ? Nin Nd']; subst.
    destruct (Hs c (or_introl eq_refl)) as [Ht Hy].
    assert (Sp : spatialFunc pr first = spatialFunc pr c) by (unfold spatialFunc; rewrite Ht, Hy; reflexivity).
    assert (Sc : scalarFunc pt first = scalarFunc pt c) by (unfold scalarFunc; rewrite Ht, Hy; reflexivity).
    specialize (IH Nd' (fun d D => Hs d (or_intror D)) (readChild pr pt first m0 c)).
    assert (Z : forall t, ctag c = t -> t <> TOther -> filter (fun d => same (ctag d) t) cs = []).
    { intros t Tc To. destruct (filter (fun d => same (ctag d) t) cs) as [|d l] eqn:F; [reflexivity|]. exfalso. apply Nin.
      assert (D : In d (d :: l)) by (left; reflexivity). rewrite <- F in D. apply filter_In in D. destruct D as [D1 D2]. rewrite Tc.
      replace t with (ctag d); [apply in_map; exact D1|]. destruct (ctag d), t; cbn in D2; congruence. }
    cbv zeta in IH |- *. cbn [fold_left]. destruct IH as (I0 & I1 & I2 & I3 & I4 & I5 & I6 & I7).
    unfold readChild in I0, I1, I2, I3, I4, I5, I6, I7 |- *. cbn [filter].
    destruct (ctag c) eqn:Tc; cbn [same] in *.
    - rewrite (Z TStiffness) in I6, I7 by congruence. destruct (caging c) eqn:Ag.
      + cbn in *. rewrite I0, I1, I2, I3, I4, I5, I6, I7, <- Sc. repeat split.
      + destruct (Efunc m0) eqn:Ef.
        * rewrite I0, I1, I2, I3, I4, I5, I6, I7. repeat split. exact Ef.
        * destruct (Rle_dec 0 (Emod m0)); cbn in *; rewrite I0, I1, I2, I3, I4, I5, I6, I7, <- ?Sp; repeat split. exact Ef.
    - rewrite (Z TPoisson) in I1 by congruence. cbn in *. rewrite I0, I1, I2, I3, I4, I5, I6, I7, <- Sp. repeat split.
    - rewrite (Z TDensity) in I2 by congruence. cbn in *. rewrite I0, I1, I2, I3, I4, I5, I6, I7, <- Sp. repeat split.
    - rewrite (Z TExpansion) in I3 by congruence. cbn in *. rewrite I0, I1, I2, I3, I4, I5, I6, I7, <- Sc. repeat split.
    - rewrite (Z THeatCapacity) in I4 by congruence. cbn in *. rewrite I0, I1, I2, I3, I4, I5, I6, I7, <- Sc. repeat split.
    - rewrite (Z TConductivity) in I5 by congruence. cbn in *. rewrite I0, I1, I2, I3, I4, I5, I6, I7, <- Sc. repeat split.
    - rewrite I0, I1, I2, I3, I4, I5, I6, I7. repeat split. }
  assert (K' : let cs := children e in let m := parse pr pt e steel in let m0 := @readAttributes Pt e steel in
    (Emod m, nu m, rho m, alpha m, cp m, kappa m) = (Emod m0, nu m0, rho m0, alpha m0, cp m0, kappa m0) /\
    nuFunc m = match filter (fun c => same (ctag c) TPoisson) cs with c :: _ => spatialFunc pr c | [] => nuFunc m0 end /\
    rhoFunc m = match filter (fun c => same (ctag c) TDensity) cs with c :: _ => spatialFunc pr c | [] => rhoFunc m0 end /\
    Afunc m = match filter (fun c => same (ctag c) TExpansion) cs with c :: _ => scalarFunc pt c | [] => Afunc m0 end /\
    Cpfunc m = match filter (fun c => same (ctag c) THeatCapacity) cs with c :: _ => scalarFunc pt c | [] => Cpfunc m0 end /\
    condFunc m = match filter (fun c => same (ctag c) TConductivity) cs with c :: _ => scalarFunc pt c | [] => condFunc m0 end /\
    Efunc m = match filter (fun c => same (ctag c) TStiffness) cs with
      c :: _ => if caging c then Efunc m0 else match Efunc m0 with Some f => Some f | None => if Rle_dec 0 (Emod m0) then spatialFunc pr c else None end | [] => Efunc m0 end /\
    Eaging m = match filter (fun c => same (ctag c) TStiffness) cs with c :: _ => if caging c then scalarFunc pt c else Eaging m0 | [] => Eaging m0 end).
  { cbv zeta. unfold parse. destruct (children e) as [|first r] eqn:C; [cbn; repeat split|].
    apply K; [exact N|]. intros c Ic. apply H; [exact Ic|left; reflexivity]. }
  clear K. cbv zeta in K'. destruct K' as (K0 & K1 & K2 & K3 & K4 & K5 & K6 & K7). assert (Q1 := f_equal (fun t => fst (fst (fst (fst (fst t))))) K0). cbn [fst] in Q1. rewrite E0 in Q1. injection K0 as _ Q2 Q3 Q4 Q5 Q6.
  assert (In0 : forall t c l, filter (fun d => same (ctag d) t) (children e) = c :: l -> In c (children e) /\ ctag c = t).
  { intros t c l F. assert (D : In c (c :: l)) by (left; reflexivity). rewrite <- F in D. apply filter_In in D. destruct D as [D1 D2]. split; [exact D1|]. destruct (ctag c), t; cbn in D2; congruence. }
  unfold asMeant. cbv zeta. unfold getPoissonRatio, getMassDensity, getThermalExpansion, getHeatCapacity, getThermalConductivity, getStiffness, orValue, meant.
  rewrite K1, K2, K3, K4, K5, K6, K7, Q1, Q2, Q3, Q4, Q5, Q6. unfold spatialFunc, scalarFunc. clear K1 K2 K3 K4 K5 K6 K7 Q1 Q2 Q3 Q4 Q5 Q6.
  repeat split.
  - destruct (filter _ (children e)) as [|c l]; [reflexivity|]. destruct (ctext c); [|reflexivity]. destruct (pr _ _); reflexivity.
  - destruct (filter _ (children e)) as [|c l]; [reflexivity|]. destruct (ctext c); [|reflexivity]. destruct (pr _ _); reflexivity.
  - destruct (filter _ (children e)) as [|c l]; [reflexivity|]. destruct (ctext c); [|reflexivity]. destruct (pt _ _); reflexivity.
  - destruct (filter _ (children e)) as [|c l]; [reflexivity|]. destruct (ctext c); [|reflexivity]. destruct (pt _ _); reflexivity.
  - destruct (filter _ (children e)) as [|c l]; [reflexivity|]. destruct (ctext c); [|reflexivity]. destruct (pt _ _); reflexivity.
  - intros Ag Pos. rewrite ?E0. destruct (filter _ (children e)) as [|c l] eqn:F; [reflexivity|]. destruct (In0 _ _ _ F) as [I1 I2]. rewrite (Ag c I1 I2). cbn [Efunc steel readAttributes Eaging].
    destruct (Rle_dec 0 _) as [_|Nn]; [|exfalso; apply Nn; destruct (aE e) as [x|] eqn:Ax; [apply Pos; reflexivity|lra]].
    destruct (ctext c); [|reflexivity]. destruct (pr _ _); reflexivity.
  - intros Ag. rewrite ?E0. destruct (filter _ (children e)) as [|c l] eqn:F; [reflexivity|]. destruct (In0 _ _ _ F) as [I1 I2]. rewrite (Ag c I1 I2). cbn [Efunc steel readAttributes].
    destruct (ctext c); [|reflexivity]. destruct (pt _ _); reflexivity.
Qed.
Print Assumptions C133_functions_partial.
(** Constants are those of the attributes whatever the children. *)
Theorem C133_constants : forall Pt (pr : string -> string -> option (Pt -> R)) pt e,
  let m := parse pr pt e steel in
  Emod m = match aE e with Some x => x | None => 205000000000 end /\ nu m = match anu e with Some x => x | None => 29/100 end /\
  rho m = match arho e with Some x => x | None => 7850 end /\ alpha m = match aalpha e with Some x => x | None => 12/100000000 end /\
  cp m = match acp e with Some x => x | None => 1 end /\ kappa m = match akappa e with Some x => x | None => 1 end.
Proof.
  intros Pt pr pt e. cbv zeta.
  assert (E0 : Emod (@readAttributes Pt e steel) = match aE e with Some x => x | None => 205000000000 end) by (cbn; destruct (Rle_dec 0 205000000000); [reflexivity|lra]).
  assert (K : forall first cs m0, let m := fold_left (readChild pr pt first) cs m0 in
    Emod m = Emod m0 /\ nu m = nu m0 /\ rho m = rho m0 /\ alpha m = alpha m0 /\ cp m = cp m0 /\ kappa m = kappa m0).
  { intros first cs. induction cs as [|c cs IH]; intros m0; [cbn; repeat split|]. cbv zeta in *. cbn [fold_left].
    destruct (IH (readChild pr pt first m0 c)) as (A1 & A2 & A3 & A4 & A5 & A6). rewrite A1, A2, A3, A4, A5, A6.
    unfold readChild. destruct (ctag c); try (repeat split; fail). destruct (caging c); [repeat split|]. destruct (Efunc m0); [repeat split|]. destruct (Rle_dec 0 (Emod m0)); repeat split. }
  rewrite <- E0. unfold parse. destruct (children e) as [|first r]; [repeat split|]. destruct (K first (first :: r) (readAttributes e steel)) as (A1 & A2 & A3 & A4 & A5 & A6).
  rewrite A1, A2, A3, A4, A5, A6. repeat split.
Qed.
Print Assumptions C133_constants.
(** A function given in a second child is never read: the text of the first is taken for it. *)
Theorem C133_second_function_refuted : forall Pt (pr : string -> string -> option (Pt -> R)) pt e ty1 ty2 ag1 ag2 f1 f2 g1 X,
  children e = [mkCh TDensity ty1 ag1 (Some f1); mkCh TPoisson ty2 ag2 (Some f2)] -> pr f1 ty1 = Some g1 ->
  getPoissonRatio (parse pr pt e steel) X = g1 X /\ getMassDensity (parse pr pt e steel) X = g1 X.
Proof. intros. unfold parse. rewrite H. cbn. rewrite H0. split; reflexivity. Qed.
Print Assumptions C133_second_function_refuted.
Theorem C133_meaning_refuted : exists (pr : string -> string -> option (R -> R)) pt e, (forall s t, exists g, pr s t = Some g) /\
  NoDup (map ctag (children e)) /\ forall X T age, ~ asMeant pr pt e X T age.
Proof.
  exists (fun s _ => Some (fun _ => if string_dec s "7850" then 7850 else 3 / 10)), (fun _ _ => None),
    (mkMT None None None None None None [mkCh TDensity "constant" false (Some "7850"%string); mkCh TPoisson "constant" false (Some "0.3"%string)]).
  split; [intros s t; eexists; reflexivity|]. split; [repeat constructor; cbn; intuition discriminate|].
  intros X T age (H & _). revert H. unfold parse, getPoissonRatio, meant. cbn. lra.
Qed.
Print Assumptions C133_meaning_refuted.
(** A material with one function, a density growing along an axis. *)
Example C133_case : let pr : string -> string -> option (R -> R) := fun _ _ => Some (fun x => 1000 + x) in
  let e := mkMT (Some 1000) (Some (3/10)) None None None None [mkCh TDensity "expression" false (Some "1000+x"%string)] in
  getMassDensity (parse pr (fun _ _ => None) e steel) 5 = 1005 /\ getPoissonRatio (parse pr (fun _ _ => None) e steel) 5 = 3/10 /\
  NoDup (map ctag (children e)).
Proof. cbv zeta. cbn. split; [ring|]. split; [reflexivity|]. repeat constructor; cbn; tauto. Qed.
