(** Proofs about text input files. *)
From Coq Require Import List ZArith QArith Bool Lia Permutation.
From Verif.Lib Require Import Base.
From Verif.Model Require Import TextInput.
From Verif.Spec Require Import TextInput.
Import ListNotations.
Local Open Scope Z_scope.

Definition undef (code : Z) (p : prop) : bool := match pcode p with UNDEFINED => pindx p =? code | _ => false end.
Definition conv (code : Z) (k : kind) (idx : option Z) (p : prop) : prop := mkProp k (match idx with Some i => i | None => code end) (patch p) (lindx p).
Lemma setType_map code k idx l : setPropertyType code k idx l = map (fun p => if undef code p then conv code k idx p else p) l.
Proof.
  unfold setPropertyType. apply map_ext. intros [pc pi pa li]. unfold undef, conv. cbn. now destruct pc.
Qed.
Lemma flat_set (A : Type) (g g' : prop -> list A) code k idx x l :
  (forall p, undef code p = true -> g p = [] /\ g' (conv code k idx p) = [x p]) ->
  (forall p, In p l -> undef code p = false -> g' p = g p) ->
  Permutation (flat_map g' (setPropertyType code k idx l)) (flat_map g l ++ map x (filter (undef code) l)).
Proof.
  rewrite setType_map. intros A1. induction l as [|p l IH]; intros A2; [constructor|]. cbn [map flat_map filter].
  assert (P := IH (fun q Hq => A2 q (or_intror Hq))). destruct (undef code p) eqn:E.
  - destruct (A1 p E) as [-> ->]. cbn. apply Permutation_cons_app. exact P.
  - rewrite (A2 p (or_introl eq_refl) E), <- app_assoc. now apply Permutation_app_head.
Qed.
Lemma flat_same (A : Type) (g g' : prop -> list A) l : (forall p, In p l -> g' p = g p) -> flat_map g' l = flat_map g l.
Proof. intros K. induction l as [|p l IH]; [reflexivity|]. cbn. rewrite (K p (or_introl eq_refl)), IH; [reflexivity|]. intros q Hq; apply K; now right. Qed.
Lemma flat_keep (A : Type) (g g' : prop -> list A) code k idx l :
  (forall p, undef code p = true -> g p = [] /\ g' (conv code k idx p) = []) ->
  (forall p, In p l -> undef code p = false -> g' p = g p) ->
  flat_map g' (setPropertyType code k idx l) = flat_map g l.
Proof.
  rewrite setType_map. intros A1. induction l as [|p l IH]; intros A2; [reflexivity|]. cbn [map flat_map].
  rewrite (IH (fun q Hq => A2 q (or_intror Hq))). destruct (undef code p) eqn:E.
  - now destruct (A1 p E) as [-> ->].
  - now rewrite (A2 p (or_introl eq_refl) E).
Qed.

Definition loadOf (t : list (Z * field)) (p : prop) : list (Z * Z * field) :=
  match pcode p with NEUMANN => match find (pindx p) t with Some f => [(patch p, lindx p, f)] | None => [] end | _ => [] end.
Lemma loads_eq s : loads s = flat_map (loadOf (tracs s)) (props s).
Proof. reflexivity. Qed.
Definition matOf (m : list mat) (p : prop) : list (Z * mat) :=
  match pcode p with MATERIAL => match nth_error m (Z.to_nat (pindx p)) with Some x => [(patch p, x)] | None => [] end | _ => [] end.
Definition matList (s : state) : list (Z * mat) := flat_map (matOf (mats s)) (props s).

Lemma find_cons c f t c' : find c' ((c, f) :: t) = if c =? c' then Some f else find c' t.
Proof. unfold find. cbn. now destruct (c =? c'). Qed.

Section P.
Variables (dim : Z) (local : Z -> Z) (stress : bool) (sets : list (Z * Z * Z)).
Notation entry := (keyword * nat * list word)%type.
Definition typed (e : entry) : list Z := match e with (PRESSURE, _, _) => [] | _ => codeOf e end.
Definition codes (l : list entry) : list Z := flat_map codeOf l.
Definition pl (p : prop) : Z * Z := (patch p, lindx p).

Record inv (done : list entry) (s : state) : Prop := mkInv {
  i_undef : forall c, ~ In c (flat_map typed done) -> map pl (filter (undef c) (props s)) = ofCode sets c;
  i_neu : forall p, In p (props s) -> pcode p = NEUMANN -> In (pindx p) (codes done);
  i_mat : forall p, In p (props s) -> pcode p = MATERIAL -> 0 <= pindx p < nMat s;
  i_loads : Permutation (loads s) (flat_map (wantedLoad local stress sets) done);
  i_mats : Permutation (matList s) (flat_map (wantedMat local sets) done) }.

Lemma typed_code e c : In c (typed e) -> In c (codeOf e).
Proof. destruct e as [[k i] l]. destruct k; cbn; tauto. Qed.
Lemma typed_codes l c : In c (flat_map typed l) -> In c (codes l).
Proof. unfold codes. rewrite !in_flat_map. intros (e & A & B). exists e. split; [exact A|now apply typed_code]. Qed.
Lemma codes_app l e c : In c (codes l) -> In c (codes (l ++ [e])).
Proof. unfold codes. rewrite flat_map_app, in_app_iff. now left. Qed.
Lemma codes_new l e c : In c (codeOf e) -> In c (codes (l ++ [e])).
Proof. unfold codes. rewrite flat_map_app, in_app_iff. cbn. rewrite app_nil_r. now right. Qed.
Lemma nottyped l e c : ~ In c (flat_map typed (l ++ [e])) -> ~ In c (flat_map typed l) /\ ~ In c (typed e).
Proof. rewrite flat_map_app, in_app_iff. cbn. rewrite app_nil_r. tauto. Qed.

Lemma filter_app1 (p q : prop) c l : undef c q = false -> filter (undef c) (l ++ [q]) = filter (undef c) l.
Proof. intros E. rewrite filter_app. cbn. now rewrite E, app_nil_r. Qed.
Lemma filter_set c code k idx l : k <> UNDEFINED -> c <> code -> filter (undef c) (setPropertyType code k idx l) = filter (undef c) l.
Proof.
  intros K N. rewrite setType_map. induction l as [|p l IH]; [reflexivity|]. cbn [map filter].
  rewrite IH. destruct (undef code p) eqn:E; [|reflexivity].
  assert (undef c (conv code k idx p) = false) as -> by (unfold undef, conv; cbn; now destruct k).
  assert (undef c p = false) as ->; [|reflexivity]. unfold undef in *. destruct (pcode p); try reflexivity.
  apply Z.eqb_eq in E. apply Z.eqb_neq. congruence.
Qed.
Lemma in_set code k idx l p : In p (setPropertyType code k idx l) -> In p l \/ exists q, In q l /\ undef code q = true /\ p = conv code k idx q.
Proof.
  rewrite setType_map, in_map_iff. intros (q & E & Hq). destruct (undef code q) eqn:U; subst; [right; eauto|now left].
Qed.

(** Faces are given by numbers that fit into a char. *)
Definition plain (e : entry) : Prop := match e with (PRESSURE, _, _ :: t :: _) => -128 <= atoi t <= 127 | _ => True end.
Lemma char_small z : -128 <= z <= 127 -> char8 z = z.
Proof. intros B. unfold char8. rewrite Z.mod_small; lia. Qed.

Lemma press_inv done s i l s' : inv done s -> pressureLine dim local stress i l s = Ret s' -> plain (PRESSURE, i, l) ->
  ~ In (1 + Z.of_nat i) (codes done) -> inv (done ++ [(PRESSURE, i, l)]) s'.
Proof.
  intros [U N M L Q] E Pl F. unfold pressureLine in E. destruct l as [|t1 r]; [discriminate|].
  destruct (local (atoi t1) <? 0) eqn:Z0; [discriminate|]. destruct (local (atoi t1) <? 1) eqn:Z1.
  { inversion E; subst. destruct r as [|t2 r].
    - split; auto.
      + intros c Hc. apply U. apply (nottyped _ _ _ Hc).
      + intros p A B. apply codes_app. now apply N.
      + rewrite flat_map_app. cbn. now rewrite app_nil_r.
      + rewrite flat_map_app. cbn. now rewrite app_nil_r.
    - split; auto.
      + intros c Hc. apply U. apply (nottyped _ _ _ Hc).
      + intros p A B. apply codes_app. now apply N.
      + rewrite flat_map_app. cbn. rewrite Z1. cbn. now rewrite app_nil_r.
      + rewrite flat_map_app. cbn. now rewrite app_nil_r. }
  destruct r as [|t2 r]; [discriminate|]. cbn in Pl. rewrite (char_small _ Pl) in E.
  destruct ((atoi t2 <? 1) || (2 * dim <? atoi t2)); [discriminate|].
  remember (1 + Z.of_nat i) as ci eqn:Hci.
  set (put f := Ret (mkSt (props s ++ [mkProp NEUMANN ci (local (atoi t1)) (atoi t2)]) ((ci, f) :: tracs s) (mats s) (current s))) in E.
  assert (K : forall f, put f = Ret s' -> wantedLoad local stress sets (PRESSURE, i, t1 :: t2 :: r) = [(local (atoi t1), atoi t2, f)] ->
    inv (done ++ [(PRESSURE, i, t1 :: t2 :: r)]) s').
  { intros f Ef W. inversion Ef; subst s'. clear Ef E. split; cbn [props tracs mats].
    - intros c Hc. rewrite filter_app1; [|exact (mkProp UNDEFINED 0 0 0)|reflexivity]. apply U. apply (nottyped _ _ _ Hc).
    - intros p A B. apply in_app_iff in A. destruct A as [A|[<-|[]]]; [apply codes_app; now apply N|].
      apply codes_new. left. symmetry. exact Hci.
    - intros p A B. apply in_app_iff in A. destruct A as [A|[<-|[]]]; [now apply M|discriminate].
    - rewrite loads_eq. cbn [props tracs]. rewrite !flat_map_app. cbn [flat_map]. rewrite W, !app_nil_r. apply Permutation_app.
      + rewrite (flat_same _ (loadOf (tracs s))); [exact L|]. intros p Hp. unfold loadOf. destruct (pcode p) eqn:Ek; try reflexivity.
        rewrite find_cons. destruct (ci =? pindx p) eqn:E1; [|reflexivity]. apply Z.eqb_eq in E1. exfalso. apply F. rewrite E1. now apply N.
      + unfold loadOf. cbn [pcode pindx patch lindx]. rewrite find_cons, Z.eqb_refl. apply Permutation_refl.
    - unfold matList. cbn [props mats]. rewrite !flat_map_app. cbn. rewrite !app_nil_r. exact Q. }
  destruct stress eqn:S1.
  - apply (K _ E). cbn. rewrite Z1. now destruct r as [|t3 [|t4 r]].
  - destruct r as [|t3 [|t4 r]]; try discriminate. apply (K _ E). cbn. now rewrite Z1.
Qed.

Lemma undef_loadOf c t p : undef c p = true -> loadOf t p = [].
Proof. unfold undef, loadOf. now destruct (pcode p). Qed.
Lemma undef_matOf c t p : undef c p = true -> matOf t p = [].
Proof. unfold undef, matOf. now destruct (pcode p). Qed.

Lemma code_inv done s k i lin l s' : inv done s -> (k, lin) = (CONSTANT_PRESSURE, false) \/ (k, lin) = (LINEAR_PRESSURE, true) ->
  codeLine lin l s = Ret s' -> (forall c, In c (codeOf (k, i, l)) -> ~ In c (codes done)) -> inv (done ++ [(k, i, l)]) s'.
Proof.
  intros [U N M L Q] Hk E F. unfold codeLine in E. destruct l as [|t1 [|t2 [|t3 r]]]; try discriminate. inversion E; subst; clear E.
  set (c0 := atoi t1) in *. set (v := if lin then Linear (atof t3) else Const (atof t3)) in *.
  assert (F0 : ~ In c0 (codes done)) by (apply F; destruct Hk as [Hk|Hk]; inversion Hk; subst; now left).
  assert (T0 : typed (k, i, t1 :: t2 :: t3 :: r) = [c0]) by (destruct Hk as [Hk|Hk]; inversion Hk; subst; reflexivity).
  assert (C0 : codeOf (k, i, t1 :: t2 :: t3 :: r) = [c0]) by (destruct Hk as [Hk|Hk]; inversion Hk; subst; reflexivity).
  assert (W : wantedLoad local stress sets (k, i, t1 :: t2 :: t3 :: r) = map (fun x => (x, Pressure v (atoi t2))) (ofCode sets c0))
    by (destruct Hk as [Hk|Hk]; inversion Hk; subst; reflexivity).
  assert (WM : wantedMat local sets (k, i, t1 :: t2 :: t3 :: r) = []) by (destruct Hk as [Hk|Hk]; inversion Hk; subst; reflexivity).
  split; cbn [props tracs mats].
  - intros c Hc. apply nottyped in Hc. destruct Hc as [H1 H2]. rewrite T0 in H2. rewrite filter_set; [now apply U|discriminate|]. intros ->. apply H2. now left.
  - intros p A B. apply in_set in A. destruct A as [A|(q & _ & _ & ->)]; [apply codes_app; now apply N|]. apply codes_new. rewrite C0. now left.
  - intros p A B. apply in_set in A. destruct A as [A|(q & _ & _ & ->)]; [now apply M|discriminate].
  - rewrite loads_eq. cbn [props tracs]. rewrite flat_map_app. cbn [flat_map]. rewrite app_nil_r, W.
    eapply Permutation_trans.
    + apply (flat_set _ (loadOf (tracs s)) _ c0 NEUMANN None (fun p => (pl p, Pressure v (atoi t2)))).
      * intros p Hp. split; [now apply (undef_loadOf c0)|]. unfold loadOf, conv. cbn [pcode pindx patch lindx]. now rewrite find_cons, Z.eqb_refl.
      * intros p Hp Hu. unfold loadOf. destruct (pcode p) eqn:Ek; try reflexivity.
        rewrite find_cons. destruct (c0 =? pindx p) eqn:E1; [|reflexivity]. apply Z.eqb_eq in E1. exfalso. apply F0. rewrite E1. now apply N.
    + apply Permutation_app; [exact L|]. rewrite <- (U c0); [rewrite map_map; apply Permutation_refl|]. intros K. apply F0. now apply typed_codes.
  - unfold matList. cbn [props mats]. rewrite flat_map_app. cbn [flat_map]. rewrite WM, !app_nil_r.
    rewrite (flat_keep _ (matOf (mats s)) (matOf (mats s))); [exact Q| |reflexivity].
    intros p Hp. split; [now apply (undef_matOf c0)|reflexivity].
Qed.

Lemma nth_app_old (m : list mat) x n : 0 <= n < Z.of_nat (length m) -> nth_error (m ++ [x]) (Z.to_nat n) = nth_error m (Z.to_nat n).
Proof. intros B. apply nth_error_app1. lia. Qed.
Lemma nth_app_new (m : list mat) x : nth_error (m ++ [x]) (Z.to_nat (Z.of_nat (length m))) = Some x.
Proof. rewrite Nat2Z.id, nth_error_app2, Nat.sub_diag by lia. reflexivity. Qed.
Lemma nMat_add m s : nMat (addMat m s) = nMat s + 1.
Proof. unfold nMat, addMat. cbn. rewrite app_length. cbn. lia. Qed.

Lemma matOf_add s m l : (forall p, In p l -> pcode p = MATERIAL -> 0 <= pindx p < nMat s) -> forall p, In p l -> matOf (mats s ++ [m]) p = matOf (mats s) p.
Proof.
  intros M p Hp. unfold matOf. destruct (pcode p) eqn:E; try reflexivity. rewrite nth_app_old; [reflexivity|]. exact (M p Hp E).
Qed.

Lemma iso_inv done s i l s' : inv done s -> isotropicLine l s = Ret s' -> (forall c, In c (codeOf (ISOTROPIC, i, l)) -> ~ In c (codes done)) ->
  inv (done ++ [(ISOTROPIC, i, l)]) s'.
Proof.
  intros [U N M L Q] E F. unfold isotropicLine in E. destruct l as [|t1 r]; [discriminate|].
  destruct r as [|te [|tn [|tr r]]]; try (destruct (0 <? atoi t1); discriminate). set (m := mkM (atof te) (atof tn) (atof tr)).
  destruct (0 <? atoi t1) eqn:P.
  - cbn in E. inversion E; subst; clear E. set (c0 := atoi t1) in *.
    assert (T0 : typed (ISOTROPIC, i, t1 :: te :: tn :: tr :: r) = [c0]) by (cbn; fold c0; now rewrite P).
    assert (F0 : ~ In c0 (codes done)) by (apply F; cbn; fold c0; rewrite P; now left).
    split; cbn [props tracs mats addMat].
    + intros c Hc. apply nottyped in Hc. destruct Hc as [H1 H2]. rewrite T0 in H2. rewrite filter_set; [now apply U|discriminate|]. intros ->. apply H2. now left.
    + intros p A B. apply in_set in A. destruct A as [A|(q & _ & _ & ->)]; [apply codes_app; now apply N|discriminate].
    + intros p A B. unfold nMat. cbn. rewrite app_length. cbn. apply in_set in A. destruct A as [A|(q & _ & _ & ->)].
      * specialize (M p A B). unfold nMat in M. lia.
      * cbn. unfold nMat. lia.
    + rewrite loads_eq. cbn [addMat fst props tracs]. rewrite flat_map_app. cbn [flat_map wantedLoad]. rewrite !app_nil_r.
      rewrite (flat_keep _ (loadOf (tracs s))); [exact L| |reflexivity].
      intros p Hp. split; [now apply (undef_loadOf c0)|reflexivity].
    + unfold matList. cbn [addMat fst props mats]. rewrite flat_map_app. cbn [flat_map]. rewrite app_nil_r.
      cbn [wantedMat]. fold c0. rewrite P. fold m.
      eapply Permutation_trans.
      * apply (flat_set _ (matOf (mats s)) _ c0 MATERIAL (Some (nMat s)) (fun p => (fst (pl p), m))).
        -- intros p Hp. split; [now apply (undef_matOf c0)|]. unfold matOf, conv. cbn [pcode pindx patch lindx]. unfold nMat. now rewrite nth_app_new.
        -- intros p Hp _. now apply (matOf_add s m (props s) M).
      * apply Permutation_app; [exact Q|]. rewrite <- (U c0); [rewrite map_map; apply Permutation_refl|]. intros K. apply F0. now apply typed_codes.
  - cbn in E. inversion E; subst; clear E.
    assert (T0 : typed (ISOTROPIC, i, t1 :: te :: tn :: tr :: r) = []) by (cbn; now rewrite P).
    split; cbn [props tracs mats addMat].
    + intros c Hc. apply nottyped in Hc. now apply U.
    + intros p A B. apply codes_app. now apply N.
    + intros p A B. unfold nMat. cbn. rewrite app_length. cbn. specialize (M p A B). unfold nMat in M. lia.
    + rewrite loads_eq. cbn [addMat fst props tracs]. rewrite flat_map_app. cbn [flat_map wantedLoad]. rewrite !app_nil_r. exact L.
    + unfold matList. cbn [addMat fst props mats]. rewrite flat_map_app. cbn [flat_map]. rewrite app_nil_r. cbn [wantedMat]. rewrite P, app_nil_r.
      rewrite (flat_same _ (matOf (mats s))); [exact Q|]. intros p Hp. apply (matOf_add s _ (props s) M p Hp).
Qed.

Lemma patches_inv ps m : forall s s', patches local ps s = Ret s' ->
  nth_error (mats s) (Z.to_nat (nMat s - 1)) = Some m -> 0 < nMat s ->
  tracs s' = tracs s /\ mats s' = mats s /\ current s' = current s /\ exists q, props s' = props s ++ q /\
  (forall p, In p q -> pcode p = MATERIAL /\ pindx p = nMat s - 1) /\
  flat_map (matOf (mats s)) q = flat_map (fun w => match w with Word 0 => [] | _ => if local (atoi w) <? 1 then [] else [(local (atoi w), m)] end) ps.
Proof.
  induction ps as [|w ps IH]; intros s s' E Hm Hn.
  { cbn in E. inversion E; subst. do 3 (split; [reflexivity|]). exists []. rewrite app_nil_r. split; [reflexivity|]. split; [intros p []|reflexivity]. }
  assert (K : (if local (atoi w) <? 0 then Rejected else if local (atoi w) <? 1 then patches local ps s
               else patches local ps (mkSt (props s ++ [mkProp MATERIAL (nMat s - 1) (local (atoi w)) 0]) (tracs s) (mats s) (current s))) = Ret s' ->
    tracs s' = tracs s /\ mats s' = mats s /\ current s' = current s /\ exists q, props s' = props s ++ q /\
    (forall p, In p q -> pcode p = MATERIAL /\ pindx p = nMat s - 1) /\
    flat_map (matOf (mats s)) q = (if local (atoi w) <? 1 then [] else [(local (atoi w), m)]) ++
       flat_map (fun w => match w with Word 0 => [] | _ => if local (atoi w) <? 1 then [] else [(local (atoi w), m)] end) ps).
  { intros E1. destruct (local (atoi w) <? 0) eqn:E2; [discriminate|]. destruct (local (atoi w) <? 1) eqn:E3; [now apply IH|].
    apply IH in E1; [|exact Hm|exact Hn]. destruct E1 as (A & B & C & q & D & F & G). cbn in A, B, C. do 3 (split; [assumption|]).
    cbn [props mats] in D, G. eexists. split; [rewrite D, <- app_assoc; reflexivity|]. split.
    - intros p [<-|Hp]; [split; reflexivity|now apply F].
    - cbn [flat_map app]. rewrite G. unfold matOf at 1. cbn [pcode pindx patch]. now rewrite Hm. }
  destruct w as [x|[|n]]; [exact (K E)| |exact (K E)]. cbn in E. apply IH in E; assumption.
Qed.

Lemma material_inv done s i l s' : inv done s -> materialLine local l s = Ret s' -> inv (done ++ [(MATERIALS, i, l)]) s'.
Proof.
  intros [U N M L Q] E. unfold materialLine in E. destruct l as [|te [|tn [|tr ps]]]; try discriminate. cbn [parseMat bind fst snd] in E.
  set (m := mkM (atof te) (atof tn) (atof tr)) in *.
  assert (Hn : nMat (addMat m s) = nMat s + 1) by apply nMat_add.
  assert (Hm : nth_error (mats (addMat m s)) (Z.to_nat (nMat (addMat m s) - 1)) = Some m).
  { rewrite Hn. replace (nMat s + 1 - 1) with (Z.of_nat (length (mats s))) by (unfold nMat; lia). apply nth_app_new. }
  destruct (patches_inv ps m _ _ E Hm) as (A & B & C & q & D & F & G); [unfold nMat in *; lia|]. cbn [addMat tracs mats props] in A, B, D, G.
  assert (B' : nMat s' = nMat s + 1) by (unfold nMat; rewrite B, app_length; cbn; lia).
  split.
  - intros c Hc. rewrite D, filter_app. assert (filter (undef c) q = []) as ->.
    { clear - F. induction q as [|p q IH]; [reflexivity|]. cbn. unfold undef at 1. destruct (F p (or_introl eq_refl)) as [-> _].
      apply IH. intros x Hx; apply F; now right. }
    rewrite app_nil_r. apply U. apply (nottyped _ _ _ Hc).
  - intros p Hp K. rewrite D in Hp. apply in_app_iff in Hp. destruct Hp as [Hp|Hp]; [apply codes_app; now apply N|].
    destruct (F p Hp) as [K2 _]. congruence.
  - intros p Hp K. rewrite B'. rewrite D in Hp. apply in_app_iff in Hp. destruct Hp as [Hp|Hp].
    + specialize (M p Hp K). lia.
    + destruct (F p Hp) as [_ ->]. rewrite Hn. unfold nMat. lia.
  - rewrite loads_eq, D, A, !flat_map_app. cbn [flat_map wantedLoad]. rewrite !app_nil_r.
    assert (flat_map (loadOf (tracs s)) q = []) as ->; [|now rewrite app_nil_r].
    clear - F. induction q as [|p q IH]; [reflexivity|]. cbn. unfold loadOf at 1. destruct (F p (or_introl eq_refl)) as [-> _].
    apply IH. intros x Hx; apply F; now right.
  - unfold matList. rewrite D, B, !flat_map_app. cbn [flat_map wantedMat]. fold m. rewrite app_nil_r, G.
    rewrite (flat_same _ (matOf (mats s)) (matOf (mats s ++ [m])) (props s)) by (intros p Hp; apply (matOf_add s _ (props s) M p Hp)).
    apply Permutation_app_tail. exact Q.
Qed.

Lemma line_inv done s k i l s' : inv done s -> line dim local stress k i l s = Ret s' -> plain (k, i, l) ->
  (forall c, In c (codeOf (k, i, l)) -> ~ In c (codes done)) -> inv (done ++ [(k, i, l)]) s'.
Proof.
  intros V E Pl F. destruct k; cbn [line] in E.
  - apply (press_inv _ _ _ _ _ V E Pl). apply F. now left.
  - refine (code_inv _ _ CONSTANT_PRESSURE i false l s' V _ E F). now left.
  - refine (code_inv _ _ LINEAR_PRESSURE i true l s' V _ E F). now right.
  - exact (iso_inv _ _ _ _ _ V E F).
  - exact (material_inv _ _ _ _ _ V E).
Qed.

Lemma before_inv : inv [] (before sets).
Proof.
  split.
  - intros c _. unfold before, ofCode. cbn [props]. induction sets as [|t l IH]; [reflexivity|]. cbn [map filter].
    unfold undef at 1. cbn [pcode pindx]. destruct (fst (fst t) =? c); cbn [map]; now rewrite IH.
  - intros p Hp. unfold before in Hp. cbn in Hp. apply in_map_iff in Hp. destruct Hp as (t & <- & _). discriminate.
  - intros p Hp. unfold before in Hp. cbn in Hp. apply in_map_iff in Hp. destruct Hp as (t & <- & _). discriminate.
  - rewrite loads_eq. unfold before. cbn [props tracs]. induction sets as [|t l IH]; [constructor|]. exact IH.
  - unfold matList, before. cbn [props mats]. induction sets as [|t l IH]; [constructor|]. exact IH.
Qed.

Lemma parse_inv ls : forall done s s', inv done s -> parseLines dim local stress ls s = Ret s' ->
  (forall e, In e ls -> plain e) -> NoDup (codes (done ++ ls)) -> inv (done ++ ls) s'.
Proof.
  induction ls as [|[[k i] l] ls IH]; intros done s s' V E Pl ND.
  { cbn in E. inversion E; subst. now rewrite app_nil_r. }
  cbn [parseLines] in E. destruct (line dim local stress k i l s) as [| |s1] eqn:E1; try discriminate. cbn [bind] in E.
  assert (V1 : inv (done ++ [(k, i, l)]) s1).
  { apply (line_inv _ _ _ _ _ _ V E1); [apply Pl; now left|]. intros c Hc Hd. unfold codes in ND.
    rewrite flat_map_app in ND. cbn [flat_map] in ND. fold (codes done) in ND.
    clear - Hc Hd ND. induction (codes done) as [|x d IHd]; [destruct Hd|]. cbn in ND. inversion ND; subst.
    destruct Hd as [->|Hd]; [|now apply IHd]. apply H1. apply in_app_iff. right. apply in_app_iff. now left. }
  specialize (IH (done ++ [(k, i, l)]) s1 s' V1 E). rewrite <- app_assoc in IH. cbn [app] in IH. apply IH; [|exact ND].
  intros e He. apply Pl. now right.
Qed.

Lemma file_inv f s' : parseFile dim local stress f (before sets) = Ret s' -> (forall e, In e (fileLines f) -> plain e) ->
  NoDup (codes (fileLines f)) -> inv (fileLines f) s'.
Proof. intros E Pl ND. exact (parse_inv (fileLines f) [] _ _ before_inv E Pl ND). Qed.

(** Integration with the materials asked for. *)
Lemma matOf_some m l : (forall p, In p l -> pcode p = MATERIAL -> 0 <= pindx p < Z.of_nat (length m)) ->
  map (fun x => (fst x, Some (snd x))) (flat_map (matOf m) l) = map (fun p => (patch p, nth_error m (Z.to_nat (pindx p)))) (filter isMat l).
Proof.
  induction l as [|p l IH]; intros K; [reflexivity|]. cbn [flat_map filter]. rewrite map_app, IH by (intros q Hq; apply K; now right).
  unfold matOf at 1, isMat at 2. destruct (pcode p) eqn:E; try reflexivity.
  specialize (K p (or_introl eq_refl) E). destruct (nth_error m (Z.to_nat (pindx p))) as [x|] eqn:Ex.
  - cbn. now rewrite Ex.
  - apply nth_error_None in Ex. lia.
Qed.
Lemma integrated_mats n done s : inv done s -> flat_map (wantedMat local sets) done <> [] ->
  Permutation (integrated n s) (map (fun x => (fst x, Some (snd x))) (flat_map (wantedMat local sets) done)).
Proof.
  intros [U N M L Q] NE. pose proof (Permutation_map (fun x => (fst x, Some (snd x))) Q) as P.
  unfold matList in P. rewrite matOf_some in P by exact M. unfold integrated.
  destruct (filter isMat (props s)) as [|p l] eqn:E.
  - cbn in P. apply Permutation_nil in P. destruct (flat_map (wantedMat local sets) done); [congruence|discriminate].
  - rewrite <- E in *. eapply Permutation_trans; [|exact P]. rewrite (map_ext_in _ (fun p => (patch p, nth_error (mats s) (Z.to_nat (pindx p))))); [apply Permutation_refl|].
    intros q Hq. apply filter_In in Hq. destruct Hq as [Hq Hk]. unfold isMat in Hk. destruct (pcode q) eqn:Ek; try discriminate.
    specialize (M q Hq Ek). unfold initMaterial. assert (nMat s <=? pindx q = false) as -> by (apply Z.leb_gt; lia).
    assert (pindx q <? 0 = false) as -> by (apply Z.ltb_ge; lia). reflexivity.
Qed.
Lemma integrated_none n done s : inv done s -> flat_map (wantedMat local sets) done = [] ->
  integrated n s = map (fun k => (Z.of_nat k, current s)) (seq 1 n).
Proof.
  intros [U N M L Q] E0. rewrite E0 in Q. apply Permutation_sym, Permutation_nil in Q. unfold integrated.
  pose proof (matOf_some (mats s) (props s) M) as P. unfold matList in Q. rewrite Q in P. cbn in P.
  destruct (filter isMat (props s)); [reflexivity|discriminate].
Qed.

(** The current material is the one given last. *)
Definition given (e : entry) : list mat :=
  match e with
  | (ISOTROPIC, _, _ :: a :: b :: c :: _) => [mkM (atof a) (atof b) (atof c)]
  | (MATERIALS, _, a :: b :: c :: _) => [mkM (atof a) (atof b) (atof c)]
  | _ => []
  end.
Lemma line_current k i l s s' : line dim local stress k i l s = Ret s' -> current s' = match given (k, i, l) with m :: _ => Some m | [] => current s end.
Proof.
  intros E. destruct k; cbn [line] in E.
  - unfold pressureLine in E. destruct l as [|t1 r]; [discriminate|].
    destruct (_ <? 0); [discriminate|]. destruct (_ <? 1); [now inversion E|]. destruct r as [|t2 r]; [discriminate|].
    destruct (_ || _); [discriminate|]. destruct stress; [now inversion E|]. destruct r as [|t3 [|t4 r]]; try discriminate. now inversion E.
  - unfold codeLine in E. destruct l as [|t1 [|t2 [|t3 r]]]; try discriminate. now inversion E.
  - unfold codeLine in E. destruct l as [|t1 [|t2 [|t3 r]]]; try discriminate. now inversion E.
  - unfold isotropicLine in E. destruct l as [|t1 [|a [|b [|c r]]]]; try discriminate; try (destruct (0 <? atoi t1); discriminate). destruct (0 <? atoi t1); now inversion E.
  - unfold materialLine in E. destruct l as [|a [|b [|c r]]]; try discriminate. cbn [parseMat bind fst snd] in E.
    assert (K : forall ps s s', patches local ps s = Ret s' -> current s' = current s).
    { clear. induction ps as [|w ps IH]; intros s s' E; [now inversion E|]. cbn in E.
      assert (K : (if local (atoi w) <? 0 then Rejected else if local (atoi w) <? 1 then patches local ps s
               else patches local ps (mkSt (props s ++ [mkProp MATERIAL (nMat s - 1) (local (atoi w)) 0]) (tracs s) (mats s) (current s))) = Ret s' -> current s' = current s).
      { destruct (_ <? 0); [discriminate|]. destruct (_ <? 1); [apply IH|]. intros E1. now apply IH in E1. }
      destruct w as [x|[|n]]; [exact (K E)|now apply IH|exact (K E)]. }
    now apply K in E.
Qed.
Lemma parse_current ls : forall s s', parseLines dim local stress ls s = Ret s' -> current s' = last (map Some (flat_map given ls)) (current s).
Proof.
  induction ls as [|[[k i] l] ls IH]; intros s s' E; [now inversion E|]. cbn [parseLines] in E.
  destruct (line dim local stress k i l s) as [| |s1] eqn:E1; try discriminate. cbn [bind] in E.
  rewrite (IH _ _ E), (line_current _ _ _ _ _ E1). cbn [flat_map]. rewrite map_app.
  assert (G : (length (given (k, i, l)) <= 1)%nat) by (destruct k; cbn; repeat (destruct l as [|? l]; cbn; try lia)).
  destruct (given (k, i, l)) as [|m [|m2 g]]; [reflexivity| |cbn in G; lia]. cbn [map app].
  destruct (map Some (flat_map given ls)) as [|x r]; [reflexivity|]. generalize x. clear. induction r as [|y r IH]; intros x; [reflexivity|]. exact (IH y).
Qed.
End P.

(** Lines that are accepted. *)
Section A.
Variables (dim : Z) (local : Z -> Z) (stress : bool).
Definition valid (e : keyword * nat * list word) : Prop :=
  match e with
  | (PRESSURE, _, l) => (2 <= length l)%nat /\ 0 <= local (atoi (nth 0 l (Num 0))) /\
      (1 <= local (atoi (nth 0 l (Num 0))) -> 1 <= atoi (nth 1 l (Num 0)) <= 2 * dim /\ (stress = true \/ (4 <= length l)%nat))
  | (CONSTANT_PRESSURE, _, l) => (3 <= length l)%nat
  | (LINEAR_PRESSURE, _, l) => (3 <= length l)%nat
  | (ISOTROPIC, _, l) => (4 <= length l)%nat
  | (MATERIALS, _, l) => (3 <= length l)%nat /\ forall w, In w (skipn 3 l) -> w <> Word ALL -> 0 <= local (atoi w)
  end.
Lemma valid_line k i l s : 2 * dim <= 127 -> valid (k, i, l) -> exists s', line dim local stress k i l s = Ret s'.
Proof.
  intros D V. destruct k; cbn [valid line] in *.
  - destruct V as (A & B & C). destruct l as [|t1 [|t2 r]]; try (cbn in A; lia). cbn [nth] in B, C. unfold pressureLine.
    assert (local (atoi t1) <? 0 = false) as -> by (apply Z.ltb_ge; lia).
    destruct (local (atoi t1) <? 1) eqn:E1; [eexists; reflexivity|]. apply Z.ltb_ge in E1. specialize (C E1). destruct C as [F C].
    rewrite char_small by lia. assert ((atoi t2 <? 1) || (2 * dim <? atoi t2) = false) as ->.
    { apply orb_false_iff. split; apply Z.ltb_ge; lia. }
    destruct stress; [eexists; reflexivity|]. destruct C as [C|C]; [discriminate|]. destruct r as [|t3 [|t4 r]]; cbn in C; try lia. eexists; reflexivity.
  - destruct l as [|? [|? [|? r]]]; cbn in V; try lia. eexists; reflexivity.
  - destruct l as [|? [|? [|? r]]]; cbn in V; try lia. eexists; reflexivity.
  - destruct l as [|? [|? [|? [|? r]]]]; cbn in V; try lia. eexists; reflexivity.
  - destruct V as [A B]. destruct l as [|? [|? [|? r]]]; cbn in A; try lia. cbn in B. unfold materialLine. cbn [parseMat bind fst snd].
    match goal with |- exists s', patches local r ?x = Ret s' => generalize x end. clear - B. induction r as [|x r IH]; intros s; [eexists; reflexivity|].
    assert (IH' := IH (fun y Hy => B y (or_intror Hy))).
    assert (K : 0 <= local (atoi x) -> exists s', (if local (atoi x) <? 0 then Rejected else if local (atoi x) <? 1 then patches local r s
               else patches local r (mkSt (props s ++ [mkProp MATERIAL (nMat s - 1) (local (atoi x)) 0]) (tracs s) (mats s) (current s))) = Ret s').
    { intros P. assert (local (atoi x) <? 0 = false) as -> by (apply Z.ltb_ge; lia). destruct (_ <? 1); apply IH'. }
    destruct x as [q|[|n]]; [apply K, B; [now left|discriminate]|apply IH'|apply K, B; [now left|discriminate]].
Qed.
Lemma valid_lines ls : 2 * dim <= 127 -> (forall e, In e ls -> valid e) -> forall s, exists s', parseLines dim local stress ls s = Ret s'.
Proof.
  intros D. induction ls as [|[[k i] l] ls IH]; intros V s; [eexists; reflexivity|]. cbn [parseLines].
  destruct (valid_line k i l s D (V _ (or_introl eq_refl))) as [s1 ->]. cbn [bind]. apply IH. intros e He; apply V; now right.
Qed.
End A.
