(** Load and boundary functions (C100, C101, C102, and the input of line loads for C54). *)
From Verif Require Import Lib.Base Model.BouFuncs Proofs.BouFuncs.
Import ListNotations.

(** ** C100: each loaded boundary gets the traction specified for it *)

(** Plates and shells, in any state left by earlier boundaries. *)
Theorem C100_shell_partial : forall vectors tracs s c t, registered vectors tracs c = Some t ->
  fst (initNeumann setTrac_kl vectors tracs s c) = true /\
  getTraction (snd (initNeumann setTrac_kl vectors tracs s c)) = Some t.
Proof.
  intros vectors tracs s c t H. split; [|now apply kl_effective]. unfold registered in H. unfold initNeumann.
  destruct (lookup vectors c); [reflexivity|]. destruct (lookup tracs c); [reflexivity|discriminate].
Qed.
(** Solids: exactly what is applied, after any sequence of boundaries of any number of assembly passes. *)
Theorem C100_solid_partial : forall vectors tracs codes c t, registered vectors tracs c = Some t ->
  let s := visit setTrac_el vectors tracs (Trac None None) codes in
  getTraction (snd (initNeumann setTrac_el vectors tracs s c)) = Some t <->
  (forall f, t = TracF f -> forall c', In c' codes -> lookup vectors c' = None).
Proof.
  intros vectors tracs codes c t H. cbv zeta. rewrite (el_effective vectors tracs codes c t H). destruct t as [f|f].
  - split; [discriminate|reflexivity].
  - split.
    + intros E f' _ c' Hc. destruct (lookup vectors c') eqn:Ec; [|reflexivity].
      destruct (lastVec_some vectors codes None c' n Hc Ec) as (c2 & f2 & _ & _ & L). rewrite L in E. discriminate.
    + intros E. rewrite lastVec_none by (apply (E f eq_refl)). reflexivity.
Qed.
(** A boundary with a traction or pressure function visited after one with a vector function gets the traction of the other. *)
Theorem C100_solid_refuted : exists vectors tracs codes c t, registered vectors tracs c = Some t /\
  let s := visit setTrac_el vectors tracs (Trac None None) codes in
  getTraction (snd (initNeumann setTrac_el vectors tracs s c)) <> Some t.
Proof. exists [(1%Z, 7%nat)], [(2%Z, 8%nat)], [1%Z], 2%Z, (TracF 8). split; [reflexivity|]. discriminate. Qed.
(** Even if it comes first in the input, this happens from the second assembly on. *)
Theorem C100_second_pass_refuted : exists vectors tracs codes c t, registered vectors tracs c = Some t /\
  let first := visit setTrac_el vectors tracs (Trac None None) [c] in
  let second := visit setTrac_el vectors tracs (Trac None None) (c :: codes ++ [c]) in
  getTraction first = Some t /\ getTraction second <> Some t.
Proof. exists [(1%Z, 7%nat)], [(2%Z, 8%nat)], [1%Z], 2%Z, (TracF 8). split; [reflexivity|]. split; [reflexivity|discriminate]. Qed.
Example C100_ex : registered [(1%Z, 7%nat)] [(2%Z, 8%nat)] 2 = Some (TracF 8) /\
  getTraction (visit setTrac_kl [(1%Z, 7%nat)] [(2%Z, 8%nat)] (Trac None None) [1; 2]%Z) = Some (TracF 8) /\
  getTraction (visit setTrac_el [(1%Z, 7%nat)] [(2%Z, 8%nat)] (Trac None None) [1; 2]%Z) = Some (VecF 7).
Proof. repeat split. Qed.

(** ** C101: boundary conditions taken from the analytical solution *)

(** Solids: all traction conditions are served, and the displacement conditions with the code of the first one; the code that
    the displacement is registered for is that of the first one. *)
Theorem C101_solid_partial : forall stress ps, (forall p, In p ps -> p_code p = DIRICHLET_ANASOL -> p_indx p <> 0%Z) ->
  let (a, ps') := anaProps true stress (Ana 0 [] []) ps in
  Forall2 (resolved stress (firstAna 0 ps)) ps ps' /\
  (forall c, In c (vecCodes a) <-> firstAna 0 ps <> 0%Z /\ c = firstAna 0 ps) /\
  (forall c, In c (tracCodes a) <-> stress = true /\ exists p, In p ps /\ p_code p = NEUMANN_ANASOL /\ p_indx p = c).
Proof.
  intros stress ps H. assert (K := anaProps_spec stress ps (Ana 0 [] []) H). destruct (anaProps true stress (Ana 0 [] []) ps) as [a ps'].
  destruct K as (K1 & K2 & K3 & K4). cbn [aCode vecCodes tracCodes In] in *. split; [exact K2|]. split.
  - intros c. rewrite K3, K1. tauto.
  - intros c. rewrite K4. tauto.
Qed.
(** With one code all conditions are served. *)
Theorem C101_single_code_partial : forall ps c, (0 < c)%Z -> (forall p, In p ps -> p_code p = DIRICHLET_ANASOL -> Z.abs (p_indx p) = c) ->
  Forall2 (fun p p' => p_indx p' = p_indx p /\ p_patch p' = p_patch p /\
    (p_code p = DIRICHLET_ANASOL -> p_code p' = DIRICHLET_INHOM)) ps (snd (anaProps true true (Ana 0 [] []) ps)).
Proof.
  intros ps c Hc H. assert (N : forall p, In p ps -> p_code p = DIRICHLET_ANASOL -> p_indx p <> 0%Z) by (intros p I E; specialize (H p I E); lia).
  assert (K := anaProps_spec true ps (Ana 0 [] []) N). destruct (anaProps true true (Ana 0 [] []) ps) as [a ps']. destruct K as (_ & K2 & _). cbn [snd aCode] in *.
  assert (F : forall l x, (forall p, In p l -> p_code p = DIRICHLET_ANASOL -> Z.abs (p_indx p) = c) -> (exists p, In p l /\ p_code p = DIRICHLET_ANASOL) \/ x = c -> x = 0%Z \/ x = c -> firstAna x l = c).
  { induction l as [|q l IH]; intros x Hl Hx H0.
    - destruct Hx as [(p & [] & _)|Hx]; exact Hx.
    - unfold firstAna; cbn [fold_left]. fold (firstAna (match p_code q with DIRICHLET_ANASOL => if Z.eqb x 0 then Z.abs (p_indx q) else x | _ => x end) l).
      destruct (p_code q) eqn:Eq.
      + assert (Q := Hl q (or_introl eq_refl) Eq). apply IH; [intros; apply Hl; [now right|assumption]|right|right]; destruct (Z.eqb_spec x 0); lia.
      + apply IH; [intros; apply Hl; [now right|assumption]| |exact H0]. destruct Hx as [(p & [->|Hp] & E)|Hx]; [congruence|left; now exists p|now right].
      + apply IH; [intros; apply Hl; [now right|assumption]| |exact H0]. destruct Hx as [(p & [->|Hp] & E)|Hx]; [congruence|left; now exists p|now right].
      + apply IH; [intros; apply Hl; [now right|assumption]| |exact H0]. destruct Hx as [(p & [->|Hp] & E)|Hx]; [congruence|left; now exists p|now right].
      + apply IH; [intros; apply Hl; [now right|assumption]| |exact H0]. destruct Hx as [(p & [->|Hp] & E)|Hx]; [congruence|left; now exists p|now right].
      + apply IH; [intros; apply Hl; [now right|assumption]| |exact H0]. destruct Hx as [(p & [->|Hp] & E)|Hx]; [congruence|left; now exists p|now right]. }
  assert (G : (exists p, In p ps /\ p_code p = DIRICHLET_ANASOL) -> firstAna 0 ps = c) by (intros E; apply F; [exact H|now left|now left]).
  assert (M : forall l l', incl l ps -> Forall2 (resolved true (firstAna 0 ps)) l l' -> Forall2 (fun p p' => p_indx p' = p_indx p /\ p_patch p' = p_patch p /\
    (p_code p = DIRICHLET_ANASOL -> p_code p' = DIRICHLET_INHOM)) l l').
  { intros l l' Hi H2. induction H2 as [|q q' qs qs' Hq Hqs IHq]; constructor; [|apply IHq; intros y Hy; apply Hi; now right].
    destruct Hq as (A & B & C). split; [exact A|]. split; [exact B|]. intros E. rewrite C, E.
    assert (I : In q ps) by (apply Hi; now left). rewrite G by (now exists q). now rewrite (H q I E), Z.eqb_refl. }
  apply M; [apply incl_refl|exact K2].
Qed.
(** A condition on a second boundary set, with another code, is dropped without notice. *)
Theorem C101_solid_refuted : exists ps p', In p' (snd (anaProps true true (Ana 0 [] []) ps)) /\
  (forall p, In p ps -> p_code p = DIRICHLET_ANASOL) /\ p_code p' = UNDEFINED.
Proof.
  exists [Prop_ DIRICHLET_ANASOL 12 1; Prop_ DIRICHLET_ANASOL 1012 2], (Prop_ UNDEFINED 1012 2). split; [cbn; auto|].
  split; [intros p [<-|[<-|[]]]; reflexivity|reflexivity].
Qed.
(** Plates: the same for each of the three ranges of codes (deflection and two rotations). *)
Theorem C101_plate_partial : forall have ps, (forall p, In p ps -> p_code p = DIRICHLET_ANASOL -> p_indx p <> 0%Z) ->
  Forall2 (klResolved (fun k => firstIn have k 0 ps)) ps (snd (klProps have (Ana3 0 0 0) ps)).
Proof.
  intros have ps H. assert (K := klProps_spec have ps (Ana3 0 0 0) H). destruct (klProps have (Ana3 0 0 0) ps) as [a ps']. destruct K as [_ K].
  cbn [snd]. set (g := fun k => firstIn have k (slotOf (Ana3 0 0 0) k) ps) in K. set (h := fun k => firstIn have k 0 ps).
  assert (E : forall k, g k = h k) by (intros [|[|k]]; reflexivity). clearbody g h. clear H.
  induction K as [|q q' qs qs' Hq Hqs IHq]; constructor; [|exact IHq].
  destruct Hq as (A & B & C). split; [exact A|]. split; [exact B|]. rewrite C. destruct (p_code q); try reflexivity. now rewrite E.
Qed.
Theorem C101_plate_refuted : exists ps p', In p' (snd (klProps (fun _ => true) (Ana3 0 0 0) ps)) /\
  (forall p, In p ps -> p_code p = DIRICHLET_ANASOL) /\ p_code p' = UNDEFINED.
Proof.
  exists [Prop_ DIRICHLET_ANASOL 1 1; Prop_ DIRICHLET_ANASOL 2 2], (Prop_ UNDEFINED 2 2). split; [cbn; auto|].
  split; [intros p [<-|[<-|[]]]; reflexivity|reflexivity].
Qed.
Example C101_ex : snd (anaProps true true (Ana 0 [] []) [Prop_ DIRICHLET_ANASOL 12 1; Prop_ NEUMANN_ANASOL 5 1; Prop_ DIRICHLET_ANASOL (-12) 2])
  = [Prop_ DIRICHLET_INHOM 12 1; Prop_ NEUMANN 5 1; Prop_ DIRICHLET_INHOM (-12) 2] /\
  snd (klProps (fun _ => true) (Ana3 0 0 0) [Prop_ DIRICHLET_ANASOL 1 1; Prop_ DIRICHLET_ANASOL 101 1; Prop_ DIRICHLET_ANASOL 201 1])
  = [Prop_ DIRICHLET_INHOM 1 1; Prop_ DIRICHLET_INHOM 101 1; Prop_ DIRICHLET_INHOM 201 1].
Proof. split; reflexivity. Qed.

(** ** C102: the pressures on a plate, shell or beam patch are those assigned to it, whatever was visited before *)
Theorem C102_patch_pressures : forall scalars props pres patch f,
  In f (initBodyLoad scalars props pres patch) <->
  slookup scalars 0 = Some (Some f) \/
  exists p, In p props /\ p_code p = BODYLOAD /\ p_patch p = patch /\ slookup scalars (p_indx p) = Some (Some f).
Proof.
  intros scalars props pres patch f. rewrite initBodyLoad_spec, in_app_iff. unfold commonLoad, patchLoads. rewrite in_flat_map. split.
  - intros [H|(p & Hp & H)].
    + left. destruct (slookup scalars 0) as [[g|]|]; try easy. destruct H as [->|[]]. reflexivity.
    + right. exists p. split; [exact Hp|]. destruct (p_code p); try easy. destruct (Z.eqb_spec (p_patch p) patch); [|easy].
      destruct (slookup scalars (p_indx p)) as [[g|]|]; try easy. destruct H as [->|[]]. repeat split. assumption.
  - intros [H|(p & Hp & H1 & H2 & H3)].
    + left. rewrite H. now left.
    + right. exists p. split; [exact Hp|]. rewrite H1, H2, Z.eqb_refl, H3. now left.
Qed.
(** Each assignment counts once: the number of pressures does not depend on the history. *)
Theorem C102_multiplicity : forall scalars props pres patch,
  length (initBodyLoad scalars props pres patch) =
  (length (filter (fun x => x) [match slookup scalars 0 with Some (Some _) => true | _ => false end]) +
   length (filter (fun p => match p_code p with BODYLOAD => (Z.eqb (p_patch p) patch &&
     match slookup scalars (p_indx p) with Some (Some _) => true | _ => false end)%bool | _ => false end) props))%nat.
Proof.
  intros scalars props pres patch. rewrite initBodyLoad_spec, app_length. f_equal.
  - unfold commonLoad. cbn. destruct (slookup scalars 0) as [[g|]|]; reflexivity.
  - unfold patchLoads. induction props as [|p r IH]; [reflexivity|]. cbn [flat_map filter]. rewrite app_length, IH.
    destruct (p_code p); try reflexivity. destruct (Z.eqb (p_patch p) patch); [|reflexivity].
    destruct (slookup scalars (p_indx p)) as [[g|]|]; reflexivity.
Qed.
Example C102_ex : initBodyLoad [(0%Z, Some 3%nat); (4%Z, Some 5%nat)] [Prop_ BODYLOAD 4 1; Prop_ BODYLOAD 4 2] [9; 9]%nat 2 = [3; 5]%nat.
Proof. reflexivity. Qed.

(** ** C54: only the last line load of the input is kept *)
Theorem C54_two_line_loads_refuted : forall t1 t2,
  ld_fun (fold_left llTagRead [t1; t2] llInit) = Some (ll_fun t2) /\
  (ll_lo t2 <> None -> ll_hi t2 <> None -> fold_left llTagRead [t1; t2] llInit = fold_left llTagRead [t2] llInit).
Proof.
  intros [f1 l1 a1 b1] [f2 l2 a2 b2]. split; [reflexivity|]. cbn. destruct a2; [|congruence]. destruct b2; [reflexivity|congruence].
Qed.
Example C54_two_ex : ld_u (fold_left llTagRead [LLTag 1 (inl (1/4)) (Some 0) (Some 1); LLTag 2 (inl (3/4)) None None] llInit) = 3/4 /\
  ld_hi (fold_left llTagRead [LLTag 1 (inl (1/4)) (Some 0) (Some 1); LLTag 2 (inl (3/4)) None None] llInit) = 1.
Proof. split; reflexivity. Qed.

Print Assumptions C100_shell_partial.
Print Assumptions C100_solid_partial.
Print Assumptions C100_solid_refuted.
Print Assumptions C100_second_pass_refuted.
Print Assumptions C101_solid_partial.
Print Assumptions C101_single_code_partial.
Print Assumptions C101_solid_refuted.
Print Assumptions C101_plate_partial.
Print Assumptions C101_plate_refuted.
Print Assumptions C102_patch_pressures.
Print Assumptions C102_multiplicity.
Print Assumptions C54_two_line_loads_refuted.
