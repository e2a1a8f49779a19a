(** Proofs about load and boundary functions. *)
From Verif Require Import Lib.Base Model.BouFuncs.
Import ListNotations.

(** The function registered for a boundary code: what the user asked for. *)
Definition registered (vectors tracs : fmap) (c : Z) : option tfun :=
  match lookup vectors c with Some f => Some (VecF f) | None => option_map TracF (lookup tracs c) end.

Lemma visit_app set vs ts s l1 l2 : visit set vs ts s (l1 ++ l2) = visit set vs ts (visit set vs ts s l1) l2.
Proof. unfold visit. apply fold_left_app. Qed.

Lemma kl_effective vs ts s c t : registered vs ts c = Some t -> getTraction (snd (initNeumann setTrac_kl vs ts s c)) = Some t.
Proof.
  unfold registered, initNeumann, getTraction. destruct (lookup vs c); [intros [= <-]; reflexivity|].
  destruct (lookup ts c); intros [= <-]. reflexivity.
Qed.

(** The last vector function among the visited boundaries. *)
Fixpoint lastVec (vs : fmap) (codes : list Z) (acc : option nat) : option nat :=
  match codes with [] => acc | c :: r => lastVec vs r (match lookup vs c with Some f => Some f | None => acc end) end.

Lemma el_flux vs ts : forall codes s, flux (visit setTrac_el vs ts s codes) = lastVec vs codes (flux s).
Proof.
  induction codes as [|c r IH]; intros s; [reflexivity|]. cbn [visit fold_left lastVec].
  fold (visit setTrac_el vs ts (snd (initNeumann setTrac_el vs ts s c)) r). rewrite IH. f_equal.
  unfold initNeumann. destruct (lookup vs c); [reflexivity|]. destruct (lookup ts c); reflexivity.
Qed.
Lemma lastVec_none vs : forall codes acc, (forall c, In c codes -> lookup vs c = None) -> lastVec vs codes acc = acc.
Proof. induction codes as [|c r IH]; intros acc H; cbn; [reflexivity|]. rewrite H by now left. apply IH. intros; apply H; now right. Qed.
Lemma lastVec_some vs : forall codes acc c f, In c codes -> lookup vs c = Some f ->
  exists c' f', In c' codes /\ lookup vs c' = Some f' /\ lastVec vs codes acc = Some f'.
Proof.
  induction codes as [|c0 r IH]; intros acc c f Hi Hc; [easy|]. cbn [lastVec]. destruct Hi as [->|Hi].
  - rewrite Hc. destruct (in_dec Z.eq_dec c r) as [Hr|Hr].
    + destruct (IH (Some f) c f Hr Hc) as (c' & f' & A & B & C). exists c', f'. split; [now right|]. now split.
    + destruct (existsb (fun c => match lookup vs c with Some _ => true | None => false end) r) eqn:E.
      * apply existsb_exists in E. destruct E as (c1 & H1 & H2). destruct (lookup vs c1) eqn:E1; [|discriminate].
        destruct (IH (Some f) c1 n H1 E1) as (c' & f' & A & B & C). exists c', f'. split; [now right|]. now split.
      * exists c, f. split; [now left|]. split; [exact Hc|]. apply lastVec_none. intros c2 H2.
        destruct (lookup vs c2) eqn:E2; [|reflexivity]. exfalso. assert (X : existsb (fun c => match lookup vs c with Some _ => true | None => false end) r = true).
        { apply existsb_exists. exists c2. split; [exact H2|]. now rewrite E2. } congruence.
  - destruct (IH (match lookup vs c0 with Some g => Some g | None => acc end) c f Hi Hc) as (c' & f' & A & B & C).
    exists c', f'. split; [now right|]. now split.
Qed.

(** What the solid integrand applies to a boundary, after any history of visited boundaries. *)
Lemma el_effective vs ts codes c t : registered vs ts c = Some t ->
  let s := visit setTrac_el vs ts (Trac None None) codes in
  getTraction (snd (initNeumann setTrac_el vs ts s c))
  = match t with
    | VecF f => Some (VecF f)
    | TracF f => match lastVec vs codes None with Some g => Some (VecF g) | None => Some (TracF f) end
    end.
Proof.
  intros H. cbv zeta. assert (F := el_flux vs ts codes (Trac None None)). cbn [flux] in F.
  set (s := visit setTrac_el vs ts (Trac None None) codes) in *.
  unfold registered in H. unfold initNeumann, getTraction. destruct (lookup vs c); [injection H as <-; reflexivity|].
  destruct (lookup ts c); cbn [option_map] in H; [|discriminate]. injection H as <-. cbn [snd setTrac_el flux tracF]. rewrite F. destruct (lastVec vs codes None); reflexivity.
Qed.

(** Analytical boundary conditions. *)
Definition firstAna (a : Z) (ps : list prop) : Z :=
  fold_left (fun a p => match p_code p with DIRICHLET_ANASOL => if Z.eqb a 0 then Z.abs (p_indx p) else a | _ => a end) ps a.

Definition resolved (stress : bool) (code : Z) (p p' : prop) : Prop :=
  p_indx p' = p_indx p /\ p_patch p' = p_patch p /\
  p_code p' = match p_code p with
              | DIRICHLET_ANASOL => if Z.eqb (Z.abs (p_indx p)) code then DIRICHLET_INHOM else UNDEFINED
              | NEUMANN_ANASOL => if stress then NEUMANN else UNDEFINED
              | c => c end.

Lemma firstAna_nz : forall ps a, a <> 0%Z -> firstAna a ps = a.
Proof.
  induction ps as [|p r IH]; intros a H; [reflexivity|]. unfold firstAna; cbn [fold_left]. fold (firstAna (match p_code p with DIRICHLET_ANASOL => if Z.eqb a 0 then Z.abs (p_indx p) else a | _ => a end) r).
  destruct (Z.eqb_spec a 0); [contradiction|]. destruct (p_code p); now apply IH.
Qed.

Lemma anaProps_spec stress : forall ps a, (forall p, In p ps -> p_code p = DIRICHLET_ANASOL -> p_indx p <> 0%Z) ->
  let (a', ps') := anaProps true stress a ps in
  aCode a' = firstAna (aCode a) ps /\ Forall2 (resolved stress (firstAna (aCode a) ps)) ps ps' /\
  (forall c, In c (vecCodes a') <-> In c (vecCodes a) \/ (aCode a = 0%Z /\ aCode a' <> 0%Z /\ c = aCode a')) /\
  (forall c, In c (tracCodes a') <-> In c (tracCodes a) \/ (stress = true /\ exists p, In p ps /\ p_code p = NEUMANN_ANASOL /\ p_indx p = c)).
Proof.
  induction ps as [|p r IH]; intros a H; cbn [anaProps].
  - split; [reflexivity|]. split; [constructor|]. split.
    + intros c. split; [now left|]. intros [Hc|(E1 & E2 & _)]; [exact Hc|contradiction].
    + intros c. split; [now left|]. intros [Hc|(_ & p & [] & _)]. exact Hc.
  - assert (Hp := H p (or_introl eq_refl)). assert (Hr : forall q, In q r -> p_code q = DIRICHLET_ANASOL -> p_indx q <> 0%Z) by (intros; apply H; [now right|assumption]).
    assert (F : forall x, firstAna x (p :: r) = firstAna (match p_code p with DIRICHLET_ANASOL => if Z.eqb x 0 then Z.abs (p_indx p) else x | _ => x end) r) by reflexivity.
    destruct (anaProp true stress a p) as [a1 p1] eqn:E1. specialize (IH a1 Hr). destruct (anaProps true stress a1 r) as [a2 r2].
    destruct IH as (I1 & I2 & I3 & I4). rewrite F. unfold anaProp in E1.
    destruct (p_code p) eqn:Ec; cbn [negb] in E1.
    + specialize (Hp eq_refl). destruct (Z.eqb_spec (aCode a) (Z.abs (p_indx p))) as [Ea|Ea].
      * injection E1 as <- <-. destruct (Z.eqb_spec (aCode a) 0); [lia|]. split; [exact I1|]. split; [|split].
        -- constructor; [|exact I2]. split; [reflexivity|]. split; [reflexivity|]. rewrite Ec. cbn [p_code].
           rewrite firstAna_nz by assumption. now rewrite Ea, Z.eqb_refl.
        -- exact I3.
        -- intros c. rewrite I4. split; (intros [Hc|(Hs & q & Hq & Q1 & Q2)]; [now left|right; split; [exact Hs|]; exists q]).
           ++ split; [now right|]. now split.
           ++ destruct Hq as [<-|Hq]; [congruence|]. now split.
      * destruct (Z.eqb_spec (aCode a) 0) as [E0|E0].
        -- injection E1 as <- <-. cbn [aCode vecCodes tracCodes] in *. split; [exact I1|]. split; [|split].
           ++ constructor; [|exact I2]. split; [reflexivity|]. split; [reflexivity|]. rewrite Ec. cbn [p_code].
              rewrite firstAna_nz by lia. now rewrite Z.eqb_refl.
           ++ intros c. rewrite I3. cbn [In]. rewrite I1, firstAna_nz by lia. split.
              ** intros [[<-|Hc]|(X & _)]; [right; repeat split; try assumption; lia|now left|lia].
              ** intros [Hc|(_ & _ & ->)]; [left; now right|left; now left].
           ++ intros c. rewrite I4. split; (intros [Hc|(Hs & q & Hq & Q1 & Q2)]; [now left|right; split; [exact Hs|]; exists q]).
              ** split; [now right|]. now split.
              ** destruct Hq as [<-|Hq]; [congruence|]. now split.
        -- injection E1 as <- <-. split; [exact I1|]. split; [|split].
           ++ constructor; [|exact I2]. split; [reflexivity|]. split; [reflexivity|]. rewrite Ec. cbn [p_code].
              rewrite firstAna_nz by assumption. destruct (Z.eqb_spec (Z.abs (p_indx p)) (aCode a)); [lia|reflexivity].
           ++ exact I3.
           ++ intros c. rewrite I4. split; (intros [Hc|(Hs & q & Hq & Q1 & Q2)]; [now left|right; split; [exact Hs|]; exists q]).
              ** split; [now right|]. now split.
              ** destruct Hq as [<-|Hq]; [congruence|]. now split.
    + injection E1 as <- <-. split; [exact I1|]. split; [constructor; [|exact I2]; split; [reflexivity|]; split; [reflexivity|]; now rewrite Ec|].
      split; [exact I3|]. intros c. rewrite I4. split; (intros [Hc|(Hs & q & Hq & Q1 & Q2)]; [now left|right; split; [exact Hs|]; exists q]).
      * split; [now right|]. now split.
      * destruct Hq as [<-|Hq]; [congruence|]. now split.
    + destruct stress; cbn [negb] in E1; injection E1 as <- <-; cbn [aCode vecCodes tracCodes] in *.
      * split; [exact I1|]. split; [constructor; [|exact I2]; split; [reflexivity|]; split; [reflexivity|]; now rewrite Ec|].
        split; [exact I3|]. intros c. rewrite I4. destruct (existsb (Z.eqb (p_indx p)) (tracCodes a)) eqn:Ex.
        -- split.
           ++ intros [Hc|(Hs & q & Hq & Q1 & Q2)]; [now left|right; split; [exact Hs|]; exists q; split; [now right|now split]].
           ++ intros [Hc|(Hs & q & Hq & Q1 & Q2)]; [now left|]. destruct Hq as [<-|Hq].
              ** left. apply existsb_exists in Ex. destruct Ex as (x & Hx & Ee). apply Z.eqb_eq in Ee. now subst.
              ** right. split; [reflexivity|]. exists q. now split; [|split].
        -- cbn [In]. split.
           ++ intros [[<-|Hc]|(Hs & q & Hq & Q1 & Q2)]; [right; split; [reflexivity|]; exists p; split; [now left|now split]|now left|].
              right. split; [reflexivity|]. exists q. split; [now right|now split].
           ++ intros [Hc|(Hs & q & Hq & Q1 & Q2)]; [left; now right|]. destruct Hq as [<-|Hq]; [left; now left|].
              right. split; [reflexivity|]. exists q. now split; [|split].
      * split; [exact I1|]. split; [constructor; [|exact I2]; split; [reflexivity|]; split; [reflexivity|]; now rewrite Ec|].
        split; [exact I3|]. intros c. rewrite I4. split; (intros [Hc|(Hs & _)]; [now left|discriminate]).
    + injection E1 as <- <-. split; [exact I1|]. split; [constructor; [|exact I2]; split; [reflexivity|]; split; [reflexivity|]; now rewrite Ec|].
      split; [exact I3|]. intros c. rewrite I4. split; (intros [Hc|(Hs & q & Hq & Q1 & Q2)]; [now left|right; split; [exact Hs|]; exists q]).
      * split; [now right|]. now split.
      * destruct Hq as [<-|Hq]; [congruence|]. now split.
    + injection E1 as <- <-. split; [exact I1|]. split; [constructor; [|exact I2]; split; [reflexivity|]; split; [reflexivity|]; now rewrite Ec|].
      split; [exact I3|]. intros c. rewrite I4. split; (intros [Hc|(Hs & q & Hq & Q1 & Q2)]; [now left|right; split; [exact Hs|]; exists q]).
      * split; [now right|]. now split.
      * destruct Hq as [<-|Hq]; [congruence|]. now split.
    + injection E1 as <- <-. split; [exact I1|]. split; [constructor; [|exact I2]; split; [reflexivity|]; split; [reflexivity|]; now rewrite Ec|].
      split; [exact I3|]. intros c. rewrite I4. split; (intros [Hc|(Hs & q & Hq & Q1 & Q2)]; [now left|right; split; [exact Hs|]; exists q]).
      * split; [now right|]. now split.
      * destruct Hq as [<-|Hq]; [congruence|]. now split.
Qed.

(** Pressures on a patch. *)
Definition patchLoads (scalars : list (Z * option nat)) (props : list prop) (patch : Z) : list nat :=
  flat_map (fun p => match p_code p with
                     | BODYLOAD => if Z.eqb (p_patch p) patch then match slookup scalars (p_indx p) with Some (Some f) => [f] | _ => [] end else []
                     | _ => [] end) props.
Definition commonLoad (scalars : list (Z * option nat)) : list nat := match slookup scalars 0 with Some (Some f) => [f] | _ => [] end.

Lemma fold_addLoad scalars patch : forall props l, fold_left (addLoad scalars patch) props l = (l ++ patchLoads scalars props patch)%list.
Proof.
  induction props as [|p r IH]; intros l; cbn [fold_left patchLoads flat_map]; [now rewrite app_nil_r|]. rewrite IH. fold (patchLoads scalars r patch).
  unfold addLoad. destruct (p_code p); try reflexivity. destruct (Z.eqb (p_patch p) patch); [|reflexivity].
  destruct (slookup scalars (p_indx p)) as [[f|]|]; try reflexivity. cbn [setPressure]. now rewrite <- app_assoc.
Qed.
Lemma initBodyLoad_spec scalars props pres patch :
  initBodyLoad scalars props pres patch = (commonLoad scalars ++ patchLoads scalars props patch)%list.
Proof.
  unfold initBodyLoad, commonLoad. rewrite fold_addLoad. destruct (slookup scalars 0) as [[f|]|]; reflexivity.
Qed.

(** Plates: the first code of each of the three ranges. *)
Definition firstIn (have : nat -> bool) (k : nat) (a : Z) (ps : list prop) : Z :=
  fold_left (fun a p => match p_code p with
    | DIRICHLET_ANASOL => if (Z.eqb a 0 && negb (Z.eqb (p_indx p) 0) && Nat.eqb (klSlot (p_indx p)) k && have k)%bool then Z.abs (p_indx p) else a
    | _ => a end) ps a.
Lemma firstIn_nz have k : forall ps a, a <> 0%Z -> firstIn have k a ps = a.
Proof.
  induction ps as [|p r IH]; intros a H; [reflexivity|]. unfold firstIn; cbn [fold_left].
  replace (Z.eqb a 0) with false by (symmetry; now apply Z.eqb_neq). cbn [andb]. destruct (p_code p); now apply IH.
Qed.
Definition klResolved (f : nat -> Z) (p p' : prop) : Prop :=
  p_indx p' = p_indx p /\ p_patch p' = p_patch p /\
  p_code p' = match p_code p with
              | DIRICHLET_ANASOL => if Z.eqb (Z.abs (p_indx p)) (f (klSlot (p_indx p))) then DIRICHLET_INHOM else UNDEFINED
              | c => c end.
Lemma klSlot_lt c : (klSlot c < 3)%nat.
Proof. unfold klSlot. destruct (200 <=? Z.abs c)%Z, (100 <=? Z.abs c)%Z; lia. Qed.
Lemma slot_set a k c j : (k < 3)%nat -> (j < 3)%nat -> slotOf (setSlot a k c) j = if Nat.eqb j k then c else slotOf a j.
Proof. intros Hk Hj. destruct k as [|[|[|k]]]; [| | |lia]; (destruct j as [|[|[|j]]]; [| | |lia]); reflexivity. Qed.
Lemma klProps_spec have : forall ps a, (forall p, In p ps -> p_code p = DIRICHLET_ANASOL -> p_indx p <> 0%Z) ->
  let (a', ps') := klProps have a ps in
  (forall k, (k < 3)%nat -> slotOf a' k = firstIn have k (slotOf a k) ps) /\
  Forall2 (klResolved (fun k => firstIn have k (slotOf a k) ps)) ps ps'.
Proof.
  induction ps as [|p r IH]; intros a H; cbn [klProps].
  - split; [reflexivity|constructor].
  - assert (Hp := H p (or_introl eq_refl)). assert (Hr : forall q, In q r -> p_code q = DIRICHLET_ANASOL -> p_indx q <> 0%Z) by (intros; apply H; [now right|assumption]).
    assert (F : forall k x, firstIn have k x (p :: r) = firstIn have k (match p_code p with
      | DIRICHLET_ANASOL => if (Z.eqb x 0 && negb (Z.eqb (p_indx p) 0) && Nat.eqb (klSlot (p_indx p)) k && have k)%bool then Z.abs (p_indx p) else x | _ => x end) r) by reflexivity.
    destruct (klProp have a p) as [a1 p1] eqn:E1. specialize (IH a1 Hr). destruct (klProps have a1 r) as [a2 r2]. destruct IH as [I1 I2].
    assert (S : forall k, (k < 3)%nat -> slotOf a1 k = (match p_code p with
      | DIRICHLET_ANASOL => if (Z.eqb (slotOf a k) 0 && negb (Z.eqb (p_indx p) 0) && Nat.eqb (klSlot (p_indx p)) k && have k)%bool then Z.abs (p_indx p) else slotOf a k | _ => slotOf a k end)).
    { intros k Hk. unfold klProp in E1. destruct (p_code p); try (injection E1 as <- _; reflexivity). specialize (Hp eq_refl).
      replace (Z.eqb (p_indx p) 0) with false in * by (symmetry; now apply Z.eqb_neq). cbn [negb]. rewrite andb_true_r.
      assert (K3 := klSlot_lt (p_indx p)). set (j := klSlot (p_indx p)) in *.
      destruct (Z.eqb_spec (slotOf a j) (Z.abs (p_indx p))) as [Ea|Ea].
      - injection E1 as <- _. destruct (Nat.eqb_spec j k) as [<-|Nj]; [|rewrite andb_false_r; reflexivity].
        destruct (Z.eqb_spec (slotOf a j) 0); [lia|reflexivity].
      - destruct (Z.eqb_spec (slotOf a j) 0) as [E0|E0]; cbn [andb] in E1.
        + destruct (have j) eqn:Eh; injection E1 as <- _.
          * rewrite slot_set by assumption. destruct (Nat.eqb_spec k j) as [->|Nj].
            -- now rewrite E0, Nat.eqb_refl, Eh.
            -- destruct (Nat.eqb_spec j k); [congruence|]. rewrite andb_false_r. reflexivity.
          * destruct (Nat.eqb_spec j k) as [<-|Nj]; [rewrite Eh; now rewrite !andb_false_r|rewrite andb_false_r; reflexivity].
        + injection E1 as <- _. destruct (Nat.eqb_spec j k) as [<-|Nj]; [|rewrite andb_false_r; reflexivity].
          destruct (Z.eqb_spec (slotOf a j) 0); [contradiction|reflexivity]. }
    split.
    + intros k Hk. rewrite F, I1 by assumption. now rewrite S.
    + assert (G : forall k, (k < 3)%nat -> firstIn have k (slotOf a k) (p :: r) = firstIn have k (slotOf a1 k) r) by (intros; rewrite F, S by assumption; reflexivity).
      constructor.
      * unfold klResolved. rewrite (G _ (klSlot_lt _)). assert (S' := S (klSlot (p_indx p)) (klSlot_lt _)). clear S G F I1 I2. unfold klProp in E1.
        destruct (p_code p) eqn:Ec; try (injection E1 as <- <-; split; [reflexivity|]; split; [reflexivity|]; now rewrite Ec). specialize (Hp eq_refl).
        replace (Z.eqb (p_indx p) 0) with false in * by (symmetry; now apply Z.eqb_neq). cbn [negb] in S'. rewrite Nat.eqb_refl, !andb_true_r in S'.
        set (j := klSlot (p_indx p)) in *. destruct (Z.eqb_spec (slotOf a j) (Z.abs (p_indx p))) as [Ea|Ea].
        -- injection E1 as <- <-. split; [reflexivity|]. split; [reflexivity|]. cbn [p_code]. rewrite firstIn_nz by lia. now rewrite Ea, Z.eqb_refl.
        -- destruct (Z.eqb_spec (slotOf a j) 0) as [E0|E0]; cbn [andb] in *.
           ++ destruct (have j) eqn:Eh; injection E1 as <- <-; (split; [reflexivity|]; split; [reflexivity|]); cbn [p_code].
              ** rewrite S', firstIn_nz by lia. now rewrite Z.eqb_refl.
              ** assert (Z0 : forall ps, firstIn have j 0 ps = 0%Z).
                 { induction ps as [|q qs IHq]; [reflexivity|]. unfold firstIn in *; cbn [fold_left]. rewrite Eh in IHq |- *. rewrite andb_false_r. destruct (p_code q); exact IHq. }
                 rewrite E0, Z0. destruct (Z.eqb_spec (Z.abs (p_indx p)) 0); [lia|reflexivity].
           ++ injection E1 as <- <-. split; [reflexivity|]. split; [reflexivity|]. cbn [p_code]. rewrite firstIn_nz by assumption.
              destruct (Z.eqb_spec (Z.abs (p_indx p)) (slotOf a j)); [lia|reflexivity].
      * assert (M : forall l l', Forall2 (klResolved (fun k => firstIn have k (slotOf a1 k) r)) l l' ->
                    Forall2 (klResolved (fun k => firstIn have k (slotOf a k) (p :: r))) l l').
        { induction 1 as [|q q' qs qs' Hq Hqs IHq]; constructor; [|exact IHq].
          unfold klResolved in *. destruct Hq as (A & B & C). split; [exact A|]. split; [exact B|]. rewrite C.
          destruct (p_code q); try reflexivity. now rewrite G by apply klSlot_lt. }
        apply M, I2.
Qed.
