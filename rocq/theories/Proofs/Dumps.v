From Coq Require Import ZArith List Lia Sorting.Sorted.
From Verif Require Import Model.Dumps.
Import ListNotations.
Local Open Scope Z_scope.

Lemma dumps_off wS wStep format inc steps : format < 0 -> saveAll wS wStep format inc steps = Some [].
Proof. intros F. induction steps as [|s r IH]; [reflexivity|]. cbn. unfold saveStep. destruct (Z.ltb_spec format 0); [|lia]. now rewrite IH. Qed.
Lemma dumps_gen wS wStep format inc steps : 0 <= format -> 0 < inc -> StronglySorted Z.lt steps -> Forall (fun s => 0 <= s) steps ->
  exists l, saveAll wS wStep format inc steps = Some l /\
    StronglySorted Z.lt (map snd l) /\ Forall (fun e => snd e = 1 + fst e / inc /\ fst e mod inc = 0 /\ In (fst e) steps) l /\
    (exists rest, map fst l ++ rest = filter (fun s => s mod inc =? 0) steps /\
       ((forall n, wS n = true /\ wStep n = true) -> rest = [])).
Proof.
  intros HF HI. induction steps as [|s r IH]; intros SS FF.
  - exists []. repeat split; try constructor. exists []. split; reflexivity.
  - inversion SS as [|? ? SS1 G]; subst. inversion FF as [|? ? S0 FF1]; subst. destruct (IH SS1 FF1) as (l & E & L1 & L2 & rest & L3 & L4). cbn [saveAll filter].
    assert (D : saveStep wS wStep format inc s = if s mod inc =? 0 then (if negb (wS (1 + s / inc)) then Done false None else Done (wStep (1 + s / inc)) (Some (1 + s / inc))) else Done true None).
    { unfold saveStep. destruct (Z.ltb_spec format 0); [lia|]. destruct (Z.eqb_spec inc 0); [lia|].
      rewrite Z.rem_mod_nonneg, Z.quot_div_nonneg by lia. assert (B := Z.mod_pos_bound s inc HI). destruct (Z.eqb_spec (s mod inc) 0) as [->|]; [reflexivity|].
      destruct (Z.ltb_spec 0 (s mod inc)); [reflexivity|lia]. }
    rewrite D. destruct (Z.eqb_spec (s mod inc) 0) as [M|M].
    + destruct (wS (1 + s / inc)) eqn:W; cbn [negb].
      * destruct (wStep (1 + s / inc)) eqn:W2; cbv zeta; cbn [app].
        -- rewrite E. cbn [option_map]. exists ((s, 1 + s / inc) :: l). split; [reflexivity|]. cbn [map fst snd]. split; [|split].
           ++ constructor; [assumption|]. rewrite Forall_forall in *. intros n N. apply in_map_iff in N. destruct N as (e & <- & N). destruct (L2 e N) as (A & B & C).
              rewrite A. specialize (G _ C). apply Z.mod_divide in M, B; try lia. destruct M as [a ->], B as [b B]. rewrite B in *. rewrite !Z.div_mul by lia. nia.
           ++ constructor; [cbn; repeat split; auto|]. eapply Forall_impl; [|exact L2]. cbn. intros e (A & B & C). auto.
           ++ exists rest. split; [cbn; now rewrite L3|assumption].
        -- exists [(s, 1 + s / inc)]. split; [reflexivity|]. cbn [map fst snd]. split; [repeat constructor|]. split; [constructor; [cbn; auto|constructor]|].
           exists (filter (fun s => s mod inc =? 0) r). split; [reflexivity|]. intros H. destruct (H (1 + s / inc)). congruence.
      * exists []. split; [reflexivity|]. split; [constructor|]. split; [constructor|]. eexists. split; [reflexivity|]. intros H. destruct (H (1 + s / inc)). congruence.
    + cbv zeta. rewrite E. exists l. split; [reflexivity|]. split; [assumption|]. split; [|exists rest; split; assumption].
      eapply Forall_impl; [|exact L2]. cbn. intros e (A & B & C). auto.
Qed.
Lemma dumps_ok wS wStep format inc steps : 0 <= format -> 0 < inc -> StronglySorted Z.lt steps -> Forall (fun s => 0 <= s) steps ->
  exists l, saveAll wS wStep format inc steps = Some l /\ StronglySorted Z.lt (map snd l) /\
    (exists rest, map fst l ++ rest = filter (fun s => s mod inc =? 0) steps /\ ((forall n, wS n = true /\ wStep n = true) -> rest = [])).
Proof. intros A B C D. destruct (dumps_gen wS wStep format inc steps A B C D) as (l & E & F & _ & G). eauto. Qed.
