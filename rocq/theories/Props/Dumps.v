(** Visualisation dumps (C64). *)
From Coq Require Import ZArith List Lia Sorting.Sorted.
From Verif Require Import Model.Dumps Proofs.Dumps.
Import ListNotations.
Local Open Scope Z_scope.

(** Positive increment: the dumps are, up to the first failing write, exactly the steps divisible by the increment; their numbers strictly increase. *)
Theorem C64_dumps_partial : forall wS wStep format inc steps, 0 <= format -> 0 < inc -> StronglySorted Z.lt steps -> Forall (fun s => 0 <= s) steps ->
  exists l, saveAll wS wStep format inc steps = Some l /\
    StronglySorted Z.lt (map snd l) /\
    (exists rest, map fst l ++ rest = filter (fun s => s mod inc =? 0) steps /\
       ((forall n, wS n = true /\ wStep n = true) -> rest = [])).
Proof. exact dumps_ok. Qed.
(** Nothing is written when visualisation is off. *)
Theorem C64_off : forall wS wStep format inc steps, format < 0 -> saveAll wS wStep format inc steps = Some [].
Proof. exact dumps_off. Qed.
(** A zero save increment divides by zero. *)
Theorem C64_zero_refuted : exists steps, forall wS wStep format, 0 <= format -> saveAll wS wStep format 0 steps = None.
Proof. exists [1]. intros wS wStep format F. unfold saveAll, saveStep. destruct (Z.ltb_spec format 0); [lia|reflexivity]. Qed.
(** A negative one numbers the dumps downwards. *)
Theorem C64_negative_refuted : exists inc steps l, StronglySorted Z.lt steps /\ saveAll (fun _ => true) (fun _ => true) 1 inc steps = Some l /\ ~ StronglySorted Z.lt (map snd l).
Proof.
  exists (-1), [1; 2], [(1, 0); (2, -1)]. split; [repeat constructor|]. split; [reflexivity|]. cbn. intros H. inversion H as [|? ? ? F]; subst. inversion F; subst. lia.
Qed.
Example C64_ex : saveAll (fun _ => true) (fun n => n <? 4) 1 3 [0; 1; 2; 3; 4; 5; 6; 7; 9; 12] = Some [(0, 1); (3, 2); (6, 3); (9, 4)].
Proof. reflexivity. Qed.

Print Assumptions C64_dumps_partial.
Print Assumptions C64_off.
Print Assumptions C64_zero_refuted.
Print Assumptions C64_negative_refuted.
