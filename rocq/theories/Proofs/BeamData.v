(** Element data kinds of the beam, and index ranges of its matrix programs. *)
From Verif Require Import Lib.Base Lib.Script Lib.Vec3 Model.Beam.

(* one call of getLocalIntegral *)
Record request := mkReq { qInactive : bool; qDynamic : bool; qPrm3 : comparison; qLocal : bool }.
Definition answer (q : request) (t : kind) : kind * option kind := createData (qInactive q) (qDynamic q) (qPrm3 q) (qLocal q) t.
Definition after (l : list request) : kind := fold_left (fun t q => fst (answer q t)) l STD.
(* the request creates an object for a dynamic simulation *)
Definition makesDynamic (q : request) : bool :=
  negb (qInactive q) && qDynamic q && (match qPrm3 q with Gt => true | _ => negb (qLocal q) end).

Lemma after_static t l : (forall q, In q l -> makesDynamic q = false) -> fold_left (fun t q => fst (answer q t)) l t = t.
Proof.
  revert t. induction l as [|q l IH]; intros t H; [reflexivity|]. cbn [fold_left]. rewrite IH by (intros; apply H; now right).
  assert (Q := H q (or_introl eq_refl)). destruct q as [[] [] [] []]; cbn in *; try reflexivity; discriminate.
Qed.
Lemma after_dynamic l : (exists q, In q l /\ makesDynamic q = true) -> forall t, fold_left (fun t q => fst (answer q t)) l t <> STD.
Proof.
  intros [q [Hq Dq]].
  assert (K : forall l t, t <> STD -> fold_left (fun t q => fst (answer q t)) l t <> STD).
  { clear. induction l as [|q l IH]; intros t H; [exact H|]. cbn [fold_left]. apply IH. destruct q as [[] [] [] []]; cbn; congruence. }
  induction l as [|p l IH]; [easy|]. intros t. cbn [fold_left]. destruct Hq as [->|Hq]; [|apply IH, Hq].
  apply K. destruct q as [[] [] [] []]; cbn in *; congruence.
Qed.
Lemma dynamic_dec l : (forall q, In q l -> makesDynamic q = false) \/ exists q, In q l /\ makesDynamic q = true.
Proof.
  induction l as [|p l [IH|[q [Hq Dq]]]]; [left; easy| |right; exists q; split; [now right|exact Dq]].
  destruct (makesDynamic p) eqn:Dp; [right; exists p; split; [now left|exact Dp]|left]. intros q [<-|Hq]; [exact Dp|apply IH, Hq].
Qed.

(** The object just created is read as what it is exactly when the request is dynamic, or no
    dynamic object has been created before. *)
Theorem axes_kind l q obj : snd (answer q (after l)) = Some obj ->
  (getLocalAxes (fst (answer q (after l))) obj <> UB <-> makesDynamic q = true \/ forall p, In p l -> makesDynamic p = false).
Proof.
  intros E. split.
  - intros H. destruct (makesDynamic q) eqn:D; [now left|]. right. destruct (dynamic_dec l) as [N|Y]; [exact N|]. exfalso.
    assert (A := after_dynamic l Y STD). fold (after l) in A. destruct q as [[] [] [] []]; cbn in *; try discriminate; injection E as <-; destruct (after l); cbn in H; congruence.
  - intros [D|N] H.
    + destruct q as [[] [] [] []]; cbn in *; try discriminate; injection E as <-; cbn in H; discriminate.
    + assert (A := after_static STD l N). fold (after l) in A. rewrite A in *. destruct q as [[] [] [] []]; cbn in *; try discriminate; injection E as <-; cbn in H; discriminate.
Qed.
Theorem axes_ub : exists l q obj, snd (answer q (after l)) = Some obj /\ getLocalAxes (fst (answer q (after l))) obj = UB.
Proof. exists [mkReq false true Gt true], (mkReq false false Gt true), STD. split; reflexivity. Qed.

(** All assignments of the element matrix routines stay inside a 12 by 12 matrix. *)
Theorem programs_within L EA GIt EIy EIz Aly Alz N ItoA rhoA Ixx Iyy Izz Sy Sz e1 e2 :
  within 12 (stiffProg L EA GIt EIy EIz Aly Alz) = true /\ within 12 (geoProg N L Aly Alz ItoA) = true /\
  within 12 (lumpedProg rhoA Ixx L) = true /\ within 12 (consProg rhoA Ixx Iyy Izz L) = true /\
  within 12 (shearProg Sy Sz) = true /\ within 12 (eccProg e1 e2) = true /\ within 12 (mirror 12) = true.
Proof. repeat (split; [reflexivity|]). reflexivity. Qed.
