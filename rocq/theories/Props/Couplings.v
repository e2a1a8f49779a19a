(** Nodal couplings (C63). *)
From Verif Require Import Lib.Base Lib.Vec3 Model.Couplings Proofs.Couplings.
Import ListNotations.

(** Every slave node read gets exactly one constraint, whose masters and weights are all those listed
    for it, in order, over all lines of the file; a single master with weight one becomes a merged node. *)
Theorem C63_constraints_partial : forall ls,
  NoDup (map slaveOf (couplings ls)) /\
  (forall s, mastersOf s ls <> [] -> exists c, In c (couplings ls) /\ slaveOf c = s) /\
  (forall c, In c (couplings ls) -> forall u, slaveDisp c u = weighted (mastersOf (slaveOf c) ls) u).
Proof.
  intros ls. split; [apply couplings_unique|]. split; [apply couplings_complete|]. intros c H u. now apply couplings_spec.
Qed.
(** Small rigid motions are reproduced exactly if the weights sum to one and interpolate the position. *)
Theorem C63_rigid_motion_partial : forall ls (X : Z -> v3) c, In c (couplings ls) ->
  (forall t w, slaveDisp c (fun n => vadd t (vcross w (X n))) = vadd t (vcross w (X (slaveOf c)))) <->
  (wsum (mastersOf (slaveOf c) ls) = 1 /\ weighted (mastersOf (slaveOf c) ls) X = X (slaveOf c)).
Proof.
  intros ls X c H. rewrite <- rigid_iff. split; intros E t w; [rewrite <- (proj1 (couplings_spec ls c H _)); apply E|rewrite (proj1 (couplings_spec ls c H _)); apply E].
Qed.
(** The code checks neither: weights that do not sum to one are accepted. *)
Theorem C63_rigid_motion_refuted : exists ls (X : Z -> v3) c t, In c (couplings ls) /\
  slaveDisp c (fun n => vadd t (vcross vzero (X n))) <> vadd t (vcross vzero (X (slaveOf c))).
Proof.
  exists [(1%Z, [(2%Z, 1/2); (3%Z, 1/4)])], (fun _ => vzero). eexists. exists (V 1 0 0). split; [left; reflexivity|].
  cbn. unfold vadd, vscal, vcross, vzero; cbn. intros [= E]. lra.
Qed.
Example C63_ex : let ls := [(1%Z, [(2%Z, 1/2)]); (5%Z, [(6%Z, 1)]); (1%Z, [(3%Z, 1/2)])] in
  mastersOf 1 ls = [(2%Z, 1/2); (3%Z, 1/2)] /\ wsum (mastersOf 1 ls) = 1 /\
  weighted (mastersOf 1 ls) (fun n => V (IZR n) 0 0) = V (5/2) 0 0.
Proof. cbv zeta. split; [reflexivity|]. split; [unfold wsum, sumL; cbn; lra|]. unfold weighted, vadd, vscal, vzero; cbn. f_equal; field. Qed.

Print Assumptions C63_constraints_partial.
Print Assumptions C63_rigid_motion_partial.
Print Assumptions C63_rigid_motion_refuted.
