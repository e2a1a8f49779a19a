(** Graded beam knots (C65). *)
From Coq Require Import QArith List ZArith Lia Sorting.Sorted.
From Verif Require Import Model.Knots Proofs.Knots.
Import ListNotations.
Local Open Scope Q_scope.

(** For every number of levels the loops end, and the knots appended are strictly increasing, lie inside (0,1), are
    symmetric about the mid-point, and are exactly the multiples of 2^-L and the points 1/2 -+ 2^-i for L < i < 2L. *)
Theorem C65_knots : forall L xi, (1 <= L)%Z -> exists s,
  (exists n, forall fuel, (n <= fuel)%nat -> parseXi fuel true L xi = Some (true, xi ++ s)) /\
  StronglySorted Qlt s /\
  (forall y, In y s -> 0 < y /\ y < 1) /\
  (forall y, In y s -> exists z, In z s /\ z == 1 - y) /\
  (forall y, (exists z, In z s /\ y == z) <->
     (exists k, (1 <= k < 2 ^ L)%Z /\ y == inject_Z k * 2 ^ (- L)) \/
     (exists i, (L < i < 2 * L)%Z /\ (y == (1#2) - 2 ^ (- i) \/ y == (1#2) + 2 ^ (- i)))).
Proof.
  intros L xi HL. destruct (parse_spec L xi (Datatypes.S (Z.to_nat (2 ^ L) + Z.to_nat L)) HL) as (s & E & SS & M); [lia|lia|].
  exists s. split; [|split; [assumption|split; [|split]]].
  - exists (Datatypes.S (Z.to_nat (2 ^ L) + Z.to_nat L)). intros fuel F.
    destruct (parse_spec L xi fuel HL) as (s' & E' & SS' & M'); [lia|lia|]. rewrite E'. rewrite (parse_mono _ _ L xi _ F E) in E'. now rewrite E'.
  - intros y Y. apply (knot_interior L y HL). apply M. exists y. split; [assumption|reflexivity].
  - intros y Y. assert (K : knotAt L (1 - y)) by (apply knot_sym; [assumption|]; apply M; exists y; split; [assumption|reflexivity]).
    apply M in K. destruct K as (z & Z1 & Z2). exists z. split; [assumption|now symmetry].
  - exact M.
Qed.
(** A bad type or number of levels is reported and adds nothing. *)
Theorem C65_rejected : forall fuel focus L xi, focus = false \/ (L < 1)%Z -> parseXi fuel focus L xi = Some (false, xi).
Proof.
  intros fuel focus L xi H. unfold parseXi. destruct focus; [|reflexivity]. destruct (Z.ltb_spec L 1); [reflexivity|]. destruct H; [discriminate|lia].
Qed.
(** No focused knot coincides with an even one: 2^L - 1 + 2(L-1) distinct knots. *)
Theorem C65_count : forall L xi, (1 <= L)%Z -> exists s,
  (exists n, forall fuel, (n <= fuel)%nat -> parseXi fuel true L xi = Some (true, xi ++ s)) /\ Z.of_nat (length s) = (2 ^ L - 1 + 2 * (L - 1))%Z.
Proof. exact knot_count. Qed.
Example C65_ex : option_map (fun r => (fst r, map Qred (snd r))) (parseXi 100 true 3 [0]) =
  Some (true, [0; 1#8; 1#4; 3#8; 7#16; 15#32; 1#2; 17#32; 9#16; 5#8; 3#4; 7#8]).
Proof. vm_compute. reflexivity. Qed.

Print Assumptions C65_knots.
Print Assumptions C65_rejected.
Print Assumptions C65_count.
