(** Materials selected from an image (C59). *)
From Coq Require Import List ZArith QArith Bool Lia Lqa.
From Verif Require Import Model.Texture Spec.Texture Proofs.Texture.
Import ListNotations.
Open Scope Q_scope.

(** The pixel of a point with parameters in [0,1] is always inside the image. *)
Theorem C59_pixel : forall im u v, (0 < width im)%Z -> (0 < height im)%Z -> 0 <= u <= 1 -> 0 <= v <= 1 ->
  exists i j, pixel im u v = Some (i, j) /\ (0 <= i < width im)%Z /\ (0 <= j < height im)%Z /\
    (inject_Z i <= u * inject_Z (width im - 1) /\ u * inject_Z (width im - 1) < inject_Z (i + 1)) /\
    (inject_Z j <= v * inject_Z (height im - 1) /\ v * inject_Z (height im - 1) < inject_Z (j + 1)).
Proof. exact pixel_inside. Qed.
(** The first listed range is not what is used: a later range that starts lower wins. *)
Definition twoRanges : list (relem nat) := [mkElem (Some (1#2)) (Some 1) (fun _ => 7%nat); mkElem (Some 0) (Some 1) (fun _ => 8%nat)].
Definition white : image := mkImg 1 1 1 (fun _ => 255%Z).
Theorem C59_first_listed_refuted : exists a b, a <> b /\
  firstListed (listing twoRanges (0, 0) 0%nat) (texel white 0 0) a /\
  findMaterial (Some white) (parseRanges twoRanges (0, 0) 0%nat []) 0 0 = Some b.
Proof.
  exists 7%nat, 8%nat. split; [discriminate|]. split; [|reflexivity].
  exists [], (1#2, 1), [((0, 1), 8%nat)]. split; [reflexivity|]. split; [split; cbv; discriminate|intros e []].
Qed.
(** Nor is there a default: a pixel in no range, like a missing image, makes the evaluation fail. *)
Theorem C59_default_refuted : forall (B : Type) (f : nat -> B) cs mat im u v i j,
  (0 < width im)%Z -> pixel im u v = Some (i, j) ->
  (forall e, In e (listing cs (0, 0) mat) -> ~ contains (fst e) (texel im i j)) ->
  evaluate f (Some im) (parseRanges cs (0, 0) mat []) u v = None.
Proof.
  intros B f cs mat im u v i j W P N. unfold evaluate. rewrite (find_lookup im _ u v i j W P).
  apply lookup_none in N. now rewrite N.
Qed.
(** What is used: among the ranges containing the intensity the least in the order of (min,max);
    of several entries with the same range the last one. *)
Theorem C59_least_partial : forall (A : Type) cs r0 (mat : A) im u v i j a,
  (0 < width im)%Z -> pixel im u v = Some (i, j) ->
  findMaterial (Some im) (parseRanges cs r0 mat []) u v = Some a ->
  exists r, lastFor (listing cs r0 mat) r a /\ contains r (texel im i j) /\
    forall s b, lastFor (listing cs r0 mat) s b -> contains s (texel im i j) -> sameRange s r \/ before r s.
Proof. intros A cs r0 mat im u v i j a W P H. rewrite (find_lookup im _ u v i j W P) in H. now apply lookup_spec. Qed.
Theorem C59_total_partial : forall (A : Type) cs r0 (mat : A) im u v, (0 < width im)%Z -> (0 < height im)%Z -> 0 <= u <= 1 -> 0 <= v <= 1 ->
  exists i j, (0 <= i < width im)%Z /\ (0 <= j < height im)%Z /\ pixel im u v = Some (i, j) /\
  ((exists a, findMaterial (Some im) (parseRanges cs r0 mat []) u v = Some a) <-> exists e, In e (listing cs r0 mat) /\ contains (fst e) (texel im i j)).
Proof.
  intros A cs r0 mat im u v W H U V. destruct (pixel_inside im u v W H U V) as (i & j & P & I1 & J1 & _). exists i, j.
  repeat (split; [assumption || tauto|]). rewrite (find_lookup im _ u v i j W P). split.
  - intros (a & L). apply lookup_spec in L. destruct L as (r & (l1 & r' & l2 & E & Q & _) & C & _).
    exists (r', a). split; [rewrite E; apply in_elt|]. cbn. now apply (same_contains r); [apply same_sym|].
  - intros (e & K & C). destruct (lookup _ _) as [a|] eqn:L; [now exists a|]. apply lookup_none with (e := e) in L; [contradiction|assumption].
Qed.
(** If the listed ranges do not overlap this is the first (only) listed range. *)
Theorem C59_disjoint_partial : forall (A : Type) cs r0 (mat : A) im u v i j a, disjoint (listing cs r0 mat) ->
  (0 < width im)%Z -> pixel im u v = Some (i, j) ->
  (findMaterial (Some im) (parseRanges cs r0 mat []) u v = Some a <-> firstListed (listing cs r0 mat) (texel im i j) a).
Proof. intros A cs r0 mat im u v i j a D W P. rewrite (find_lookup im _ u v i j W P). now apply lookup_disjoint. Qed.

(** The intensity of a pixel is its first channel on a scale from 0 to 1. *)
Theorem C59_intensity_partial : forall im px i j, stores (width im) (height im) (channels im) (bytes im) px ->
  (0 < channels im)%Z -> (0 <= i < width im)%Z -> (0 <= j < height im)%Z ->
  texel im i j * 255 == inject_Z (px i j 0%Z) /\ ((0 <= px i j 0 <= 255)%Z -> 0 <= texel im i j <= 1).
Proof.
  intros im px i j S C I J. unfold texel. replace ((j * width im + i) * channels im)%Z with (0 + channels im * (i + width im * j))%Z by ring.
  rewrite (S i j 0%Z) by lia. split; [field|]. intros B.
  assert (L : inject_Z 0 <= inject_Z (px i j 0%Z)) by (rewrite <- Zle_Qle; lia).
  assert (U : inject_Z (px i j 0%Z) <= inject_Z 255) by (rewrite <- Zle_Qle; lia). change (inject_Z 0) with 0 in L. change (inject_Z 255) with 255 in U.
  split; [apply Qle_shift_div_l|apply Qle_shift_div_r]; lra.
Qed.
Example C59_intensity_case : stores 2 1 3 (fun k => k * 10)%Z (fun i j c => 10 * (c + 3 * i + 6 * j))%Z.
Proof. intros i j c _ _ _. ring. Qed.
Example C59_ex : disjoint (listing [mkElem (Some (1#2)) (Some 1) (fun _ => 7%nat); mkElem (Some 0) (Some (1#4)) (fun _ => 8%nat)] (0, 0) 0%nat).
Proof.
  intros l1 e l2 f l3 I E [[H1 H2] [H3 H4]]. cbn in E. destruct l1 as [|? [|? [|]]]; try discriminate.
  - injection E as <- E. destruct l2 as [|? [|]]; try discriminate. injection E as <- _. cbn in *. lra.
  - injection E as _ <- E. destruct l2; discriminate.
Qed.
Example C59_ex2 : pixel (mkImg 4 3 3 (fun _ => 0%Z)) 1 (1#2) = Some (3, 1)%Z.
Proof. reflexivity. Qed.

Print Assumptions C59_pixel.
Print Assumptions C59_first_listed_refuted.
Print Assumptions C59_default_refuted.
Print Assumptions C59_least_partial.
Print Assumptions C59_total_partial.
Print Assumptions C59_disjoint_partial.
Print Assumptions C59_intensity_partial.
