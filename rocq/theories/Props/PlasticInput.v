(** Input of plastic materials (C127). *)
From Verif.Lib Require Import Base.
From Verif.Model Require Import Plastic PlasticInput.
From Verif.Spec Require Import PlasticInput.
From Verif.Proofs Require Import PlasticInput.

(** ** C127: a plastic material has the elastic and hardening parameters given in its tag.
    Full statement: also for parameters in the text of the tag, and for every pair of elastic constants.
    Proved: all named hardening parameters, whatever other children and text the tag has, and the two pairs (E, nu) and
    (Bmod, Smod) with a shear modulus above 1/2. *)
Theorem C127_voce_partial : forall t li e I1 J2 J3, toint (orElse (aYield (attr t)) 0) = 1%Z ->
  exists y, yfunc (fst (plasticMaterial t)) (snd (plasticMaterial t)) li e I1 J2 J3 = Ret y /\ yYY y = sqt23 * voce (attr t) e.
Proof. exact voce_law. Qed.
Theorem C127_power_partial : forall t li e I1 J2 J3, toint (orElse (aYield (attr t)) 0) = 4%Z -> epsZ <= e ->
  exists y, yfunc (fst (plasticMaterial t)) (snd (plasticMaterial t)) li e I1 J2 J3 = Ret y /\ yYY y = sqt23 * power (attr t) e.
Proof. exact power_law. Qed.
Theorem C127_double_partial : forall t li e I1 J2 J3, toint (orElse (aYield (attr t)) 0) = 6%Z ->
  exists y, yfunc (fst (plasticMaterial t)) (snd (plasticMaterial t)) li e I1 J2 J3 = Ret y /\ yYY y = sqt23 * doubleVoce (attr t) e.
Proof. exact double_law. Qed.
(** A hardening curve: the last one of the tag. *)
Theorem C127_curve_partial : forall t l r ev de li e I1 J2 J3, toint (orElse (aYield (attr t)) 0) = 5%Z ->
  children t = l ++ Curve (ev, de) :: r -> (forall c, In c r -> c = Other) ->
  exists y, yfunc (fst (plasticMaterial t)) (snd (plasticMaterial t)) li e I1 J2 J3 = Ret y /\ yYY y = sqt23 * ev e.
Proof.
  intros t l r ev de li e I1 J2 J3 Y C N. apply (curve_law t ev de); [exact Y|]. rewrite C. apply curve_last.
  intros K. apply in_map_iff in K as (c & K & Hc). rewrite (N c Hc) in K. discriminate.
Qed.
Theorem C127_elastic_partial : forall t, let p := fst (plasticMaterial t) in let a := attr t in
  nth 3 p 0 = orElse (aRho a) 0 /\ nth 7 p 0 = orElse (aHkin a) 0 /\ nth 12 p 0 = orElse (aIstrt a) 0 /\
  (forall E nu, aE a = Some E -> aNu a = Some nu -> nu < 1/2 -> nth 0 p 0 = E /\ nth 1 p 0 = nu) /\
  (forall K G, aE a = None -> aEmod a = None -> aNu a = None -> aBmod a = Some K -> aSmod a = Some G -> 1/2 < G ->
     nth 4 p 0 = K /\ nth 5 p 0 = G).
Proof.
  intros t p a. destruct (elastic_data t) as [A B]. destruct (start_data t) as [C D]. unfold mat in A, B, C, D. fold p in A, B, C, D. fold a in A, B, C, D.
  split; [exact A|]. split; [exact C|]. split; [exact D|]. split.
  - intros E nu HE Hn L. rewrite HE, Hn in B. cbn [orElse] in B. unfold moduli in B. destruct (Rlt_dec (1/2) nu) as [q|_]; [lra|]. destruct (Rlt_dec nu (1/2)) as [_|q]; [|lra].
    injection B as -> -> _ _. split; reflexivity.
  - intros K G H1 H2 H3 HK HG L. rewrite H1, H2, H3, HK, HG in B. cbn [orElse] in B. unfold moduli in B. destruct (Rlt_dec (1/2) G) as [_|q]; [|lra].
    injection B as _ _ -> ->. split; reflexivity.
Qed.
Definition none : attrs := mkAttrs None None None None None None None None None None None None None None None None None None None None.
(** Parameters as text of the tag are not read: the material is that of an empty tag, without stiffness. *)
Theorem C127_text_refuted : exists t, text t = [206; 3/10; 0; 78/10; 1; 0; 1; 2; 3; 4; 0] /\
  plasticMaterial t = plasticMaterial (mkTag [] [] none) /\ nth 0 (fst (plasticMaterial t)) 0 = 0 /\ nth 3 (fst (plasticMaterial t)) 0 = 0.
Proof.
  exists (mkTag [206; 3/10; 0; 78/10; 1; 0; 1; 2; 3; 4; 0] [] none). split; [reflexivity|]. split; [reflexivity|].
  match goal with |- nth 0 (fst (plasticMaterial ?t)) 0 = 0 /\ _ => pose proof (elastic_data t) as [A B] end. unfold mat in A, B. cbn [attr none aRho aE aEmod aBmod aNu aSmod orElse] in A, B.
  split; [|exact A]. unfold moduli in B. destruct (Rlt_dec (1/2) 0) as [q|_]; [lra|]. destruct (Rlt_dec 0 (1/2)) as [_|q]; [|lra]. exact (f_equal (fun z => fst (fst (fst z))) B).
Qed.
(** Young's modulus with a shear modulus: Young's modulus is taken as the bulk modulus. *)
Theorem C127_mixed_refuted : exists t, aE (attr t) = Some 210 /\ aSmod (attr t) = Some 80 /\ aNu (attr t) = None /\ aBmod (attr t) = None /\
  nth 4 (fst (plasticMaterial t)) 0 = 210 /\ nth 0 (fst (plasticMaterial t)) 0 <> 210.
Proof.
  exists (mkTag [] [] (mkAttrs None None (Some 210) (Some 80) None None None None None None None None None None None None None None None None)).
  repeat (split; [reflexivity|]).
  match goal with |- nth 4 (fst (plasticMaterial ?t)) 0 = _ /\ _ => pose proof (elastic_data t) as [_ B] end. unfold mat in B. cbn [attr aE aEmod aBmod aNu aSmod orElse] in B.
  unfold moduli in B. destruct (Rlt_dec (1/2) 80) as [_|q]; [|lra]. split; [exact (f_equal (fun z => snd (fst z)) B)|]. intros Q. apply (f_equal (fun z => fst (fst (fst z)))) in B. cbn [fst] in B, Q. lra.
Qed.
(** A tag with law 6, an unknown child and all its parameters. *)
Definition sample : tag := mkTag [] [Other]
  (mkAttrs None None (Some 210) None (Some (3/10)) (Some 8) (Some 1) None (Some 6) (Some 2) None None None None None None (Some 3) (Some 4) (Some 5) (Some 6)).
Example C127_case : toint (orElse (aYield (attr sample)) 0) = 6%Z /\ aE (attr sample) = Some 210 /\ aNu (attr sample) = Some (3/10) /\ 3/10 < 1/2 /\
  (forall e, doubleVoce (attr sample) e = 2 + 3 * (1 - exp (- (4) * e)) + 5 * (1 - exp (- (6) * e)) + 1 * e) /\ doubleVoce (attr sample) 0 = 2.
Proof.
  split. { cbn [sample attr aYield orElse]. unfold toint. destruct (Rle_dec 0 6) as [_|q]; [|lra]. apply (f_equal fst (x := (Int_part 6, 0)) (y := (6%Z, 0))).
    f_equal. unfold Int_part. assert (K : (7)%Z = up 6) by (apply tech_up; cbn; lra). rewrite <- K. reflexivity. }
  split; [reflexivity|]. split; [reflexivity|]. split; [lra|]. split; [intros e; reflexivity|]. unfold doubleVoce, sample; cbn. rewrite !Rmult_0_r, exp_0. ring.
Qed.

Print Assumptions C127_voce_partial.
Print Assumptions C127_power_partial.
Print Assumptions C127_double_partial.
Print Assumptions C127_curve_partial.
Print Assumptions C127_elastic_partial.
Print Assumptions C127_text_refuted.
Print Assumptions C127_mixed_refuted.
