From Verif Require Import Lib.Base Lib.Sums Lib.Writes Lib.Congruence Model.Continuum Spec.Continuum Proofs.Continuum Proofs.ContinuumKin.

(** ** Material stiffness kernels *)
(** The Voigt form of the material stiffness between two node/component pairs. *)
Definition kmB (d : nat) (F G C : nat -> nat -> R) (w : R) (a b m k : nat) : R :=
  sumf (nvoigt d) (fun v => bnl d F G v m a * (sumf (nvoigt d) (fun z => C v z * bnl d F G z k b) * w)).

Lemma kmB_sym d F G C w a b m k : symm (nvoigt d) C -> kmB d F G C w a b m k = kmB d F G C w b a k m.
Proof.
  intros HC. unfold kmB.
  transitivity (sumf (nvoigt d) (fun v => sumf (nvoigt d) (fun z => bnl d F G v m a * (C v z * bnl d F G z k b) * w))).
  { apply sumf_ext. intros v _. rewrite <- Rmult_assoc, <- sumf_scal, <- sumf_scal_r. apply sumf_ext. intros. ring. }
  rewrite sumf_swap. apply sumf_ext. intros v Hv. rewrite <- Rmult_assoc, <- sumf_scal, <- sumf_scal_r. apply sumf_ext. intros z Hz.
  rewrite (HC z v) by assumption. ring.
Qed.

Lemma kmFull2 e F C w a b m k : kmFull 2 pos2 e F C w a b m k = kmB 2 F (dN e) C w a b m k.
Proof. unfold kmFull, kmB, bnl, nvoigt. cbn. ring. Qed.

Definition sw56 (v : nat) : nat := match v with 5%nat => 6%nat | 6%nat => 5%nat | _ => v end.

Lemma kmFull3 e F C w a b m k : kmFull 3 pos3f e F C w a b m k = kmB 3 F (dN e) (fun v z => C (sw56 v) (sw56 z)) w a b m k.
Proof. unfold kmFull, kmB, bnl, nvoigt. cbn. ring. Qed.

Lemma stiffB_kmB d n F G B C w a b m k : 
  (forall v a i, (1 <= v <= nvoigt d)%nat -> (1 <= a <= n)%nat -> (1 <= i <= d)%nat -> el B v (dof d a i) = bnl d F G v i a) ->
  (1 <= a <= n)%nat -> (1 <= b <= n)%nat -> (1 <= m <= d)%nat -> (1 <= k <= d)%nat ->
  stiffB (nvoigt d) (d * n) (el B) C w (dof d a m) (dof d b k) = kmB d F G C w a b m k.
Proof.
  intros HB Ha Hb Hm Hk. unfold stiffB, kmB. apply sumf_ext. intros v Hv. rewrite HB by assumption. do 2 f_equal.
  apply sumf_ext. intros z Hz. rewrite HB by assumption. reflexivity.
Qed.

Lemma kernel_is_BCB d n km EK F G B C w : symm (nvoigt d) C ->
  (forall a b m k, (1 <= m <= d)%nat -> (1 <= k <= d)%nat -> km a b m k = kmB d F G C w a b m k) ->
  (forall v a i, (1 <= v <= nvoigt d)%nat -> (1 <= a <= n)%nat -> (1 <= i <= d)%nat -> el B v (dof d a i) = bnl d F G v i a) ->
  rows EK = (d * n)%nat -> cols EK = (d * n)%nat ->
  exists EK', kernel d n km EK = Ret EK' /\
    forall i j, (1 <= i <= d * n)%nat -> (1 <= j <= d * n)%nat -> el EK' i j = el EK i j + stiffB (nvoigt d) (d * n) (el B) C w i j.
Proof.
  intros HC Hk HB HR HCc. destruct (kernel_ok d n km EK HR HCc) as [EK' [EE [_ [_ ee]]]].
  exists EK'. split; [exact EE|]. intros i j Hi Hj.
  apply dof_surj in Hi. destruct Hi as [a [m [Ha [Hm ->]]]]. apply dof_surj in Hj. destruct Hj as [b [k [Hb [Hkk ->]]]].
  rewrite ee by assumption. f_equal. rewrite (stiffB_kmB d n F G) by assumption.
  destruct (a <=? b)%nat; rewrite Hk by assumption; [reflexivity|]. apply kmB_sym; assumption.
Qed.

Theorem tl2d_general n N G r u F E B C w EK : (1 <= n)%nat -> symm 3 C ->
  kinematicsTL (plane 2 n N G r) (2 * n) u = Ret (F, E, B) -> rows EK = (2 * n)%nat -> cols EK = (2 * n)%nat ->
  exists EK', stiff_TL2D (plane 2 n N G r) (el F) C w EK = Ret EK' /\
    forall i j, (1 <= i <= 2 * n)%nat -> (1 <= j <= 2 * n)%nat -> el EK' i j = el EK i j + stiffB 3 (2 * n) (el B) C w i j.
Proof.
  intros Hn HC K HR HCc. destruct (kin_ok 2 n N G r u ltac:(auto) Hn) as [F1 [E1 [B1 [K1 [eF [eE [_ [_ eB]]]]]]]].
  rewrite K in K1. injection K1 as <- <- <-.
  apply (kernel_is_BCB 2 n _ EK (el F) G B C w HC); try assumption.
  intros a b m k _ _. apply (kmFull2 (plane 2 n N G r)).
Qed.

Theorem tl3d_general_swapped n N G r u F E B C w EK : (1 <= n)%nat -> symm 6 C ->
  kinematicsTL (plane 3 n N G r) (3 * n) u = Ret (F, E, B) -> rows EK = (3 * n)%nat -> cols EK = (3 * n)%nat ->
  exists EK', stiff_TL3D (plane 3 n N G r) (el F) C w EK = Ret EK' /\
    forall i j, (1 <= i <= 3 * n)%nat -> (1 <= j <= 3 * n)%nat ->
      el EK' i j = el EK i j + stiffB 6 (3 * n) (el B) (fun v z => C (sw56 v) (sw56 z)) w i j.
Proof.
  intros Hn HC K HR HCc. destruct (kin_ok 3 n N G r u ltac:(auto) Hn) as [F1 [E1 [B1 [K1 [eF [eE [_ [_ eB]]]]]]]].
  rewrite K in K1. injection K1 as <- <- <-.
  apply (kernel_is_BCB 3 n _ EK (el F) G B (fun v z => C (sw56 v) (sw56 z)) w); try assumption.
  - intros v z Hv Hz. apply HC; unfold nvoigt in *; cbn in Hv, Hz.
    + clear -Hv. idx v; cbn; lia.
    + clear -Hz. idx z; cbn; lia.
  - intros a b m k _ _. apply (kmFull3 (plane 3 n N G r)).
Qed.

Lemma stiffB_ext ns nd B C C' w i j : (forall v z, (1 <= v <= ns)%nat -> (1 <= z <= ns)%nat -> C v z = C' v z) ->
  stiffB ns nd B C w i j = stiffB ns nd B C' w i j.
Proof.
  intros H. unfold stiffB. apply sumf_ext. intros v Hv. do 2 f_equal. apply sumf_ext. intros z Hz. rewrite H by assumption. reflexivity.
Qed.

(** The structure of an isotropic constitutive matrix with [d] normal components. *)
Definition isoStruct (d : nat) (C : nat -> nat -> R) (c1 c2 c3 : R) : Prop :=
  forall v z, (1 <= v <= nvoigt d)%nat -> (1 <= z <= nvoigt d)%nat ->
    C v z = if (v =? z)%nat then (if (v <=? d)%nat then c1 else c3)
            else if ((v <=? d) && (z <=? d))%nat%bool then c2 else 0.

Lemma iso_symm d C c1 c2 c3 : isoStruct d C c1 c2 c3 -> symm (nvoigt d) C.
Proof.
  intros H v z Hv Hz. rewrite !H by assumption. rewrite (Nat.eqb_sym z v).
  destruct (Nat.eqb_spec v z) as [->|]; [reflexivity|]. rewrite andb_comm. reflexivity.
Qed.

Lemma kmB_ext d F G C C' w a b m k : (forall v z, (1 <= v <= nvoigt d)%nat -> (1 <= z <= nvoigt d)%nat -> C v z = C' v z) ->
  kmB d F G C w a b m k = kmB d F G C' w a b m k.
Proof.
  intros H. unfold kmB. apply sumf_ext. intros v Hv. do 2 f_equal. apply sumf_ext. intros z Hz. rewrite H by assumption. reflexivity.
Qed.

Theorem tl2d_iso n N G r u F E B C c1 c2 c3 w EK : (1 <= n)%nat -> isoStruct 2 C c1 c2 c3 ->
  kinematicsTL (plane 2 n N G r) (2 * n) u = Ret (F, E, B) -> rows EK = (2 * n)%nat -> cols EK = (2 * n)%nat ->
  exists EK', stiff_TL2D_isoel (plane 2 n N G r) (el F) c1 c2 c3 w EK = Ret EK' /\
    forall i j, (1 <= i <= 2 * n)%nat -> (1 <= j <= 2 * n)%nat -> el EK' i j = el EK i j + stiffB 3 (2 * n) (el B) C w i j.
Proof.
  intros Hn HC K HR HCc. destruct (kin_ok 2 n N G r u ltac:(auto) Hn) as [F1 [E1 [B1 [K1 [eF [eE [_ [_ eB]]]]]]]].
  rewrite K in K1. injection K1 as <- <- <-.
  apply (kernel_is_BCB 2 n _ EK (el F) G B C w (iso_symm 2 C c1 c2 c3 HC)); try assumption.
  intros a b m k _ _. rewrite (kmB_ext 2 (el F) G C _ w a b m k HC). unfold kmB, bnl, nvoigt. cbn. ring.
Qed.

Theorem tl3d_iso n N G r u F E B C c1 c2 c3 w EK : (1 <= n)%nat -> isoStruct 3 C c1 c2 c3 ->
  kinematicsTL (plane 3 n N G r) (3 * n) u = Ret (F, E, B) -> rows EK = (3 * n)%nat -> cols EK = (3 * n)%nat ->
  exists EK', stiff_TL3D_isoel (plane 3 n N G r) (el F) c1 c2 c3 w EK = Ret EK' /\
    forall i j, (1 <= i <= 3 * n)%nat -> (1 <= j <= 3 * n)%nat -> el EK' i j = el EK i j + stiffB 6 (3 * n) (el B) C w i j.
Proof.
  intros Hn HC K HR HCc. destruct (kin_ok 3 n N G r u ltac:(auto) Hn) as [F1 [E1 [B1 [K1 [eF [eE [_ [_ eB]]]]]]]].
  rewrite K in K1. injection K1 as <- <- <-.
  apply (kernel_is_BCB 3 n _ EK (el F) G B C w (iso_symm 3 C c1 c2 c3 HC)); try assumption.
  intros a b m k _ _. rewrite (kmB_ext 3 (el F) G C _ w a b m k HC). unfold kmB, bnl, nvoigt. cbn. ring.
Qed.

(** The general 3D kernel is right when the constitutive matrix treats components 5 and 6 alike. *)
Theorem tl3d_general_if_invariant n N G r u F E B C w EK : (1 <= n)%nat -> symm 6 C ->
  (forall v z, (1 <= v <= 6)%nat -> (1 <= z <= 6)%nat -> C (sw56 v) (sw56 z) = C v z) ->
  kinematicsTL (plane 3 n N G r) (3 * n) u = Ret (F, E, B) -> rows EK = (3 * n)%nat -> cols EK = (3 * n)%nat ->
  exists EK', stiff_TL3D (plane 3 n N G r) (el F) C w EK = Ret EK' /\
    forall i j, (1 <= i <= 3 * n)%nat -> (1 <= j <= 3 * n)%nat -> el EK' i j = el EK i j + stiffB 6 (3 * n) (el B) C w i j.
Proof.
  intros Hn HC HI K HR HCc. destruct (tl3d_general_swapped n N G r u F E B C w EK Hn HC K HR HCc) as [EK' [EE ee]].
  exists EK'. split; [exact EE|]. intros i j Hi Hj. rewrite ee by assumption. f_equal. apply stiffB_ext. exact HI.
Qed.

Definition C55 (v z : nat) : R := if ((v =? 5) && (z =? 5))%nat%bool then 1 else 0.

Theorem tl3d_general_wrong : exists n N G r u F E B C EK EK',
  (1 <= n)%nat /\ symm 6 C /\ kinematicsTL (plane 3 n N G r) (3 * n) u = Ret (F, E, B) /\
  rows EK = (3 * n)%nat /\ cols EK = (3 * n)%nat /\ stiff_TL3D (plane 3 n N G r) (el F) C 1 EK = Ret EK' /\
  el EK' 3 3 <> el EK 3 3 + stiffB 6 (3 * n) (el B) C 1 3 3.
Proof.
  set (G := fun _ j : nat => match j with 2%nat => 1 | _ => 0 end).
  destruct (kin_ok 3 1 (fun _ => 1) G 0 (fun _ => 0) ltac:(auto) ltac:(auto)) as [F [E [B [K [eF [_ [_ [_ eB]]]]]]]].
  assert (SC : symm 6 C55) by (intros v z _ _; unfold C55; rewrite andb_comm; reflexivity).
  destruct (tl3d_general_swapped 1 (fun _ => 1) G 0 (fun _ => 0) F E B C55 1 (zeros 3 3) ltac:(auto) SC K eq_refl eq_refl) as [EK' [EE ee]].
  exists 1%nat, (fun _ => 1), G, 0, (fun _ => 0), F, E, B, C55, (zeros 3 3), EK'.
  repeat split; try assumption; try reflexivity; try lia.
  rewrite ee by lia. unfold stiffB.
  assert (HB : forall v, (1 <= v <= 6)%nat -> el B v 3 = if (v =? 5)%nat then 1 else 0).
  { intros v Hv. change 3%nat with (dof 3 1 3) at 1. rewrite eB by (unfold nvoigt; cbn; lia).
    rewrite (bnl_ext 3 (el F) kron) by (first [auto; fail | unfold nvoigt; cbn; lia | intros i j Hi Hj; rewrite eF by assumption; unfold gradient; rewrite sumf_0; [ring|intros; ring]]).
    clear -Hv. unfold bnl, kron, G. idx v; cbn; ring. }
  cbn [sumf]. rewrite !HB by lia. unfold C55. cbn. lra.
Qed.

(** One dimension: the integration weight is missing. *)
Theorem tl1d_value n N G r F C w EM : rows EM = n -> cols EM = n ->
  exists EM', stiff_TL1D (plane 1 n N G r) F C w EM = Ret EM' /\
    forall a b, (1 <= a <= n)%nat -> (1 <= b <= n)%nat ->
      el EM' a b = el EM a b + (F 1%nat 1%nat * G a 1%nat) * C 1%nat 1%nat * (F 1%nat 1%nat * G b 1%nat).
Proof.
  intros HR HC. unfold stiff_TL1D. cbn [nen dN plane].
  match goal with |- exists E, run_add ?m ?ws = _ /\ _ => destruct (run_add_ok ws m) as [EK' [EE [RR [CC ee]]]] end.
  { intros i j v Hv. inl Hv. inw Hv. apply inb_true; lia. }
  exists EK'. split; [exact EE|]. intros a b Ha Hb. rewrite ee.
  rewrite (hitsum_mat n n (fun a b => G a 1%nat * F 1%nat 1%nat * C 1%nat 1%nat * F 1%nat 1%nat * G b 1%nat)) by assumption. ring.
Qed.

(** ** Geometric stiffness *)
Lemma formKG_ok e r sig w EM : (1 <= nsd e)%nat -> rows EM = (nsd e * nen e)%nat -> cols EM = (nsd e * nen e)%nat ->
  exists EM', formKG e r sig w EM = Ret EM' /\
    forall a b m k, (1 <= a <= nen e)%nat -> (1 <= b <= nen e)%nat -> (1 <= m <= nsd e)%nat -> (1 <= k <= nsd e)%nat ->
      el EM' (dof (nsd e) a m) (dof (nsd e) b k) = el EM (dof (nsd e) a m) (dof (nsd e) b k)
       + kron m k * (sumf (nsd e) (fun i => sumf (nsd e) (fun j => dN e a i * sig i j * dN e b j)) * w)
       + (if Rlt_dec 0 (kgrr e r sig) then kron m 1 * kron k 1 * (shp e a * kgrr e r sig * shp e b * w) else 0).
Proof.
  intros Hd HR HC. unfold formKG.
  match goal with |- exists E, run_add ?m ?ws = _ /\ _ => destruct (run_add_ok ws m) as [EK' [EE [RR [CC ee]]]] end.
  { intros i j v Hv. apply In_loop in Hv. destruct Hv as [a [Ha Hv]]. apply In_loop in Hv. destruct Hv as [b [Hb Hv]].
    apply in_app_iff in Hv. destruct Hv as [Hv|Hv].
    - apply In_loop in Hv. destruct Hv as [m [Hm [Hv|[]]]]. apply wr_inj in Hv. destruct Hv as [<- [<- _]].
      apply inb_true; rewrite ?HR, ?HC; apply dof_range; lia.
    - destruct (Rlt_dec 0 (kgrr e r sig)); [|destruct Hv]. destruct Hv as [Hv|[]]. apply wr_inj in Hv. destruct Hv as [<- [<- _]].
      apply inb_true; rewrite ?HR, ?HC; apply dof_range; lia. }
  exists EK'. split; [exact EE|]. intros a b m k Ha Hb Hm Hk. rewrite ee, Rplus_assoc. f_equal.
  rewrite <- (hitsum_diag (nen e) (nsd e) (fun a b _ => sumf (nsd e) (fun i => sumf (nsd e) (fun j => dN e a i * sig i j * dN e b j)) * w) a b m k) by assumption.
  assert (X : (if Rlt_dec 0 (kgrr e r sig) then kron m 1 * kron k 1 * (shp e a * kgrr e r sig * shp e b * w) else 0)
    = sumf (nen e) (fun a1 => sumf (nen e) (fun b1 => hitsum (dof (nsd e) a m) (dof (nsd e) b k)
        (if Rlt_dec 0 (kgrr e r sig) then [(dof (nsd e) a1 1, dof (nsd e) b1 1, shp e a1 * kgrr e r sig * shp e b1 * w)] else [])))).
  { destruct (Rlt_dec 0 (kgrr e r sig)).
    - symmetry. apply (sumf_pick _ a); [exact Ha| |].
      + intros a1 Ra Na. apply sumf_0. intros b1 Rb. rewrite hitsum_one, !eqb_dof by lia. destruct (Nat.eqb_spec a a1); [congruence|reflexivity].
      + apply (sumf_pick _ b); [exact Hb| |].
        * intros b1 Rb Nb. rewrite hitsum_one, !eqb_dof by lia. destruct (Nat.eqb_spec b b1); [congruence|]. rewrite andb_false_r. reflexivity.
        * rewrite hitsum_one, !eqb_dof by lia. rewrite !Nat.eqb_refl. unfold kron. destruct (m =? 1)%nat, (k =? 1)%nat; cbn [andb]; ring.
    - symmetry. apply sumf_0. intros. apply sumf_0. intros. reflexivity. }
  rewrite X, !hitsum_loop, <- sumf_plus. apply sumf_ext. intros a1 _. rewrite !hitsum_loop, <- sumf_plus. apply sumf_ext. intros b1 _.
  rewrite hitsum_app. reflexivity.
Qed.

(** Without axisymmetry the quadratic form is the stress times the quadratic part of the Green strain of the mode. *)
Theorem kg_quad d n N G r sig w EM : (1 <= d)%nat -> rows EM = (d * n)%nat -> cols EM = (d * n)%nat ->
  (forall i j, (1 <= i <= d * n)%nat -> (1 <= j <= d * n)%nat -> el EM i j = 0) ->
  exists EM', formKG (plane d n N G 0) r sig w EM = Ret EM' /\
    forall u v, sumf (d * n) (fun i => u i * mv (d * n) (el EM') v i) =
      w * sumf d (fun k => sumf d (fun i => sumf d (fun j => gradient d n G u k i * sig i j * gradient d n G v k j))).
Proof.
  intros Hd HR HC H0. destruct (formKG_ok (plane d n N G 0) r sig w EM Hd HR HC) as [EM' [EE ee]].
  cbn [nsd nen dN plane axi shp] in *. exists EM'. split; [exact EE|]. intros u v.
  assert (ee' : forall a b m k, (1 <= a <= n)%nat -> (1 <= b <= n)%nat -> (1 <= m <= d)%nat -> (1 <= k <= d)%nat ->
    el EM' (dof d a m) (dof d b k) = kron m k * (sumf d (fun i => sumf d (fun j => G a i * sig i j * G b j)) * w)).
  { intros a b m k Ha Hb Hm Hk. rewrite ee by assumption. unfold kgrr. cbn [axi plane].
    destruct (Rlt_dec 0 0) as [L|_]; [lra|]. rewrite H0 by (apply dof_range; assumption). ring. }
  rewrite sumf_dof, sumf_swap, <- sumf_scal. apply sumf_ext. intros k Hk.
  transitivity (sumf n (fun a => u (dof d a k) * sumf n (fun b => (sumf d (fun i => sumf d (fun j => G a i * sig i j * G b j)) * w) * v (dof d b k)))).
  { apply sumf_ext. intros a Ha. f_equal. unfold mv. rewrite sumf_dof. apply sumf_ext. intros b Hb.
    rewrite <- (sumf_kron d k (fun m => (sumf d (fun i => sumf d (fun j => G a i * sig i j * G b j)) * w) * v (dof d b m)) Hk).
    apply sumf_ext. intros m Hm. rewrite ee' by assumption. unfold kron. rewrite (Nat.eqb_sym m k). ring. }
  transitivity (sumf n (fun a => sumf n (fun b => sumf d (fun i => sumf d (fun j => w * (u (dof d a k) * G a i) * sig i j * (v (dof d b k) * G b j)))))).
  { apply sumf_ext. intros a _. rewrite <- sumf_scal. apply sumf_ext. intros b _.
    rewrite (Rmult_assoc _ w), (Rmult_comm _ (w * _)), <- Rmult_assoc, <- sumf_scal.
    apply sumf_ext. intros i _. rewrite <- !sumf_scal. apply sumf_ext. intros j _. ring. }
  transitivity (sumf d (fun i => sumf d (fun j => sumf n (fun a => sumf n (fun b => w * (u (dof d a k) * G a i) * sig i j * (v (dof d b k) * G b j)))))).
  { transitivity (sumf n (fun a => sumf d (fun i => sumf d (fun j => sumf n (fun b => w * (u (dof d a k) * G a i) * sig i j * (v (dof d b k) * G b j)))))).
    - apply sumf_ext. intros a _. rewrite sumf_swap. apply sumf_ext. intros i _. apply sumf_swap.
    - rewrite sumf_swap. apply sumf_ext. intros i _. rewrite sumf_swap. reflexivity. }
  rewrite <- sumf_scal. apply sumf_ext. intros i _. rewrite <- sumf_scal. apply sumf_ext. intros j _.
  unfold gradient. fold (dof d). 
  transitivity (sumf n (fun a => (w * (u (dof d a k) * G a i) * sig i j) * sumf n (fun b => v (dof d b k) * G b j))).
  { apply sumf_ext. intros a _. rewrite <- sumf_scal. reflexivity. }
  rewrite sumf_scal_r. 
  rewrite (sumf_ext n _ (fun a => (w * sig i j) * (u (dof d a k) * G a i))) by (intros; ring).
  rewrite sumf_scal. unfold dof. ring.
Qed.

(** ** Mass *)
Lemma formMass_ok e rho w EM : rows EM = (nsd e * nen e)%nat -> cols EM = (nsd e * nen e)%nat ->
  exists EM', formMass e rho w EM = Ret EM' /\ rows EM' = rows EM /\ cols EM' = cols EM /\
    forall a b m k, (1 <= a <= nen e)%nat -> (1 <= b <= nen e)%nat -> (1 <= m <= nsd e)%nat -> (1 <= k <= nsd e)%nat ->
      el EM' (dof (nsd e) a m) (dof (nsd e) b k) = el EM (dof (nsd e) a m) (dof (nsd e) b k) + kron m k * (rho * w * shp e a * shp e b).
Proof.
  intros HR HC. unfold formMass. destruct (Req_EM_T (rho * w) 0) as [Z|Z].
  - exists EM. repeat split. intros. rewrite Z. ring.
  - match goal with |- exists E, run_add ?m ?ws = _ /\ _ => destruct (run_add_ok ws m) as [EK' [EE [RR [CC ee]]]] end.
    { intros i j v Hv. inl Hv. inw Hv. apply inb_true; rewrite ?HR, ?HC; apply dof_range; lia. }
    exists EK'. split; [exact EE|]. split; [exact RR|]. split; [exact CC|]. intros a b m k Ha Hb Hm Hk. rewrite ee. f_equal.
    apply (hitsum_diag (nen e) (nsd e) (fun a b _ => rho * w * shp e a * shp e b)); assumption.
Qed.

Definition massForm (d n : nat) (pts : list (R * R * (nat -> R))) (u v : nat -> R) : R :=
  sumL (fun p => let '(rho, w, N) := p in rho * w * sumf d (fun i => interp d n N u i * interp d n N v i)) pts.

Definition bil (n : nat) (A : nat -> nat -> R) (u v : nat -> R) : R := sumf n (fun i => u i * mv n A v i).

Lemma mass_point_bil d n A A' (g : nat -> R) c u v :
  (forall a b m k, (1 <= a <= n)%nat -> (1 <= b <= n)%nat -> (1 <= m <= d)%nat -> (1 <= k <= d)%nat ->
     A' (dof d a m) (dof d b k) = A (dof d a m) (dof d b k) + kron m k * (c * g a * g b)) ->
  bil (d * n) A' u v = bil (d * n) A u v + c * sumf d (fun i => interp d n g u i * interp d n g v i).
Proof.
  intros H. unfold bil, mv. rewrite !sumf_dof.
  transitivity (sumf n (fun a => sumf d (fun m => u (dof d a m) * sumf (d * n) (fun j => A (dof d a m) j * v j)))
     + sumf n (fun a => sumf d (fun m => u (dof d a m) * (c * g a * sumf n (fun b => g b * v (dof d b m)))))).
  - rewrite <- sumf_plus. apply sumf_ext. intros a Ha. rewrite <- sumf_plus. apply sumf_ext. intros m Hm. rewrite <- Rmult_plus_distr_l. f_equal.
    rewrite !sumf_dof. rewrite <- sumf_scal, <- sumf_plus. apply sumf_ext. intros b Hb.
    rewrite <- (sumf_kron d m (fun k => c * g a * (g b * v (dof d b k))) Hm), <- sumf_plus. apply sumf_ext. intros k Hk.
    rewrite H by assumption. unfold kron. rewrite (Nat.eqb_sym k m). ring.
  - f_equal. rewrite sumf_swap, <- sumf_scal. apply sumf_ext. intros m _. unfold interp. fold (dof d).
    rewrite <- sumf_scal_r, <- sumf_scal. apply sumf_ext. intros a _. unfold dof. ring.
Qed.

Theorem mass_total d n pts : forall EM, rows EM = (d * n)%nat -> cols EM = (d * n)%nat ->
  exists EM', massLoop d n pts EM = Ret EM' /\ rows EM' = rows EM /\ cols EM' = cols EM /\
    forall u v, bil (d * n) (el EM') u v = bil (d * n) (el EM) u v + massForm d n pts u v.
Proof.
  induction pts as [|[[rho w] N] t IH]; intros EM HR HC.
  - exists EM. repeat split. intros. unfold massForm, sumL. cbn. ring.
  - cbn [massLoop].
    destruct (formMass_ok (mkElm d false n d N (fun _ _ => 0) 0) rho w EM HR HC) as [E1 [X1 [R1 [C1 e1]]]].
    rewrite X1. cbn [bind]. destruct (IH E1) as [E2 [X2 [R2 [C2 e2]]]]; [rewrite R1; exact HR|rewrite C1; exact HC|].
    exists E2. split; [exact X2|]. split; [rewrite R2; exact R1|]. split; [rewrite C2; exact C1|].
    intros u v. rewrite e2. cbn [nsd nen shp] in e1.
    rewrite (mass_point_bil d n (el EM) (el E1) N (rho * w) u v) by (intros; rewrite e1 by assumption; ring).
    unfold massForm, sumL. cbn [fold_right]. ring.
Qed.
