(** Proofs about the norms of linear analyses. *)
From Verif Require Import Lib.Base Lib.Sums Lib.Tensor3 Spec.Hooke Spec.Continuum Model.Continuum Model.LinIsotropic Model.Thermal
  Proofs.LinIsotropic Proofs.Continuum Proofs.ContinuumAxi Model.LinElement Spec.LinElement Proofs.LinElement Model.LinSystem Spec.LinSystem
  Model.LinNorms Spec.LinNorms.
From Verif Require Model.Norms.
Import ListNotations.

Definition symm3 (T : t3) : Prop := forall i j, T i j = T j i.
(** The stored components of a tensor. *)
Definition sigL (k : solid) (T : t3) : list R := vecL (nsk k) (fun r => let '(i, j) := vp k r in T i j).

Lemma tens_red k four T (C : mat) : (k = AxiSolid -> four = true) ->
  Norms.reduce (matL (nsk k) C) (tensL (sdim k) four T) = sigL k T.
Proof. intros H. destruct k, four; try reflexivity; specialize (H eq_refl); discriminate. Qed.
Lemma subl_sig k S T : Norms.subl (sigL k S) (sigL k T) = sigL k (minus3 S T).
Proof. destruct k; reflexivity. Qed.
Lemma dot_eng k S e : symm3 S -> ofKind k e -> Norms.dotl (sigL k S) (vecL (nsk k) (engv k e)) = ddot3 S e.
Proof.
  intros HS [He H]. unfold ddot3. rewrite (HS 2 1)%nat, (HS 3 1)%nat, (HS 3 2)%nat, (He 2 1)%nat, (He 3 1)%nat, (He 3 2)%nat by lia.
  destruct k; cbn; unfold engv, engineering; cbn; try (destruct H as [-> [-> ->]]); try (destruct H as [-> ->]); ring.
Qed.
Lemma vecL_ext n f g : (forall r, (1 <= r <= n)%nat -> f r = g r) -> vecL n f = vecL n g.
Proof. intros H. unfold vecL. apply map_ext_in. intros r Hr. apply in_seq in Hr. apply H. lia. Qed.

(** The inverse constitutive matrix gives the complementary energy. *)
Lemma cinv_ok k n s p : isKind k n s -> validPt k p -> 0 < pE p ->
  exists D, cmatrix (lnsd s) (lps s) (lax s) true (pE p) (pNu p) = Ret D /\
    forall S T, symm3 S -> symm3 T -> Norms.dotl (sigL k S) (Norms.mulv (matL (nsk k) D) (sigL k T)) = compliance k p S T.
Proof.
  intros [H1 [H2 [H3 H4]]] [Hn _ _] HE. rewrite H1, H2. unfold compliance.
  set (E := pE p) in *. set (nu := pNu p) in *.
  assert (N1 : 1 + nu <> 0) by lra. assert (N4 : 2 + nu + nu <> 0) by lra. assert (N5 : E <> 0) by lra.
  assert (X : exists D, cmatrix (sdim k) (lps s) (isAx k) true E nu = Ret D /\ cmatrix (sdim k) (match k with PlaneStrain => false | _ => true end) (isAx k) true E nu = Ret D).
  { destruct k; cbn [isAx sdim] in *; rewrite ?H4; try destruct (lps s); unfold cmatrix; cbn [Nat.eqb]; repeat nu_ok; red_c; eexists; split; reflexivity. }
  destruct X as [D [X1 X2]]. exists D. split; [exact X1|]. clear X1. intros S T HS HT. revert X2.
  destruct k; cbn [isAx sdim]; unfold cmatrix; cbn [Nat.eqb]; repeat nu_ok; red_c; intros Q; injection Q as <-;
  unfold ddot3, tr3, complete3; cbn; rewrite ?(HS 2 1)%nat, ?(HS 3 1)%nat, ?(HS 3 2)%nat, ?(HT 2 1)%nat, ?(HT 3 1)%nat, ?(HT 3 2)%nat; field; repeat split; lra.
Qed.
(** Hooke's law and the complementary energy belong together. *)
Lemma compl_hooke k p S e : validPt k p -> 0 < pE p -> symm3 S -> ofKind k e -> compliance k p S (hookeOf k p e) = ddot3 S e.
Proof.
  intros [Hn _ _] HE HS [He H]. unfold compliance, hookeOf, hooke, trace. set (E := pE p) in *. set (nu := pNu p) in *.
  assert (PL : lamOf PlaneStress E nu = E * nu / (1 - nu * nu)). { unfold lamOf, lame1, lame2. field. repeat split; try lra; nra. }
  destruct k; unfold ddot3, tr3, complete3, kron; cbn; rewrite ?PL;
  rewrite ?(HS 2 1)%nat, ?(HS 3 1)%nat, ?(HS 3 2)%nat, ?(He 2 1)%nat, ?(He 3 1)%nat, ?(He 3 2)%nat by lia;
  try (destruct H as [h1 [h2 h3]]; rewrite ?h1, ?h2, ?h3); try (destruct H as [h1 h2]; rewrite ?h1, ?h2);
  unfold lame1, lame2; field; repeat split; try lra; nra.
Qed.
Lemma compl_sym k p S T : compliance k p S T = compliance k p T S.
Proof. unfold compliance, ddot3. ring. Qed.
Lemma compl_minus k p S T U : compliance k p (minus3 S T) U = compliance k p S U - compliance k p T U.
Proof. unfold compliance. destruct k; unfold ddot3, tr3, complete3, minus3; cbn; ring. Qed.
Lemma hooke_work k p e e' : ofKind k e -> ofKind k e' -> ddot3 (hookeOf k p e) e' = density k p e e'.
Proof.
  intros [He H] [He' H']. unfold hookeOf, hooke, density, ddot3, tr3, trace, kron; cbn. ring.
Qed.
Lemma hooke_symm k p e : (forall i j, e i j = e j i) -> symm3 (hookeOf k p e).
Proof. intros He i j. unfold hookeOf, hooke, kron. rewrite (Nat.eqb_sym i j), (He i j). reflexivity. Qed.
Lemma strain_symm k n p u i j : strainOf k n p u i j = strainOf k n p u j i.
Proof.
  unfold strainOf. rewrite (andb_comm (i <=? sdim k)), (Rplus_comm (gradient _ _ _ _ i j)).
  rewrite <- !andb_assoc, (andb_comm (i =? 3)%nat). reflexivity.
Qed.
Lemma elastic_symm k n th p u i j : elasticOf k n th p u i j = elasticOf k n th p u j i.
Proof.
  unfold elasticOf. rewrite strain_symm. f_equal. destruct th; [|reflexivity]. unfold expansion. rewrite (Nat.eqb_sym j i).
  destruct (Nat.eqb_spec i j) as [<-|]; reflexivity.
Qed.
Lemma elastic_kind k n th p u : ofKind k (elasticOf k n th p u).
Proof.
  split; [intros; apply elastic_symm|]. unfold elasticOf, strainOf, expansion. destruct k, th; cbn; repeat split; try ring; exact I.
Qed.

(** The stress of the norms. *)
Lemma elastic_eng k n s p u B : isKind k n s ->
  (forall u r, (1 <= r <= nsk k)%nat -> mv (sdim k * n) (el B) u r = engv k (strainOf k n p u) r) ->
  forall r, (1 <= r <= nsk k)%nat -> sub_normal (lnsd s) (lax s) (mv (lnsd s * lnen s) (el B) u) (thermT s p) r = engv k (elasticOf k n (hasT s) p u) r.
Proof.
  intros [H1 [H2 [H3 _]]] HB r Hr. unfold sub_normal, thermT. rewrite H1, H2, H3, HB by exact Hr. unfold engv, elasticOf.
  destruct k; cbn [nsk] in Hr; idx r; try (exfalso; lia); unfold engineering, expansion; cbn; destruct (hasT s); ring.
Qed.
Lemma red3 k (C : mat) a b z c : sdim k = 2%nat -> isAx k = false -> Norms.reduce (matL (nsk k) C) [a; b; z; c] = [a; b; c].
Proof. destruct k; try discriminate; reflexivity. Qed.
Lemma stress_comp k n s p : isKind k n s -> validPt k p ->
  exists C, cmatrix (lnsd s) (lps s) (lax s) false (pE p) (pNu p) = Ret C /\
    forall A, ofKind k A -> forall r, (1 <= r <= nsk k)%nat -> mv (nsk k) (el C) (engv k A) r = let '(i, j) := vp k r in hookeOf k p A i j.
Proof.
  intros [H1 [H2 [H3 H4]]] [Hn _ _]. rewrite H1, H2. unfold hookeOf, hooke, trace.
  set (E := pE p). set (nu := pNu p). fold nu in Hn.
  assert (N1 : 1 + nu <> 0) by lra. assert (N2 : 1 - 2 * nu <> 0) by lra.
  assert (N3 : 1 - nu * nu <> 0) by nra. assert (N4 : 2 + nu + nu <> 0) by lra. assert (N5 : 1 - nu - nu <> 0) by lra. assert (N6 : 1 - nu <> 0) by lra.
  assert (PL' : lamOf PlaneStress E nu = E * nu / (1 - nu * nu)).
  { destruct (Req_dec E 0) as [->|Z]; unfold lamOf, lame1, lame2; [unfold Rdiv; rewrite !Rmult_0_l, !Rmult_0_r, !Rmult_0_l; reflexivity|]. field. repeat split; try lra; nra. }
  assert (X : exists D, cmatrix (sdim k) (lps s) (isAx k) false E nu = Ret D /\ cmatrix (sdim k) (match k with PlaneStrain => false | _ => true end) (isAx k) false E nu = Ret D).
  { destruct k; cbn [isAx sdim] in *; rewrite ?H4; try destruct (lps s); unfold cmatrix; cbn [Nat.eqb]; repeat nu_ok; red_c; eexists; split; reflexivity. }
  destruct X as [D [X1 X2]]. exists D. split; [exact X1|]. clear X1. intros A [HA H] r Hr. revert X2.
  destruct k; cbn [isAx sdim nsk] in *; unfold cmatrix; cbn [Nat.eqb]; repeat nu_ok; red_c; intros Q; injection Q as <-;
  rewrite ?PL'; try (destruct H as [h1 [h2 h3]]); try (destruct H as [h1 h2]);
  idx r; try (exfalso; lia); unfold mv, engv, engineering, kron; cbn; rewrite ?h1, ?h2, ?h3; unfold lame1, lame2; field; repeat split; lra.
Qed.

Lemma normStress_ok k n s p u : isKind k n s -> validPt k p -> k <> AxiSolid \/ thermT s p = 0 ->
  exists l, normStress s p false u = Ret l /\ forall C, Norms.reduce (matL (nsk k) C) l = sigL k (hookeOf k p (elasticOf k n (hasT s) p u)).
Proof.
  intros K V Hax. destruct (bmat_ok k n s p K V) as [B [EB HB]]. destruct (stress_comp k n s p K V) as [C [EC HC]].
  pose proof (elastic_eng k n s p u B K HB) as HE. set (e := elasticOf k n (hasT s) p u) in *.
  assert (HS : forall r, (1 <= r <= nsk k)%nat -> mv (nsk k) (el C) (sub_normal (lnsd s) (lax s) (mv (lnsd s * lnen s) (el B) u) (thermT s p)) r = let '(i, j) := vp k r in hookeOf k p e i j).
  { intros r Hr. rewrite <- HC by (try apply elastic_kind; exact Hr). unfold mv at 1 3. apply sumf_ext. intros i Hi. rewrite HE by exact Hi. reflexivity. }
  clear HC HE HB. unfold normStress, kinem, recovered, stress. cbn [bind]. rewrite EB. cbn [bind snd]. rewrite EC. cbn [bind].
  destruct K as [H1 [H2 [H3 H4]]]. rewrite H1, H2 in *. 
  replace (nst (sdim k) (isAx k)) with (nsk k) by (destruct k; reflexivity).
  set (m := mv (nsk k) (el C) _) in *. clearbody m. destruct k; cbn [isAx sdim nsk] in *; rewrite ?H4; cbn -[Rmult Rminus Rplus hookeOf]. 
  - eexists. split; [reflexivity|]. intros D. unfold sigL, Norms.reduce, Norms.removed. cbn. rewrite !HS by lia. reflexivity.
  - eexists. split; [reflexivity|]. intros D. unfold sigL, Norms.reduce, Norms.removed. cbn. rewrite !HS by lia. reflexivity.
  - destruct Hax as [Hax|Hax]; [congruence|]. rewrite Hax. destruct (lps s); cbn; eexists; (split; [reflexivity|]); intros D;
    unfold sigL, Norms.reduce, Norms.removed; cbn; rewrite !HS by lia; cbn; rewrite ?Rmult_0_r, ?Rminus_0_r; reflexivity.
  - destruct (lps s); cbn; eexists; (split; [reflexivity|]); intros D; unfold sigL, Norms.reduce, Norms.removed; cbn; rewrite !HS by lia; reflexivity.
Qed.
(** Dual strains. *)
Definition dualL (k : solid) (n : nat) (p : lpt) (z : option (nat -> R)) : list R :=
  match z with Some w => vecL (nsk k) (engv k (strainOf k n p w)) | None => [] end.
Lemma dualEps_ok k n s p zs : isKind k n s -> validPt k p -> dualEps s p zs = Ret (map (dualL k n p) zs).
Proof.
  intros K V. destruct (bmat_ok k n s p K V) as [B [EB HB]]. induction zs as [|z zs IH]; [reflexivity|]. cbn [dualEps map]. rewrite IH.
  destruct z as [w|]; cbn [bind dualL]; [|reflexivity]. unfold kinem. rewrite EB. cbn [bind snd]. rewrite (nst_kind _ _ _ K).
  destruct K as [H1 [H2 [H3 H4]]]. rewrite H1, H3. do 2 f_equal. apply vecL_ext. intros r Hr. apply HB. exact Hr.
Qed.

(** What one point adds. *)
Lemma point_norms k n s h p u zs (anasol four : bool) sg : isKind k n s -> validPt k p -> 0 < pE p -> k <> AxiSolid \/ thermT s p = 0 ->
  (anasol = true -> k = AxiSolid -> four = true) -> (anasol = true -> symm3 sg) ->
  exists d, normPt s h false p u zs (if anasol then Some (tensL (lnsd s) four sg) else None) [] 0 = Ret d /\
    Norms.evalInt d = pointNorms k n (hasT s) h anasol p sg u zs.
Proof.
  intros K V HE Hax Hf Hs. destruct (cinv_ok k n s p K V HE) as [D [ED HD]]. destruct (normStress_ok k n s p u K V Hax) as [l [El Hl]].
  unfold normPt. cbn [negb]. rewrite ED. cbn [bind]. rewrite El. cbn [bind]. rewrite (dualEps_ok k n s p zs K V). cbn [bind]. eexists. split; [reflexivity|].
  pose proof (nst_kind _ _ _ K) as Kn. rewrite Kn. destruct K as [H1 [H2 [H3 H4]]]. rewrite H1, H2, H3 in *.
  set (e := elasticOf k n (hasT s) p u) in *. set (T := hookeOf k p e) in *.
  assert (Ke : ofKind k e) by apply elastic_kind. assert (ST : symm3 T) by (apply hooke_symm; intros; apply elastic_symm).
  unfold Norms.evalInt, Norms.detJW, Norms.energy. cbn [Norms.Cinv Norms.sigh Norms.ana Norms.loads Norms.duals Norms.prj Norms.detJxW Norms.axiN Norms.Xr flat_map].
  rewrite Hl, (HD T T ST ST). unfold T at 1 2. rewrite compl_hooke, hooke_work by assumption.
  assert (W : (if isAx k then pW p * (2 * PI * pX p) else pW p) = vol k p) by (unfold vol; destruct (isAx k); ring). rewrite W. clear W.
  unfold pointNorms. fold e. fold T. rewrite app_nil_r. cbn [app]. f_equal; [ring|]. f_equal.
  { destruct h; [|reflexivity]. rewrite Rmult_comm. f_equal. apply sumf_ext. intros i _. f_equal. unfold interp. apply sumf_ext. intros. ring. }
  assert (FM : forall A, (anasol = true -> symm3 A) -> True) by auto. clear FM.
  destruct anasol.
  - rewrite tens_red by (apply Hf; reflexivity). rewrite subl_sig. specialize (Hs eq_refl).
    assert (SM : symm3 (minus3 sg T)) by (intros i j; unfold minus3; rewrite (Hs i j), (ST i j); reflexivity).
    rewrite (HD sg sg Hs Hs), (HD _ _ SM SM). cbn [app]. do 2 (f_equal; [ring|]). f_equal.
    rewrite flat_map_concat_map, map_map, <- flat_map_concat_map. apply flat_map_ext. intros z. cbn [app].
    destruct z as [w|]; cbn [dualL dualWork]; [rewrite !dot_eng by (try apply strain_kind; assumption); f_equal; [ring|]; f_equal; ring|].
    assert (Z : forall a, Norms.dotl a [] = 0) by (intros [|]; reflexivity). rewrite !Z. f_equal; [ring|]. f_equal. ring.
  - cbn [app]. f_equal. rewrite flat_map_concat_map, map_map, <- flat_map_concat_map. apply flat_map_ext. intros z.
    destruct z as [w|]; cbn [dualL dualWork]; [rewrite !dot_eng by (try apply strain_kind; assumption); f_equal; ring|].
    assert (Z : forall a, Norms.dotl a [] = 0) by (intros [|]; reflexivity). rewrite !Z. f_equal. ring.
Qed.
(** Output of strains: the energy is the same, without analytical solution; the dual entries are products of engineering strains. *)
Definition strainWork (k : solid) (n : nat) (p : lpt) (e : t3) (z : option (nat -> R)) : R :=
  match z with Some w => sumf (nsk k) (fun r => engv k e r * engv k (strainOf k n p w) r) | None => 0 end.
Lemma point_strain k n s h p u zs : isKind k n s -> validPt k p ->
  exists d, normPt s h true p u zs None [] 0 = Ret d /\
    Norms.evalInt d = pointNorms k n (hasT s) h false p (fun _ _ => 0) u [] ++ map (fun z => vol k p * strainWork k n p (elasticOf k n (hasT s) p u) z) zs.
Proof.
  intros K V. destruct (bmat_ok k n s p K V) as [B [EB HB]]. destruct (cmat_ok k n s p K V) as [C [EC [HC _]]].
  pose proof (elastic_eng k n s p u B K HB) as HE. pose proof (elastic_kind k n (hasT s) p u) as Ke. set (e := elasticOf k n (hasT s) p u) in *.
  unfold normPt. cbn [negb]. rewrite EC. cbn [bind]. rewrite (dualEps_ok k n s p zs K V).
  unfold normStress, kinem. rewrite EB. cbn [bind snd]. eexists. split; [reflexivity|].
  pose proof (nst_kind _ _ _ K) as Kn. rewrite Kn. destruct K as [H1 [H2 [H3 H4]]]. rewrite H1, H2, H3 in *.
  set (sn := sub_normal _ _ _ _) in *. clearbody sn.
  assert (R : Norms.reduce (matL (nsk k) C) (if ((sdim k =? 2)%nat && negb (isAx k) && negb (lps s))%bool then [sn 1%nat; sn 2%nat; 0; sn 3%nat] else vecL (nsk k) sn) = vecL (nsk k) (engv k e)).
  { destruct k; cbn in H4; rewrite ?H4; unfold Norms.reduce, Norms.removed; cbn -[engv]; cbn [nsk] in HE; rewrite !HE by lia; reflexivity. }
  unfold Norms.evalInt, Norms.detJW. cbn [Norms.Cinv Norms.sigh Norms.ana Norms.loads Norms.duals Norms.prj Norms.detJxW Norms.axiN Norms.Xr flat_map]. rewrite R.
  assert (EN : Norms.energy (matL (nsk k) C) (vecL (nsk k) (engv k e)) = density k p e e).
  { rewrite <- HC by assumption. unfold Norms.energy. destruct k; cbn -[engv]; ring. }
  rewrite EN. assert (W : (if isAx k then pW p * (2 * PI * pX p) else pW p) = vol k p) by (unfold vol; destruct (isAx k); ring). rewrite W. clear W.
  unfold pointNorms. fold e. rewrite app_nil_r. cbn [app flat_map]. f_equal; [ring|]. f_equal.
  { destruct h; [|reflexivity]. rewrite Rmult_comm. f_equal. apply sumf_ext. intros i _. f_equal. unfold interp. apply sumf_ext. intros. ring. }
  f_equal. induction zs as [|z zs IH]; [reflexivity|]. cbn [map flat_map app]. rewrite IH. f_equal. rewrite Rmult_comm. f_equal.
  destruct z as [w|]; cbn [dualL strainWork]; [destruct k; cbn -[engv]; ring|]. destruct (vecL (nsk k) (engv k e)); reflexivity.
Qed.
