(** Properties C17-C19, C24-C27, C74 and C107: kinematics, stiffness, mass and loads of the continuum elements. *)
From Coquelicot Require RInt Hierarchy.
From Verif Require Import Lib.Base Lib.Sums Lib.Writes Lib.Tensor3 Model.Continuum Spec.Continuum
  Proofs.Continuum Proofs.ContinuumKin Proofs.ContinuumK Proofs.ContinuumLoad Proofs.ContinuumAxi Proofs.ContinuumHoop.

Theorem C17_green_strain_and_derivative : forall d n N G r u, (d = 2 \/ d = 3)%nat -> (1 <= n)%nat ->
  exists F E B, kinematicsTL (plane d n N G r) (d * n) u = Ret (F, E, B) /\
    (forall i j, (1 <= i <= d)%nat -> (1 <= j <= d)%nat -> el F i j = kron i j + gradient d n G u i j) /\
    (forall v, (1 <= v <= nvoigt d)%nat -> el E v 1 = greenVoigt d (el F) v) /\
    ((forall v, (1 <= v <= nvoigt d)%nat -> el E v 1 = 0) <-> isometry d (el F)) /\
    (forall dl, exists F' E' B', kinematicsTL (plane d n N G r) (d * n) (fun k => u k + dl k) = Ret (F', E', B') /\
      forall v, (1 <= v <= nvoigt d)%nat ->
        el E' v 1 = el E v 1 + mv (d * n) (el B) dl v + quadVoigt d (gradient d n G dl) v).
Proof. exact tl_strain_and_B. Qed.
Print Assumptions C17_green_strain_and_derivative.

Theorem C17_initial_configuration : forall d n N G r, (d = 2 \/ d = 3)%nat -> (1 <= n)%nat ->
  exists F0 E0 B0 F E B, kinematicsTL (plane d n N G r) 0 (fun _ => 0) = Ret (F0, E0, B0) /\
    kinematicsTL (plane d n N G r) (d * n) (fun _ => 0) = Ret (F, E, B) /\
    (forall v k, (1 <= v <= nvoigt d)%nat -> (1 <= k <= d * n)%nat -> el B0 v k = el B v k) /\
    (forall v, (1 <= v <= nvoigt d)%nat -> el E0 v 1 = 0 /\ el E v 1 = 0).
Proof. exact tl_initial. Qed.
Print Assumptions C17_initial_configuration.

(** A quarter turn given by nodal displacements is strain free. *)
Definition turnG (a j : nat) : R := if ((a =? 2) && (j =? 1) || (a =? 3) && (j =? 2))%nat%bool then 1 else 0.
Definition turnU (k : nat) : R := match k with 3%nat => -1 | 4%nat => 1 | 5%nat => -1 | 6%nat => -1 | _ => 0 end.
Example C17_case : exists F E B, kinematicsTL (plane 2 3 (fun _ => 1/3) turnG 0) 6 turnU = Ret (F, E, B) /\
  el F 1 2 = -1 /\ el F 2 1 = 1 /\ forall v, (1 <= v <= 3)%nat -> el E v 1 = 0.
Proof.
  destruct (tl_strain_and_B 2 3 (fun _ => 1/3) turnG 0 turnU ltac:(auto) ltac:(lia)) as [F [E [B [K [f [e _]]]]]].
  exists F, E, B. split; [exact K|].
  assert (X : forall i j, (1 <= i <= 2)%nat -> (1 <= j <= 2)%nat -> el F i j = if (i =? j)%nat then 0 else if (i =? 1)%nat then -1 else 1).
  { intros i j Hi Hj. rewrite f by assumption. unfold gradient. idx i; idx j; cbn; unfold kron, turnG; cbn; lra. }
  rewrite !X by lia. cbn. split; [reflexivity|]. split; [reflexivity|].
  intros v Hv. rewrite e by exact Hv. cbn in Hv. unfold greenVoigt, cauchyGreen. idx v; cbn; rewrite !X by lia; cbn; lra.
Qed.

Theorem C18_internal_forces_agree : forall d n N G r u F E B Sv w ES, (d = 2 \/ d = 3)%nat -> (1 <= n)%nat ->
  kinematicsTL (plane d n N G r) (d * n) u = Ret (F, E, B) -> rows ES = (d * n)%nat -> cols ES = 1%nat ->
  exists ES', intForceTensor (plane d n N G r) F (stressTensor d Sv) w ES = Ret ES' /\
    forall k, (1 <= k <= d * n)%nat -> el ES' k 1 = el ES k 1 + intForceB (nvoigt d) (el B) Sv w k.
Proof. exact internal_forces_agree. Qed.
Print Assumptions C18_internal_forces_agree.

Theorem C19_general_kernel_2D_partial : forall n N G r u F E B C w EK, (1 <= n)%nat -> symm 3 C ->
  kinematicsTL (plane 2 n N G r) (2 * n) u = Ret (F, E, B) -> rows EK = (2 * n)%nat -> cols EK = (2 * n)%nat ->
  exists EK', stiff_TL2D (plane 2 n N G r) (el F) C w EK = Ret EK' /\
    forall i j, (1 <= i <= 2 * n)%nat -> (1 <= j <= 2 * n)%nat -> el EK' i j = el EK i j + stiffB 3 (2 * n) (el B) C w i j.
Proof. exact tl2d_general. Qed.
Print Assumptions C19_general_kernel_2D_partial.

(** Full statement wanted in 3D: the same for every symmetric C. What holds: B^T C' B with the fifth and sixth
    rows and columns of C exchanged, hence B^T C B when C is invariant under that exchange. *)
Theorem C19_general_kernel_3D_partial : forall n N G r u F E B C w EK, (1 <= n)%nat -> symm 6 C ->
  kinematicsTL (plane 3 n N G r) (3 * n) u = Ret (F, E, B) -> rows EK = (3 * n)%nat -> cols EK = (3 * n)%nat ->
  exists EK', stiff_TL3D (plane 3 n N G r) (el F) C w EK = Ret EK' /\
    (forall i j, (1 <= i <= 3 * n)%nat -> (1 <= j <= 3 * n)%nat ->
      el EK' i j = el EK i j + stiffB 6 (3 * n) (el B) (fun v z => C (sw56 v) (sw56 z)) w i j) /\
    ((forall v z, (1 <= v <= 6)%nat -> (1 <= z <= 6)%nat -> C (sw56 v) (sw56 z) = C v z) ->
     forall i j, (1 <= i <= 3 * n)%nat -> (1 <= j <= 3 * n)%nat -> el EK' i j = el EK i j + stiffB 6 (3 * n) (el B) C w i j).
Proof.
  intros n N G r u F E B C w EK Hn HC HK HR Hc.
  destruct (tl3d_general_swapped n N G r u F E B C w EK Hn HC HK HR Hc) as [EK' [E1 V1]].
  exists EK'. split; [exact E1|]. split; [exact V1|]. intros Hinv.
  destruct (tl3d_general_if_invariant n N G r u F E B C w EK Hn HC Hinv HK HR Hc) as [EK2 [E2 V2]].
  rewrite E1 in E2. injection E2 as <-. exact V2.
Qed.
Print Assumptions C19_general_kernel_3D_partial.

Theorem C19_general_kernel_3D_refuted : exists n N G r u F E B C EK EK',
  (1 <= n)%nat /\ symm 6 C /\ kinematicsTL (plane 3 n N G r) (3 * n) u = Ret (F, E, B) /\
  rows EK = (3 * n)%nat /\ cols EK = (3 * n)%nat /\ stiff_TL3D (plane 3 n N G r) (el F) C 1 EK = Ret EK' /\
  el EK' 3 3 <> el EK 3 3 + stiffB 6 (3 * n) (el B) C 1 3 3.
Proof. exact tl3d_general_wrong. Qed.
Print Assumptions C19_general_kernel_3D_refuted.

Theorem C19_isotropic_kernels : forall n N G r u F E B C c1 c2 c3 w EK, (1 <= n)%nat ->
  (isoStruct 2 C c1 c2 c3 ->
   kinematicsTL (plane 2 n N G r) (2 * n) u = Ret (F, E, B) -> rows EK = (2 * n)%nat -> cols EK = (2 * n)%nat ->
   exists EK', stiff_TL2D_isoel (plane 2 n N G r) (el F) c1 c2 c3 w EK = Ret EK' /\
     forall i j, (1 <= i <= 2 * n)%nat -> (1 <= j <= 2 * n)%nat -> el EK' i j = el EK i j + stiffB 3 (2 * n) (el B) C w i j) /\
  (isoStruct 3 C c1 c2 c3 ->
   kinematicsTL (plane 3 n N G r) (3 * n) u = Ret (F, E, B) -> rows EK = (3 * n)%nat -> cols EK = (3 * n)%nat ->
   exists EK', stiff_TL3D_isoel (plane 3 n N G r) (el F) c1 c2 c3 w EK = Ret EK' /\
     forall i j, (1 <= i <= 3 * n)%nat -> (1 <= j <= 3 * n)%nat -> el EK' i j = el EK i j + stiffB 6 (3 * n) (el B) C w i j).
Proof. intros. split; [apply tl2d_iso|apply tl3d_iso]; assumption. Qed.
Print Assumptions C19_isotropic_kernels.

(** The 1D kernel forgets the integration weight. *)
Theorem C19_weight_1D_refuted : forall n N G r F C w, (1 <= n)%nat -> F 1%nat 1%nat * G 1%nat 1%nat <> 0 -> C 1%nat 1%nat <> 0 -> w <> 1 ->
  exists EM, stiff_TL1D (plane 1 n N G r) F C w (zeros n n) = Ret EM /\
    el EM 1 1 <> (F 1%nat 1%nat * G 1%nat 1%nat) * (C 1%nat 1%nat * w) * (F 1%nat 1%nat * G 1%nat 1%nat).
Proof.
  intros n N G r F C w Hn H1 H2 H3. destruct (tl1d_value n N G r F C w (zeros n n) eq_refl eq_refl) as [EM [E V]].
  exists EM. split; [exact E|]. rewrite V by lia. cbn [el zeros]. intros Q. apply H3.
  set (x := F 1%nat 1%nat * G 1%nat 1%nat) in *. set (c := C 1%nat 1%nat) in *.
  assert (Z : (x * x * c) * (w - 1) = 0) by (rewrite Rmult_minus_distr_l; lra).
  apply Rmult_integral in Z. destruct Z as [Z|Z]; [|lra].
  exfalso. apply Rmult_integral in Z. destruct Z as [Z|Z]; [apply Rmult_integral in Z; destruct Z|]; contradiction.
Qed.
Print Assumptions C19_weight_1D_refuted.

Theorem C24_nanson_space : forall F p (a b : nat -> R), 0 < det3 F ->
  exists T, followTL 3 (inv3 F) (det3 F) (fun k => p * cross a b k) = Ret T /\
    followUL 3 (inv3 F) (det3 F) (fun k => p * cross a b k) = Ret T /\
    forall i, (1 <= i <= 3)%nat -> T i = p * cross (fun k => mv 3 F a k) (fun k => mv 3 F b k) i.
Proof.
  intros F p a b H. exists (pullBack 3 (inv3 F) (det3 F) (fun k => p * cross a b k)). unfold followTL, followUL.
  destruct (Rle_dec (det3 F) 0); [lra|]. destruct (Req_EM_T (det3 F) 0); [lra|].
  split; [reflexivity|]. split; [reflexivity|]. intros i Hi. apply nanson3; [lra|exact Hi].
Qed.
Print Assumptions C24_nanson_space.

Theorem C24_nanson_plane : forall F p (a : nat -> R), 0 < det2 F ->
  exists T, followTL 2 (inv2 F) (det2 F) (fun k => p * rotm90 a k) = Ret T /\
    followUL 2 (inv2 F) (det2 F) (fun k => p * rotm90 a k) = Ret T /\
    forall i, (1 <= i <= 2)%nat -> T i = p * rotm90 (fun k => mv 2 F a k) i.
Proof.
  intros F p a H. exists (pullBack 2 (inv2 F) (det2 F) (fun k => p * rotm90 a k)). unfold followTL, followUL.
  destruct (Rle_dec (det2 F) 0); [lra|]. destruct (Req_EM_T (det2 F) 0); [lra|].
  split; [reflexivity|]. split; [reflexivity|]. intros i Hi. apply nanson2; [lra|exact Hi].
Qed.
Print Assumptions C24_nanson_plane.

Theorem C24_nanson_axisymmetric : forall F p (a : nat -> R), 0 < det3 F ->
  F 1%nat 3%nat = 0 -> F 2%nat 3%nat = 0 -> F 3%nat 1%nat = 0 -> F 3%nat 2%nat = 0 ->
  exists T, followTL 2 (inv3 F) (det3 F) (fun k => p * rotm90 a k) = Ret T /\
    forall i, (1 <= i <= 2)%nat -> T i = p * (F 3%nat 3%nat * rotm90 (fun k => mv 2 F a k) i).
Proof.
  intros F p a H Z1 Z2 Z3 Z4. exists (pullBack 2 (inv3 F) (det3 F) (fun k => p * rotm90 a k)). unfold followTL.
  destruct (Rle_dec (det3 F) 0); [lra|]. split; [reflexivity|]. intros i Hi. apply nanson_axi; auto. lra.
Qed.
Print Assumptions C24_nanson_axisymmetric.

(** An inverted or collapsed configuration is rejected by the total-Lagrangian element. *)
Theorem C24_inverted_rejected : forall d Fi J T, J <= 0 -> followTL d Fi J T = Rejected.
Proof. intros. unfold followTL. destruct (Rle_dec J 0); [reflexivity|contradiction]. Qed.
Print Assumptions C24_inverted_rejected.

Theorem C25_total_lagrangian_partial : forall e eS gS f g zf zg w st, eS <> 0%nat -> gS <> 0%nat -> eS <> gS -> okSlot e st eS -> okSlot e st gS ->
  exists st', loadsTL e eS gS f g zf zg w st = Ret st' /\
    gains e st st' eS (fun i => if zf then 0 else f i * w) /\ gains e st st' gS (fun i => if zg then 0 else g i * w) /\
    (forall k, k <> eS -> k <> gS -> bvec st' k = bvec st k).
Proof. exact gradient_slots_TL. Qed.
Print Assumptions C25_total_lagrangian_partial.

Theorem C25_tractions_partial : forall e eS gS T Tg w dJ st, eS <> 0%nat -> gS <> 0%nat -> eS <> gS -> okSlot e st eS -> okSlot e st gS ->
  (exists st', evalBouNL e eS gS T Tg w st = Ret st' /\ gains e st st' eS (fun i => T i * w) /\ gains e st st' gS (fun i => Tg i * w) /\
     forall k, k <> eS -> k <> gS -> bvec st' k = bvec st k) /\
  (exists st', evalBouLin e eS gS T Tg dJ w st = Ret st' /\ gains e st st' eS (fun i => T i * w) /\ gains e st st' gS (fun i => Tg i * w) /\
     forall k, k <> eS -> k <> gS -> bvec st' k = bvec st k).
Proof. exact gradient_slots_bou. Qed.
Print Assumptions C25_tractions_partial.

(** The updated-Lagrangian element adds the gradient of the body load to the load vector itself and leaves the
    gradient vector untouched, whatever the load. *)
Theorem C25_updated_lagrangian_refuted : forall e eS gS f g w st, eS <> 0%nat -> gS <> 0%nat -> eS <> gS -> okSlot e st eS -> okSlot e st gS ->
  exists st', loadsUL e eS gS f g false false w st = Ret st' /\
    gains e st st' eS (fun i => f i * w + g i * w) /\ (forall k, k <> eS -> bvec st' k = bvec st k).
Proof. intros. apply (gradient_slots_UL e eS gS f g false false w st); assumption. Qed.
Print Assumptions C25_updated_lagrangian_refuted.

Theorem C26_linear_partial : forall e r s1 s2 x y w, (1 <= nsd e)%nat ->
  hoopOK e r s1 -> hoopOK e r s2 -> hoopOK e r (fun i j => x * s1 i j + y * s2 i j) ->
  exists K1 K2 K, formKG e r s1 w (zeros (nsd e * nen e) (nsd e * nen e)) = Ret K1 /\
    formKG e r s2 w (zeros (nsd e * nen e) (nsd e * nen e)) = Ret K2 /\
    formKG e r (fun i j => x * s1 i j + y * s2 i j) w (zeros (nsd e * nen e) (nsd e * nen e)) = Ret K /\
    forall i j, (1 <= i <= nsd e * nen e)%nat -> (1 <= j <= nsd e * nen e)%nat -> el K i j = x * el K1 i j + y * el K2 i j.
Proof. exact kg_linear. Qed.
Print Assumptions C26_linear_partial.

Theorem C26_symmetric : forall e r s w K, (1 <= nsd e)%nat -> symT (nsd e) s ->
  formKG e r s w (zeros (nsd e * nen e) (nsd e * nen e)) = Ret K -> symm (nsd e * nen e) (el K).
Proof. exact kg_symm. Qed.
Print Assumptions C26_symmetric.

Theorem C26_virtual_work : forall d n N G r sig w EM, (1 <= d)%nat -> rows EM = (d * n)%nat -> cols EM = (d * n)%nat ->
  (forall i j, (1 <= i <= d * n)%nat -> (1 <= j <= d * n)%nat -> el EM i j = 0) ->
  exists EM', formKG (plane d n N G 0) r sig w EM = Ret EM' /\
    forall u v, sumf (d * n) (fun i => u i * mv (d * n) (el EM') v i) =
      w * sumf d (fun k => sumf d (fun i => sumf d (fun j => gradient d n G u k i * sig i j * gradient d n G v k j))).
Proof. exact kg_quad. Qed.
Print Assumptions C26_virtual_work.

(** Axisymmetric points: exact for hoop stresses that are not compressive. *)
Theorem C26_virtual_work_axisymmetric_partial : forall n N G r sig w, 0 < r -> 0 <= sig 3%nat 3%nat ->
  exists K, formKG (axisym n N G r) r sig w (zeros (2 * n) (2 * n)) = Ret K /\
    forall u v, sumf (2 * n) (fun i => u i * mv (2 * n) (el K) v i) =
      w * (sumf 2 (fun k => sumf 2 (fun i => sumf 2 (fun j => gradient 2 n G u k i * sig i j * gradient 2 n G v k j)))
           + sig 3%nat 3%nat * (radialDisp n N u / r) * (radialDisp n N v / r)).
Proof. exact kg_quad_axi. Qed.
Print Assumptions C26_virtual_work_axisymmetric_partial.
Example C26_axi_case : exists K, formKG (axisym 1 (fun _ => 1) (fun _ _ => 0) 2) 2 (hoop 8) 1 (zeros 2 2) = Ret K /\
  sumf 2 (fun i => 1 * mv 2 (el K) (fun _ => 1) i) = 2%R.
Proof.
  destruct (kg_quad_axi 1 (fun _ => 1) (fun _ _ => 0) 2 (hoop 8) 1 ltac:(lra) ltac:(cbn; lra)) as [K [E q]].
  exists K. split; [exact E|]. transitivity (sumf (2 * 1) (fun i => 1 * mv (2 * 1) (el K) (fun _ => 1) i)); [reflexivity|].
  rewrite (q (fun _ => 1) (fun _ => 1)). unfold gradient, radialDisp, hoop. cbn. field.
Qed.

Theorem C26_compressive_hoop_refuted : exists K1 K2,
  formKG axiPt 1 (hoop 1) 1 (zeros 2 2) = Ret K1 /\ formKG axiPt 1 (hoop (-1)) 1 (zeros 2 2) = Ret K2 /\
  el K1 1 1 = 1 /\ el K2 1 1 = 0.
Proof. exact kg_compressive_hoop_dropped. Qed.
Print Assumptions C26_compressive_hoop_refuted.

Theorem C27_mass : forall d n pts EM, rows EM = (d * n)%nat -> cols EM = (d * n)%nat ->
  exists EM', massLoop d n pts EM = Ret EM' /\ rows EM' = rows EM /\ cols EM' = cols EM /\
    forall u v, bil (d * n) (el EM') u v = bil (d * n) (el EM) u v + massForm d n pts u v.
Proof. exact mass_total. Qed.
Print Assumptions C27_mass.

Theorem C27_mass_total_and_sign : forall d n pts, (forall rho w N, In (rho, w, N) pts -> sumf n N = 1 /\ 0 <= rho * w) ->
  exists EM, massLoop d n pts (zeros (d * n) (d * n)) = Ret EM /\
    (forall u v, bil (d * n) (el EM) u v = bil (d * n) (el EM) v u) /\
    (forall u, 0 <= bil (d * n) (el EM) u u) /\
    (forall c, bil (d * n) (el EM) (fun k => c (S ((k - 1) mod d))) (fun k => c (S ((k - 1) mod d))) =
       sumL (fun p => let '(rho, w, _) := p in rho * w) pts * sumf d (fun i => c i * c i)).
Proof.
  intros d n pts H. destruct (mass_total d n pts (zeros (d * n) (d * n)) eq_refl eq_refl) as [EM [E [_ [_ V]]]].
  exists EM. split; [exact E|].
  assert (Z : forall u v, bil (d * n) (el (zeros (d * n) (d * n))) u v = 0).
  { intros u v. unfold bil, mv. apply sumf_0. intros. rewrite sumf_0; [ring|]. intros. cbn [el zeros]. ring. }
  split; [|split].
  - intros u v. rewrite !V, !Z. f_equal. unfold massForm. apply sumL_ext. intros [[rho w] N] _. f_equal. apply sumf_ext. intros; ring.
  - intros u. rewrite V, Z. unfold massForm. rewrite Rplus_0_l. apply sumL_nonneg. intros [[rho w] N] HI.
    destruct (H rho w N HI) as [_ P]. apply Rmult_le_pos; [exact P|]. apply sumf_nonneg. intros. nra.
  - intros c. rewrite V, Z, Rplus_0_l. unfold massForm. rewrite Rmult_comm, <- sumL_scal. apply sumL_ext. intros [[rho w] N] HI.
    destruct (H rho w N HI) as [P _]. rewrite Rmult_comm. f_equal. apply sumf_ext. intros i Hi.
    assert (interp d n N (fun k => c (S ((k - 1) mod d))) i = c i) as ->; [|reflexivity].
    unfold interp. rewrite (sumf_ext n _ (fun a => N a * c i)); [rewrite sumf_scal_r, P; ring|].
    intros a Ha. do 2 f_equal. replace (d * (a - 1) + i - 1)%nat with ((i - 1) + (a - 1) * d)%nat by (rewrite (Nat.mul_comm (a - 1) d); generalize (d * (a - 1))%nat; clear - Hi; intros; lia).
    rewrite Nat.mod_add by lia. rewrite Nat.mod_small by lia. lia.
Qed.
Print Assumptions C27_mass_total_and_sign.

Theorem C27_body_load_total : forall e s f isz w st, partUnity e -> okSlot e st s -> (nsd e <= nsum st)%nat ->
  exists st', formBodyForce e s f isz w false st = Ret st' /\
    forall i, (1 <= i <= nsd e)%nat -> slotSum e st' s i - slotSum e st s i = tot st' i - tot st i.
Proof. exact body_total. Qed.
Print Assumptions C27_body_load_total.

Theorem C27_traction_total_nonlinear : forall e eS gS T Tg w st, partUnity e -> eS <> 0%nat -> eS <> gS -> okSlot e st eS -> (gS <> 0%nat -> okSlot e st gS) ->
  (nsd e <= nsum st)%nat ->
  exists st', evalBouNL e eS gS T Tg w st = Ret st' /\
    forall i, (1 <= i <= nsd e)%nat -> slotSum e st' eS i - slotSum e st eS i = tot st' i - tot st i.
Proof. exact bou_total_NL. Qed.
Print Assumptions C27_traction_total_nonlinear.

(** Linear elements: right except in axisymmetric mode, where the reported total lacks the factor 2 pi r. *)
Theorem C27_traction_total_linear_partial : forall e eS gS T Tg dJ st, partUnity e -> eS <> 0%nat -> eS <> gS -> okSlot e st eS -> (gS <> 0%nat -> okSlot e st gS) ->
  (nsd e <= nsum st)%nat ->
  exists st', evalBouLin e eS gS T Tg dJ (axiWeight e dJ) st = Ret st' /\
    (forall i, (1 <= i <= nsd e)%nat -> slotSum e st' eS i - slotSum e st eS i = T i * (if axi e then 2 * PI * rad e * dJ else dJ) /\ tot st' i - tot st i = T i * dJ) /\
    (axi e = false -> forall i, (1 <= i <= nsd e)%nat -> slotSum e st' eS i - slotSum e st eS i = tot st' i - tot st i).
Proof.
  intros e eS gS T Tg dJ st H1 H2 H3 H4 H5 H6. destruct (bou_total_lin e eS gS T Tg dJ st H1 H2 H3 H4 H5 H6) as [st' [E V]].
  exists st'. split; [exact E|]. split; [exact V|]. intros A i Hi. destruct (V i Hi) as [-> ->]. unfold axiWeight. rewrite A. reflexivity.
Qed.
Print Assumptions C27_traction_total_linear_partial.
(** The weight of a boundary point of an axisymmetric model is the area swept by its line element. *)
Theorem C27_revolution : forall e dJ,
  (axi e = true -> @Coquelicot.RInt.is_RInt Coquelicot.Hierarchy.R_NormedModule (fun _ => rad e * dJ) 0 (2 * PI) (axiWeight e dJ)) /\ (axi e = false -> axiWeight e dJ = dJ).
Proof.
  intros e dJ. unfold axiWeight. split; intros ->; [|reflexivity].
  replace (2 * PI * rad e * dJ) with (@Coquelicot.Hierarchy.scal Coquelicot.Hierarchy.R_Ring (Coquelicot.Hierarchy.NormedModule.ModuleSpace _ Coquelicot.Hierarchy.R_NormedModule) (2 * PI - 0) (rad e * dJ)) by (cbv [Coquelicot.Hierarchy.scal]; cbn; unfold Coquelicot.Hierarchy.mult; cbn; ring).
  apply (@Coquelicot.RInt.is_RInt_const Coquelicot.Hierarchy.R_NormedModule).
Qed.
Print Assumptions C27_revolution.

Theorem C27_traction_total_axisymmetric_refuted : exists e eS gS T Tg dJ st st', axi e = true /\ partUnity e /\
  evalBouLin e eS gS T Tg dJ (axiWeight e dJ) st = Ret st' /\
  slotSum e st' eS 1 - slotSum e st eS 1 <> tot st' 1%nat - tot st 1%nat.
Proof.
  pose (e := mkElm 2 true 1 2 (fun _ => 1) (fun _ _ => 0) 1).
  pose (st := mkLoads (fun _ => zeros 2 1) (fun _ => 0) 2).
  destruct (bou_total_lin e 1 0 (fun _ => 1) (fun _ => 0) 1 st) as [st' [E V]].
  { unfold partUnity, e; cbn; ring. } { lia. } { lia. } { split; reflexivity. } { intros H; exfalso; apply H; reflexivity. } { cbn; lia. }
  exists e, 1%nat, 0%nat, (fun _ => 1), (fun _ => 0), 1, st, st'. split; [reflexivity|].
  split; [unfold partUnity, e; cbn; ring|]. split; [exact E|]. destruct (V 1%nat ltac:(cbn; lia)) as [-> ->].
  unfold axiWeight, e. cbn [axi rad]. pose proof PI_RGT_0. pose proof PI2_3_2. intros Q. lra.
Qed.
Print Assumptions C27_traction_total_axisymmetric_refuted.

Theorem C74_in_plane_partial : forall n N G r u, (3 <= n)%nat -> epsR < r ->
  exists F E B, kinematicsTL (axisym n N G r) (2 * n) u = Ret (F, E, B) /\
    (forall i j, (1 <= i <= 2)%nat -> (1 <= j <= 2)%nat -> el F i j = kron i j + gradient 2 n G u i j) /\
    el F 3 3 = 1 + radialDisp n N u / r /\
    el E 1 1 = greenVoigt 2 (el F) 1 /\ el E 2 1 = greenVoigt 2 (el F) 2 /\ el E 4 1 = greenVoigt 2 (el F) 3 /\
    (forall a i, (1 <= a <= n)%nat -> (1 <= i <= 2)%nat ->
       el B 1 (dof 2 a i) = bnl 2 (el F) G 1 i a /\ el B 2 (dof 2 a i) = bnl 2 (el F) G 2 i a /\ el B 4 (dof 2 a i) = bnl 2 (el F) G 3 i a).
Proof.
  intros n N G r u Hn Hr. destruct (axi_tl n N G r u Hn Hr) as [F [E [B [K [f [f3 [e1 [e2 [e4 [b _]]]]]]]]]].
  exists F, E, B. repeat (split; [assumption|]). exact b.
Qed.
Print Assumptions C74_in_plane_partial.

(** The hoop strain is never stored and the hoop row of B is zero outside the third node, for any element. *)
Theorem C74_hoop_strain_refuted : forall n N G r u, (3 <= n)%nat -> epsR < r ->
  exists F E B, kinematicsTL (axisym n N G r) (2 * n) u = Ret (F, E, B) /\
    el F 3 3 = 1 + radialDisp n N u / r /\ el E 3 1 = 0 /\
    (0 < radialDisp n N u -> el E 3 1 <> (el F 3 3 * el F 3 3 - 1) / 2) /\
    (forall a i, (1 <= a <= n)%nat -> (1 <= i <= 2)%nat -> a <> 3%nat -> el B 3 (dof 2 a i) = 0).
Proof.
  intros n N G r u Hn Hr. destruct (axi_tl n N G r u Hn Hr) as [F [E [B [K [_ [f3 [_ [_ [_ [_ [e3 b3]]]]]]]]]]].
  exists F, E, B. split; [exact K|]. split; [exact f3|]. split; [exact e3|]. split; [|exact b3].
  intros P. rewrite e3, f3. pose proof epsR_pos. assert (0 < radialDisp n N u / r) by (apply Rdiv_lt_0_compat; lra). nra.
Qed.
Print Assumptions C74_hoop_strain_refuted.

Theorem C74_small_element_refuted : forall n N G r u, (1 <= n < 3)%nat -> epsR < r -> kinematicsTL (axisym n N G r) (2 * n) u = UB.
Proof. exact axi_tl_ub. Qed.
Print Assumptions C74_small_element_refuted.

Example C74_case : epsR < 1 /\ 0 < radialDisp 3 (fun _ => 1/3) (fun _ => 1).
Proof. split; [exact epsR_lt1|]. unfold radialDisp. cbn. lra. Qed.

(** ** C107: axisymmetric kinematics *)
Theorem C107_strains : forall n N G r, - epsR <= r ->
  exists B, formBmatrixAx (axisym n N G r) = Ret B /\ rows B = 4%nat /\ cols B = (2 * n)%nat /\
    forall u, mv (2 * n) (el B) u 1 = gradient 2 n G u 1 1 /\ mv (2 * n) (el B) u 2 = gradient 2 n G u 2 2 /\
      mv (2 * n) (el B) u 3 = (if Rle_dec r epsR then gradient 2 n G u 1 1 else radialDisp n N u / r) /\
      mv (2 * n) (el B) u 4 = gradient 2 n G u 1 2 + gradient 2 n G u 2 1.
Proof. exact bax_strain. Qed.
Print Assumptions C107_strains.

Theorem C107_negative_radius : forall n N G r, r < - epsR -> formBmatrixAx (axisym n N G r) = Rejected.
Proof. exact bax_reject. Qed.
Print Assumptions C107_negative_radius.

(** Away from the axis the stretches are one plus the strains of the linear matrix. *)
Theorem C107_hoop_stretch_partial : forall n N G r u, (1 <= n)%nat -> epsR < r ->
  exists F B, formDefGradient (axisym n N G r) (2 * n) u false = Ret F /\ formBmatrixAx (axisym n N G r) = Ret B /\
    rows F = 3%nat /\ cols F = 3%nat /\
    (forall i j, (1 <= i <= 2)%nat -> (1 <= j <= 2)%nat -> el F i j = kron i j + gradient 2 n G u i j) /\
    (forall i, (1 <= i <= 2)%nat -> el F i 3 = 0 /\ el F 3 i = 0) /\
    el F 3 3 = 1 + radialDisp n N u / r /\
    forall i, (1 <= i <= 3)%nat -> el F i i = 1 + mv (2 * n) (el B) u i.
Proof.
  intros n N G r u Hn Hr. pose proof epsR_pos as P.
  destruct (axi_defgrad n N G r u Hn) as [F [EF [RF [CF [f [o h]]]]]].
  destruct (bax_strain n N G r ltac:(lra)) as [B [EB [_ [_ b]]]]. destruct (b u) as [b1 [b2 [b3 _]]].
  exists F, B. split; [exact EF|]. split; [exact EB|]. split; [exact RF|]. split; [exact CF|]. split; [exact f|]. split; [exact o|].
  destruct (Rlt_dec epsR r); [|contradiction]. split; [exact h|].
  intros i Hi. assert (C : (i = 1 \/ i = 2 \/ i = 3)%nat) by lia. destruct C as [-> | [-> | ->]].
  - rewrite f, b1 by lia. unfold kron. cbn. reflexivity.
  - rewrite f, b2 by lia. unfold kron. cbn. reflexivity.
  - rewrite h, b3. unfold hoopStrain. destruct (Rle_dec r epsR); [lra|reflexivity].
Qed.
Print Assumptions C107_hoop_stretch_partial.

(** On the axis the deformation gradient has no hoop stretch whatever the displacement. *)
Theorem C107_axis_refuted : forall n N G r u, (1 <= n)%nat -> - epsR <= r <= epsR -> gradient 2 n G u 1 1 <> 0 ->
  exists F B, formDefGradient (axisym n N G r) (2 * n) u false = Ret F /\ formBmatrixAx (axisym n N G r) = Ret B /\
    el F 3 3 = 1 /\ el F 1 1 = 1 + gradient 2 n G u 1 1 /\ mv (2 * n) (el B) u 3 = gradient 2 n G u 1 1 /\
    el F 3 3 <> 1 + mv (2 * n) (el B) u 3.
Proof.
  intros n N G r u Hn Hr HG. destruct (axi_defgrad n N G r u Hn) as [F [EF [_ [_ [f [_ h]]]]]].
  destruct (bax_strain n N G r ltac:(lra)) as [B [EB [_ [_ b]]]]. destruct (b u) as [_ [_ [b3 _]]].
  exists F, B. split; [exact EF|]. split; [exact EB|]. destruct (Rlt_dec epsR r); [lra|]. rewrite Rplus_0_r in h.
  unfold hoopStrain in b3. destruct (Rle_dec r epsR); [|lra]. split; [exact h|].
  split; [rewrite f by lia; unfold kron; cbn; reflexivity|]. split; [exact b3|]. rewrite h, b3. lra.
Qed.
Print Assumptions C107_axis_refuted.

(** Radial expansion u_r = x of the linear triangle with a node on the axis. *)
Definition axG (a j : nat) : R := if ((a =? 2) && (j =? 1) || (a =? 3) && (j =? 2))%nat%bool then 1 else if (a =? 1)%nat then -1 else 0.
Definition axU (k : nat) : R := if (k =? 3)%nat then 1 else 0.
Example C107_case : epsR < 1 /\ radialDisp 3 (fun a => if (a =? 2)%nat then 1 else 0) axU = 1 /\
  - epsR <= 0 <= epsR /\ gradient 2 3 axG axU 1 1 <> 0.
Proof.
  pose proof epsR_pos. pose proof epsR_lt1. split; [assumption|]. split; [unfold radialDisp, axU; cbn; lra|]. split; [lra|].
  unfold gradient, axU, axG. cbn. lra.
Qed.
