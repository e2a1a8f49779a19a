(** Kirchhoff-Love shells (C51, C52, C53, C85). *)
From Coq Require Import List Arith Bool Reals Lra Lia.
From Coquelicot Require Import Coquelicot.
From Verif Require Model.Plate.
From Verif Require Import Lib.Base Lib.Writes Lib.Vec3 Model.Rigid Model.Shell Spec.Shell Proofs.Shell Proofs.ShellVar Proofs.ShellSol.

(** ** C51.  [partition]: the derivatives of the shape functions sum to zero; [rigidMotion nen X t w u]:
    node a moves by t + w x X_a.  [epsZ] is the tolerance of IFEM's Vec3::normalize. *)
Theorem C51_resultants : forall nen dN d2N E nu th X t w u, 0 <= nu < 1/2 -> partition nen dN d2N -> rigidMotion nen X t w u ->
  let g1 := gOf nen dN X 1 in let g2 := gOf nen dN X 2 in epsZ < vlen (vcross g1 g2) ->
  exists n m, evalSol nen dN d2N E nu th g1 g2 (hessOf nen d2N X) u = Ret (n, m) /\ forall i, n i = 0 /\ m i = 0.
Proof. exact rigid_resultants. Qed.
Theorem C51_stiffness : forall nen dN d2N E nu th dj X t w u, 0 <= nu < 1/2 -> partition nen dN d2N -> rigidMotion nen X t w u ->
  let g1 := gOf nen dN X 1 in let g2 := gOf nen dN X 2 in epsZ < vlen (vcross g1 g2) ->
  exists K, evalK dN d2N E nu th dj g1 g2 (hessOf nen d2N X) (fun _ _ => 0) = Ret K /\ forall i, mv (3 * nen) K u i = 0.
Proof. exact rigid_stiffness. Qed.
Theorem C51_strains : forall nen dN d2N X t w u i, partition nen dN d2N -> rigidMotion nen X t w u ->
  epsZ < vlen (vcross (gOf nen dN X 1) (gOf nen dN X 2)) ->
  sumf (3 * nen) (fun r => Bm dN (gOf nen dN X 1) (gOf nen dN X 2) i r * u r) = 0 /\
  sumf (3 * nen) (fun r => Bb dN d2N (gOf nen dN X 1) (gOf nen dN X 2) (hessOf nen d2N X) i r * u r) = 0.
Proof. exact rigid_strain. Qed.
(** A triangle of three nodes meets the hypotheses. *)
Example C51_case : partition 3 shapeEx (fun _ _ _ => 0) /\ epsZ < vlen (vcross (gOf 3 shapeEx posEx 1) (gOf 3 shapeEx posEx 2)) /\
  rigidMotion 3 posEx (V 1 2 3) (V 0 0 1) (fun r => match r with 1%nat => 1 | 2%nat => 2 | 3%nat => 3 | 4%nat => 1 | 5%nat => 3 | 6%nat => 3 | 7%nat => 0 | 8%nat => 2 | _ => 3 end).
Proof.
  split; [|split; [exact ex_regular|]].
  - split; intros al; [intros H; assert (al = 1 \/ al = 2)%nat as [-> | ->] by lia; cbn; ring|intros; cbn; ring].
  - intros a H. assert (a = 1 \/ a = 2 \/ a = 3)%nat as [-> | [-> | ->]] by lia; unfold posOf, vadd, vcross; cbn; f_equal; ring.
Qed.

(** ** C85: energy of the linear shell in terms of the reference metric (independent of the
    parametrisation and of the local frame) *)
Theorem C85_energy : forall nen dN d2N E nu th dj g1 g2 H u, 0 <= nu < 1/2 -> regular g1 g2 ->
  exists K, evalK dN d2N E nu th dj g1 g2 H (fun _ _ => 0) = Ret K /\
  quad (3 * nen) K u = dj * shellPower E nu th (metric g1 g2) (ofV (varE g1 g2 (uVar nen dN d2N u))) (ofV (varK (unitNormal g1 g2) g1 g2 H (uVar nen dN d2N u))).
Proof. exact linear_energy. Qed.
(** The linear strains are the derivatives of the surface strain measures along the displacement:
    linear and nonlinear shell agree at the undeformed state. *)
Theorem C85_tangent : forall nen dN d2N E nu th dj X r s, 0 <= nu < 1/2 -> (1 <= r <= 3 * nen)%nat -> (1 <= s <= 3 * nen)%nat ->
  let g1 := gOf nen dN X 1 in let g2 := gOf nen dN X 2 in let H := hessOf nen d2N X in epsZ < vlen (vcross g1 g2) ->
  exists K F Kn, evalK dN d2N E nu th dj g1 g2 H (fun _ _ => 0) = Ret K /\ atPos nen dN d2N E nu th dj g1 g2 H X = Ret (F, Kn) /\ F r = 0 /\ K r s = Kn r s.
Proof. exact linear_tangent. Qed.
Example C85_case : regular (V 1 0 0) (V 0 1 0) /\ metric (V 1 0 0) (V 0 1 0) = mkS 1 1 0.
Proof. split; [exact unit_regular|]. unfold metric, vdot; cbn. f_equal; ring. Qed.

(** ** C86: a flat shell with the deflection w of a plate recovers the opposite moments. *)
Theorem C86_opposite_partial : forall nen dN d2N E nu th u w i, 0 <= nu < 1/2 -> (1 <= i <= 3)%nat -> (forall a, (1 <= a <= nen)%nat -> u (dof 3 a 3) = w a) ->
  exists N m mp, evalSol nen dN d2N E nu th (V 1 0 0) (V 0 1 0) (mkH vzero vzero vzero) u = Ret (N, m) /\ Plate.moments 2 nen E nu th d2N w = Ret mp /\ m i = - mp i.
Proof. exact flat_moments. Qed.
Theorem C86_same_refuted : exists nen dN d2N E nu th u w N m mp, 0 <= nu < 1/2 /\ (forall a, (1 <= a <= nen)%nat -> u (dof 3 a 3) = w a) /\ evalSol nen dN d2N E nu th (V 1 0 0) (V 0 1 0) (mkH vzero vzero vzero) u = Ret (N, m) /\ Plate.moments 2 nen E nu th d2N w = Ret mp /\ m 1%nat <> mp 1%nat.
Proof. exact flat_refuted. Qed.
(** ** C53.  [atPos x]: element matrices at nodal positions x; [bumpF x s t]: position s increased by t. *)
Theorem C53_force : forall nen dN d2N E nu th dj G1 G2 H0, 0 <= nu < 1/2 -> regular G1 G2 ->
  forall x r, (1 <= r <= 3 * nen)%nat -> epsZ < vlen (vcross (gOf nen dN x 1) (gOf nen dN x 2)) ->
  exists F K, atPos nen dN d2N E nu th dj G1 G2 H0 x = Ret (F, K) /\
  is_derive (fun t => potential nen dN d2N E nu th dj G1 G2 H0 (bumpF x r t)) 0 (- F r).
Proof. exact force_gradient. Qed.
Theorem C53_tangent : forall nen dN d2N E nu th dj G1 G2 H0 x r s, 0 <= nu < 1/2 -> (1 <= r <= 3 * nen)%nat -> (1 <= s <= 3 * nen)%nat ->
  epsZ < vlen (vcross (gOf nen dN x 1) (gOf nen dN x 2)) ->
  exists F K, atPos nen dN d2N E nu th dj G1 G2 H0 x = Ret (F, K) /\ is_derive (fun t => - forceAt nen dN d2N E nu th dj G1 G2 H0 (bumpF x s t) r) 0 (K r s).
Proof. exact tangent_exact. Qed.
Theorem C53_symmetric : forall nen dN d2N E nu th dj G1 G2 H0 x r s, 0 <= nu < 1/2 -> (1 <= r <= 3 * nen)%nat -> (1 <= s <= 3 * nen)%nat ->
  epsZ < vlen (vcross (gOf nen dN x 1) (gOf nen dN x 2)) ->
  exists F K, atPos nen dN d2N E nu th dj G1 G2 H0 x = Ret (F, K) /\ K r s = K s r.
Proof. exact tangent_hessian. Qed.
Theorem C53_normal : forall nen dN x s, (1 <= s <= 3 * nen)%nat -> epsZ < vlen (vcross (gOf nen dN x 1) (gOf nen dN x 2)) ->
  forall r i, (1 <= r <= 3 * nen)%nat -> (1 <= i <= 3)%nat ->
  is_derive (fun t => vc (unitNormal (gOf nen dN (bumpF x s t) 1) (gOf nen dN (bumpF x s t) 2)) i) 0 (vc (dncol dN (gOf nen dN x 1) (gOf nen dN x 2) s) i) /\
  is_derive (fun t => vc (dncol dN (gOf nen dN (bumpF x s t) 1) (gOf nen dN (bumpF x s t) 2) r) i) 0 (vc (ddn dN (gOf nen dN x 1) (gOf nen dN x 2) r s) i).
Proof. exact (fun nen dN x s Hs reg r i _ Hi => normal_variations nen dN (fun _ _ _ => 0) x s Hs reg r i Hi). Qed.
Example C53_case : regular (V 1 0 0) (V 0 1 0) /\ epsZ < vlen (vcross (gOf 3 shapeEx posEx 1) (gOf 3 shapeEx posEx 2)).
Proof. exact (conj unit_regular ex_regular). Qed.

(** ** C52.  The internal forces are those of the resultants of the surface strains. *)
Theorem C52_forces_partial : forall dN d2N E nu th dj G1 G2 H0, epsZ < vlen (vcross G1 G2) ->
  forall D g1 g2 H ES EK, epsZ < vlen (vcross g1 g2) -> formD E nu th false = Ret D ->
  exists ES' EK', evalKandS dN d2N E nu th dj G1 G2 H0 (Some (g1, g2, H)) ES EK = Ret (ES', EK') /\
  fromResultants dN d2N dj G1 G2 (surfOf g1 g2 H) (times3 (el (fst D)) (times3 (Tmat G1 G2) (toV (membrane (surfOf G1 G2 H0) (surfOf g1 g2 H)))))
    (times3 (el (snd D)) (times3 (Tmat G1 G2) (toV (bendingStrain (surfOf G1 G2 H0) (surfOf g1 g2 H))))) ES ES'.
Proof. exact forces_resultants. Qed.
(** The recovered membrane forces are the same; the recovered moments are the same where the change of
    the normal is not seen by the reference curvature. *)
Theorem C52_recovered_partial : forall E nu th G1 G2 H0, 0 <= nu < 1/2 -> forall g1 g2 H, epsZ < vlen (vcross g1 g2) -> exists D N M,
  formD E nu th false = Ret D /\ evalSolNL E nu th G1 G2 H0 g1 g2 H = Ret (N, M) /\
  N = times3 (el (fst D)) (times3 (Tmat G1 G2) (toV (membrane (surfOf G1 G2 H0) (surfOf g1 g2 H)))) /\
  (vtimesH (unitNormal g1 g2) H0 = vtimesH (unitNormal G1 G2) H0 -> M = times3 (el (snd D)) (times3 (Tmat G1 G2) (toV (bendingStrain (surfOf G1 G2 H0) (surfOf g1 g2 H))))).
Proof. exact recovered. Qed.
(** A finite rotation causes no internal forces ... *)
Theorem C52_rotation_partial : forall dN d2N E nu th dj G1 G2 H0, 0 <= nu < 1/2 -> epsZ < vlen (vcross G1 G2) -> forall Q ES EK, rotation Q ->
  let c := rotated Q (surfOf G1 G2 H0) in
  exists ES' EK', evalKandS dN d2N E nu th dj G1 G2 H0 (Some (t1 c, t2 c, mkH (s11 c) (s22 c) (s12 c))) ES EK = Ret (ES', EK') /\ forall r, ES' r = ES r.
Proof. exact rotation_free. Qed.
(** ... but moments are recovered for it. *)
Theorem C52_rotation_moments_refuted : exists Q s E nu th N M, rotation Q /\ 0 <= nu < 1/2 /\ epsZ < vlen (vcross (t1 s) (t2 s)) /\
  evalSolNL E nu th (t1 s) (t2 s) (mkH (s11 s) (s22 s) (s12 s)) (t1 (rotated Q s)) (t2 (rotated Q s))
    (mkH (s11 (rotated Q s)) (s22 (rotated Q s)) (s12 (rotated Q s))) = Ret (N, M) /\ M <> vzero.
Proof. exact moment_rotation. Qed.
(** Surface stresses: correct for the linear shell, exchanged for the nonlinear shell. *)
Theorem C52_linear_surfaces_partial : forall nen dN d2N E nu th g1 g2 H u i isurf, 0 <= nu < 1/2 -> 0 < th -> epsZ < vlen (vcross g1 g2) -> (1 <= i <= 3)%nat ->
  exists N m, evalSol nen dN d2N E nu th g1 g2 H u = Ret (N, m) /\
  surfaceStress th N m isurf i = stressAt E nu (frame g1 g2 (varE g1 g2 (uVar nen dN d2N u))) (frame g1 g2 (varK (unitNormal g1 g2) g1 g2 H (uVar nen dN d2N u))) (isurf * th / 2) i.
Proof. exact linear_surface. Qed.
Theorem C52_nonlinear_surfaces_partial : forall E nu th G1 G2 H0 g1 g2 H i isurf, 0 <= nu < 1/2 -> 0 < th -> epsZ < vlen (vcross G1 G2) -> epsZ < vlen (vcross g1 g2) -> (1 <= i <= 3)%nat ->
  vtimesH (unitNormal g1 g2) H0 = vtimesH (unitNormal G1 G2) H0 ->
  exists N M, evalSolNL E nu th G1 G2 H0 g1 g2 H = Ret (N, M) /\
  surfaceStress th (vc N) (vc M) isurf i = stressAt E nu (frame G1 G2 (toV (membrane (surfOf G1 G2 H0) (surfOf g1 g2 H)))) (frame G1 G2 (toV (bendingStrain (surfOf G1 G2 H0) (surfOf g1 g2 H)))) (- isurf * th / 2) i.
Proof. exact nonlinear_surface. Qed.
Theorem C52_labels_refuted : exists E nu th G1 G2 H0 g1 g2 H N M, 0 <= nu < 1/2 /\ 0 < th /\ epsZ < vlen (vcross G1 G2) /\ epsZ < vlen (vcross g1 g2) /\
  evalSolNL E nu th G1 G2 H0 g1 g2 H = Ret (N, M) /\ exists i, (1 <= i <= 3)%nat /\
  surfaceStress th (vc N) (vc M) 1 i <> stressAt E nu (frame G1 G2 (toV (membrane (surfOf G1 G2 H0) (surfOf g1 g2 H)))) (frame G1 G2 (toV (bendingStrain (surfOf G1 G2 H0) (surfOf g1 g2 H)))) (1 * th / 2) i.
Proof. exact labels_exchanged. Qed.
Example C52_case : rotation turn /\ turn (V 1 2 3) = V 1 (-2) (-3).
Proof. split; [exact turn_rotation|reflexivity]. Qed.

Print Assumptions C51_resultants.
Print Assumptions C51_stiffness.
Print Assumptions C51_strains.
Print Assumptions C85_energy.
Print Assumptions C85_tangent.
Print Assumptions C86_opposite_partial.
Print Assumptions C86_same_refuted.
Print Assumptions C53_force.
Print Assumptions C53_tangent.
Print Assumptions C53_symmetric.
Print Assumptions C53_normal.
Print Assumptions C52_forces_partial.
Print Assumptions C52_recovered_partial.
Print Assumptions C52_rotation_partial.
Print Assumptions C52_rotation_moments_refuted.
Print Assumptions C52_linear_surfaces_partial.
Print Assumptions C52_nonlinear_surfaces_partial.
Print Assumptions C52_labels_refuted.
