From Verif Require Import Lib.Base Lib.Sums Lib.Writes Lib.Congruence Lib.Vec3 Model.Plate.

(** ** Loads *)
Lemma dof_one a : (1 <= a)%nat -> dof 1 a 1 = a. Proof. unfold dof. lia. Qed.
Lemma hitsum_vec1 n g a0 : (1 <= a0 <= n)%nat -> hitsum a0 1 (loop n (fun a => [(a, 1%nat, g a)])) = g a0.
Proof.
  intros Ha. rewrite hitsum_loop. apply (sumf_pick n a0); [exact Ha| |].
  - intros a Ra Na. rewrite hitsum_one. destruct (Nat.eqb_spec a0 a); [congruence|reflexivity].
  - rewrite hitsum_one, Nat.eqb_refl. reflexivity.
Qed.
Lemma body_force isZero npv nenod N p detJW grd ES sl : (npv = 1 \/ npv = 3)%nat -> isZero p = false ->
  rows ES = (npv * nenod)%nat -> (1 <= cols ES)%nat -> (rows sl = 0 \/ npv <= rows sl)%nat -> (1 <= cols sl)%nat ->
  exists ES' sl', formBodyForce isZero npv nenod N p detJW grd ES sl = Ret (ES', sl') /\ rows sl' = rows sl /\
    (forall a i, (1 <= a <= nenod)%nat -> (1 <= i <= npv)%nat ->
       el ES' (dof npv a i) 1%nat = el ES (dof npv a i) 1%nat + N a * (vc p (if (npv =? 1)%nat then 3 else i) * detJW)) /\
    (forall i, (1 <= i <= npv)%nat -> (i <= rows sl)%nat ->
       el sl' i 1%nat = el sl i 1%nat + if grd then 0 else vc p (if (npv =? 1)%nat then 3 else i) * detJW).
Proof.
  intros Hn Hz HR HC HS HSC. unfold formBodyForce. rewrite Hz.
  destruct Hn as [-> | ->]; cbn [Nat.eqb].
  - destruct (run_add_ok (loop nenod (fun a => [(a, 1%nat, N a * (vz p * detJW))])) ES) as [ES' [E1 [R1 [C1 V1]]]].
    { intros i j v H. apply In_loop in H. destruct H as [a [Ra [H|[]]]]. apply wr_inj in H. destruct H as [<- [<- _]]. apply inb_true; lia. }
    rewrite E1. cbn [bind].
    assert (VE : forall a i, (1 <= a <= nenod)%nat -> (1 <= i <= 1)%nat -> el ES' (dof 1 a i) 1%nat = el ES (dof 1 a i) 1%nat + N a * (vc p 3 * detJW)).
    { intros a i Ha Hi. assert (i = 1)%nat as -> by lia. rewrite dof_one by lia. rewrite V1, hitsum_vec1 by assumption. reflexivity. }
    destruct grd.
    + exists ES', sl. split; [reflexivity|]. split; [reflexivity|]. split; [exact VE|]. intros. ring.
    + destruct (Nat.eqb_spec (rows sl) 0) as [Z|Z]; cbn [andb negb].
      * replace (Nat.min 1 (rows sl)) with 0%nat by lia. cbn [run_add loop flat_map seq bind]. exists ES', sl. split; [reflexivity|]. split; [reflexivity|]. split; [exact VE|]. intros. lia.
      * destruct (run_add_ok [(1%nat, 1%nat, vz p * detJW)] sl) as [sl' [E2 [R2 [C2 V2]]]].
        { intros i j v [H|[]]. apply wr_inj in H. destruct H as [<- [<- _]]. apply inb_true; lia. }
        rewrite E2. cbn [bind]. exists ES', sl'. split; [reflexivity|]. split; [exact R2|]. split; [exact VE|]. intros i Hi _. assert (i = 1)%nat as -> by lia.
        rewrite V2, hitsum_one. reflexivity.
  - destruct (run_add_ok (loop nenod (fun a => loop 3 (fun i => [(dof 3 a i, 1%nat, N a * vc p i * detJW)]))) ES) as [ES' [E1 [R1 [C1 V1]]]].
    { intros i j v H. apply In_loop in H. destruct H as [a [Ra H]]. apply In_loop in H. destruct H as [k [Rk [H|[]]]]. apply wr_inj in H. destruct H as [<- [<- _]].
      apply inb_true; [|lia]. rewrite HR. now apply dof_range. }
    rewrite E1. cbn [bind].
    assert (VE : forall a i, (1 <= a <= nenod)%nat -> (1 <= i <= 3)%nat -> el ES' (dof 3 a i) 1%nat = el ES (dof 3 a i) 1%nat + N a * (vc p i * detJW)).
    { intros a i Ha Hi. rewrite V1, (hitsum_vec nenod 3 (fun a i => N a * vc p i * detJW)) by assumption. ring. }
    destruct grd.
    + exists ES', sl. split; [reflexivity|]. split; [reflexivity|]. split; [exact VE|]. intros. ring.
    + cbn [andb]. destruct (run_add_ok (loop (Nat.min 3 (rows sl)) (fun i => [(i, 1%nat, vc p i * detJW)])) sl) as [sl' [E2 [R2 [C2 V2]]]].
      { intros i j v H. apply In_loop in H. destruct H as [a [Ra [H|[]]]]. apply wr_inj in H. destruct H as [<- [<- _]]. apply inb_true; lia. }
      rewrite E2. cbn [bind]. exists ES', sl'. split; [reflexivity|]. split; [exact R2|]. split; [exact VE|]. intros i Hi Hr. 
      rewrite V2, (hitsum_vec1 _ (fun i => vc p i * detJW)) by lia. reflexivity.
Qed.

(** The pressure: the self-weight and the sum of the given pressures. *)
Lemma pressure_sum isZero rho g t press n grd :
  getPressure isZero rho g t press n grd =
  vadd (V 0 0 (if grd then 0 else rho * g * t)) (vscal (sumL (fun f => f) press) (if isZero n then V 0 0 1 else n)).
Proof.
  unfold getPressure. generalize (V 0 0 (if grd then 0 else rho * g * t)). induction press as [|f l IH]; intros p; cbn [fold_left].
  - unfold sumL; cbn [fold_right]. destruct p as [a b c], (if isZero n then V 0 0 1 else n) as [d e f]. unfold vadd, vscal; cbn. f_equal; ring.
  - rewrite IH. unfold sumL; cbn [fold_right]. fold (sumL (fun f => f) l). destruct (isZero n); unfold vadd, vscal; cbn [vx vy vz]; f_equal; ring.
Qed.

(** ** Mass *)
Lemma mass_writes npv nenod N rho t dj EM : (npv = 1 \/ npv = 3)%nat -> rows EM = (npv * nenod)%nat -> cols EM = (npv * nenod)%nat ->
  exists EM', formMassMatrix npv nenod N rho t dj EM = Ret EM' /\
    forall a i b j, (1 <= a <= nenod)%nat -> (1 <= i <= npv)%nat -> (1 <= b <= nenod)%nat -> (1 <= j <= npv)%nat ->
      el EM' (dof npv a i) (dof npv b j) = el EM (dof npv a i) (dof npv b j) + kron i j * (rho * t * dj * N a * N b).
Proof.
  intros Hn HR HC. unfold formMassMatrix. destruct (Req_EM_T (rho * t * dj) 0) as [Z|Z].
  { exists EM. split; [reflexivity|]. intros. rewrite Z. ring. }
  destruct Hn as [-> | ->]; cbn [Nat.eqb].
  - destruct (run_add_ok (loop nenod (fun a => loop nenod (fun b => [(a, b, N a * (N b * (rho * t * dj)))]))) EM) as [M [E1 [R1 [C1 V1]]]].
    { intros i j v H. apply In_loop in H. destruct H as [a [Ra H]]. apply In_loop in H. destruct H as [k [Rk [H|[]]]]. apply wr_inj in H. destruct H as [<- [<- _]]. apply inb_true; lia. }
    exists M. split; [exact E1|]. intros a i b j Ha Hi Hb Hj. assert (i = 1)%nat as -> by lia. assert (j = 1)%nat as -> by lia. rewrite !dof_one by lia.
    rewrite V1. f_equal. rewrite hitsum_loop. rewrite (sumf_pick nenod a _ (kron 1 1 * (rho * t * dj * N a * N b))); [reflexivity|exact Ha| |].
    + intros c Rc Nc. rewrite hitsum_loop. apply sumf_0. intros k _. rewrite hitsum_one. destruct (Nat.eqb_spec a c); [congruence|reflexivity].
    + rewrite hitsum_loop. apply (sumf_pick nenod b); [exact Hb| |].
      * intros c Rc Nc. rewrite hitsum_one. destruct (Nat.eqb_spec b c); [congruence|]. rewrite andb_false_r. reflexivity.
      * rewrite hitsum_one, !Nat.eqb_refl. unfold kron; cbn. ring.
  - destruct (run_add_ok (loop nenod (fun a => loop nenod (fun b => loop 3 (fun i => [(dof 3 a i, dof 3 b i, rho * t * dj * N a * N b)])))) EM) as [M [E1 [R1 [C1 V1]]]].
    { intros i j v H. apply In_loop in H. destruct H as [a [Ra H]]. apply In_loop in H. destruct H as [b [Rb H]]. apply In_loop in H. destruct H as [k [Rk [H|[]]]].
      apply wr_inj in H. destruct H as [<- [<- _]]. apply inb_true; [rewrite HR|rewrite HC]; now apply dof_range. }
    exists M. split; [exact E1|]. intros a i b j Ha Hi Hb Hj. rewrite V1, (hitsum_diag nenod 3 (fun a b _ => rho * t * dj * N a * N b)) by assumption. reflexivity.
Qed.
(** Kinetic energy: the mass adds rho t |J| w times the squared interpolated velocity. *)
Lemma mass_quad npv nenod N rho t dj EM : (npv = 1 \/ npv = 3)%nat -> rows EM = (npv * nenod)%nat -> cols EM = (npv * nenod)%nat ->
  exists EM', formMassMatrix npv nenod N rho t dj EM = Ret EM' /\
    forall v, quad (npv * nenod) (el EM') v = quad (npv * nenod) (el EM) v
      + rho * t * dj * sumf npv (fun i => sumf nenod (fun a => N a * v (dof npv a i)) ^ 2).
Proof.
  intros Hn HR HC. destruct (mass_writes npv nenod N rho t dj EM Hn HR HC) as [M [E1 V1]]. exists M. split; [exact E1|]. intros v.
  assert (Q : forall A, quad (npv * nenod) A v = sumf nenod (fun a => sumf npv (fun i => sumf nenod (fun b => sumf npv (fun j => v (dof npv a i) * A (dof npv a i) (dof npv b j) * v (dof npv b j)))))).
  { intros A. unfold quad, mv. rewrite sumf_dof. apply sumf_ext. intros a _. apply sumf_ext. intros i _. rewrite sumf_dof, <- sumf_scal.
    apply sumf_ext. intros b _. rewrite <- sumf_scal. apply sumf_ext. intros j _. ring. }
  rewrite !Q.
  rewrite (sumf_ext nenod _ (fun a => sumf npv (fun i => sumf nenod (fun b => sumf npv (fun j => v (dof npv a i) * el EM (dof npv a i) (dof npv b j) * v (dof npv b j))))
     + sumf npv (fun i => (rho * t * dj) * ((N a * v (dof npv a i)) * sumf nenod (fun b => N b * v (dof npv b i)))))).
  - rewrite sumf_plus. f_equal. rewrite sumf_swap, <- sumf_scal. apply sumf_ext. intros i _. rewrite sumf_scal. f_equal. rewrite sumf_scal_r. ring.
  - intros a Ha. rewrite <- sumf_plus. apply sumf_ext. intros i Hi. rewrite <- !sumf_scal, <- sumf_plus. apply sumf_ext. intros b Hb.
    rewrite (sumf_ext npv _ (fun j => v (dof npv a i) * el EM (dof npv a i) (dof npv b j) * v (dof npv b j) + kron j i * (v (dof npv a i) * (rho * t * dj * N a * N b) * v (dof npv b j)))).
    + rewrite sumf_plus, (sumf_kron npv i (fun j => v (dof npv a i) * (rho * t * dj * N a * N b) * v (dof npv b j))) by assumption. ring.
    + intros j Hj. rewrite V1 by assumption. replace (kron j i) with (kron i j) by (unfold kron; rewrite Nat.eqb_sym; reflexivity). ring.
Qed.
Lemma load_resultant isZero npv nenod N p detJW ES sl : npv = 1%nat \/ npv = 3%nat -> isZero p = false ->
  rows ES = (npv * nenod)%nat -> (1 <= cols ES)%nat -> (npv <= rows sl)%nat -> (1 <= cols sl)%nat -> sumf nenod N = 1 ->
  exists ES' sl', formBodyForce isZero npv nenod N p detJW false ES sl = Ret (ES', sl') /\
  forall i, (1 <= i <= npv)%nat -> sumf nenod (fun a => el ES' (dof npv a i) 1%nat - el ES (dof npv a i) 1%nat) = el sl' i 1%nat - el sl i 1%nat.
Proof.
  intros Hv Hz H1 H2 H3 H4 HN. destruct (body_force isZero npv nenod N p detJW false ES sl Hv Hz H1 H2 (or_intror H3) H4) as [ES' [sl' [E [_ [A B]]]]].
  exists ES', sl'. split; [exact E|]. intros i Hi. rewrite B by lia. rewrite (sumf_ext nenod _ (fun a => N a * (vc p (if (npv =? 1)%nat then 3%nat else i) * detJW))).
  - rewrite sumf_scal_r, HN. ring.
  - intros a Ha. rewrite A by assumption. ring.
Qed.
