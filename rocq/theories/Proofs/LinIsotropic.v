From Verif.Lib Require Import Base.
From Verif.Spec Require Import Hooke.
From Verif.Model Require Import LinIsotropic.

Definition dim_ok (nsd : nat) : Prop := (1 <= nsd <= 3)%nat.

Ltac nu_ok :=
  match goal with
  | |- context[Rlt_dec ?a ?b] => destruct (Rlt_dec a b); [exfalso; lra|]
  | |- context[Rle_dec ?a ?b] => destruct (Rle_dec a b); [exfalso; lra|]
  end.

Ltac dims H := unfold dim_ok in H;
  match type of H with (1 <= ?n <= 3)%nat =>
    destruct n as [|[|[|[|n]]]]; try (exfalso; lia); clear H end.

Ltac red_c := cbv [mcopy mget mset zeros nst inb upd2 bind rows cols el Nat.eqb andb orb negb Nat.mul Nat.add
  Nat.div Nat.divmod fst snd Nat.ltb Nat.leb Nat.sub].
Ltac open_c := unfold cmatrix; cbn [Nat.eqb]; repeat nu_ok; red_c.

Lemma cmatrix_total nsd ps ax inv E nu :
  dim_ok nsd -> 0 <= nu < 1/2 ->
  exists C, cmatrix nsd ps ax inv E nu = Ret C
            /\ rows C = nst nsd ax /\ cols C = nst nsd ax.
Proof.
  intros Hd Hn. dims Hd; destruct ps, ax, inv; open_c; eexists; (split; [reflexivity | split; reflexivity]).
Qed.

Lemma cmatrix_symm nsd ps ax inv E nu C :
  dim_ok nsd -> 0 <= nu < 1/2 -> cmatrix nsd ps ax inv E nu = Ret C ->
  symm (nst nsd ax) (el C).
Proof.
  intros Hd Hn. dims Hd; destruct ps, ax, inv; open_c; intros H; injection H as <-;
    intros i j Hi Hj; unfold nst in Hi, Hj; cbn in Hi, Hj;
    idx i; idx j;
    reflexivity.
Qed.

Lemma sq_pos2 a b : 0 < a -> b <> 0 -> 0 < a * (b * b).
Proof. intros; assert (0 < b*b) by nra; nra. Qed.

Lemma cmatrix_pd nsd ps ax E nu C x :
  dim_ok nsd -> 0 < E -> 0 <= nu < 1/2 -> cmatrix nsd ps ax false E nu = Ret C ->
  vnz (nst nsd ax) x -> 0 < quad (nst nsd ax) (el C) x.
Proof.
  intros Hd HE Hn.
  assert (Ha : 0 < E / (1 + nu)) by (apply Rdiv_lt_0_compat; lra).
  assert (Hg : 0 < E / (2 + nu + nu)) by (apply Rdiv_lt_0_compat; lra).
  assert (Hb : 0 <= E * nu / ((1 + nu) * (1 - 2 * nu))).
  { apply Rmult_le_pos; [nra|]. left; apply Rinv_0_lt_compat; nra. }
  assert (Hp : 0 <= E * nu / (1 - nu * nu)).
  { apply Rmult_le_pos; [nra|]. left; apply Rinv_0_lt_compat; nra. }
  assert (N1 : 1 + nu <> 0) by lra. assert (N2 : 1 - 2 * nu <> 0) by lra.
  assert (N3 : 1 - nu * nu <> 0) by nra. assert (N4 : 2 + nu + nu <> 0) by lra.
  assert (N5 : 1 - nu - nu <> 0) by lra.
  assert (K1 : forall q, q = E / ((1 + nu) * (1 - nu - nu)) ->
     q * (1 - nu) = E / (1 + nu) + E * nu / ((1 + nu) * (1 - 2 * nu)) /\
     q * nu = E * nu / ((1 + nu) * (1 - 2 * nu))).
  { intros q ->; split; field; lra. }
  assert (K2 : E / (1 - nu * nu) = E / (1 + nu) + E * nu / (1 - nu * nu)
            /\ E / (1 - nu * nu) * nu = E * nu / (1 - nu * nu)).
  { split; field; nra. }
  specialize (K1 _ eq_refl). destruct K1 as [K1a K1b], K2 as [K2a K2b].
  assert (HQ : forall (a b g S Q T : R), 0 < a -> 0 <= b -> 0 < g -> 0 <= Q -> 0 <= T -> 0 <= S ->
             (0 < Q \/ 0 < T) -> 0 < a * Q + b * S + g * T).
  { intros a b g S Q T h1 h2 h3 h4 h5 h6 [h7|h7].
    - assert (0 < a * Q) by nra. assert (0 <= b * S) by nra. assert (0 <= g * T) by nra. lra.
    - assert (0 <= a * Q) by nra. assert (0 <= b * S) by nra. assert (0 < g * T) by nra. lra. }
  assert (P : forall t : R, 0 <= t * t) by (intros; nra).
  assert (PP : forall t : R, t <> 0 -> 0 < t * t) by (intros; nra).
  dims Hd; destruct ps, ax; open_c; intros H; injection H as <-; intros (i & Hi & Hx);
    unfold nst in *; cbn in Hi; unfold quad, mv, upd2; cbn;
    rewrite ?K1b, ?K1a, ?K2b, ?K2a;
    idx i.
  1-4: specialize (PP _ Hx); nra.
  all: specialize (PP _ Hx); pose proof (P (x 1%nat)); pose proof (P (x 2%nat));
    pose proof (P (x 3%nat)); pose proof (P (x 4%nat)); pose proof (P (x 5%nat)); pose proof (P (x 6%nat));
    pose proof (P (x 1%nat + x 2%nat)); pose proof (P (x 1%nat + x 2%nat + x 3%nat)).
  all: match goal with
       | |- 0 < ?e =>
         first
         [ replace e with (E/(1+nu) * (x 1%nat * x 1%nat + x 2%nat * x 2%nat + x 3%nat * x 3%nat)
               + E * nu / ((1 + nu) * (1 - 2 * nu)) * ((x 1%nat + x 2%nat + x 3%nat)*(x 1%nat + x 2%nat + x 3%nat))
               + E / (2 + nu + nu) * (x 4%nat * x 4%nat + x 5%nat * x 5%nat + x 6%nat * x 6%nat)) by ring
         | replace e with (E/(1+nu) * (x 1%nat * x 1%nat + x 2%nat * x 2%nat + x 3%nat * x 3%nat)
               + E * nu / ((1 + nu) * (1 - 2 * nu)) * ((x 1%nat + x 2%nat + x 3%nat)*(x 1%nat + x 2%nat + x 3%nat))
               + E / (2 + nu + nu) * (x 4%nat * x 4%nat)) by ring
         | replace e with (E/(1+nu) * (x 1%nat * x 1%nat + x 2%nat * x 2%nat)
               + E * nu / ((1 + nu) * (1 - 2 * nu)) * ((x 1%nat + x 2%nat)*(x 1%nat + x 2%nat))
               + E / (2 + nu + nu) * (x 3%nat * x 3%nat)) by ring
         | replace e with (E/(1+nu) * (x 1%nat * x 1%nat + x 2%nat * x 2%nat)
               + E * nu / (1 - nu * nu) * ((x 1%nat + x 2%nat)*(x 1%nat + x 2%nat))
               + E / (2 + nu + nu) * (x 3%nat * x 3%nat)) by ring ];
         apply HQ; lra
       end.
Qed.

(** Inverse. *)
Lemma cmatrix_inverse nsd ps ax E nu C D :
  dim_ok nsd -> 0 < E -> 0 <= nu < 1/2 ->
  cmatrix nsd ps ax false E nu = Ret C -> cmatrix nsd ps ax true E nu = Ret D ->
  forall i j, (1 <= i <= nst nsd ax)%nat -> (1 <= j <= nst nsd ax)%nat ->
    mm (nst nsd ax) (el C) (el D) i j = kron i j /\
    mm (nst nsd ax) (el D) (el C) i j = kron i j.
Proof.
  intros Hd HE Hn.
  assert (N1 : 1 + nu <> 0) by lra.
  assert (N3 : 1 - nu * nu <> 0) by nra. assert (N4 : 2 + nu + nu <> 0) by lra.
  assert (N5 : 1 - nu - nu <> 0) by lra. assert (N6 : E <> 0) by lra.
  dims Hd; destruct ps, ax; open_c; intros H; injection H as <-; intros H; injection H as <-;
    intros i j Hi Hj; unfold nst in *; cbn in Hi, Hj;
    idx i; idx j;
    cbv [mm kron sumf Nat.eqb andb]; split; field; auto.
Qed.

(** Hooke's law. *)
Lemma stress_3d E nu (e : nat -> R) ps ax sig4 :
  0 <= nu < 1/2 ->
  exists s, stress 3 ps ax sig4 E nu e = Ret (s, None) /\
    let T := hooke (lame1 E nu) (lame2 E nu)
               (symt (e 1%nat) (e 2%nat) (e 3%nat) (e 4%nat / 2) (e 5%nat / 2) (e 6%nat / 2)) in
    s 1%nat = T 1%nat 1%nat /\ s 2%nat = T 2%nat 2%nat /\ s 3%nat = T 3%nat 3%nat /\
    s 4%nat = T 1%nat 2%nat /\ s 5%nat = T 2%nat 3%nat /\ s 6%nat = T 1%nat 3%nat.
Proof.
  intros Hn.
  assert (N1 : 1 + nu <> 0) by lra. assert (N2 : 1 - 2 * nu <> 0) by lra.
  assert (N4 : 2 + nu + nu <> 0) by lra. assert (N5 : 1 - nu - nu <> 0) by lra.
  assert (N6 : 2 * (1 + nu) <> 0) by lra.
  unfold stress; destruct ps, ax, sig4; open_c; eexists; (split; [reflexivity|]);
  unfold mv, hooke, trace, symt, lame1, lame2, kron, upd2; cbn;
  repeat split; field; lra.
Qed.

Lemma stress_axi E nu (e : nat -> R) ps sig4 :
  0 <= nu < 1/2 ->
  exists s, stress 2 ps true sig4 E nu e = Ret (s, None) /\
    let T := hooke (lame1 E nu) (lame2 E nu)
               (symt (e 1%nat) (e 2%nat) (e 3%nat) (e 4%nat / 2) 0 0) in
    s 1%nat = T 1%nat 1%nat /\ s 2%nat = T 2%nat 2%nat /\ s 3%nat = T 3%nat 3%nat /\
    s 4%nat = T 1%nat 2%nat.
Proof.
  intros Hn.
  assert (N1 : 1 + nu <> 0) by lra. assert (N2 : 1 - 2 * nu <> 0) by lra.
  assert (N4 : 2 + nu + nu <> 0) by lra. assert (N5 : 1 - nu - nu <> 0) by lra.
  unfold stress; destruct ps, sig4; open_c; eexists; (split; [reflexivity|]);
  unfold mv, hooke, trace, symt, lame1, lame2, kron, upd2; cbn;
  repeat split; field; lra.
Qed.

Lemma stress_pstrain E nu (e : nat -> R) sig4 :
  0 <= nu < 1/2 ->
  exists s z, stress 2 false false sig4 E nu e = Ret (s, z) /\
    let T := hooke (lame1 E nu) (lame2 E nu)
               (symt (e 1%nat) (e 2%nat) 0 (e 3%nat / 2) 0 0) in
    s 1%nat = T 1%nat 1%nat /\ s 2%nat = T 2%nat 2%nat /\ s 3%nat = T 1%nat 2%nat /\
    z = (if sig4 then Some (T 3%nat 3%nat) else None).
Proof.
  intros Hn.
  assert (N1 : 1 + nu <> 0) by lra. assert (N2 : 1 - 2 * nu <> 0) by lra.
  assert (N4 : 2 + nu + nu <> 0) by lra. assert (N5 : 1 - nu - nu <> 0) by lra.
  unfold stress; destruct sig4; open_c; do 2 eexists; (split; [reflexivity|]);
  unfold mv, hooke, trace, symt, lame1, lame2, kron, upd2; cbn;
  repeat split; first [reflexivity | field; lra | f_equal; field; lra].
Qed.

Lemma stress_pstress E nu (e : nat -> R) sig4 :
  0 <= nu < 1/2 ->
  exists s, stress 2 true false sig4 E nu e = Ret (s, None) /\
    forall ezz,
    let T := hooke (lame1 E nu) (lame2 E nu)
               (symt (e 1%nat) (e 2%nat) ezz (e 3%nat / 2) 0 0) in
    T 3%nat 3%nat = 0 -> 0 < E ->
    s 1%nat = T 1%nat 1%nat /\ s 2%nat = T 2%nat 2%nat /\ s 3%nat = T 1%nat 2%nat.
Proof.
  intros Hn.
  assert (N1 : 1 + nu <> 0) by lra. assert (N2 : 1 - 2 * nu <> 0) by lra.
  assert (N4 : 2 + nu + nu <> 0) by lra. assert (N5 : 1 - nu - nu <> 0) by lra.
  assert (N3 : 1 - nu * nu <> 0) by nra. assert (N6 : 1 - nu <> 0) by lra.
  unfold stress; destruct sig4; open_c; eexists; (split; [reflexivity|]); intros ezz;
  unfold mv, hooke, trace, symt, lame1, lame2, kron, upd2; cbn; intros Hz HE.
  all: assert (Hezz : ezz = - nu / (1 - nu) * (e 1%nat + e 2%nat)).
  1,3: apply (Rmult_eq_reg_l (E * (1 - nu) / ((1 + nu) * (1 - 2*nu))));
       [ | apply Rmult_integral_contrapositive_currified;
           [nra | apply Rinv_neq_0_compat; nra] ];
       replace (E * (1 - nu) / ((1 + nu) * (1 - 2 * nu)) * ezz) with
         ((E * nu / ((1 + nu) * (1 - 2 * nu)) * (e 1%nat + e 2%nat + ezz) * 1 +
           2 * (E / (2 * (1 + nu))) * ezz)
          - E * nu / ((1 + nu) * (1 - 2 * nu)) * (e 1%nat + e 2%nat)) by (field; lra);
       rewrite Hz; field; lra.
  all: subst ezz; repeat split; field; repeat split; lra.
Qed.

Lemma stress_1d E nu (e : nat -> R) ps ax sig4 :
  exists s, stress 1 ps ax sig4 E nu e = Ret (s, None) /\ s 1%nat = E * e 1%nat.
Proof.
  unfold stress; destruct ps, ax, sig4; open_c; eexists; (split; [reflexivity|]);
    unfold mv, upd2; cbn; ring.
Qed.

Lemma lame_spec E nu : 0 <= nu < 1/2 -> lame E nu = Ret (lame1 E nu, lame2 E nu).
Proof.
  intros Hn; unfold lame; repeat nu_ok. do 2 f_equal; unfold lame1, lame2; field; lra.
Qed.

(** Queries of the stiffness. *)
Lemma queries_agree_no_field {Pt} (s : Esource Pt) X age nu t :
  Efield s = None ->
  getStiffness s X age = E_evaluate s X age /\
  getPlateStiffness s nu X t age = E_evaluate s X age * t^3 / (12 * (1 - nu^2)).
Proof.
  intros H. unfold getPlateStiffness, getStiffness, E_evaluate; rewrite H. split; [reflexivity|].
  destruct (Efunc s); [|destruct (Eaging s)];
    (replace (12 * (1 - nu^2)) with (12 - 12 * nu * nu) by ring;
     unfold Rdiv; f_equal; ring).
Qed.

Lemma queries_field_differ :
  exists (s : Esource R) X age, 0 < E_evaluate s X age /\ getStiffness s X age < 0.
Proof.
  (* constructor LinIsotropic(Field*,...), LinIsotropic.C:52-61, sets Emod = -1 *)
  exists (mkE (Some (fun _ => 210)) None None (-1)), 0, 0. cbn. lra.
Qed.

Lemma stiffness_spd : forall nsd ps ax E nu,
  (1 <= nsd <= 3)%nat -> 0 < E -> 0 <= nu < 1/2 ->
  exists C, cmatrix nsd ps ax false E nu = Ret C /\
    rows C = nst nsd ax /\ cols C = nst nsd ax /\
    symm (nst nsd ax) (el C) /\
    (forall x, vnz (nst nsd ax) x -> 0 < quad (nst nsd ax) (el C) x).
Proof.
  intros nsd ps ax E nu Hd HE Hn.
  destruct (cmatrix_total nsd ps ax false E nu Hd Hn) as (C & HC & Hr & Hc).
  exists C; repeat split; auto.
  - exact (cmatrix_symm _ _ _ _ _ _ _ Hd Hn HC).
  - intros x; exact (cmatrix_pd _ _ _ _ _ _ _ Hd HE Hn HC).
Qed.

Lemma inverse_ok : forall nsd ps ax E nu,
  (1 <= nsd <= 3)%nat -> 0 < E -> 0 <= nu < 1/2 ->
  exists C D, cmatrix nsd ps ax false E nu = Ret C /\ cmatrix nsd ps ax true E nu = Ret D /\
    rows C = rows D /\ cols C = cols D /\
    forall i j, (1 <= i <= rows C)%nat -> (1 <= j <= cols C)%nat ->
      mm (rows C) (el C) (el D) i j = kron i j /\ mm (rows C) (el D) (el C) i j = kron i j.
Proof.
  intros nsd ps ax E nu Hd HE Hn.
  destruct (cmatrix_total nsd ps ax false E nu Hd Hn) as (C & HC & Hr & Hc).
  destruct (cmatrix_total nsd ps ax true E nu Hd Hn) as (D & HD & Hr' & Hc').
  exists C, D. rewrite Hr, Hc, Hr', Hc'. repeat (split; [assumption || reflexivity|]).
  intros i j Hi Hj. exact (cmatrix_inverse nsd ps ax E nu C D Hd HE Hn HC HD i j Hi Hj).
Qed.

(** Non-vacuity: steel in 3D. *)
Example steel_ok : dim_ok 3 /\ 0 < 205000 /\ 0 <= 29/100 < 1/2
  /\ vnz 6 (fun i => match i with 1 => 1%R | 4 => (-1)%R | _ => 0%R end%nat).
Proof. unfold dim_ok, vnz. repeat split; try lra; try lia. exists 1%nat; split; [lia|lra]. Qed.
