(** Specification of the thin plate: energy of a layered plane-stress body whose strains vary
    linearly over the thickness. *)
From Coquelicot Require Import Coquelicot.
From Verif Require Import Lib.Base.

(** Plane-stress power (twice the energy density) of the strains exx, eyy and engineering shear gxy. *)
Definition layer (E nu exx eyy gxy : R) : R :=
  E / (1 - nu * nu) * (exx * exx + eyy * eyy + 2 * nu * exx * eyy) + E / (2 * (1 + nu)) * (gxy * gxy).

(** Second derivatives of the deflection. *)
Record curv := mkCurv { wxx : R; wyy : R; wxy : R }.

(** Twice the bending energy per unit area: through-thickness integral of the layer powers. *)
Definition bending (E nu T : R) (c : curv) (U : R) : Prop :=
  is_RInt (fun z => layer E nu (- z * wxx c) (- z * wyy c) (- z * (2 * wxy c))) (- T / 2) (T / 2) U.
Definition bendingBeam (E T w2 U : R) : Prop := is_RInt (fun z => E * ((- z * w2) * (- z * w2))) (- T / 2) (T / 2) U.

Definition gaussian (c : curv) : R := wxx c * wyy c - wxy c * wxy c.
(** Flexural rigidity. *)
Definition rigidity (E nu T : R) : R := E * T ^ 3 / (12 * (1 - nu ^ 2)).
(** The two tensor forms with constant rigidity. *)
Definition hessianForm (D : R) (c : curv) : R := D * (wxx c ^ 2 + wyy c ^ 2 + 2 * wxy c ^ 2).
Definition laplaceForm (D : R) (c : curv) : R := D * (wxx c + wyy c) ^ 2.
(** Plane-stress stresses of a layer. *)
Definition sxx (E nu exx eyy : R) : R := E / (1 - nu * nu) * (exx + nu * eyy).
Definition sxy (E nu gxy : R) : R := E / (2 * (1 + nu)) * gxy.
(** First moments of the layer stresses over the thickness. *)
Definition isMoments (E nu T : R) (c : curv) (mxx myy mxy : R) : Prop :=
  is_RInt (fun z => z * sxx E nu (- z * wxx c) (- z * wyy c)) (- T / 2) (T / 2) mxx /\
  is_RInt (fun z => z * sxx E nu (- z * wyy c) (- z * wxx c)) (- T / 2) (T / 2) myy /\
  is_RInt (fun z => z * sxy E nu (- z * (2 * wxy c))) (- T / 2) (T / 2) mxy.
