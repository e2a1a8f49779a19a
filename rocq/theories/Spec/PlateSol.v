(** Specification of series solutions of a simply supported rectangular plate. *)
From Coquelicot Require Import Coquelicot.
From Verif Require Import Lib.Base.

(** The harmonics m = 1, 1+inc, 1+2 inc, ... not above the cut-off n, listed by a test on all numbers 1..n;
    [double] sums a function over all pairs of harmonics, each pair once. *)
Definition harmonic (inc m : nat) : bool := ((m - 1) mod inc =? 0)%nat.
Definition double (inc n : nat) (f : nat -> nat -> R) : R :=
  sumf n (fun i => sumf n (fun j => if (harmonic inc i && harmonic inc j)%bool then f i j else 0)).

(** Coefficient of sin(m pi x/a) sin(n pi y/b) of a pressure of size p on the rectangle [x1,x2] x [y1,y2],
    zero elsewhere (Fourier's formula, the two integrals over the loaded rectangle). *)
Definition fourier (a b p x1 x2 y1 y2 : R) (m n : nat) (c : R) : Prop := exists ix iy,
  is_RInt (fun x => sin (INR m * PI * x / a)) x1 x2 ix /\ is_RInt (fun y => sin (INR n * PI * y / b)) y1 y2 iy /\
  c = 4 / (a * b) * p * (ix * iy).
(** The same for a point load P at (x,y). *)
Definition fourierPoint (a b P x y : R) (m n : nat) : R := 4 / (a * b) * P * (sin (INR m * PI * x / a) * sin (INR n * PI * y / b)).
(** Equilibrium of plate moments under a pressure p (positive in the direction of the deflection):
    mxx,xx + 2 mxy,xy + myy,yy = - p *)
Definition momentEquilibrium (mxx myy mxy : R -> R -> R) (p x y : R) : Prop :=
  exists (fx fxy : R -> R -> R) (fy : R -> R -> R) a b c,
    (forall u v, is_derive (fun u => mxx u v) u (fx u v)) /\ is_derive (fun u => fx u y) x a /\
    (forall u v, is_derive (fun u => mxy u v) u (fxy u v)) /\ is_derive (fun v => fxy x v) y b /\
    (forall u v, is_derive (fun v => myy u v) v (fy u v)) /\ is_derive (fun v => fy x v) y c /\
    a + 2 * b + c = - p.
(** A deflection w with second derivatives. *)
Definition curvatures (w : R -> R -> R) (x y wxx wyy wxy : R) : Prop := exists fx fy,
  (forall u v, is_derive (fun u => w u v) u (fx u v)) /\ (forall u v, is_derive (fun v => w u v) v (fy u v)) /\
  is_derive (fun u => fx u y) x wxx /\ is_derive (fun v => fy x v) y wyy /\ is_derive (fun v => fx x v) y wxy.
(** Axisymmetric deflection w(r) and its moments. *)
Definition radialMoments (D nu : R) (w : R -> R) (r mr mt : R) : Prop := exists f k,
  locally r (fun t => is_derive w t (f t)) /\ is_derive f r k /\
  mr = - D * (k + nu * (f r / r)) /\ mt = - D * (f r / r + nu * k).
(** Plane strain with thermal expansion [beta * T], axisymmetric: the hoop and radial strains of Hooke's law come from one
    radial displacement u (strains u/r and u'), i.e. (r e_tt)' = e_rr. *)
Definition strainHoop (E nu beta srr stt T : R) : R := (1 + nu) / E * ((1 - nu) * stt - nu * srr) + beta * T.
Definition compatible (E nu beta : R) (srr stt T : R -> R) (r : R) : Prop :=
  is_derive (fun t => t * strainHoop E nu beta (srr t) (stt t) (T t)) r (strainHoop E nu beta (stt r) (srr r) (T r)).
(** Temperature of a long pipe with given surface temperatures: r T' is constant. *)
Definition conduction (ra rb Ti Te : R) (T : R -> R) : Prop :=
  T ra = Ti /\ T rb = Te /\ exists c, forall r, 0 < r -> is_derive T r (c / r).
