(** Specification of plane reference solutions: equilibrium, tractions, resultants. *)
From Coquelicot Require Import Coquelicot.
From Verif Require Import Lib.Base.

(** A field of stress components sxx, syy, sxy in the plane is in equilibrium (no body force) at a point. *)
Definition equilibrium (sxx syy sxy : R -> R -> R) (x y : R) : Prop := exists a b c d,
  is_derive (fun t => sxx t y) x a /\ is_derive (fun t => sxy x t) y b /\
  is_derive (fun t => sxy t y) x c /\ is_derive (fun t => syy x t) y d /\ a + b = 0 /\ c + d = 0.
(** Tractions on a line with normal (nx, ny). *)
Definition tractionFree (sxx syy sxy nx ny : R) : Prop := sxx * nx + sxy * ny = 0 /\ sxy * nx + syy * ny = 0.

(** The same in terms of functions of the polar coordinates: the x and y derivatives by the chain rule. *)
Definition dx (fr ft r th : R) : R := cos th * fr - sin th / r * ft.
Definition dy (fr ft r th : R) : R := sin th * fr + cos th / r * ft.
Definition equilibriumPolar (sxx syy sxy : R -> R -> R) (r th : R) : Prop := exists a1 a2 b1 b2 c1 c2,
  is_derive (fun t => sxx t th) r a1 /\ is_derive (fun t => sxx r t) th a2 /\
  is_derive (fun t => syy t th) r b1 /\ is_derive (fun t => syy r t) th b2 /\
  is_derive (fun t => sxy t th) r c1 /\ is_derive (fun t => sxy r t) th c2 /\
  dx a1 a2 r th + dy c1 c2 r th = 0 /\ dx c1 c2 r th + dy b1 b2 r th = 0.

(** Moments of a thin plate with deflection w (given by its second derivatives). *)
Definition plateMoments (D nu wxx wyy wxy mxx myy mxy : R) : Prop :=
  mxx = - D * (wxx + nu * wyy) /\ myy = - D * (wyy + nu * wxx) /\ mxy = - D * (1 - nu) * wxy.
(** Axisymmetric plate: radial equilibrium of moments with shear force q per unit length. *)
Definition axisymmetric (Mr Mt : R -> R) (q r : R) : Prop := exists d, is_derive (fun t => t * Mr t) r d /\ d - Mt r = r * q.

(** Displacements (u, v) have the given strains at a point. *)
Definition hasStrain (u v : R -> R -> R) (exx eyy gxy : R) (x y : R) : Prop :=
  is_derive (fun t => u t y) x exx /\ is_derive (fun t => v x t) y eyy /\
  exists a b, is_derive (fun t => u x t) y a /\ is_derive (fun t => v t y) x b /\ a + b = gxy.
(** Hooke's law: the stresses at a point are those of the displacements. *)
Definition planeStressState (E nu sxx syy sxy : R) (u v : R -> R -> R) (x y : R) : Prop :=
  hasStrain u v ((sxx - nu * syy) / E) ((syy - nu * sxx) / E) (2 * (1 + nu) / E * sxy) x y.
Definition planeStrainState (E nu sxx syy sxy szz : R) (u v : R -> R -> R) (x y : R) : Prop :=
  hasStrain u v ((sxx - nu * (syy + szz)) / E) ((syy - nu * (sxx + szz)) / E) (2 * (1 + nu) / E * sxy) x y /\
  (szz - nu * (sxx + syy)) / E = 0.
(** Plane strain with axial symmetry and a thermal strain: w is the radial displacement. *)
Definition heatedState (E nu thermal srr stt szz : R) (w : R -> R) (r : R) : Prop :=
  is_derive w r ((srr - nu * (stt + szz)) / E + thermal) /\ w r / r = (stt - nu * (srr + szz)) / E + thermal /\
  (szz - nu * (srr + stt)) / E + thermal = 0.
