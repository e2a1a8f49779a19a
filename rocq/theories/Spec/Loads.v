(** Stresses on a boundary: traction, resultant force and moment about a point. *)
From Verif.Lib Require Import Base Vec3 Tensor3.
(** Cauchy's traction of a stress tensor on a surface with normal n. *)
Definition cauchyTraction (s : t3) (n : v3) : v3 :=
  V (s 1%nat 1%nat * vx n + s 1%nat 2%nat * vy n + s 1%nat 3%nat * vz n)
    (s 2%nat 1%nat * vx n + s 2%nat 2%nat * vy n + s 2%nat 3%nat * vz n)
    (s 3%nat 1%nat * vx n + s 3%nat 2%nat * vy n + s 3%nat 3%nat * vz n).
Fixpoint vsum {A} (f : A -> v3) (l : list A) : v3 := match l with nil => vzero | cons a r => vadd (f a) (vsum f r) end.
