(** Local coordinate systems for stress output. Elasticity/LocalSystems.C 24-151.
    hypot, atan2, acos, cos, sin and sqrt are exact. A division by zero (giving NaN entries in the
    returned tensor) is the distinct outcome [UB]. The debug output (PRINT_CS) is left out. *)
From Verif Require Import Lib.Base Lib.Vec3 Lib.Tensor3 Model.Analytic.

(** The tensor with the given rows; [Tensor T(3)] starts as zero. *)
Definition rows3 (a b c : v3) : t3 := fun i j =>
  match i with 1%nat => vc a j | 2%nat => vc b j | 3%nat => vc c j | _ => 0 end.
(** Elasticity/LocalSystems.C 41-51 *)
Definition cylinder (X : v3) : res t3 :=
  let r := hypot (vx X) (vy X) in
  if Req_EM_T r 0 then UB else
  let t11 := vx X / r in let t12 := vy X / r in
  Ret (rows3 (V t11 t12 0) (V (- t12) t11 0) (V 0 0 1)).
(** Elasticity/LocalSystems.C 92-136; [h] the height of the centre of the sphere. *)
Definition cylinderSphere (h : R) (patch : Z) (X : v3) : res t3 :=
  if (patch =? 1)%Z then
    let r := hypot (vx X) (vy X) in
    if Req_EM_T r 0 then UB else
    let t21 := - vy X / r in let t22 := vx X / r in
    Ret (rows3 (V 0 0 (-1)) (V t21 t22 0) (V t22 (- t21) 0))
  else
    let v := V (vx X) (vy X) (vz X - h) in
    let l := vlen v in
    if Req_EM_T l 0 then UB else
    let w := V (vx v / l) (vy v / l) (vz v / l) in
    let theta := atan2 (vy X) (vx X) in
    let phi := acos (vz w) in
    let v1 := V (cos theta * cos phi) (sin theta * cos phi) (- sin phi) in
    Ret (rows3 v1 (vcross w v1) w).
