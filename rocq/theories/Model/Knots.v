(** Knot generator for beams, Linear/SIMLinElBeamC1.C 259-289. Exact rational arithmetic: every value is
    a dyadic fraction, exactly representable in a double for up to 26 levels (more levels would mean more than
    67 million knots; from 54 levels on the first loop of the code does not end in floating-point arithmetic).
    Loops carry fuel; running out of it is [None]. *)
From Coq Require Import QArith List ZArith.
Import ListNotations.
Local Open Scope Q_scope.

(** std::set<double>::insert *)
Fixpoint insertQ (x : Q) (l : list Q) : list Q :=
  match l with
  | [] => [x]
  | y :: r => match x ?= y with Lt => x :: l | Eq => l | Gt => y :: insertQ x r end
  end.
(** Linear/SIMLinElBeamC1.C 275-276 *)
Fixpoint evenLoop (fuel : nat) (h x : Q) (s : list Q) : option (list Q) :=
  match fuel with
  | O => None
  | Datatypes.S n => match x ?= 1 with Lt => evenLoop n h (x + h) (insertQ x s) | _ => Some s end
  end.
(** Linear/SIMLinElBeamC1.C 278-282 *)
Fixpoint focusLoop (fuel : nat) (hmin h : Q) (s : list Q) : option (list Q) :=
  match fuel with
  | O => None
  | Datatypes.S n => match h ?= hmin with Gt => focusLoop n hmin (h * (1#2)) (insertQ ((1#2) + h) (insertQ ((1#2) - h) s)) | _ => Some s end
  end.
(** Linear/SIMLinElBeamC1.C 259-289; the outer option is running out of fuel, the Boolean the result. *)
Definition parseXi (fuel : nat) (midpointFocus : bool) (levels : Z) (xi : list Q) : option (bool * list Q) :=
  if midpointFocus then
    if (levels <? 1)%Z then Some (false, xi) else
    let hmax := 2 ^ (- levels) in
    let hmin := hmax * hmax in
    match evenLoop fuel hmax hmax [] with
    | None => None
    | Some s => match focusLoop fuel hmin (hmax * (1#2)) s with
                | None => None | Some s => Some (true, xi ++ s) end
    end
  else Some (false, xi).
