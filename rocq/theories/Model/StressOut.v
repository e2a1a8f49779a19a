(** Model of stress results in local coordinate systems, Elasticity/Elasticity.C:807-843, 846-866, three-dimensional bodies.
    IFEM: SymmTensor::transform(T) is T s T^t, SymmTensor::vonMises as below; SymmTensor::principal is the function
    [principal] (the three values, or none if it fails). *)
From Coq Require Import List.
From Verif.Lib Require Import Base Vec3 Tensor3.
Import ListNotations.

Definition symm6 (s : t3) : list R := map (tovoigt s) [1; 2; 3; 4; 5; 6]%nat.
Definition transform (T s : t3) : t3 := mul3 T (mul3 s (trn T)).
Definition vonMises (s : t3) : R :=
  sqrt (((s 1%nat 1%nat - s 2%nat 2%nat) * (s 1%nat 1%nat - s 2%nat 2%nat) + (s 2%nat 2%nat - s 3%nat 3%nat) * (s 2%nat 2%nat - s 3%nat 3%nat) + (s 3%nat 3%nat - s 1%nat 1%nat) * (s 3%nat 3%nat - s 1%nat 1%nat)) / 2
        + 3 * (s 1%nat 2%nat * s 1%nat 2%nat + s 2%nat 3%nat * s 2%nat 3%nat + s 1%nat 3%nat * s 1%nat 3%nat)).

Section Out.
Variable principal : t3 -> option v3.
Variable locSys : option (v3 -> res t3).    (* LocalSystem::getTmat, see LocalSys *)
(** Lines 807-843 for the stress or strain tensor [sigma] at the point [X]; the tensor after the transformation. *)
Definition tensorOut (wantPrincipal toLocal : bool) (X : v3) (sigma : t3) : res t3 :=
  if (toLocal && wantPrincipal)%bool then match locSys with Some f => let* T := f X in Ret (transform T sigma) | None => Ret sigma end
  else Ret sigma.
Definition stressOut (wantPrincipal toLocal : bool) (X : v3) (sigma : t3) : res (list R) :=
  let p := if (toLocal && wantPrincipal)%bool then principal sigma else None in
  let* s := tensorOut wantPrincipal toLocal X sigma in
  Ret (symm6 s ++ (if toLocal then [vonMises s] else []) ++ match p with Some p => [vx p; vy p; vz p] | None => [] end).
(** Lines 846-866 for the analytical stress [s] and a material with [ni] internal variables; the vector p starts as zero. *)
Definition exactOut (wantPrincipal : bool) (ni : nat) (s : t3) : list R :=
  symm6 s ++ [vonMises s] ++
  if wantPrincipal then repeat 0 ni ++ match principal s with Some p => [vx p; vy p; vz p] | None => [0; 0; 0] end else [].
End Out.
