(** Model of Elasticity/LinIsotropic.C, LinIsotropic.h.
    Reals replace doubles (no rounding); [nu < 0.0 || nu >= 0.5] is decided exactly here
    (the IEEE version is in Model/NuGuard.v). *)
From Verif.Lib Require Import Base.

(** LinIsotropic.C:213-214: number of stress components. *)
Definition nst (nsd : nat) (ax : bool) : nat :=
  if (Nat.eqb nsd 2 && ax)%bool then 4%nat else (nsd * (nsd + 1) / 2)%nat.

(** LinIsotropic.C:215-297 of LinIsotropic::evaluate: the constitutive matrix, [inv] is [iop < 0].
    E and nu are the values after lines 218-227. *)
Definition cmatrix (nsd : nat) (ps ax inv : bool) (E nu : R) : res mat :=
  let C := zeros (nst nsd ax) (nst nsd ax) in
  if Nat.eqb nsd 1 then                                             (* 229-240 *)
    mset C 1 1 (if inv then 1 / E else E)
  else if Rlt_dec nu 0 then Rejected                                (* 241-246 *)
  else if Rle_dec (1/2) nu then Rejected
  else
    let* C :=
      (if inv then
         if (Nat.eqb nsd 3 || (Nat.eqb nsd 2 && (ps || ax)))%bool then (* 249-253 *)
           let* C := mset C 1 1 (1 / E) in mset C 2 1 (- nu / E)
         else                                                        (* 254-258 *)
           let* C := mset C 1 1 ((1 - nu*nu) / E) in
           mset C 2 1 ((- nu - nu*nu) / E)
       else
         if (Nat.eqb nsd 2 && ps && negb ax)%bool then               (* 261-265 *)
           let* C := mset C 1 1 (E / (1 - nu*nu)) in
           let* c11 := mget C 1 1 in mset C 2 1 (c11 * nu)
         else                                                        (* 266-271 *)
           let fact := E / ((1 + nu) * (1 - nu - nu)) in
           let* C := mset C 1 1 (fact * (1 - nu)) in
           mset C 2 1 (fact * nu)) in
    let* C := mcopy C 1 2 2 1 in                                     (* 273 *)
    let* C := mcopy C 2 2 1 1 in                                     (* 274 *)
    let G := E / (2 + nu + nu) in                                    (* 276 *)
    let* C := mset C (nsd+1) (nsd+1) (if inv then 1 / G else G) in   (* 277 *)
    if (Nat.eqb nsd 2 && ax)%bool then                               (* 279-287 *)
      let* C := mcopy C 4 4 3 3 in
      let* C := mcopy C 3 1 2 1 in
      let* C := mcopy C 3 2 2 1 in
      let* C := mcopy C 1 3 2 1 in
      let* C := mcopy C 2 3 2 1 in
      mcopy C 3 3 1 1
    else if (2 <? nsd)%nat then                                      (* 288-297 *)
      let* C := mcopy C 3 1 2 1 in
      let* C := mcopy C 3 2 2 1 in
      let* C := mcopy C 1 3 2 1 in
      let* C := mcopy C 2 3 2 1 in
      let* C := mcopy C 3 3 1 1 in
      let* C := mcopy C 5 5 4 4 in
      mcopy C 6 6 4 4
    else Ret C.

(** LinIsotropic.C:299-317: stresses.  Result: Voigt array [sig] of C.multiply and, when the output tensor
    has four components in plane strain ([sig4]), the additional sigma_zz of line 316.
    (IFEM's assignment of a 3-array to a 4-component 2D SymmTensor sets xx,yy,xy; trusted.)
    For nsd=1, lines 233-238: sigma = E*eps. *)
Definition stress (nsd : nat) (ps ax sig4 : bool) (E nu : R) (eps : nat -> R)
  : res ((nat -> R) * option R) :=
  let* C := cmatrix nsd ps ax false E nu in
  let sig := mv (nst nsd ax) (el C) eps in
  Ret (sig,
       if (negb ps && negb ax && Nat.eqb nsd 2 && sig4)%bool
       then Some (nu * (sig 1%nat + sig 2%nat)) else None).

(** LinIsotropic.C:326-353: Lame parameters. *)
Definition lame (E nu : R) : res (R * R) :=
  if Rlt_dec nu 0 then Rejected
  else if Rle_dec (1/2) nu then Rejected
  else let mu := (1/2) * E / (1 + nu) in
       Ret (mu * nu / (1/2 - nu), mu).

(** LinIsotropic.C:218-224 (and 340-346): Young's modulus used by evaluate.
    LinIsotropic.C:356-368: Young's modulus of the stiffness queries.
    Efield/Efunc/Eaging are null pointers ([None]) or functions of point/age; [valueFE(fe)] is the value of
    the field at the point. *)
Record Esource (Pt : Type) := mkE {
  Efield : option (Pt -> R); Efunc : option (Pt -> R); Eaging : option (R -> R); Emod : R }.
Arguments mkE {Pt}. Arguments Efield {Pt}. Arguments Efunc {Pt}. Arguments Eaging {Pt}. Arguments Emod {Pt}.

Definition E_evaluate {Pt} (s : Esource Pt) (X : Pt) (age : R) : R :=
  match Efield s with
  | Some f => f X
  | None => match Efunc s with
            | Some f => f X
            | None => match Eaging s with Some f => f age | None => Emod s end
            end
  end.

Definition getStiffness {Pt} (s : Esource Pt) (X : Pt) (age : R) : R :=
  match Efunc s with
  | Some f => f X
  | None => match Eaging s with Some f => f age | None => Emod s end
  end.

Definition getPlateStiffness {Pt} (s : Esource Pt) (nu : R) (X : Pt) (t age : R) : R :=
  getStiffness s X age * t * t * t / (12 - 12 * nu * nu).
