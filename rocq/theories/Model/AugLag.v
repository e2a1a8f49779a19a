(** Augmented Lagrange contact against rigid bodies.
    Models FiniteDeformation/MortarContact.C:492-555, 558-751 (MortarAugmentedLag), on top of Model/Mortar.

    Simplified: the system is kept in blocks, displacements (numbered by the global degrees of freedom, as in Model/Mortar)
    and one multiplier per slave node (numbered by the slave node); SAM (IFEM) puts them at their equations, see C103 for the
    map from slave nodes to multipliers. The geometric stiffness of the master surface is left out (MortarContact.C 216:
    Tg.normInf() <= 1.0e-12, e.g. a plane). *)
From Verif Require Import Lib.Base Lib.Sums Lib.Writes Model.Mortar.
Import ListNotations.

(** Multiplier values, l.513-522: [psol n] is the solution value at the multiplier of slave node [n], [lag n] whether the
    node has a multiplier (ALmap.find). *)
Definition lambdaOf (AA : nat -> R) (lag : nat -> bool) (psol : nat -> R) (n : nat) : R :=
  if Rlt_dec 0 (AA n) then if lag n then psol n else 0 else 0.
(** The active set, l.505-541. *)
Definition alActive (first : bool) (it nSlv : nat) (eps : R) (AA wg : nat -> R) (lag : nat -> bool) (psol : nat -> R) (old : list bool) : list bool :=
  activeSet first it nSlv (augmentedTest eps AA wg (fun n => if lag n then Some (psol n) else None)) old.

Section Element.
Variables (nsd : nat) (eps : R) (lambda wg : nat -> R) (act : list bool).

(** MortarAugmentedLag::initElementBou, l.578-601: nLag, iLag and LNA after [n] nodes. *)
Fixpoint lagLoop (e : elm) (n : nat) : nat * (nat -> nat) * (nat -> R) :=
  match n with
  | O => (O, fun _ => O, fun _ => 0)
  | S m =>
      let '(c, iLag, LNA) := lagLoop e m in
      if (conn e n =? 0)%nat then (c, iLag, LNA)
      else if isActive act (conn e n)
           then (S c, (fun j => if (j =? n)%nat then S c else iLag j),
                 (fun j => if (j =? n)%nat then lambda (conn e n) + eps * wg (conn e n) else LNA j))
           else (S c, iLag, LNA)
  end.
Definition nLag (e : elm) : nat := fst (fst (lagLoop e (nen e))).
Definition iLag (e : elm) : nat -> nat := snd (fst (lagLoop e (nen e))).
Definition LNA (e : elm) : nat -> R := snd (lagLoop e (nen e)).
Notation ndof e := (nsd * (nen e + nmast e))%nat.

(** evalBou, l.624-627: the residual (l.604: nedof+nLag entries); resWrites is accResAndTangent, l.203-209. *)
Definition elmR (e : elm) : res mat :=
  run_add (zeros (ndof e + nLag e) 1)
    (flat_map (fun p => resWrites nsd (nen e) (nmast e) (pN p) (pNm p) (pNorm p) (LNA e) (detJxW p)) (pts e)).
(** l.631-648 *)
Definition kulWrites (e : elm) (p : point) : list wr :=
  loop (nen e) (fun j => if (iLag e j =? 0)%nat then [] else
    (loop (nen e) (fun i => loop nsd (fun k => [(dof nsd i k, iLag e j, pNorm p k * pN p i * pN p j * detJxW p)])) ++
     loop (nmast e) (fun i => loop nsd (fun k => [(dof nsd (nen e + i) k, iLag e j, - (pNorm p k * pNm p i * pN p j * detJxW p))])))%list).
Definition elmKul (e : elm) : res mat := run_add (zeros (ndof e) (nLag e)) (flat_map (kulWrites e) (pts e)).
(** getNewtonMatrix, l.719-751; the element matrix Kuu holds geometric stiffness only. *)
Definition newton (e : elm) (Kul : mat) : mat :=
  mkMat (ndof e + nLag e) (ndof e + nLag e) (fun i j =>
    if (i <=? ndof e)%nat then if (j <=? ndof e)%nat then 0 else el Kul i (j - ndof e)
    else if (j <=? ndof e)%nat then el Kul j (i - ndof e) else 0).

(** Element assembly (SAM, IFEM): the multipliers of an element are those of its boundary nodes, in the same sequence
    (SIMContact.C 92-105). *)
Definition lagNodes (e : elm) : list nat := filter (fun c => negb (c =? 0)%nat) (map (conn e) (seq 1 (nen e))).
Definition lagNode (e : elm) (c : nat) : nat := nth (c - 1) (lagNodes e) O.
Definition asmR (e : elm) (R : mat) : list wr :=
  loop (nen e + nmast e) (fun i => if (conn e i =? 0)%nat then [] else loop nsd (fun k => [(dof nsd (conn e i) k, 1%nat, el R (dof nsd i k) 1)])).
Definition asmUL (e : elm) (K : mat) : list wr :=
  loop (nen e + nmast e) (fun i => if (conn e i =? 0)%nat then [] else loop nsd (fun k =>
    loop (nLag e) (fun c => [(dof nsd (conn e i) k, lagNode e c, el K (dof nsd i k) (ndof e + c))]))).
Definition asmLU (e : elm) (K : mat) : list wr :=
  loop (nen e + nmast e) (fun i => if (conn e i =? 0)%nat then [] else loop nsd (fun k =>
    loop (nLag e) (fun c => [(lagNode e c, dof nsd (conn e i) k, el K (ndof e + c) (dof nsd i k))]))).
Fixpoint assembleR (M : mat) (els : list elm) : res mat :=
  match els with [] => Ret M | e :: r => let* R := elmR e in let* M := run_add M (asmR e R) in assembleR M r end.
Fixpoint assembleK (asm : elm -> mat -> list wr) (M : mat) (els : list elm) : res mat :=
  match els with [] => Ret M | e :: r => let* K := elmKul e in let* M := run_add M (asm e (newton e K)) in assembleK asm M r end.
End Element.

(** MortarAugmentedLag::assemble, l.667-706: residual and diagonal matrix of the multiplier of slave node [n]; none without
    area. *)
Definition multRow (eps : R) (AA wg lambda : nat -> R) (act : list bool) (n : nat) : R * R :=
  if Rlt_dec 0 (AA n) then
    if isActive act n then (- wg n * AA n, 0) else (lambda n / eps * AA n, - AA n / eps)
  else (0, 0).
(** l.688-692: a node with area but without multiplier is an error. *)
Definition multOk (nSlv : nat) (AA : nat -> R) (lag : nat -> bool) : bool :=
  forallb (fun n => if Rlt_dec 0 (AA n) then lag n else true) (seq 1 nSlv).

(** The contact part of the system for one body: residuals of displacements and multipliers, and the blocks of the matrix. *)
Record system := mkSystem { Ru : nat -> R; Rl : nat -> R; Kuu : nat -> nat -> R; Kul : nat -> nat -> R; Klu : nat -> nat -> R; Kll : nat -> R }.
(** [els]: the contact elements with the gaps in the current configuration. *)
Definition contactSystem (nsd nNod nSlv : nat) (eps : R) (lag : nat -> bool) (els : list elm) (psol : nat -> R)
  (first : bool) (it : nat) (old : list bool) : res system :=
  let* A := mortarAA nSlv els in
  let* G := mortarSum nSlv els in
  let* P := mortarPhi nsd nNod nSlv els in
  let AA := fun n => el A n 1 in
  let wg := weightedGap AA (fun n => el G n 1) in
  let act := alActive first it nSlv eps AA wg lag psol old in
  let lambda := lambdaOf AA lag psol in
  let* R := assembleR nsd eps lambda wg act (zeros (nsd * nNod) 1) els in
  let* ul := assembleK nsd eps lambda wg act (asmUL nsd eps lambda wg act) (zeros (nsd * nNod) nSlv) els in
  let* lu := assembleK nsd eps lambda wg act (asmLU nsd eps lambda wg act) (zeros nSlv (nsd * nNod)) els in
  let* uu := tangent nsd nNod nSlv eps AA (el P) act (zeros (nsd * nNod) (nsd * nNod)) in
  if multOk nSlv AA lag
  then Ret (mkSystem (fun i => el R i 1) (fun n => fst (multRow eps AA wg lambda act n)) (el uu) (el ul) (el lu)
              (fun n => snd (multRow eps AA wg lambda act n)))
  else Rejected.

(** Several bodies: each adds to the row of the multiplier, which belongs to the slave node (C103). *)
Record bodyAL := mkBodyAL { beps : R; barea : nat -> R; bgap : nat -> R; bact : list bool }.
Definition multResidual (bs : list bodyAL) (lag : nat -> bool) (psol : nat -> R) (n : nat) : R :=
  sumL (fun b => fst (multRow (beps b) (barea b) (bgap b) (lambdaOf (barea b) lag psol) (bact b) n)) bs.
