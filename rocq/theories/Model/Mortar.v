(** Mortar contact against rigid bodies.
    Models FiniteDeformation/MortarContact.C:30-111, 147-310, 348-466, 492-555.
    Equation numbers are taken to be the global degrees of freedom, i.e. the assembly is
    described before constraint elimination in SAM (IFEM). *)
From Verif Require Import Lib.Base Lib.Sums Lib.Writes.

(** ** Integration point contributions *)

(* accResAndTangent, l.186-236; [Ns], [Nm]: slave and master shape functions, [mN]: master
   normal, [Tg]: geometric stiffness, [small]: Tg.normInf() <= 1.0e-12 *)
Section Point.
Variables (npv ns nm : nat) (Ns Nm mN : nat -> R) (Tg : nat -> nat -> R) (small : bool) (lambda : nat -> R) (epsJxW : R).
(* l.203 *)
Definition pNint : R := sumf ns (fun j => Ns j * lambda j) * epsJxW.
Definition shape (j : nat) : R := if (j <=? ns)%nat then Ns j else Nm (j - ns)%nat.
(* l.207-209 *)
Definition resWrites : list wr :=
  loop (ns + nm) (fun j => loop npv (fun l =>
    [(dof npv j l, 1%nat, pNint * mN l * (if (j <=? ns)%nat then - Ns j else Nm (j - ns)%nat))])).
(* l.218-231 *)
Definition tanWrites : list wr :=
  if small then [] else
  loop (ns + nm) (fun j => loop npv (fun l => loop (ns + nm) (fun i => loop npv (fun k =>
    [(dof npv i k, dof npv j l, shape i * shape j * (Tg k l * pNint))])))).
Definition accRes (M : mat) : res mat := run_add M resWrites.
Definition accTan (M : mat) : res mat := run_add M tanWrites.

(* MortarContact::evalBou, l.172-181; here [mN] is the normal scaled by detJxW *)
Definition phiWrites : list wr :=
  loop ns (fun j => loop (ns + nm) (fun i => loop npv (fun k =>
    [(dof npv i k, j, if (i <=? ns)%nat then mN k * Ns i * Ns j else - (mN k * Nm (i - ns)%nat * Ns j))]))).
End Point.

(** ** Assembly of the mortar matrices *)

Record point := mkPoint { pN : nat -> R; pNm : nat -> R; pNorm : nat -> R; detJxW : R; gap : R }.
(* Contact element: [conn] are the global node numbers (slave nodes, then master nodes),
   zero for the interior nodes that are flagged negative in the code. *)
Record elm := mkElm { nen : nat; nmast : nat; conn : nat -> nat; pts : list point }.

Section Global.
Variables (nsd nNod nSlv : nat).

(* element matrices after integration, l.122-132 and 172-181 *)
Definition elmPhi (e : elm) : res mat :=
  run_add (zeros (nsd * (nen e + nmast e)) (nen e))
    (flat_map (fun p => phiWrites nsd (nen e) (nmast e) (pN p) (pNm p) (fun k => pNorm p k * detJxW p)) (pts e)).
Definition elmAA (e : elm) (j : nat) : R := sumL (fun p => pN p j * detJxW p) (pts e).
Definition elmGap (e : elm) (j : nat) : R := sumL (fun p => pN p j * (gap p * detJxW p)) (pts e).

(* MortarMats::assemble, l.75-88 *)
Definition asmVec (b : elm -> nat -> R) (e : elm) : list wr :=
  loop (nen e) (fun j => if (conn e j =? 0)%nat then [] else [(conn e j, 1%nat, b e j)]).
Definition asmPhi (e : elm) (eM : mat) : list wr :=
  loop (nen e) (fun j => if (conn e j =? 0)%nat then [] else
  loop (nen e + nmast e) (fun i => if (conn e i =? 0)%nat then [] else
  loop nsd (fun d => [(dof nsd (conn e i) d, conn e j, el eM (dof nsd i d) j)]))).

Fixpoint assemblePhi (M : mat) (els : list elm) : res mat :=
  match els with
  | [] => Ret M
  | e :: els => let* eM := elmPhi e in let* M := run_add M (asmPhi e eM) in assemblePhi M els
  end.
Definition mortarPhi (els : list elm) : res mat := assemblePhi (zeros (nsd * nNod) nSlv) els.
Definition mortarAA (els : list elm) : res mat := run_add (zeros nSlv 1) (flat_map (asmVec elmAA) els).
Definition mortarSum (els : list elm) : res mat := run_add (zeros nSlv 1) (flat_map (asmVec elmGap) els).
(* finalize, l.101-103 *)
Definition weightedGap (AA gNA : nat -> R) (j : nat) : R := if Rlt_dec 0 (AA j) then gNA j / AA j else gNA j.

(** ** Global tangent, l.239-310 *)
Variables (eps : R) (AA : nat -> R) (phi : nat -> nat -> R) (active : list bool).
Definition isActive (n : nat) : bool := nth (n - 1) active false.
(* l.252, 279 *)
Definition skip (i : nat) : bool := (i <=? nSlv)%nat && if Req_EM_T (AA i) 0 then true else false.
(* l.265-272, 290-297 *)
Definition springs (I J : nat) : R :=
  sumf (length active) (fun n => if isActive n && (if Rlt_dec 0 (AA n) then true else false)
                                 then eps / AA n * phi I n * phi J n else 0).
Definition tangentWrites : list wr :=
  loop nNod (fun i => if skip i then [] else
    (loop nsd (fun k => loop nsd (fun l => [(dof nsd i k, dof nsd i l, springs (dof nsd i k) (dof nsd i l))])) ++
     loop_from (S i) nNod (fun j => if skip j then [] else
       loop nsd (fun k => loop nsd (fun l =>
         [(dof nsd i k, dof nsd j l, springs (dof nsd i k) (dof nsd j l));
          (dof nsd j l, dof nsd i k, springs (dof nsd i k) (dof nsd j l))])))))%list.
Definition tangent (K : mat) : res mat := if (length active =? 0)%nat then Ret K else run_add K tangentWrites.
End Global.

(** ** Active set *)

(* std::vector<bool>::resize(n,false) *)
Definition resize (l : list bool) (n : nat) : list bool := firstn n l ++ repeat false (n - length l).
(* activeSlave.resize(n,false); activeSlave.back() = true, l.372-373 and 533-534 *)
Definition activate (l : list bool) (n : nat) : list bool :=
  removelast (resize l n) ++ [true].

(* initIntegration, l.359-379 and 503-541: [test n] is the contact condition of node [n] *)
Definition activeSet (first : bool) (it : nat) (nSlv : nat) (test : nat -> bool) (old : list bool) : list bool :=
  let start := if first && (it =? 0)%nat then resize old 1 else [] in
  fold_left (fun l n => if test n then activate l n else l) (seq 1 nSlv) start.

(* the conditions, l.370 and 518-531 *)
Definition penaltyTest (AA wg : nat -> R) (n : nat) : bool :=
  if Rlt_dec 0 (AA n) then if Rle_dec (wg n) 0 then true else false else false.
Definition augmentedTest (eps : R) (AA wg : nat -> R) (lambda : nat -> option R) (n : nat) : bool :=
  if Rlt_dec 0 (AA n) then
    match lambda n with Some l => if Rle_dec (l + eps * wg n) 0 then true else false | None => false end
  else false.

(* hasBoundaryTerms, l.396-402 *)
Definition hasBoundaryTerms (active : list bool) : bool :=
  match active with [] => false | [b] => b | _ => true end.

(* MortarPenalty::initElementBou, l.428-440: nodal gap of an element node *)
Definition nodalGap (wg : nat -> R) (node : nat) : R := if Rlt_dec 0 (wg node) then 0 else wg node.
