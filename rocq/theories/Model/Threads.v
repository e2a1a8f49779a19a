(** Model of the shared state touched when several threads evaluate one material object.
    IFEM integrates the elements of a group in parallel OpenMP threads, which all call [evaluate] of the one material
    object of the patch.  An evaluation is the sequence of its accesses to data members of that object; an execution
    is any interleaving of these sequences.  Simplified: an access is atomic and takes effect at once (the C++ standard
    promises less for unsynchronised accesses), and several reads within one group of statements are one access. *)
From Coq Require Import List.
From Verif.Lib Require Import Base.
From Verif.Model Require Import LinIsotropic NeoHooke History.
Import ListNotations.

(** An access to the shared state [S]: new state, and the value read (if any). *)
Definition op (S V : Type) : Type := S -> S * option V.
Definition wr {S V} (f : S -> S) : op S V := fun s => (f s, None).
Definition rd {S V} (f : S -> V) : op S V := fun s => (s, Some (f s)).

(** An execution: accesses labelled with the thread doing them.  Result: the values read, with the thread, and the final state. *)
Fixpoint exec {S V} (tr : list (nat * op S V)) (s : S) : list (nat * V) * S :=
  match tr with
  | [] => ([], s)
  | (i, o) :: r =>
    let '(s1, v) := o s in
    let '(l, s2) := exec r s1 in
    (match v with Some v => (i, v) :: l | None => l end, s2)
  end.
(** What thread [i] does in an execution, and what it reads. *)
Definition by_thread {A} (i : nat) (l : list (nat * A)) : list A := map snd (filter (fun p => Nat.eqb (fst p) i) l).

(** * LinIsotropic::evaluate, LinIsotropic.C:208-323: the shared member is [nu]. *)
Record linMat (Pt : Type) := mkLM { lnsd : nat; lps : bool; lax : bool; lsig4 : bool; lE : Pt -> R; lnuFunc : option (Pt -> R) }.
Arguments mkLM {Pt}. Arguments lnsd {Pt}. Arguments lps {Pt}. Arguments lax {Pt}. Arguments lsig4 {Pt}. Arguments lE {Pt}. Arguments lnuFunc {Pt}.

(** Lines 226-227 store the value of the function in [nu]; then [nu] is read in the range check (241), in the normal
    entries (248-271), in the shear modulus (276) and for sigma_zz (316). *)
Definition linOps {Pt} (m : linMat Pt) (x : Pt) : list (op R R) :=
  (match lnuFunc m with Some f => [wr (fun _ => f x)] | None => [] end)
  ++ [rd (fun n => n); rd (fun n => n); rd (fun n => n); rd (fun n => n)].

(** Lines 229-297 with iop >= 0: the constitutive matrix from the values [nc], [ne], [ng] read for the check, the normal entries and the shear modulus. *)
Definition cmatrixR (nsd : nat) (ps ax : bool) (E nc ne ng : R) : res mat :=
  let C := zeros (nst nsd ax) (nst nsd ax) in
  if Nat.eqb nsd 1 then mset C 1 1 E
  else if Rlt_dec nc 0 then Rejected
  else if Rle_dec (1/2) nc then Rejected
  else
    let* C :=
      (if (Nat.eqb nsd 2 && ps && negb ax)%bool then
         let* C := mset C 1 1 (E / (1 - ne*ne)) in
         let* c11 := mget C 1 1 in mset C 2 1 (c11 * ne)
       else
         let fact := E / ((1 + ne) * (1 - ne - ne)) in
         let* C := mset C 1 1 (fact * (1 - ne)) in
         mset C 2 1 (fact * ne)) in
    let* C := mcopy C 1 2 2 1 in
    let* C := mcopy C 2 2 1 1 in
    let G := E / (2 + ng + ng) in
    let* C := mset C (nsd+1) (nsd+1) G in
    if (Nat.eqb nsd 2 && ax)%bool then
      let* C := mcopy C 4 4 3 3 in
      let* C := mcopy C 3 1 2 1 in
      let* C := mcopy C 3 2 2 1 in
      let* C := mcopy C 1 3 2 1 in
      let* C := mcopy C 2 3 2 1 in
      mcopy C 3 3 1 1
    else if (2 <? nsd)%nat then
      let* C := mcopy C 3 1 2 1 in
      let* C := mcopy C 3 2 2 1 in
      let* C := mcopy C 1 3 2 1 in
      let* C := mcopy C 2 3 2 1 in
      let* C := mcopy C 3 3 1 1 in
      let* C := mcopy C 5 5 4 4 in
      mcopy C 6 6 4 4
    else Ret C.
(** Lines 299-317: the stress, with the value [nz] read for sigma_zz. *)
Definition stressR {Pt} (m : linMat Pt) (x : Pt) (eps : nat -> R) (nc ne ng nz : R) : res ((nat -> R) * option R) :=
  let* C := cmatrixR (lnsd m) (lps m) (lax m) (lE m x) nc ne ng in
  let sig := mv (nst (lnsd m) (lax m)) (el C) eps in
  Ret (sig, if (negb (lps m) && negb (lax m) && Nat.eqb (lnsd m) 2 && lsig4 m)%bool then Some (nz * (sig 1%nat + sig 2%nat)) else None).

(** The stresses a thread gets at its points, from the values it has read. *)
Fixpoint stresses {Pt} (m : linMat Pt) (xs : list (Pt * (nat -> R))) (reads : list R) : list (res ((nat -> R) * option R)) :=
  match xs, reads with
  | (x, eps) :: r, nc :: ne :: ng :: nz :: q => stressR m x eps nc ne ng nz :: stresses m r q
  | _, _ => []
  end.

(** * NeoHookeMaterial::evaluate, NeoHookeMaterial.C:92-138: the shared members are Emod, nu, Bmod and Smod.
    [hE] is the stiffness function or field (lines 111-118), [hnuFunc] the function of the tag <poisson>
    (read by LinIsotropic::parse, not used by this class). *)
Record neoMat (Pt : Type) := mkNM { hE : option (Pt -> R); hnuFunc : option (Pt -> R) }.
Arguments mkNM {Pt}. Arguments hE {Pt}. Arguments hnuFunc {Pt}.
(** NeoHookeMaterial.C:73-81 for nu <= 0.5 and E > 0, one access per member written; lines 62-71 (nu > 0.5) are
    reached by the constructor and by [parse] only, as these leave nu <= 0.5 (C09). *)
Definition setEmod (e : R) (m : neo) : neo := mkNeo e (nNu m) (mVER m) (iVOL m) (Bmod m) (Smod m).
Definition setSmod (m : neo) : neo := mkNeo (nEmod m) (nNu m) (mVER m) (iVOL m) (Bmod m) (1/2 * nEmod m / (1 + nNu m)).
Definition setBmod (m : neo) : neo :=
  mkNeo (nEmod m) (nNu m) (mVER m) (iVOL m) (if Rle_dec (1/2) (nNu m) then 0 else nEmod m / (3 - 6 * nNu m)) (Smod m).
Definition subBmod (m : neo) : neo :=
  mkNeo (nEmod m) (nNu m) (mVER m) (iVOL m)
    (if Nat.eqb (mVER m) 1 then if Rlt_dec (nNu m) (1/2) then Bmod m - Smod m * 2 / 3 else Bmod m else Bmod m) (Smod m).
(** Lines 120-121, then the constants are read by stdNeoHooke/modNeoHooke (174-315). *)
Definition neoOps {Pt} (M : neoMat Pt) (x : Pt) : list (op neo R) :=
  (match hE M with
   | Some f => if Rlt_dec 0 (f x) then [wr (setEmod (f x)); wr setSmod; wr setBmod; wr subBmod] else []
   | None => []
   end) ++ [rd Bmod; rd Smod].

(** * PlasticMaterial::evaluate during integration, PlasticMaterial.C:124-176: the shared array is itgPoints (one slot per
    integration point, resized by initIntegration(nGP), 73-76), of which an evaluation uses the slot fe.iGP only.
    [None] in the array is a null pointer. *)
Section Plastic.
Context {H T O : Type}.
Variable upd : H -> T -> T -> nat -> bool -> option (H * O).
Variables (h0 : H) (f0 : T).
Fixpoint put {A} (i : nat) (a : A) (l : list A) : list A :=
  match l, i with [], _ => [] | _ :: r, 0%nat => a :: r | b :: r, S k => b :: put k a r end.
(** Result [None]: the error returns of lines 141-158. *)
Definition plasticEval (first : bool) (it : nat) (i : nat) (F : T) (l : list (option (point H T))) : list (option (point H T)) * option (option O) :=
  match nth_error l i with
  | None => (l, None)                                                              (* 140-145 *)
  | Some None => if (Nat.eqb it 0 && first)%bool
                 then let '(p, o) := History.evaluate upd first it F (newPoint h0 f0) in (put i (Some p) l, Some o)   (* 148-149 *)
                 else (l, None)                                                    (* 150-156 *)
  | Some (Some p) => let '(p, o) := History.evaluate upd first it F p in (put i (Some p) l, Some o)
  end.
Definition plasticOp (first : bool) (it : nat) (e : nat * T) : op (list (option (point H T))) (nat * option (option O)) :=
  fun l => let '(l, r) := plasticEval first it (fst e) (snd e) l in (l, Some (fst e, r)).
End Plastic.
