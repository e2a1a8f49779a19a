(** Superelements: static condensation (Linear/SIMLinEl.h, main_LinEl.C 183-188 and 1014-1028) and the
    superelement solver (Linear/SIMLinElSup.C).

    Simplifications: identifiers are numbers in the order of the [std::map]; an FE model is the list of its
    patches, each with its number of visualisation points and its material; the VTF file is the list of
    written blocks. IFEM calls ([getTopItemNodes], [evalSolution], [setPatchMaterial], the tesselation)
    are parameters or replaced by their contract, see DESIGN.md. *)
From Coq Require Import List Ascii String Arith Bool.
From Verif Require Import Lib.Base Model.FileNames.
Import ListNotations.
Local Open Scope list_scope.

(** ** File names *)
(** SIMLinEl.h 264-272: the recovery file. [find_last_of] finds a dot or returns a number not below the size. *)
Definition recFile (supel : chars) : chars :=
  match beforeLastDot supel with Some p => p ++ str ".rec" | None => supel ++ str ".rec" end.
(** main_LinEl.C 1014-1018: the superelement file. *)
Definition supFile (supel : chars) : chars :=
  match beforeLastDot supel with Some _ => supel | None => supel ++ str ".sup" end.

(** ** Selection of the superelement to condense *)
(** A child of the elasticity block. *)
Inductive tag := TStatCond (k : nat) | TSuperelement (id : option nat) | TOther (k : nat).
(** SIMLinEl.h 292-306: the loop over the children. [sup] is the requested identifier.
    [None]: the block is skipped; otherwise the tag to parse afterwards. *)
Fixpoint scanSC (sup : option nat) (l : list tag) (sctag : option nat) : option (option nat) :=
  match l with
  | [] => Some sctag
  | TStatCond k :: r => scanSC sup r (Some k)
  | TSuperelement (Some id) :: r =>
      match sup with
      | Some s => if (id =? s)%nat then scanSC sup r sctag else None
      | None => scanSC sup r sctag
      end
  | TSuperelement None :: r | TOther _ :: r => scanSC sup r sctag
  end.
(** SIMLinEl.h 258-316 for the elasticity blocks of the input: the blocks read and the condensation tags parsed. *)
Definition parseBlock (sup : option nat) (b : list tag) (st : list (list tag) * list nat) : list (list tag) * list nat :=
  match scanSC sup b None with
  | None => st
  | Some sc => (fst st ++ [b], snd st ++ match sc with Some k => [k] | None => [] end)
  end.
Definition parseBlocks (sup : option nat) (bs : list (list tag)) : list (list tag) * list nat :=
  fold_left (fun st b => parseBlock sup b st) bs ([], []).

(** ** Retained nodes *)
Fixpoint insertN (x : nat) (l : list nat) : list nat :=
  match l with [] => [x] | y :: r => if (x <=? y)%nat then x :: l else y :: insertN x r end.
(** [std::sort] *)
Definition sortN (l : list nat) : list nat := fold_right insertN [] l.
(** SIMLinEl.h 334-356: [get it nodes] is [getTopItemNodes]: the extended list and its return value. *)
Definition retained (I : Type) (get : I -> list nat -> list nat * bool) (items : list I) (base : bool) (old : list nat) : list nat * bool :=
  if negb base then (old, false) else
  let '(ns, ok) := fold_left (fun st it => let '(ns, ok) := st in let '(ns', k) := get it ns in (ns', ok && k)) items (old, true) in
  if negb ok || match ns with [] => true | _ => false end then (ns, ok) else (sortN ns, true).

(** ** The superelement solver *)
(** A patch of an FE model: null pointer, or its number of visualisation points
    (no points for an empty patch) and its material. *)
Inductive patch := PNull | PFE (pts : nat) (mat : nat).
Definition femodel := list patch.
(** [mySubSim], a [std::map]: sorted association list; SIMLinElSup.C 54 overwrites. *)
Fixpoint setSub (id : nat) (m : femodel) (l : list (nat * femodel)) : list (nat * femodel) :=
  match l with
  | [] => [(id, m)]
  | (k, x) :: r => if (id =? k)%nat then (id, m) :: r else if (id <? k)%nat then (id, m) :: l else (k, x) :: setSub id m r
  end.
Fixpoint findSub (id : nat) (l : list (nat * femodel)) : option femodel :=
  match l with [] => None | (k, x) :: r => if (id =? k)%nat then Some x else findSub id r end.
(** SIMLinElSup.C 33-58: elasticity blocks with and without identifier. *)
Definition parseSup (bs : list (option nat * femodel)) : list (nat * femodel) :=
  fold_left (fun l b => match fst b with Some id => setSub id (snd b) l | None => l end) bs [].
(** SIMLinElSup.C 61-68: the FE model of the superelement with identifier [id]. *)
Definition link (subs : list (nat * femodel)) (id : nat) : option femodel := findSub id subs.

(** SIMLinElSup.C 81-115: number of points of the tesselation of an FE model; null and empty patches are passed over. *)
Fixpoint tessPoints (m : femodel) : nat :=
  match m with [] => 0 | PNull :: r => tessPoints r | PFE n _ :: r => n + tessPoints r end.

(** SIMLinElSup.C 118-125: the model whose integrand evaluates the results. *)
Definition problemOf (subs : list (nat * femodel)) : option nat := match subs with (id, _) :: _ => Some id | [] => None end.

(** One evaluated column of results: the superelement, the patch of its model and the material in use. *)
Record col := mkCol { csup : nat; cpat : nat; cmat : option nat }.

(** SIMLinElSup.C 242-261: the patches of the model [id] of superelement [s], evaluated with the integrand of model [prob].
    [cur k] is the material held by the integrand of model [k]; [setPatchMaterial] sets it in the integrand of the model itself. *)
Fixpoint evalPatches (s id prob i : nat) (m : femodel) (cur : nat -> option nat) : res (list col * (nat -> option nat)) :=
  match m with
  | [] => Ret ([], cur)
  | PNull :: _ => UB
  | PFE n a :: r =>
      let cur' := fun k => if (k =? id)%nat then Some a else cur k in
      let* t := evalPatches s id prob (S i) r cur' in
      Ret (repeat (mkCol s i (cur' prob)) n ++ fst t, snd t)
  end.

(** A written nodal result block: number, geometry block and the data (row of the field and its columns). *)
Record block := mkBlock { bid : nat; bgeo : nat; brow : nat; bdata : list col }.
(** SIMLinElSup.C 132-144 with [nrow] rows: the blocks and the list of block numbers for each component. *)
Fixpoint pushAt (j x : nat) (sid : list (list nat)) : list (list nat) :=
  match j, sid with
  | O, l :: r => (l ++ [x]) :: r
  | O, [] => [[x]]
  | S k, l :: r => l :: pushAt k x r
  | S _, [] => [[x]]
  end.
Fixpoint writeFields (j nrow : nat) (data : list col) (geo nblk : nat) (sid : list (list nat)) : list block * nat * list (list nat) :=
  match nrow with
  | O => ([], nblk, sid)
  | S n => let b := mkBlock (S nblk) geo (S j) data in
           let '(bs, k, sid') := writeFields (S j) n data geo (S nblk) (pushAt j (S nblk) sid) in (b :: bs, k, sid')
  end.

(** SIMLinElSup.C 228-275: secondary results of the superelements [sups] (their identifiers). [zero s] are the padded columns of a
    superelement without FE model, [nrow] the number of components. *)
Fixpoint glvS2 (subs : list (nat * femodel)) (prob nrow : nat) (zero : nat -> list col) (sups : list nat) (s geo nblk : nat)
   (cur : nat -> option nat) (sid : list (list nat)) : res (list block * nat * list (list nat)) :=
  match sups with
  | [] => Ret ([], nblk, sid)
  | id :: r =>
      let* dc := match link subs id with
                 | Some m => evalPatches s id prob 0 m cur
                 | None => Ret (zero s, cur)
                 end in
      let '(bs, k, sid') := writeFields 0 nrow (fst dc) (S geo) nblk sid in
      let* t := glvS2 subs prob nrow zero r (S s) (S geo) k (snd dc) sid' in
      let '(bs2, k2, sid2) := t in Ret (bs ++ bs2, k2, sid2)
  end.
(** Without any FE model [problem] is the integrand of the superelement solver, which holds no material ([prob] names none). *)
Definition writeGlvS2 (subs : list (nat * femodel)) (nrow : nat) (zero : nat -> list col) (sups : list nat) (start nblk : nat)
   (cur : nat -> option nat) : res (list block * nat * list (list nat)) :=
  glvS2 subs (match problemOf subs with Some p => p | None => O end) nrow zero sups 0 start nblk cur [].
(** SIMLinElSup.C 280-285: block identifiers of the components: the first is at least 21. *)
Definition compIds (idBlock n : nat) : list nat := seq (if (idBlock <=? 20)%nat then 21 else idBlock) n.
