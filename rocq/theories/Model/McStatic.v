(** The coupled linear static solver, SIMmcStatic::solveStatic, Linear/SIMmcStatic.C 21-112, called from main_LinEl.C 546-547.
    A simulator is known by what its calls return and how many geometry blocks (patches) it writes.  What is done is recorded as a list of
    events, the last one first.
    IFEM (assumed): initSystem of a simulator takes over the equation system of the one given; writeGlvG numbers its blocks from the
    counter on and advances it; writeGlvS attaches the results to the blocks after the number given to setStartGeo; setVTF(nullptr)
    detaches a simulator from the file, closeGlv closes the file.
    Left out: quadrature rule, headings, and the contents of the results. *)
From Coq Require Import List ZArith QArith Bool Ascii String.
From Verif.Lib Require Import Base.
Import ListNotations.

Record sim := mkSim { asmOk : bool; hasPts : bool; nGeo : nat; geoOk : bool; solOk : bool }.
Inductive mode := NoMode | STATIC | RECOVERY.
Inductive event :=
  | EField (name : string) (i : nat)
  | EAsm (i sys : nat) (m : mode)
  | ESolve (sys : nat)
  | EDump (i : nat) (m : mode) (tol : Q)
  | EExport
  | EGeo (i first count : nat)
  | ERes (i : nat) (m : mode) (first count : nat)
  | EStep | EClose.
(** utl::zero_print_tol, and for each simulator its mode, equation system, attachment to the file and first block. *)
Record st := mkSt { tol : Q; md : nat -> mode; sys : nat -> nat; att : nat -> bool; startB : nat -> nat; geoBlk : nat; log : list event }.
Definition upd {A} (f : nat -> A) (i : nat) (a : A) : nat -> A := fun j => if (j =? i)%nat then a else f j.
Definition record (e : event) (s : st) : st := mkSt (tol s) (md s) (sys s) (att s) (startB s) (geoBlk s) (e :: log s).
Definition setMode (i : nat) (m : mode) (s : st) : st := mkSt (tol s) (upd (md s) i m) (sys s) (att s) (startB s) (geoBlk s) (log s).
Definition setSys (i j : nat) (s : st) : st := mkSt (tol s) (md s) (upd (sys s) i j) (att s) (startB s) (geoBlk s) (log s).
Definition setTol (t : Q) (s : st) : st := mkSt t (md s) (sys s) (att s) (startB s) (geoBlk s) (log s).
Definition setAtt (i : nat) (b : bool) (s : st) : st := mkSt (tol s) (md s) (sys s) (upd (att s) i b) (startB s) (geoBlk s) (log s).
Definition setStart (i n : nat) (s : st) : st := mkSt (tol s) (md s) (sys s) (att s) (upd (startB s) i n) (geoBlk s) (log s).
Definition addBlk (n : nat) (s : st) : st := mkSt (tol s) (md s) (sys s) (att s) (startB s) (geoBlk s + n) (log s).

(** 28-34: the character after the u is incremented for each simulator. *)
Fixpoint fields (c : nat) (i : nat) (ss : list sim) (s : st) : st :=
  match ss with
  | [] => s
  | _ :: r => fields (S c) (S i) r (record (EField (String "u" (String (ascii_of_nat (S c)) EmptyString)) i) s)
  end.
(** 39-50. *)
Fixpoint assembleAll (i : nat) (ss : list sim) (s : st) : st * bool :=
  match ss with
  | [] => (s, true)
  | a :: r =>
    let s := setMode i STATIC s in
    let s := setSys i (if (i =? 0)%nat then i else sys s 0%nat) s in
    let s := record (EAsm i (sys s i) (md s i)) s in
    if asmOk a then assembleAll (S i) r s else (s, false)
  end.
(** 58-67. *)
Fixpoint dumpAll (zt : Q) (i : nat) (ss : list sim) (s : st) : st :=
  match ss with
  | [] => s
  | a :: r =>
    dumpAll zt (S i) r
      (if hasPts a then
         let old := tol s in
         let s := if Qlt_le_dec 0 zt then setTol zt s else s in
         let s := setMode i RECOVERY s in
         setTol old (record (EDump i (md s i) (tol s)) s)
       else s)
  end.
(** writeGlvG of one simulator, 87 and 94. *)
Definition writeG (i : nat) (a : sim) (s : st) : st := addBlk (nGeo a) (record (EGeo i (geoBlk s) (nGeo a)) s).
(** 90-96. *)
Fixpoint geoRest (i : nat) (ss : list sim) (s : st) : st * bool :=
  match ss with
  | [] => (s, true)
  | a :: r =>
    let s := setStart i (geoBlk s) s in
    let s := writeG i a (setAtt i (att s 0%nat) s) in
    if geoOk a then geoRest (S i) r s else (s, false)
  end.
(** 99-105; the start of the blocks is kept in a local vector until setStartGeo. *)
Fixpoint resAll (i : nat) (ss : list sim) (s : st) : st * bool :=
  match ss with
  | [] => (s, true)
  | a :: r =>
    let s := setMode i RECOVERY s in
    let s := record (ERes i (md s i) (startB s i) (nGeo a)) s in
    if solOk a then resAll (S i) r s else (s, false)
  end.
(** The destructor of ClearVTF, 81. *)
Fixpoint clearAll (i : nat) (ss : list sim) (s : st) : st :=
  match ss with [] => s | _ :: r => clearAll (S i) r (setAtt i false s) end.
(** 84-110; the vector startBlk starts with zeros. *)
Definition output (ss : list sim) (s : st) : st * Z :=
  match ss with
  | [] => (s, 0%Z)
  | a :: r =>
    let s := writeG 0 a (setAtt 0 true (setStart 0 0 s)) in
    if negb (geoOk a) then (s, 12%Z) else
    let (s, ok) := geoRest 1 r s in
    if negb ok then (s, 12%Z) else
    let (s, ok) := resAll 0 ss s in
    if negb ok then (s, 16%Z) else
    (record EClose (record EStep s), 0%Z)
  end.
(** 21-112; mySims.front() of no simulators is undefined. *)
Definition solveStatic (ss : list sim) (solved exporter : bool) (zt : Q) (format : Z) (s : st) : res (st * Z) :=
  let s := if exporter then fields 48 0 ss s else s in
  let (s, ok) := assembleAll 0 ss s in
  if negb ok then Ret (s, 4%Z) else
  match ss with
  | [] => UB
  | _ =>
    let s := record (ESolve (sys s 0%nat)) s in
    if negb solved then Ret (s, 5%Z) else
    let s := dumpAll zt 0 ss s in
    let s := if exporter then record EExport s else s in
    if (format <? 0)%Z then Ret (s, 0%Z) else
    let (s, c) := output ss (mkSt (tol s) (md s) (sys s) (att s) (startB s) 0 (log s)) in
    Ret (clearAll 0 ss s, c)
  end.
(** Before the call. *)
Definition fresh (t : Q) : st := mkSt t (fun _ => NoMode) (fun i => i) (fun _ => false) (fun _ => 0%nat) 0 [].
