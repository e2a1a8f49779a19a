(** Solution modes: which element matrices/vectors an integrand writes and which ones its element container has.
    Integration parameters are rationals (NaN is not modelled). Executable, axiom free. *)
From Coq Require Import ZArith QArith List Bool Lia.
From Verif Require Import Lib.Base.
Import ListNotations.
Open Scope Z_scope.

(** SIM::SolutionMode of the IFEM library, in its order (RECOVERY and NORMS are the last two). *)
Inductive mode := INIT | STATIC | ARCLEN | DYNAMIC | VIBRATION | BUCKLING | STIFF_ONLY | MASS_ONLY
  | RHS_ONLY | INT_FORCES | RECOVERY | NORMS.

Definition mode_eqb (a b : mode) : bool :=
  match a, b with
  | INIT, INIT | STATIC, STATIC | ARCLEN, ARCLEN | DYNAMIC, DYNAMIC | VIBRATION, VIBRATION
  | BUCKLING, BUCKLING | STIFF_ONLY, STIFF_ONLY | MASS_ONLY, MASS_ONLY | RHS_ONLY, RHS_ONLY
  | INT_FORCES, INT_FORCES | RECOVERY, RECOVERY | NORMS, NORMS => true
  | _, _ => false
  end.

(** The integrands: LinearElasticity, NonlinearElasticityTL, NonlinearElasticity, NonlinearElasticityUL,
    NonlinearElasticityFbar, NonlinearElasticityULMX, NonlinearElasticityULMixed, ElasticBar, ElasticCable,
    ElasticBeam, KirchhoffLovePlate, KirchhoffLoveShell, NLKirchhoffLoveShell. *)
Inductive integrand := LinEl | TotLag | NonLin | UpdLag | Fbar | PresModes | Mixed | Bar | Cable | Beam
  | Plate | Shell | NLShell.

(** Slots, 1-based, 0 = none (ElasticBase.h 92-102; KirchhoffLove has [eK] for [eKm] and no [eKg]). *)
Record slots := mkSlots { eKm : Z; eKg : Z; eM : Z; eS : Z; gS : Z; iS : Z; dS : Z }.

(** Configuration: integration parameters, number of solution states and vectors, whether BDF is used, and
    options given at construction or input: modal analysis, presence of an end moment (cable), load correction
    stiffness (cable), local axes (beam). *)
Record config := mkCfg { prm : nat -> Q; nCS : nat; nSV : nat; bdf : bool;
  modal : bool; moment : bool; lcStif : bool; localAxes : bool }.

Definition isPos (q : Q) : bool := negb (Qle_bool q 0).
Definition isNeg (q : Q) : bool := negb (Qle_bool 0 q).
Definition newmark (c : config) : bool := (nCS c <? nSV c)%nat.

(** ElasticBase::setIntegrationPrm, Elasticity/ElasticBase.C 191-209 (5 parameters stored). *)
Definition setPrm (i : nat) (v : Q) (c : config) : config :=
  let p := if (i <? 5)%nat then (fun k => if (k =? i)%nat then v else prm c k) else prm c in
  let fresh := negb (i <? 5)%nat && negb (bdf c) in
  let b := bdf c || negb (i <? 5)%nat in
  let ncs := if fresh && (nSV c <? 4)%nat then 4%nat else nCS c in
  let nsv := if fresh && (nSV c <? 4)%nat then 4%nat else nSV c in
  let nsv' :=
    if (i =? 4)%nat && Qeq_bool (p 4%nat) 1 then (ncs * 3 + 2)%nat
    else if (i =? 2)%nat && (nsv <? ncs * 3)%nat && negb (Qeq_bool v 0) then (ncs * 3)%nat
    else if (i =? 2)%nat && Qeq_bool v 0 then ncs else nsv in
  mkCfg p ncs nsv' b (modal c) (moment c) (lcStif c) (localAxes c).

(** KirchhoffLove::setIntegrationPrm, Elasticity/KirchhoffLove.C 142-145; [intPrm] has 4 entries
    (KirchhoffLove.h; index 4 and above are ignored). *)
Definition setPrmKL (i : nat) (v : Q) (c : config) : config :=
  mkCfg (if (i <? 4)%nat then (fun k => if (k =? i)%nat then v else prm c k) else prm c)
    (nCS c) (nSV c) (bdf c) (modal c) (moment c) (lcStif c) (localAxes c).

(** ElasticBase::setMode, Elasticity/ElasticBase.C 40-131 (names and solution vectors left out). *)
Definition slotsBase (c : config) (m : mode) : slots :=
  let p3 := prm c 3%nat in let hht := Qeq_bool (prm c 4%nat) 1 in
  match m with
  | ARCLEN | STATIC => mkSlots 1 (if isPos p3 then 0 else 1) 0 1 (if mode_eqb m ARCLEN then 2 else 0) 1 0
  | DYNAMIC => mkSlots 3 (if isPos p3 then 0 else if isNeg p3 then 4 else 3) 2 (if hht then 3 else 1) 0 1 0
  | BUCKLING => mkSlots 1 2 0 0 0 0 0
  | VIBRATION => mkSlots 1 0 2 0 0 0 0
  | STIFF_ONLY => mkSlots 1 0 0 0 0 0 0
  | MASS_ONLY => mkSlots 0 0 1 1 0 0 0
  | RHS_ONLY => if newmark c
      then mkSlots 3 (if Qeq_bool p3 0 then 3 else 0) 2 (if hht then 3 else 1) 0 1 0
      else mkSlots 0 0 0 1 0 1 0
  | INT_FORCES => mkSlots 0 0 0 0 0 1 0
  | _ => mkSlots 0 0 0 0 0 0 0
  end.

(** LinearElasticity::setMode, Elasticity/LinearElasticity.C 73-94; [d] says whether a dual field exists.
    Result: stored mode and slots. *)
Definition slotsLin (c : config) (d : bool) (m0 : mode) : mode * slots :=
  let m := if modal c && mode_eqb m0 DYNAMIC then RHS_ONLY else m0 in
  let s := slotsBase c m in
  (m, mkSlots (eKm s) (if mode_eqb m BUCKLING then eKg s else 0) (eM s) (eS s) (gS s)
        (if mode_eqb m STATIC || (modal c && mode_eqb m RHS_ONLY) then 0 else iS s)
        (if d then (if mode_eqb m STATIC || mode_eqb m NORMS then 2 else 1) else 0)).

(** NonlinearElasticityTL::setMode 48-57, NonlinearElasticity::setMode 75-85, NonlinearElasticityUL::setMode
    50-63 (also used by the F-bar and mixed integrands): RHS_ONLY uses the slots of STATIC. *)
Definition slotsNL (c : config) (m : mode) : mode * slots :=
  (m, slotsBase c (if mode_eqb m RHS_ONLY then STATIC else m)).

(** KirchhoffLove::setMode, Elasticity/KirchhoffLove.C 72-125. *)
Definition slotsKL (c : config) (m0 : mode) : mode * slots :=
  let stored := if mode_eqb m0 DYNAMIC && modal c then RHS_ONLY else m0 in
  let m := if mode_eqb m0 DYNAMIC && modal c then RHS_ONLY
           else if mode_eqb m0 RHS_ONLY && negb (modal c) && negb (Qeq_bool (prm c 2%nat) 0) then DYNAMIC else m0 in
  (stored,
   match m with
   | ARCLEN => mkSlots 1 0 0 1 2 0 0
   | STATIC => mkSlots 1 0 0 1 0 0 0
   | DYNAMIC => mkSlots 3 0 2 1 0 1 0
   | VIBRATION => mkSlots 1 0 2 0 0 0 0
   | STIFF_ONLY => mkSlots 1 0 0 0 0 0 0
   | MASS_ONLY => mkSlots 0 0 1 1 0 0 0
   | RHS_ONLY => mkSlots 0 0 0 1 0 1 0
   | INT_FORCES => mkSlots 0 0 0 0 0 1 0
   | _ => mkSlots 0 0 0 0 0 0 0
   end).

(** NLKirchhoffLoveShell::setMode, Shell/NLKirchhoffLoveShell.C 21-29. *)
Definition slotsNLShell (c : config) (m0 : mode) : mode * slots :=
  let '(m, s) := slotsKL c m0 in
  (m, if mode_eqb m0 STATIC || mode_eqb m0 ARCLEN || mode_eqb m0 RHS_ONLY
      then mkSlots (eKm s) (eKg s) (eM s) (eS s) (gS s) 1 (dS s) else s).

Definition setMode (k : integrand) (c : config) (d : bool) (m : mode) : mode * slots :=
  match k with
  | LinEl => slotsLin c d m
  | TotLag | NonLin | UpdLag | Fbar | PresModes | Mixed => slotsNL c m
  | Bar | Cable | Beam => (m, slotsBase c m)
  | Plate | Shell => slotsKL c m
  | NLShell => slotsNLShell c m
  end.

(** Element container: for each matrix (vector) whether it has the size of the displacement DOFs. *)
Record container := mkCont { mats : list bool; vecs : list bool }.
Definition full (n : nat) (v : nat) : container := mkCont (repeat true n) (repeat true v).

(** ElasticBase::getMode(true), ElasticBase.C 168-174, and KirchhoffLove::getMode only select the container class;
    the numbers of matrices and vectors are given below. [b] is the argument [neumann]. *)

(** Elasticity::getLocalIntegral, Elasticity/Elasticity.C 165-242. *)
Definition contElasticity (c : config) (ds : Z) (m : mode) (b : bool) : container :=
  let linDyn := isPos (prm c 3%nat) in let hht := Qeq_bool (prm c 4%nat) 1 in
  let dyn := full (if b then 0 else if isNeg (prm c 3%nat) then 4 else 3)
                  (if hht then 3 else if b || linDyn then 1 else 2) in
  match (if bdf c && mode_eqb m STATIC then DYNAMIC else m) with
  | STATIC | MASS_ONLY => full (if b then 0 else 1) (if b || (ds =? 0) then 1 else Z.to_nat ds)
  | ARCLEN => full (if b then 0 else 1) 2
  | DYNAMIC => dyn
  | VIBRATION | BUCKLING => full 2 0
  | STIFF_ONLY => full 1 0
  | RHS_ONLY => if newmark c then dyn else full (if b then 0 else 1) 1
  | INT_FORCES => full (if b then 0 else 1) 1
  | _ => full 0 0
  end.

(** NonlinearElasticityFbar::getLocalIntegral, FiniteDeformation/NonlinearElasticityFbar.C 123-168. *)
Definition contFbar (m : mode) (b : bool) : container :=
  match m with
  | STATIC => full (if b then 0 else 1) 1
  | DYNAMIC => full (if b then 0 else 2) 1
  | VIBRATION | BUCKLING => full 2 0
  | RHS_ONLY => full (if b then 0 else 1) 1
  | _ => full 0 0
  end.

(** NonlinearElasticityULMX::getLocalIntegral, FiniteDeformation/NonlinearElasticityULMX.C 158-196: the last
    matrix is the pressure-mode matrix [Hh]. In the other modes there is no [Hh] and MxElmData::init, called by
    initElement (73-86, 199-211), reports an error before any interior evaluation: [None]. *)
Definition contMX (m : mode) (b : bool) : option container :=
  match m with
  | STATIC | RHS_ONLY => Some (mkCont (if b then [false] else [true; false]) [true])
  | DYNAMIC => Some (mkCont (if b then [false] else [true; true; false]) [true])
  | RECOVERY => Some (mkCont [false] [])
  | _ => if b then Some (full 0 0) else None
  end.

(** NonlinearElasticityULMixed::getLocalIntegral 207-234 and MixedElmMats 66-69: six matrices of which only the
    first (Kuu) is a displacement matrix (Ktan, the last one, is larger); four vectors of which the first. Without [!neumann] the
    matrices stay empty. *)
Definition contMixed (b : bool) : container :=
  mkCont [negb b; false; false; false; false; false] [true; false; false; false].

(** ElasticBar::getLocalIntegral, Beam/ElasticBar.C 64-102. *)
Definition contBar (c : config) (m : mode) (b : bool) : container :=
  let p3 := prm c 3%nat in
  match m with
  | STATIC | MASS_ONLY => full (if b then 0 else 1) 1
  | ARCLEN => full 1 2
  | DYNAMIC => full (if b then 0 else if isNeg p3 then 4 else 3)
                    (if isPos p3 then 1 else if Qeq_bool (prm c 4%nat) 1 then 3 else 2)
  | VIBRATION | BUCKLING => full 2 0
  | STIFF_ONLY => full 1 0
  | RHS_ONLY | INT_FORCES => full 0 1
  | _ => full 0 0
  end.

(** ElasticCable::getLocalIntegral, Beam/ElasticCable.C 39-53. *)
Definition contCable (c : config) (m : mode) (b : bool) : container :=
  let r := contBar c m b in
  if mode_eqb m STATIC && b && moment c then mkCont [true] (vecs r) else r.

(** ElasticBeam::getLocalIntegral, Beam/ElasticBeam.C 197-268; [dyn] is [myType <> STD] (see C67). *)
Definition contBeam (c : config) (dyn : bool) (m : mode) : container :=
  let p3 := prm c 3%nat in
  let dynC := full (if isNeg p3 then 4 else 3) (if isPos p3 then 1 else 2) in
  match m with
  | STATIC | MASS_ONLY => full 1 1
  | ARCLEN => full 1 2
  | DYNAMIC => dynC
  | VIBRATION | BUCKLING => full 2 0
  | STIFF_ONLY => full 1 0
  | RHS_ONLY => if dyn then dynC else full 0 1
  | INT_FORCES => full 0 1
  | _ => full 0 0
  end.

(** [myType] after lines 203-219 of ElasticBeam.C for a beam that was of the standard type before:
    [None] = the call reports an error and returns no container. *)
Definition beamDyn (c : config) (m : mode) : option bool :=
  let sim := if mode_eqb m RHS_ONLY then (if newmark c then DYNAMIC else STATIC) else m in
  if negb (mode_eqb sim DYNAMIC) then Some false
  else if isPos (prm c 3%nat) then Some true
  else if negb (localAxes c) then Some true else None.

(** KirchhoffLove::getLocalIntegral, Elasticity/KirchhoffLove.C 211-269. *)
Definition contKL (c : config) (m : mode) (b : bool) : container :=
  let p3 := prm c 3%nat in
  let dyn := full (if b then 0 else if isNeg p3 then 4 else 3) (if b || isPos p3 then 1 else 2) in
  match m with
  | STATIC => full (if b then 0 else 1) 1
  | ARCLEN => full (if b then 0 else 1) 2
  | MASS_ONLY => full (if b then 0 else 1) 1
  | DYNAMIC => dyn
  | VIBRATION => full 2 0
  | STIFF_ONLY => full 1 0
  | RHS_ONLY => if modal c || Qeq_bool (prm c 2%nat) 0 then full (if b then 0 else 1) 1 else dyn
  | _ => full 0 0
  end.

Definition getLocalIntegral (k : integrand) (c : config) (ds : Z) (m : mode) (b : bool) : option container :=
  match k with
  | LinEl | TotLag | NonLin | UpdLag => Some (contElasticity c ds m b)
  | Fbar => Some (contFbar m b)
  | PresModes => contMX m b
  | Mixed => Some (contMixed b)
  | Bar => Some (contBar c m b)
  | Cable => Some (contCable c m b)
  | Beam => match beamDyn c m with Some d => Some (contBeam c d m) | None => None end
  | Plate | Shell | NLShell => Some (contKL c m b)
  end.

(** An access that is not guarded by the slot being non-zero: slot 0 is index -1. *)
Definition uncond (z : Z) : Z := if z =? 0 then -1 else z.

(** Slots written (or referenced) by interior evaluation, [evalInt]/[finalizeElement]: matrices and vectors.
    LinearElasticity.C 183-278; NonlinearElasticityTL.C 117-147; NonlinearElasticity.C 113-185;
    NonlinearElasticityUL.C 167-197; NonlinearElasticityFbar.C 586-664; NonlinearElasticityULMX.C 288-298, 517-555;
    NonlinearElasticityULMixed.C 341-475 (A[eKg-1], A[eKm-1] always); ElasticBar.C 206-289; ElasticCable.C 428-465;
    ElasticBeam.C 551-636; KirchhoffLovePlate.C 124-137, 340-346; KirchhoffLoveShell.C 45-57;
    NLKirchhoffLoveShell.C 56-74. *)
Definition matWrites (k : integrand) (s : slots) : list Z :=
  match k with
  | Mixed => [uncond (eKm s); uncond (eKg s); eM s]
  | Fbar => [eKm s; eM s]
  | Bar => [eKm s; (if eKm s =? 0 then 0 else eKg s); eM s]
  | Plate | Shell | NLShell => [eKm s; eM s]
  | _ => [eKm s; eKg s; eM s]
  end.

Definition vecWrites (k : integrand) (s : slots) : list Z :=
  match k with
  | LinEl => [eS s; iS s; (if 1 <? dS s then dS s else 0)]
  | TotLag => [eS s; iS s; gS s]
  | Plate => [eS s; (if eKm s =? 0 then 0 else iS s)]
  | Shell => [eS s; gS s]
  | NLShell => [eS s; iS s; (if eS s =? 0 then 0 else gS s)]
  | _ => [eS s; iS s]
  end.

(** Slots written by boundary evaluation, [evalBou]: Elasticity.C 641-700 (linear and small formulations),
    NonlinearElasticityTL.C 153-231, NonlinearElasticityUL.C 203-287, ElasticCable.C 476-609,
    KirchhoffLovePlate.C 217-248, KirchhoffLoveShell.C 202-245. Without a load vector evalBou reports an error
    and writes nothing. Bars and beams have no boundary evaluation. *)
Definition bouMatWrites (k : integrand) (c : config) (s : slots) : list Z :=
  match k with
  | Cable => if moment c && lcStif c && negb (eS s =? 0) then [eKg s] else []
  | _ => []
  end.

Definition bouVecWrites (k : integrand) (s : slots) : list Z :=
  if eS s =? 0 then [] else
  match k with
  | TotLag | UpdLag | Fbar | PresModes | Mixed | Shell | NLShell => [eS s; gS s]
  | Bar | Beam => []
  | _ => [eS s]
  end.

(** Buffered left-hand-side matrices, LinearElasticity.C 97-110 (initLHSbuffers), 120-131 (initElement),
    220-237 (evalInt) and 395-406 (finalizeElement). [M] is the type of matrices. *)
Section Buffers.
Variable M : Type.
Variable emptyM : M.

Record lin := mkLin { sl : slots; Kb : list M; Mb : list M }.

Definition neg (z : Z) : Z := if 0 <? z then - z else z.
Definition resizeL (n : nat) (l : list M) : list M := firstn n l ++ repeat emptyM (n - length l).

Definition initLHSbuffers (nEl : nat) (s : lin) : lin :=
  if (1 <? nEl)%nat then mkLin (sl s) (resizeL nEl (Kb s)) (resizeL nEl (Mb s))
  else if (nEl =? 0)%nat && negb (match Kb s with [] => true | _ => false end)
  then let t := sl s in mkLin (mkSlots (neg (eKm t)) (neg (eKg t)) (neg (eM t)) (eS t) (gS t) (iS t) (dS t)) (Kb s) (Mb s)
  else s.

(** [A[i]] as an assignment; the index is converted to an unsigned number in C++. *)
Definition setA (A : list M) (i : Z) (x : M) : res (list M) :=
  if (0 <=? i) && (i <? Z.of_nat (length A)) then Ret (firstn (Z.to_nat i) A ++ x :: skipn (S (Z.to_nat i)) A) else UB.
Definition getA (A : list M) (i : Z) : res M :=
  if (0 <=? i) && (i <? Z.of_nat (length A)) then Ret (nth (Z.to_nat i) A emptyM) else UB.

(** initElement for element [iel] (1-based; 0 when the element has no number). *)
Definition initElement (s : lin) (iel : nat) (A : list M) : res (list M) :=
  if (iel =? 0)%nat then Ret A else
  let e := (iel - 1)%nat in
  let* A1 := (if (e <? length (Kb s))%nat && (eKm (sl s) <? 0) then setA A (- eKm (sl s) - 1) (nth e (Kb s) emptyM) else Ret A) in
  if (e <? length (Mb s))%nat && (eKm (sl s) <? 0) then setA A1 (- eM (sl s) - 1) (nth e (Mb s) emptyM) else Ret A1.

(** Integration replaces the matrices with positive slots by the integrated ones. *)
Definition integrate (s : lin) (K Mm : M) (A : list M) : res (list M) :=
  let* A1 := (if 0 <? eKm (sl s) then setA A (eKm (sl s) - 1) K else Ret A) in
  if 0 <? eM (sl s) then setA A1 (eM (sl s) - 1) Mm else Ret A1.

Definition replaceL (e : nat) (x : M) (l : list M) : list M := firstn e l ++ x :: skipn (S e) l.

Definition finalizeElement (s : lin) (iel : nat) (A : list M) : res lin :=
  if (iel =? 0)%nat then Ret s else
  let e := (iel - 1)%nat in
  let* K' := (if (e <? length (Kb s))%nat && (0 <? eKm (sl s)) then let* x := getA A (eKm (sl s) - 1) in Ret (replaceL e x (Kb s)) else Ret (Kb s)) in
  let* M' := (if (e <? length (Mb s))%nat && (0 <? eM (sl s)) then let* x := getA A (eM (sl s) - 1) in Ret (replaceL e x (Mb s)) else Ret (Mb s)) in
  Ret (mkLin (sl s) K' M').

(** One element visit: result is the new state and the element's matrices handed to the assembly. *)
Definition visit (s : lin) (iel : nat) (K Mm : M) (A : list M) : res (lin * list M) :=
  let* A1 := initElement s iel A in
  let* A2 := integrate s K Mm A1 in
  let* s' := finalizeElement s iel A2 in
  Ret (s', A2).

Definition changeMode (t : slots) (s : lin) : lin := mkLin t (Kb s) (Mb s).
End Buffers.

(** Sequences of set-up calls. [AddDual] is Elasticity::addExtrFunction with a vector function (Elasticity.C 147-162). *)
Inductive call := SetPrm (i : nat) (v : Q) | AddDual | SetMode (m : mode).
Record setup := mkSetup { cfg : config; dual : nat; cur : mode; slt : slots }.
Definition isKL (k : integrand) : bool := match k with Plate | Shell | NLShell => true | _ => false end.
Definition step (k : integrand) (s : setup) (e : call) : setup :=
  match e with
  | SetPrm i v => mkSetup ((if isKL k then setPrmKL else setPrm) i v (cfg s)) (dual s) (cur s) (slt s)
  | AddDual => let c := cfg s in let n := S (S (dual s)) in
      mkSetup (mkCfg (prm c) n n (bdf c) (modal c) (moment c) (lcStif c) (localAxes c)) (S (dual s)) (cur s) (slt s)
  | SetMode m => let '(m', t) := setMode k (cfg s) (negb (dual s =? 0)%nat) m in mkSetup (cfg s) (dual s) m' t
  end.
(** Constructors: ElasticBase.C 21-31, NonlinearElasticityULMX.C 141-146 (two states). *)
Definition construct (k : integrand) (mo mt lc la : bool) : setup :=
  let n := match k with PresModes => 2%nat | _ => 1%nat end in
  mkSetup (mkCfg (fun _ => 0%Q) n n false mo mt lc la) 0 INIT (mkSlots 0 0 0 0 0 0 0).
Definition runCalls (k : integrand) (l : list call) (s : setup) : setup := fold_left (step k) l s.
