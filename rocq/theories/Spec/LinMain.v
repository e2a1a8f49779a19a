(** Command line of the linear program as described in its usage message and its documentation (main_LinEl.C 43-103, 325-338). *)
From Coq Require Import List ZArith String Ascii.
From Verif Require Import Model.LinMain.
Import ListNotations.
Open Scope string_scope.
Open Scope list_scope.

Section Spec.
Variable pid0 : bool.
(** Options without a value. *)
Definition flags : list (string * list assign) :=
  [("-tracRes", [Set_ KtracRes (Bo true)]); ("-printMax", [Set_ KprintMax (Ch "G")]); ("-printMaxPatch", [Set_ KprintMax (Ch "P")]);
   ("-dumpASC", [Set_ KdumpASCII (Bo pid0)]); ("-dumpNodeMap", [Set_ KdumpNodeMap (Bo true)]); ("-free", [Set_ KignoreDirichlet (Bo true)]);
   ("-dynamic", [Set_ KdynSol (Ch "d")]); ("-qstatic", [Set_ KdynSol (Ch "s")]); ("-mlc", [Set_ Kmlcase (Bo true)]);
   ("-dumpModes", [Set_ KdumpModes (Bo true)]); ("-strain", [Set_ KwantStrain (Bo true)]); ("-check", [Set_ Kiop (Nu 100)]);
   ("-ignoreSol", [Set_ Kiop (Nu 200)]); ("-checkRHS", [Set_ KcheckRHS (Bo true)]); ("-vizRHS", [Set_ KvizRHS (Nu 2)]); ("-fixDup", [Set_ KfixDup (Bo true)]);
   ("-2Dpstrain", [Set_ Kdim (Nu 2); Set_ KplaneStrain (Bo true)]); ("-2Daxisymm", [Set_ Kdim (Nu 2); Set_ KaxiSymmetry (Bo true)]);
   ("-2DKL", [Set_ Kdim (Nu 2); Set_ KisC1 (Bo true); Set_ KKLp (Bo true); Set_ Kshell (Bo false)]);
   ("-2DKLshel", [Set_ Kdim (Nu 2); Set_ KisC1 (Bo true); Set_ KKLp (Bo true); Set_ Kshell (Bo true)]);
   ("-1D2DKL", [Set_ Kdim (Nu 12); Set_ KisC1 (Bo true); Set_ KKLp (Bo true); Set_ Kshell (Bo false)]);
   ("-1D2DKLshel", [Set_ Kdim (Nu 12); Set_ KisC1 (Bo true); Set_ KKLp (Bo true); Set_ Kshell (Bo true)]);
   ("-1DKL", [Set_ Kdim (Nu 1); Set_ KisC1 (Bo true); Set_ KKLp (Bo true)]); ("-1DC1", [Set_ Kdim (Nu 1); Set_ KisC1 (Bo true)]);
   ("-1D3D", [Set_ Kdim (Nu 13)]); ("-1Dsup", [Set_ Kdim (Nu 14)]);
   ("-dualadap", [Set_ KdualSol (Ch "d"); Set_ Kadap (Nu (-2))]); ("-dual", [Set_ KdualSol (Ch "d")]);
   ("-RHSonly", [Set_ Kiop (Nu 210)]); ("-plotSC", [Set_ KplotSC (Bo true)]);
   ("-noPrincipal", [Set_ KwantPrincipal (Bo false)]); ("-noProj", [Set_ KnoProj (Bo true)]); ("-noError", [Set_ KnoError (Bo true)])].
(** Options with one value. *)
Definition valued : list (string * key) := [("-outPrec", KoutPrec); ("-ztol", Kztol); ("-time", Ktime); ("-shrink", Kshrink); ("-vox", KvecX); ("-voy", KvecY); ("-voz", KvecZ)].
Inductive opt :=
| Flag (n : string) | Val (n v : string) | Sets (l : list string) | Ignore (l : list string) | Condensed (id : option string)
| Ifem (a : string) (d p : option Z)            (* an option of IFEM with the dimension or adaptivity it sets *)
| IfemOld (a : string) (vs : list string).      (* an option of IFEM with its values, read elsewhere *)
Definition words (o : opt) : list string :=
  match o with
  | Flag n => [n] | Val n v => [n; v] | Sets l => "-dumpMatlab" :: l | Ignore l => "-ignore" :: l
  | Condensed id => "-staticCond" :: match id with Some i => [i] | None => [] end
  | Ifem a _ _ => [a] | IfemOld a vs => a :: vs
  end.
Definition meaning (o : opt) : list assign :=
  match o with
  | Flag n => match find (fun e => String.eqb (fst e) n) flags with Some e => snd e | None => [] end
  | Val n v => match find (fun e => String.eqb (fst e) n) valued with Some e => [Set_ (snd e) (Wd v)] | None => [] end
  | Sets l => [Set_ KdumpMatlab (Bo true); Add KtopSets l] | Ignore l => [Add Kignored l]
  | Condensed id => Set_ Kiop (Nu 9) :: match id with Some i => [Set_ Ksupid (Wd i)] | None => [] end
  | Ifem _ d p => match d with Some d => [Set_ Kdim (Nu d)] | None => [] end ++ match p with Some p => [Set_ Kadap (Nu p)] | None => [] end
  | IfemOld _ _ => []
  end.
(** A word that starts with a hyphen, or a digit. *)
Definition startsWith (p : ascii -> bool) (w : string) : bool := match w with String c _ => p c | EmptyString => false end.
Definition hyphen (w : string) : bool := startsWith (fun c => Ascii.eqb c "-") w.
Definition number (w : string) : bool := startsWith (fun c => let n := nat_of_ascii c in (48 <=? n)%nat && (n <=? 57)%nat)%bool w.
(** Options as the documentation describes them. *)
Definition wellFormed (o : opt) : Prop :=
  match o with
  | Flag n => In n (map fst flags) | Val n _ => In n (map fst valued)
  | Sets l => forall w, In w l -> hyphen w = false | Ignore l => forall w, In w l -> number w = true
  | Condensed (Some i) => hyphen i = false | Ifem a _ _ | IfemOld a _ => hyphen a = true | _ => True
  end.
(** An option takes following words as its values: here the input file [f] must not follow directly. *)
Definition open (o : opt) (f : string) : bool :=
  match o with Sets _ => negb (hyphen f) | Ignore _ => number f | Condensed None => negb (hyphen f) | _ => false end.
(** The words of a sequence of options; [f] does not follow directly where it would be taken for a value. *)
Definition line (os : list opt) : list string := List.concat (map words os).
Definition mayFollow (os : list opt) (f : string) : Prop := forall os' o, os = os' ++ [o] -> open o f = false.
Definition settingsOf (s : settings) (os : list opt) : settings := puts s (List.concat (map meaning os)).
(** The names of the options of the program. *)
Definition ownNames : list string := map fst flags ++ map fst valued ++ ["-dumpMatlab"; "-ignore"; "-staticCond"].
End Spec.
(** What IFEM does with words: the names of the program are not its own; its own options take the values that belong to them. *)
Definition ifemOk (base : string -> option (option Z * option Z)) (old : string -> list string -> option nat) (o : opt) : Prop :=
  match o with
  | Ifem a d p => base a = Some (d, p)
  | IfemOld a vs => base a = None /\ (forall r, old a (vs ++ r) = Some (List.length vs)) /\ ~ In a ["-sup"; "-1D3D"; "-1Dsup"]
  | _ => True
  end.
Definition notIfem (base : string -> option (option Z * option Z)) (old : string -> list string -> option nat) (a : string) : Prop :=
  base a = None /\ forall r, old a r = None.

(** Settings of the input file: the last dimension, adaptivity and eigensolver it gives; a three-dimensional model with
    superelements is one of dimension 4, and of dimension 14 with beams besides. *)
Definition isSuper (e : elem) : bool := match e with Superelem => true | _ => false end.
Definition isBeam (e : elem) : bool := match e with BeamElem => true | _ => false end.
Fixpoint since (p : elem -> bool) (es : list elem) : option (list elem) :=
  match es with [] => None | e :: r => if p e then Some r else since p r end.
Definition withParts (d : Z) (es : list elem) : Z :=
  match d with
  | 3 => match since isSuper es with Some r => if existsb isBeam r then 14 else 4 | None => 3 end
  | 4 => if existsb isBeam es then 14 else 4
  | _ => d
  end%Z.
(** The last dimension given ([d]: none), and the elements after it. *)
Fixpoint lastDim (d : Z) (after es : list elem) : Z * list elem :=
  match es with [] => (d, after) | SetDim n :: r => lastDim n r r | _ :: r => lastDim d after r end.
Definition fileDim (d : Z) (es : list elem) : Z := let '(n, after) := lastDim d es es in withParts n after.
Definition lastOf (p : elem -> option Z) (es : list elem) : option Z := fold_left (fun a e => match p e with Some n => Some n | None => a end) es None.
Definition fileSettings (es : list elem) : settings := fun k =>
  match k with
  | Kdim => Nu (fileDim 3 es)
  | Keig => match lastOf (fun e => match e with EigMode n => Some n | _ => None end) es with Some n => Nu n | None => initial k end
  | Kadap => match lastOf (fun e => match e with SetAdap n => Some n | _ => None end) es with Some n => Nu n | None => initial k end
  | _ => initial k
  end.

(** The analysis asked for: a data check solves nothing; with several solvers asked for, coupled before adaptive before dynamic. *)
Definition asked (c : choice) : list analysis :=
  if (iop c =? 100)%Z then [] else if (iop c =? 9)%Z then [Condense] else if (200 <=? iop c)%Z then [Assemble]
  else if ((dim c =? 12) && klp c || (dim c =? 13) || (dim c =? 14))%Z%bool then [Coupled]
  else if adaptive c then [Adaptive]
  else if dyn c then (if ((1 <? dim c) && ((eig c =? 3) || (eig c =? 4) || (eig c =? 6)))%Z%bool then (if restart c then [Newmark] else [Vibration; Newmark]) else [Newmark])
  else if mlc c then [LoadCases]
  else if (eig c =? 0)%Z then [Static] else if (eig c <=? 2)%Z then [Regular] else if (eig c =? 5)%Z then [Static; Buckling] else [Vibration].
(** Values of the options. *)
Definition admissible (c : choice) : Prop := In (iop c) [0; 9; 100; 200; 210]%Z /\ (0 <= eig c <= 6)%Z /\ In (dim c) [1; 2; 3; 12; 13; 14]%Z.
(** Solvers asked for together. *)
Definition conflicting (c : choice) : Prop :=
  let cpl := ((dim c =? 12) && klp c || (dim c =? 13) || (dim c =? 14))%Z%bool in
  (mlc c = true /\ (dyn c = true \/ adaptive c = true \/ cpl = true)) \/ (cpl = true /\ dyn c = true /\ adaptive c = false).
