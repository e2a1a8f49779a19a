(** A description of a plate, shell or beam, and how it is written as text and as XML. *)
From Coq Require Import List ZArith QArith Bool.
From Verif.Lib Require Import Base.
From Verif.Model Require Import ShellText.
Import ListNotations.
Local Open Scope Z_scope.

Record isoD := mkIso { i_code : Z; i_E : Q; i_nu : Q; i_rho : Q; i_t : Q }.
Record loadD := mkLoad { d_patch : Z; d_u : Q; d_v : Q; d_dir : Z; d_P : Q }.
Record presD := mkPres { q_code : Z; q_p : Q }.
Inductive group := GGravity (g : Q) | GIso (l : list isoD) | GLoad (l : list loadD) | GPres (l : list presD).

Definition int (z : Z) : word := Num (inject_Z z).
Definition data (l : list word) : tline := mkL None l.
Definition isoWords (m : sim) (d : isoD) : list word :=
  match m with
  | BeamC1 => [int (i_code d); Num (i_E d); Num (i_rho d); Num (i_t d)]
  | _ => [int (i_code d); Num (i_E d); Num (i_nu d); Num (i_rho d); Num (i_t d)]
  end.
Definition loadWords (m : sim) (d : loadD) : list word :=
  match m with
  | BeamC1 => [int (d_patch d); Num (d_u d); Num (d_P d)]
  | Plate => [int (d_patch d); Num (d_u d); Num (d_v d); Num (d_P d)]
  | Shell3 => [int (d_patch d); Num (d_u d); Num (d_v d); Num (d_P d); int (d_dir d)]
  end.
Definition presWords (d : presD) : list word := [int (q_code d); Num (q_p d)].
(** A section: the keyword with the number of lines, and the lines. *)
Definition section (k : keyword) (ls : list (list word)) : list tline :=
  mkL (Some k) [int (Z.of_nat (length ls))] :: map data ls.
Definition asText (m : sim) (g : group) : list tline :=
  match g with
  | GGravity g => [mkL (Some GRAVITY) [Num g]]
  | GIso l => section ISOTROPIC (map (isoWords m) l)
  | GLoad l => section POINTLOAD (map (loadWords m) l)
  | GPres l => section PRESSURE (map presWords l)
  end.
Definition textFile (m : sim) (gs : list group) : list tline := flat_map (asText m) gs.

Definition isoX (d : isoD) : elem := XIso (i_code d) (Some (i_E d)) (Some (i_nu d)) (Some (i_rho d)) (Some (i_t d)).
Definition loadX (d : loadD) : elem := XLoad (Some (d_patch d)) (Some (d_u d)) (Some (d_v d)) (Some (d_dir d)) false (d_P d).
Definition presX (d : presD) : elem := XPressure (q_code d) (FConst (q_p d)).
Definition asXml (g : group) : list elem :=
  match g with
  | GGravity g => [XGravity (Some g)]
  | GIso l => map isoX l
  | GLoad l => map loadX l
  | GPres l => map presX l
  end.
Definition xmlFile (gs : list group) : list elem := flat_map asXml gs.

(** The contents of the description. *)
Definition isos (gs : list group) : list isoD := flat_map (fun g => match g with GIso l => l | _ => [] end) gs.
Definition loadGroups (gs : list group) : list (list loadD) := flat_map (fun g => match g with GLoad l => [l] | _ => [] end) gs.
Definition loads (gs : list group) : list loadD := concat (loadGroups gs).
Definition pres (gs : list group) : list presD := flat_map (fun g => match g with GPres l => l | _ => [] end) gs.
Definition gravs (gs : list group) : list Q := flat_map (fun g => match g with GGravity g => [g] | _ => [] end) gs.
Definition matOf (m : sim) (d : isoD) : mat := mkM (i_E d) (match m with BeamC1 => 0%Q | _ => i_nu d end) (i_rho d).
(** The load on the node at the point, in the given direction for shells (transverse otherwise). *)
Definition loadOf (m : sim) (d : loadD) : pload :=
  match m with
  | BeamC1 => mkPL (d_patch d) [d_u d] 0 (Some (d_P d))
  | Plate => mkPL (d_patch d) [d_u d; d_v d] 1 (Some (d_P d))
  | Shell3 => mkPL (d_patch d) [d_u d; d_v d] (d_dir d) (Some (d_P d))
  end.
(** The models obtained are the same but for the pressures shown. *)
Definition same (a b : state) : Prop :=
  mVec a = mVec b /\ tVec a = tVec b /\ myScalars a = myScalars b /\ myProps a = myProps b /\
  gravity a = gravity b /\ material a = material b /\ thickness a = thickness b.
(** What is assigned to the sets of a description, in the order of the file: the materials by number, and the pressures. *)
Inductive event := EMat (code idx : Z) | EPres (code : Z).
Fixpoint numbered (n : Z) (l : list isoD) : list event :=
  match l with [] => [] | d :: r => EMat (i_code d) n :: numbered (n + 1) r end.
Fixpoint events (n : Z) (gs : list group) : list event :=
  match gs with
  | [] => []
  | GIso l :: r => numbered n l ++ events (n + Z.of_nat (length l)) r
  | GPres l :: r => map (fun d => EPres (q_code d)) l ++ events n r
  | _ :: r => events n r
  end.
Definition ev_code (e : event) : Z := match e with EMat c _ => c | EPres c => c end.
(** A set not yet in use gets what is first assigned to its (positive) code; others stay as they are. *)
Definition fate (evs : list event) (p : prop) : prop :=
  match p_code p with
  | UNDEFINED => match List.find (fun e => (0 <? ev_code e) && (ev_code e =? p_indx p)) evs with
                 | Some (EMat _ i) => mkProp MATERIAL i (p_patch p)
                 | Some (EPres c) => mkProp BODYLOAD c (p_patch p)
                 | None => p end
  | _ => p
  end.
(** The thickness: that of the first material unless it is zero. *)
Definition thickOf (l : list isoD) : Q := match l with d :: _ => if Qeq_bool (i_t d) 0 then (1 # 10)%Q else i_t d | [] => (1 # 10)%Q end.
