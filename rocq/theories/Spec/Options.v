(** What the usage text of the finite deformation solver promises for its options. *)
From Coq Require Import List ZArith String Ascii.
From Verif Require Import Model.Options. (* only for the result types mxType and algo and the input elements *)
Import ListNotations.
Open Scope string_scope.
Open Scope Z_scope.

(** Formulations by number: 1 linear, 2 tensor, 3 total and 4 updated Lagrange,
    5 discontinuous and 6 continuous mixed, 7 F-bar (increasing specificity). *)
Inductive asksForm : string -> Z -> Prop :=
| ask_linear : asksForm "-linear" 1
| ask_tensor : asksForm "-Tensor" 2
| ask_UL : asksForm "-UL" 4
| ask_MX s : asksForm ("-MX" ++ s) 5
| ask_Mixed : asksForm "-Mixed" 6
| ask_mixed : asksForm "-mixed" 6
| ask_Fbar s : asksForm ("-Fbar" ++ s) 7.

(** [isDigits s n r]: the longest decimal prefix of [s] has value [n] (starting from [acc]). *)
Definition isDigit (c : ascii) (d : Z) : Prop := 0 <= d <= 9 /\ Z.of_nat (nat_of_ascii c) = 48 + d.
Inductive decimal : Z -> string -> Z -> Prop :=
| dec_end acc : decimal acc "" acc
| dec_stop acc c s : (forall d, ~ isDigit c d) -> decimal acc (String c s) acc
| dec_more acc c d s n : isDigit c d -> decimal (10 * acc + d) s n -> decimal acc (String c s) n.
(** An order of the pressure field is asked for by digits directly after -MX or -Fbar. *)
Inductive asksOrder : string -> Z -> Prop :=
| ord_MX c d s n : isDigit c d -> decimal 0 (String c s) n -> asksOrder ("-MX" ++ String c s) n
| ord_Fbar c d s n : isDigit c d -> decimal 0 (String c s) n -> asksOrder ("-Fbar" ++ String c s) n.

(** Continuous or reduced-continuity mixed basis; solution algorithm. *)
Inductive asksMx : string -> mxType -> Prop := mx_full : asksMx "-Mixed" MxFull | mx_red : asksMx "-mixed" MxReduced.
Inductive asksAlg : string -> algo -> Prop :=
| alg_ga : asksAlg "-GA" GENALPHA | alg_old : asksAlg "-oldHHT" OLDHHT | alg_hht : asksAlg "-HHT" NEWHHT | alg_arc : asksAlg "-arclen" ARCLEN.
(** The last request in a sequence. *)
Definition lastOf {X} (asks : string -> X -> Prop) (l : list string) (x : X) : Prop :=
  exists l1 a l2, l = (l1 ++ a :: l2)%list /\ asks a x /\ forall b y, In b l2 -> ~ asks b y.
Definition noneOf {X} (asks : string -> X -> Prop) (l : list string) : Prop := forall b y, In b l -> ~ asks b y.
(** No two requests contradict each other. *)
Definition agree {X} (asks : string -> X -> Prop) (l : list string) : Prop :=
  forall a b x y, In a l -> In b l -> asks a x -> asks b y -> x = y.

(** The same for the elements of the input file; <updatedlagrange/> refines only what is below it. *)
Inductive asksChild : child -> Z -> Prop :=
| chl_linear : asksChild Linear 1
| chl_tensor o : asksChild (Mixed "Tensor" o) 2
| chl_total : asksChild TotalLagrange 3
| chl_MX o : asksChild (Mixed "Qp/Pp-1" o) 5
| chl_Mixed o : asksChild (Mixed "Qp/Qp-1" o) 6
| chl_Fbar o : asksChild (Mixed "Fbar" o) 7.
Inductive orderChild : child -> Z -> Prop := chl_order ty p : orderChild (Mixed ty (Some p)) p.
Definition lastChild {X} (asks : child -> X -> Prop) (l : list child) (x : X) : Prop :=
  exists l1 a l2, l = (l1 ++ a :: l2)%list /\ asks a x /\ forall b y, In b l2 -> ~ asks b y.
(** <updatedlagrange/> after the last other request. *)
Definition refinedBy (l : list child) (f : Z) : Prop :=
  exists l1 a l2, l = (l1 ++ a :: l2)%list /\ asksChild a f /\ (forall b y, In b l2 -> ~ asksChild b y) /\ In UpdatedLagrange l2.
