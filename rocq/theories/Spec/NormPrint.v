(** What a printed heading promises. *)
From Coq Require Import List String Arith Bool Reals.
From Verif Require Import Lib.Base Model.Norms Spec.Norms Model.NormPrint.
Import ListNotations.
Open Scope string_scope.
Open Scope nat_scope.

(** Norms of the solution, of one projection of it, of the projection of the analytical
    solution and of the dual solution.  [secH k], [secU k] : section force of extraction
    function [k], recovered and exact. *)
Record solutionN := mkSol { energyH : R; external : R; energyU : R; errorU : R; residualU : R;
  secH : nat -> R; secU : nat -> R }.
Record projectionN := mkProj { energyR : R; errorR : R; l2R : R; l2E : R; residualR : R; jumpR : R; exactR : R }.
Record dualN := mkDual { energyZ : R; energyZR : R; errorZR : R }.

(** The quantity a heading names. *)
Inductive says (s : solutionN) (p x : projectionN) (z : dualN) : string -> R -> Prop :=
| s_energy : says s p x z "Energy norm |u^h| = a(u^h,u^h)^0.5" (energyH s)
| s_external : says s p x z "External energy ((f,u^h)+(t,u^h)^0.5" (external s)
| s_exact : says s p x z "Exact norm  |u|   = a(u,u)^0.5" (energyU s)
| s_error : says s p x z "Exact error a(e,e)^0.5, e=u-u^h" (errorU s)
| s_residual : says s p x z "Residual error (r(u) + J(u))^0.5" (residualU s)
| s_sec : says s p x z "Recovered section force a(u^h,w)" (secH s 1)
| s_secU : says s p x z "Exact section force a(u,w)" (secU s 1)
| s_sec_k k : says s p x z ("Recovered section force a(u^h,w" ++ dec k ++ ")") (secH s k)
| s_secU_k k : says s p x z ("Exact section force       a(u,w" ++ dec k ++ ")") (secU s k)
| p_energy : says s p x z "Energy norm |u^r| = a(u^r,u^r)^0.5" (energyR p)
| p_error : says s p x z "Error norm a(e,e)^0.5, e=u^r-u^h" (errorR p)
| p_residual : says s p x z "Residual error (r(u^r) + J(u^r))^0.5" (residualR p)
| p_jump : says s p x z "Jump term J(u^r)^0.5" (jumpR p)
| p_exact : says s p x z "Exact error a(e,e)^0.5, e=u-u^r" (exactR p)
| p_effect : says s p x z "Effectivity index" (errorR p / errorU s)
| p_theta_ex : says s p x z "Effectivity index, theta^EX" ((errorR p + exactR p) / errorU s)
| p_theta_res : says s p x z "Effectivity index, theta^RES" ((errorR p + residualR p) / errorU s)
| p_l2 : says s p x z "L2-norm |s^r| = (s^r,s^r)^0.5" (l2R p)
| p_l2e : says s p x z "L2-error (e,e)^0.5, e=s^r-s^h" (l2E p)
| x_energy : says s p x z "Energy norm |u^rr| = a(u^rr,u^rr)^0.5" (energyR x)
| x_error : says s p x z "Error norm a(e,e)^0.5, e=u^rr-u^h" (errorR x)
| x_residual : says s p x z "Residual error (r(u^rr) + J(u^rr))^0.5" (residualR x)
| x_exact : says s p x z "Exact error a(e,e)^0.5, e=u-u^rr" (exactR x)
| z_energy : says s p x z "Energy norm |z^h| = a(z^h,z^h)^0.5" (energyZ z)
| z_energyR : says s p x z "Energy norm |z^r| = a(z^r,z^r)^0.5" (energyZR z)
| z_errorR : says s p x z "Error norm a(e,e)^0.5, e=z^r-z^h" (errorZR z).

(** The quantity a percentage refers to. *)
Inductive refers (s : solutionN) (p : projectionN) (z : dualN) : string -> R -> Prop :=
| r_u : refers s p z "|u|" (energyU s)
| r_ur : refers s p z "|u^r|" (energyR p)
| r_sr : refers s p z "|s^r|" (l2R p)
| r_zr : refers s p z "|z^r|" (energyZR z).

(** A report is right when every value is what its heading says and every percentage that
    of the value printed before it. *)
Fixpoint right (sayR refR : string -> R -> Prop) (prev : option R) (l : list line) : Prop :=
  match l with
  | [] => True
  | Line t v :: l => sayR t v /\ right sayR refR (Some v) l
  | Rel t v :: l => (exists a r, prev = Some a /\ refR t r /\ v = 100 * a / r)%R /\ right sayR refR prev l
  end.
Definition headings (l : list line) : list string :=
  flat_map (fun x => match x with Line t _ => [t] | Rel _ _ => [] end) l.

(** The order of the entries of the norm groups. *)
Definition orderFirst (withAna : bool) (n : nat) : list nq :=
  if withAna then ([EnergyH; External; EnergyU; ErrorU; Volume] ++ flat_map (fun k => [VirtH k; VirtU k]) (seq 1 n))%list
  else ([EnergyH; External; Volume] ++ map VirtH (seq 1 n))%list.
Definition orderProj (withAna : bool) : list nq :=
  if withAna then [EnergyR; ErrorR; L2R; L2ErrR; ErrorUR; Effectivity] else [EnergyR; ErrorR; L2R; L2ErrR].
Definition orderPlate (withAna : bool) : list wq :=
  if withAna then [WEnergyH; WExternal; WEnergyU; WErrorU; WResU; WArea] else [WEnergyH; WExternal; WArea].
Definition orderPlateProj (withAna : bool) : list wq :=
  ([WEnergyR; WErrorR; WL2R; WL2ErrR; WResR; WJumpR] ++ if withAna then [WErrorUR; WEffect; WEffectRes] else [])%list.
Definition orderShell : list sq := [SEnergyH; SExternal].
Definition orderShellProj : list sq := [SEnergyR; SErrorR; SNR; SMR; SErrN; SErrM].
Definition orderUL : list ulq := [ULEnergy; ULExternal; ULStress; ULPressure; ULDev; ULMises; ULVolume].

(** The measures of a continuum, a plate. *)
Definition solC (V : nq -> R) : solutionN :=
  mkSol (V EnergyH) (V External) (V EnergyU) (V ErrorU) 0 (fun k => V (VirtH k)) (fun k => V (VirtU k)).
Definition projC (V : nq -> R) : projectionN :=
  mkProj (V EnergyR) (V ErrorR) (V L2R) (V L2ErrR) 0 0 (V ErrorUR).
Definition dualC (Z ZP : nq -> R) : dualN := mkDual (Z EnergyH) (ZP EnergyR) (ZP ErrorR).
Definition solP (V : wq -> R) : solutionN :=
  mkSol (V WEnergyH) (V WExternal) (V WEnergyU) (V WErrorU) (V WResU) (fun _ => 0%R) (fun _ => 0%R).
Definition projP (V : wq -> R) : projectionN :=
  mkProj (V WEnergyR) (V WErrorR) (V WL2R) (V WL2ErrR) (V WResR) (V WJumpR) (V WErrorUR).
Definition dualP (Z ZP : wq -> R) : dualN := mkDual (Z WEnergyH) (ZP WEnergyR) (ZP WErrorR).

(** Positions of the section forces in the first group, counted from 1: right after the
    volume, one per function or a pair with an analytical solution. *)
Definition sectionIndex (withAna : bool) (n k : nat) : nat :=
  let base := if withAna then 5 else 3 in
  if (1 <=? k) && (k <=? if withAna then 2 * n else n) then base + k else 0.

(** Headings of a report: none is missing. *)
Definition headingsFirst (withAna ext dual : bool) (n : nat) : list string :=
  (["Energy norm |u^h| = a(u^h,u^h)^0.5"] ++
   (if ext then ["External energy ((f,u^h)+(t,u^h)^0.5"] else []) ++
   (if withAna then ["Exact norm  |u|   = a(u,u)^0.5"; "Exact error a(e,e)^0.5, e=u-u^h"] else []) ++
   match n with
   | O => []
   | S m => (["Recovered section force a(u^h,w)"] ++ (if withAna then ["Exact section force a(u,w)"] else []) ++
             flat_map (fun k => ["Recovered section force a(u^h,w" ++ dec k ++ ")"]%string ++
                                (if withAna then ["Exact section force       a(u,w" ++ dec k ++ ")"]%string else [])) (seq 2 m))
   end ++
   (if dual then ["Energy norm |z^h| = a(z^h,z^h)^0.5"] else []))%list.
Definition headingsPlate (withAna ext : bool) : list string :=
  (["Energy norm |u^h| = a(u^h,u^h)^0.5"] ++
   (if ext then ["External energy ((f,u^h)+(t,u^h)^0.5"] else []) ++
   (if withAna then ["Exact norm  |u|   = a(u,u)^0.5"; "Exact error a(e,e)^0.5, e=u-u^h"; "Residual error (r(u) + J(u))^0.5"] else []))%list.
Definition headingsProj (withAna residual ref dual : bool) : list string :=
  (["Energy norm |u^r| = a(u^r,u^r)^0.5"; "Error norm a(e,e)^0.5, e=u^r-u^h"] ++
   (if residual then ["Residual error (r(u^r) + J(u^r))^0.5"] else []) ++
   (if residual && withAna then ["Jump term J(u^r)^0.5"] else []) ++
   (if withAna then ["Exact error a(e,e)^0.5, e=u-u^r"; "Effectivity index"] else []) ++
   (if residual && withAna then ["Effectivity index, theta^EX"; "Effectivity index, theta^RES"] else []) ++
   (if ref then ["Energy norm |u^rr| = a(u^rr,u^rr)^0.5"; "Error norm a(e,e)^0.5, e=u^rr-u^h"] else []) ++
   (if residual && ref then ["Residual error (r(u^rr) + J(u^rr))^0.5"] else []) ++
   (if ref then ["Exact error a(e,e)^0.5, e=u-u^rr"] else []) ++
   ["L2-norm |s^r| = (s^r,s^r)^0.5"; "L2-error (e,e)^0.5, e=s^r-s^h"] ++
   (if dual then ["Energy norm |z^r| = a(z^r,z^r)^0.5"; "Error norm a(e,e)^0.5, e=z^r-z^h"] else []))%list.

(** The value of a quantity from the integration points: the total with the final
    operation of the norm assembly, but the volume as it is.  [k] : number of the projection. *)
Definition psolAt (k : nat) (d : point) : nat -> R :=
  match nth_error (prj d) k with Some (Some f) => f | _ => fun _ => 0%R end.
Definition measured (root : R -> R) (ds bs : list point) (k : nat) (q : nq) : R :=
  let t := (sumL (fun d => integrand d (psolAt k d) q) ds + sumL (fun b => boundaryPart b q) bs)%R in
  match q with Volume => t | _ => root t end.

(** Shells. *)
Inductive saysShell (V : sq -> R) : string -> R -> Prop :=
| sh_energy : saysShell V "Energy norm |u^r| = a(u^r,u^r)^0.5" (V SEnergyR)
| sh_error : saysShell V "Error norm a(e,e)^0.5, e=u^r-u^h" (V SErrorR)
| sh_n : saysShell V "L2 norm |n^r| = (n^r,n^r)^0.5" (V SNR)
| sh_ne : saysShell V "L2 error (e,e)^0.5, e=n^r-n^h" (V SErrN)
| sh_m : saysShell V "L2 norm |m^r| = (m^r,m^r)^0.5" (V SMR)
| sh_me : saysShell V "L2 error (e,e)^0.5, e=m^r-m^h" (V SErrM).
Inductive refersShell (V : sq -> R) : string -> R -> Prop :=
| shr_u : refersShell V "|u^r|" (V SEnergyR)
| shr_n : refersShell V "|n^r|" (V SNR)
| shr_m : refersShell V "|m^r|" (V SMR).

(** The step report of the nonlinear programs; [None] : a quantity that is not evaluated. *)
Inductive nlq := NLEnergy | NLExternal | NLStress | NLPressure | NLDev | NLMises.
Definition heading (q : nlq) : string :=
  match q with
  | NLEnergy => "Energy norm:    |u^h| = a(u^h,u^h)^0.5" | NLExternal => "External energy: ((f,u^h)+(t,u^h))^0.5"
  | NLStress => "Stress norm, L2: (sigma^h,sigma^h)^0.5" | NLPressure => "Pressure norm, L2:       (p^h,p^h)^0.5"
  | NLDev => "Deviatoric stress norm:  (s^d,s^d)^0.5" | NLMises => "Stress norm, von Mises: vm(sigma^h)"
  end.
Definition ulOf (q : nlq) : ulq :=
  match q with NLEnergy => ULEnergy | NLExternal => ULExternal | NLStress => ULStress
             | NLPressure => ULPressure | NLDev => ULDev | NLMises => ULMises end.
