(** Norm integrands: what is accumulated where, and the names of the entries.
    Models ElasticityNorm (Elasticity/Elasticity.C:1096-1351), ElasticityNormUL
    (FiniteDeformation/NonlinearElasticityUL.C:355-473), KirchhoffLovePlateNorm
    (Linear/KirchhoffLovePlate.C:405-887), KirchhoffLoveShellNorm
    (Shell/KirchhoffLoveShell.C:410-555), ElasticBeamNorm (Beam/ElasticBeam.C:754-818).
    [pnorm] is addressed from 0.  A function that only does [pnorm[ip++] += v] is modelled
    by the list of the increments; an [ip++] that leaves room is an increment 0. *)
From Coq Require Import List String Arith Bool Reals DecimalString.
From Verif Require Import Lib.Base Model.Labels.
Import ListNotations.
Open Scope string_scope.
Open Scope nat_scope.

Definition dec (n : nat) : string := NilEmpty.string_of_uint (Nat.to_uint n).

(** Vectors are lists; [dotl] runs over the common length, [mulv] is a matrix (list of
    rows) times a vector. *)
Fixpoint dotl (a b : list R) : R :=
  match a, b with x :: a, y :: b => (x * y + dotl a b)%R | _, _ => 0%R end.
Definition mulv (C : list (list R)) (v : list R) : list R := map (fun r => dotl r v) C.
Fixpoint subl (a b : list R) : list R :=
  match a, b with x :: a, y :: b => (x - y)%R :: subl a b | a, [] => a | [], _ => [] end.

Definition accum (pnorm : nat -> R) (incr : list R) : nat -> R :=
  fun k => (pnorm k + nth k incr 0)%R.

(** ** ElasticityNorm *)

Record point := mkPoint {
  Cinv : list (list R);          (* formCmat, l.1110 *)
  sigh : list R;                 (* FE stress, l.1116 *)
  ana : option (list R);         (* analytical stress at the point, l.1156 *)
  loads : option R;              (* f*u when haveLoads, l.1142-1150 *)
  duals : list (list R);         (* dual strain fields, l.1120 *)
  prj : list (option (nat -> R));(* psol.dot(fe.N,j,nrcmp) for every non-empty psol *)
  nrcmp : nat;
  detJxW : R; axiN : bool; Xr : R; strainN : bool }.

(* "Remove the sigma_zz", l.1126-1132 and 1157-1162: v(3) = v(4), resize to 3 *)
Definition removed (C : list (list R)) (v : list R) : bool :=
  (length v =? 4) && (length C =? 3).
Definition removeZZ (v : list R) : list R :=
  match v with [a; b; _; d] => [a; b; d] | v => v end.
Definition reduce (C : list (list R)) (v : list R) : list R :=
  if removed C v then removeZZ v else v.

Definition detJW (d : point) : R :=
  if axiN d then (detJxW d * (2 * PI * Xr d))%R else detJxW d.

(* l.1197-1200: sigmar[k++] for j = 0.., skipping j = 2 when plane strain *)
Definition projected (d : point) (psol : nat -> R) : list R :=
  let plane := removed (Cinv d) (sigh d) in
  map (fun k => let j := if plane && (2 <=? k) then S k else k in
                if j <? nrcmp d then psol j else 0%R)
      (seq 0 (length (reduce (Cinv d) (sigh d)))).

Definition energy (C : list (list R)) (v : list R) : R := dotl v (mulv C v).

(* the six (four) entries of one projection, l.1203-1228 *)
Definition projIncr (d : point) (psol : nat -> R) : list R :=
  let sh := reduce (Cinv d) (sigh d) in
  let sr := projected d psol in
  let er := subl sr sh in
  let sr' := if strainN d then mulv (Cinv d) sr else sr in
  let er' := if strainN d then mulv (Cinv d) er else er in
  [energy (Cinv d) sr * detJW d; energy (Cinv d) er * detJW d;
   dotl sr' sr' * detJW d; dotl er' er' * detJW d]%R ++
  match ana d with
  | Some s => let e := subl (reduce (Cinv d) s) sr' in [energy (Cinv d) e * detJW d; 0]%R
  | None => []
  end.

(* ElasticityNorm::evalInt, l.1103-1232 *)
Definition evalInt (d : point) : list R :=
  let sh := reduce (Cinv d) (sigh d) in
  [energy (Cinv d) sh * detJW d; match loads d with Some fu => fu * detJW d | None => 0 end]%R ++
  match ana d with
  | Some s => let s := reduce (Cinv d) s in
              [energy (Cinv d) s * detJW d; energy (Cinv d) (subl s sh) * detJW d]%R
  | None => []
  end ++
  [detJW d] ++
  flat_map (fun eps => (dotl sh eps * detJW d)%R ::
                       match ana d with Some s => [dotl (reduce (Cinv d) s) eps * detJW d]%R | None => [] end) (duals d) ++
  flat_map (fun p => match p with Some p => projIncr d p | None => [] end) (prj d).

(* ElasticityNorm::evalBou, l.1235-1255: pnorm[1] += T*u*detJW *)
Definition evalBou (d : point) (pnorm : nat -> R) : nat -> R :=
  match loads d with
  | Some tu => fun k => if k =? 1 then (pnorm k + tu * detJW d)%R else pnorm k
  | None => pnorm
  end.

(* ElasticityNorm::getNoFields, l.1273-1286, for group 1 and for a projection group *)
Definition firstFields (anasol : bool) (nExt : nat) : nat :=
  if anasol then 5 + 2 * nExt else 3 + nExt.
Definition projFields (anasol : bool) : nat := if anasol then 6 else 4.

(* ElasticityNorm::finalizeElement, l.1258-1270; [size] is pnorm.size() *)
Fixpoint finLoop (fuel ip size : nat) (pnorm : nat -> R) : nat -> R :=
  match fuel with
  | O => pnorm
  | S fuel =>
    if ip + 5 <? size then
      finLoop fuel (ip + 6) size
        (fun k => if k =? ip + 5 then Rdiv (pnorm (ip + 1)) (pnorm 3) else pnorm k)
    else pnorm
  end.
Definition finalizeElement (anasol : bool) (nExt size : nat) (pnorm : nat -> R) : nat -> R :=
  if anasol then finLoop size (firstFields anasol nExt) size pnorm else pnorm.

Definition uNames : list string :=
  ["a(u^h,u^h)^0.5"; "((f,u^h)+(t,u^h))^0.5"; "a(u,u)^0.5"; "a(e,e)^0.5, e=u-u^h"; "volume";
   "a(u^h,w)"; "a(u,w)"; "a(z^h,z^h)^0.5"; "(E(u)*E(z))^0.5, E(v)=a(e,e), e=v^r-v^h"].
Definition pNames : list string :=
  ["a(u^r,u^r)^0.5"; "a(e,e)^0.5, e=u^r-u^h"; "(u^r,u^r)^0.5"; "(e,e)^0.5, e=u^r-u^h";
   "a(e,e)^0.5, e=u-u^r"; "effectivity index"].

(* ElasticityNorm::getName, l.1289-1345, for a prefix that does not start with "Dual".
   [None] when the call is forwarded to NormBase::getName; [UB] for a table overrun.
   The numbered names drop the prefix (l.1335). *)
Definition getName (anasol : bool) (nExt i j : nat) (prefix : option string) : option (res string) :=
  let nx := if 1 <? i then 1 else nExt in
  let nx := if (i =? 1) && anasol then nx * 2 else nx in
  if (i =? 0) || (j =? 0) || (5 + nx <? j) then None else
  let rd (t : list string) (k : nat) :=
    match nth_error t k with Some s => Ret (pfx prefix s) | None => UB end in
  Some
  (if i =? 1 then
    let nx := if anasol then nx / 2 else nx in
    let j := if negb anasol && ((2 <? j) && (j <? 4)) then j + 2 else j in
    if (5 <? j) && (1 <? nx) then
      let j := j - 5 in
      if negb anasol then Ret ("a(u^h,w" ++ dec j ++ ")")
      else if Nat.odd j then Ret ("a(u^h,w" ++ dec (j / 2 + 1) ++ ")")
      else Ret ("a(u,w" ++ dec (j / 2) ++ ")")
    else rd uNames (j - 1)
  else rd pNames (j - 1)).

(** ** ElasticityNormUL *)

Record ulpoint := mkUL { ulU : R; ulSS : R; ulP : R; ulDev : R; ulVM : R; ulDetF : R; ulJW : R }.
(* NonlinearElasticityUL.C:391-416; the L2 norms are the squared ones *)
Definition ulIncr (d : ulpoint) : list R :=
  let dv := (ulJW d * ulDetF d)%R in
  [ulU d * ulJW d; 0; ulSS d * dv; ulP d * ulP d * dv; ulDev d * dv; ulVM d * dv; dv]%R.
(* NonlinearElasticityUL.C:390-413: the entries from the Cauchy stress [S], which has [m] normal
   components (3 with an out-of-plane one, else the number of dimensions); [vm] is IFEM's
   SymmTensor::vonMises(false) (oracle). *)
Definition ulPoint (m : nat) (S : nat -> nat -> R) (U vm detF JW : R) : ulpoint :=
  let p := (sumf m (fun i => S i i) / INR m)%R in
  mkUL U (sumf m (fun i => sumf m (fun j => S i j * S i j)))%R p
    (sumf m (fun i => sumf m (fun j => let e := S i j - (if i =? j then p else 0) in e * e)))%R vm detF JW.
(* NonlinearElasticityUL.C:419-439 *)
Definition ulNames : list string :=
  ["a(u^h,u^h)^0.5"; "((f,u^h)+(t,u^h))^0.5"; "(s^h,s^h)^0.5"; "(p^h,p^h)^0.5";
   "(e^h,e^h), e^h=S^h-p^h*I"; "vm(s^h)"; "volume"].

(* ElasticityNormUL::evalBou, l.442-473, for one boundary point: the state is the work
   done so far, the last traction and displacement; the returned value goes to entry 1. *)
Record path := mkPath { Ux : R; tp : list R; up : list R }.
Fixpoint addl (a b : list R) : list R :=
  match a, b with x :: a, y :: b => (x + y)%R :: addl a b | _, _ => [] end.
Definition pathStep (s : path) (t u : list R) : path :=
  mkPath (Ux s + 1 / 2 * dotl (addl t (tp s)) (subl u (up s)))%R t u.

(** ** Plates *)

(* A projection: values in the point given by a nodal vector, by a field with its own
   basis, or none.  [res] is the interior residual, l.579-632. *)
Inductive pproj := PNodal (v : list R) (res : R) | POwn (v : list R) (res : R) | PNone.

(* [anaP] : analytical moments (version 1) or second derivatives (version > 1) and the
   residual of the analytical solution *)
Record plate := mkPlate {
  version : nat; pCinv : list (list R); mh : list R; anaP : option (list R * R);
  pw : R;            (* p*w, l.464 *)
  hk4 : R; pJW : R; pprj : list pproj }.

(* l.443-445, 502, 549-550: in versions above 1 with three components the last one is
   appended once more *)
Definition twice (version nscmp : nat) (v : list R) : list R :=
  if (1 <? version) && (nscmp =? 3) then v ++ [nth 2 v 0%R] else v.
Definition penergy (d : plate) (v : list R) : R :=
  if version d =? 1 then energy (pCinv d) v else dotl v v.

(* l.538-540: assignment of the first nscmp entries of the vector kept between the passes *)
Fixpoint overwrite (mr v : list R) : list R :=
  match mr, v with m :: mr, x :: v => x :: overwrite mr v | mr, _ => mr end.

(* One pass of the loop, l.535-654; [mr] is declared before the loop (l.532). *)
Definition platePass (d : plate) (mr : list R) (p : pproj) : list R * list R :=
  let n := length (mh d) in
  let go mr res :=
    let mr := twice (version d) n mr in
    let e := subl mr (twice (version d) n (mh d)) in
    (mr,
     ([penergy d mr * pJW d; penergy d e * pJW d; dotl mr (firstn n mr) * pJW d; dotl e (firstn n e) * pJW d;
      hk4 d * res * res * pJW d; 0]%R ++
     match anaP d with
     | Some (m, _) => [penergy d (subl (twice (version d) n m) mr) * pJW d; 0; 0]%R
     | None => []
     end)%list) in
  match p with
  | PNodal v res => go (overwrite mr v) res
  | POwn v res => go (firstn n v) res
  | PNone => (mr, [])
  end.
Fixpoint plateLoop (d : plate) (mr : list R) (ps : list pproj) : list R :=
  match ps with
  | [] => []
  | p :: ps => let r := platePass d mr p in (snd r ++ plateLoop d (fst r) ps)%list
  end.

(* KirchhoffLovePlateNorm::evalInt, l.425-665 *)
Definition plateInt (d : plate) : list R :=
  let n := length (mh d) in
  let m2 := twice (version d) n (mh d) in
  [penergy d m2 * pJW d; pw d * pJW d]%R ++
  match anaP d with
  | Some (m, res) => [penergy d (twice (version d) n m) * pJW d;
                      penergy d (subl (twice (version d) n m) m2) * pJW d;
                      hk4 d * res * res * pJW d]%R
  | None => []
  end ++ [pJW d] ++
  plateLoop d (repeat 0%R n) (pprj d).

(* KirchhoffLovePlateNorm::evalBou, l.692-814, for nrcmp > 1.  [tw] : T*w when there is a
   load; [jana] : jump of the analytical solution; [jumps] : for each projection whether it
   is nodal and its jump integrand.  [anasol]/[ana2nd] : which analytical solution is set. *)
Fixpoint bouLoop (anasol : bool) (ip : nat) (jumps : list (option R)) (pnorm : nat -> R) : nat -> R :=
  match jumps with
  | [] => pnorm
  | None :: js => bouLoop anasol ip js pnorm
  | Some v :: js =>
    let ip := ip + 6 in
    let pnorm := fun k => if (k =? ip - 1) || (k =? ip) then (pnorm k + v)%R else pnorm k in
    bouLoop anasol (if anasol then ip + 3 else ip) js pnorm
  end.
Definition plateBou (version : nat) (anasol ana2nd : bool) (tw jana : R) (jumps : list (option R))
  (pnorm : nat -> R) : nat -> R :=
  let pnorm := fun k => if k =? 1 then (pnorm k + tw)%R else pnorm k in
  if ((version =? 1) && anasol) || ((1 <? version) && ana2nd) then
    bouLoop anasol 5 jumps (fun k => if k =? 4 then (pnorm k + jana)%R else pnorm k)
  else bouLoop anasol 2 jumps pnorm.

(* l.778-788: the jump integrand of the moments for a projection with values mr *)
Definition momentJump (version : nat) (mr : list R) (nx ny h JW : R) : R :=
  (let j := if version =? 1 then
       let m1 := nth 0 mr 0 * nx + nth 2 mr 0 * ny in
       let m2 := nth 2 mr 0 * nx + nth 1 mr 0 * ny in m1 * m1 + m2 * m2
     else nth 0 mr 0 * nx + nth 1 mr 0 * ny in
   h * j * JW)%R.

(* KirchhoffLovePlateNorm::finalizeElement, l.817-834 *)
Fixpoint plateFinLoop (fuel ip size : nat) (pnorm : nat -> R) : nat -> R :=
  match fuel with
  | O => pnorm
  | S fuel =>
    if ip <? size then
      let pnorm := fun k => if k =? ip - 1 then Rdiv (pnorm (ip - 7)) (pnorm 3) else pnorm k in
      let pnorm := fun k => if k =? ip then Rdiv (Rplus (pnorm (ip - 7)) (pnorm (ip - 4))) (pnorm 3) else pnorm k in
      plateFinLoop fuel (ip + 9) size pnorm
    else pnorm
  end.
Definition plateFinalize (withAna : bool) (size : nat) (pnorm : nat -> R) : nat -> R :=
  if withAna then plateFinLoop size 14 size pnorm else pnorm.

Definition wNames : list string :=
  ["a(w^h,w^h)^0.5"; "(p,w^h)^0.5"; "a(w,w)^0.5"; "a(e,e)^0.5, e=w-w^h"; "res(w)^0.5"; "area"].
Definition wpNames : list string :=
  ["a(w^r,w^r)^0.5"; "a(e,e)^0.5, e=w^r-w^h"; "(w^r,w^r)^0.5"; "(e,e)^0.5, e=w^r-w^h";
   "res(w^r)^0.5"; "jump(w^r)^0.5"; "a(e,e)^0.5, e=w-w^r"; "effectivity index^*"; "effectivity index^RES"].
(* KirchhoffLovePlateNorm::getName, l.856-887 *)
Definition plateName (withAna : bool) (i j : nat) (prefix : option string) : option (res string) :=
  if (i =? 0) || (j =? 0) || (9 <? j) || ((i =? 1) && (6 <? j)) then None else
  let j := if negb withAna && (i =? 1) && (j =? 3) then 6 else j in
  Some (match nth_error (if 1 <? i then wpNames else wNames) (j - 1) with
        | Some s => Ret (pfx prefix s) | None => UB end).

(** ** Shells *)

Record shell := mkShell {
  sDm : list (list R); sDb : list (list R); nh : list R; mhS : list R;
  pu : R; sJW : R; sprj : list (option (list R * list R)) }.
(* KirchhoffLoveShellNorm::evalInt, l.417-497 *)
Definition shellInt (d : shell) : list R :=
  [(energy (sDm d) (nh d) + energy (sDb d) (mhS d)) * sJW d; pu d * sJW d]%R ++
  flat_map (fun p => match p with
    | Some (nr, mr) =>
      let en := subl nr (nh d) in let em := subl mr (mhS d) in
      [(energy (sDm d) nr + energy (sDb d) mr) * sJW d; (energy (sDm d) en + energy (sDb d) em) * sJW d;
       dotl nr nr * sJW d; dotl mr mr * sJW d; dotl en en * sJW d; dotl em em * sJW d]%R
    | None => [] end) (sprj d).
Definition shNames : list string := ["a(u^h,u^h)^0.5"; "(p,u^h)^0.5"].
Definition shpNames : list string :=
  ["a(u^r,u^r)^0.5"; "a(e,e)^0.5, e=u^r-u^h"; "(n^r,n^r)^0.5"; "(m^r,m^r)^0.5";
   "(e,e)^0.5, e=n^r-n^h"; "(e,e)^0.5, e=m^r-m^h"].
(* KirchhoffLoveShellNorm::getName, l.533-555 *)
Definition shellName (i j : nat) (prefix : option string) : option (res string) :=
  if (i =? 0) || (j =? 0) || (6 <? j) || ((i =? 1) && (2 <? j)) then None else
  Some (match nth_error (if 1 <? i then shpNames else shNames) (j - 1) with
        | Some s => Ret (pfx prefix s) | None => UB end).
