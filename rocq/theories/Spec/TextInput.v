(** What a text input file asks for: pressures on faces and codes, materials of patches and codes.
    [sets]: the (code, patch, local index) triples of the topology sets. *)
From Coq Require Import List ZArith QArith.
From Verif.Lib Require Import Base.
From Verif.Model Require Import TextInput.
Import ListNotations.
Local Open Scope Z_scope.

Section S.
Variables (local : Z -> Z) (stress : bool) (sets : list (Z * Z * Z)).
Definition ofCode (code : Z) : list (Z * Z) := map (fun t => (snd (fst t), snd t)) (filter (fun t => fst (fst t) =? code) sets).

(** Loads asked for by a line: patch, face or edge, and what acts there. *)
Definition wantedLoad (e : keyword * nat * list word) : list (Z * Z * field) :=
  match e with
  | (PRESSURE, _, t1 :: t2 :: r) =>
    if local (atoi t1) <? 1 then [] else
    match r with
    | t3 :: t4 :: r => [(local (atoi t1), atoi t2, if stress then StressTraction else Pressure (match r with [] => Const (atof t4) | w :: _ => Func w (atof t4) end) (atoi t3))]
    | _ => [(local (atoi t1), atoi t2, StressTraction)]
    end
  | (CONSTANT_PRESSURE, _, t1 :: t2 :: t3 :: _) => map (fun x => (x, Pressure (Const (atof t3)) (atoi t2))) (ofCode (atoi t1))
  | (LINEAR_PRESSURE, _, t1 :: t2 :: t3 :: _) => map (fun x => (x, Pressure (Linear (atof t3)) (atoi t2))) (ofCode (atoi t1))
  | _ => []
  end.
(** Material given for patches by a line. *)
Definition wantedMat (e : keyword * nat * list word) : list (Z * mat) :=
  match e with
  | (ISOTROPIC, _, t1 :: e :: n :: r :: _) => if 0 <? atoi t1 then map (fun x => (fst x, mkM (atof e) (atof n) (atof r))) (ofCode (atoi t1)) else []
  | (MATERIALS, _, e :: n :: r :: ps) =>
    flat_map (fun w => match w with Word 0 => [] | _ => if local (atoi w) <? 1 then [] else [(local (atoi w), mkM (atof e) (atof n) (atof r))] end) ps
  | _ => []
  end.
(** The code a line uses, if any. *)
Definition codeOf (e : keyword * nat * list word) : list Z :=
  match e with
  | (PRESSURE, i, _) => [1 + Z.of_nat i]
  | (CONSTANT_PRESSURE, _, t :: _) => [atoi t]
  | (LINEAR_PRESSURE, _, t :: _) => [atoi t]
  | (ISOTROPIC, _, t :: _) => if 0 <? atoi t then [atoi t] else []
  | _ => []
  end.
End S.
(** The model before the sections are read: the topology sets as properties without type. *)
Definition before (sets : list (Z * Z * Z)) : state :=
  mkSt (map (fun t => mkProp UNDEFINED (fst (fst t)) (snd (fst t)) (snd t)) sets) [] [] None.
