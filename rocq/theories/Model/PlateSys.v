(** A linear static analysis of a thin plate: KirchhoffLovePlate::evalInt, Linear/KirchhoffLovePlate.C 118-138, at the integration
    points of an element in mode STATIC (Elasticity/KirchhoffLove.C 92-98: eK = eS = 1, getLocalIntegral 212-217), with
    getPressure 283-296 and formBodyForce 330-350 of KirchhoffLove.C, added into the global system.

    Simplifications: real arithmetic; two-dimensional plates without line loads and edge forces; the assembly itself is IFEM's
    (every element matrix and vector is added at the unknowns of its nodes, the total loads of the elements are added up);
    all unknowns are kept and the prescribed ones get a reaction. *)
From Verif Require Import Lib.Base Lib.Writes Lib.Vec3 Model.Plate.
From Verif Require Model.LinSystem.
Import ListNotations.

(** An integration point: shape functions, second derivatives, weight, material, thickness, density and the values of the pressures. *)
Record ppt := mkPpt { qN : nat -> R; qD2 : nat -> nat -> nat -> R; qW : R; qE : R; qNu : R; qT : R; qRho : R; qPress : list R }.
Record pelt := mkPelt { qNen : nat; qConn : nat -> nat; qPts : list ppt }.
Definition pElt (e : pelt) : LinSystem.elt := LinSystem.mkElt (qNen e) (qConn e) [] None.

Section PlateSys.
Variables (version : nat) (isZero : v3 -> bool) (gravity : R).
(** Element stiffness, load vector and total load. *)
Record pmat := mkPmat { mK : nat -> nat -> R; mS : mat; mC : mat }.
(** evalInt, KirchhoffLovePlate.C 118-138. *)
Definition platePoint (nen : nat) (p : ppt) (m : pmat) : res pmat :=
  let* q := formBodyForce isZero 1 nen (qN p) (getPressure isZero (qRho p) gravity (qT p) (qPress p) vzero false) (qW p) false (mS m) (mC m) in
  let* K := evalK 2 (qE p) (qNu p) (qT p) (qD2 p) (qW p) version (mK m) in
  Ret (mkPmat K (fst q) (snd q)).
Fixpoint platePoints (nen : nat) (ps : list ppt) (m : pmat) : res pmat :=
  match ps with [] => Ret m | p :: r => let* m' := platePoint nen p m in platePoints nen r m' end.
Record psys := mkPsys { gK : mat; gS : mat; gC : R }.
Fixpoint assemblePlate (es : list pelt) (S : psys) : res psys :=
  match es with
  | [] => Ret S
  | e :: r =>
    let n := qNen e in
    let* m := platePoints n (qPts e) (mkPmat (fun _ _ => 0) (zeros n 1) (zeros 1 1)) in
    let* K := run_add (gK S) (LinSystem.asmMat 1 (pElt e) (mkMat n n (mK m))) in
    let* f := run_add (gS S) (LinSystem.asmVec 1 (pElt e) (mS m)) in
    assemblePlate r (mkPsys K f (gC S + el (mC m) 1 1))
  end.
Definition plateSystem (nnod : nat) (es : list pelt) : res psys := assemblePlate es (mkPsys (zeros nnod nnod) (zeros nnod 1) 0).
End PlateSys.
