(** Names of result files: main_LinEl.C 968-1012, main_NonLinEl.C 91-106 and 188-201, main_ShellEl.C 85-95,
    Linear/ModalDriver.C 203-213, Linear/DynamicDriver.C 88-98. Strings are lists of characters.
    The input file name is the command-line argument, overwritten in place: its buffer holds no more than its own length. *)
From Coq Require Import List Ascii String Arith Bool DecimalString.
Import ListNotations.
Local Open Scope list_scope.

Definition chars := list ascii.
Definition dot : ascii := "."%char.
Definition str (s : string) : chars := list_ascii_of_string s.
(** strtok(name,"."): skipped leading dots and the token; no token is a null pointer. *)
Fixpoint skipDots (s : chars) : nat * chars :=
  match s with c :: r => if Ascii.eqb c dot then let '(n, t) := skipDots r in (S n, t) else (0, s) | [] => (0, []) end.
Fixpoint token (s : chars) : chars := match s with c :: r => if Ascii.eqb c dot then [] else c :: token r | [] => [] end.
Definition strtokDot (s : chars) : option (nat * chars) :=
  let '(n, r) := skipDots s in match token r with [] => None | t => Some (n, t) end.
(** strcat(strtok(name,"."),ext) on a buffer for names of up to [cap] characters: the new name and the result string;
    [None] for undefined behaviour (null pointer or write past the end). *)
Definition strcatExt (cap : nat) (name ext : chars) : option (chars * chars) :=
  match strtokDot name with
  | None => None
  | Some (n, t) => let name' := repeat dot n ++ t ++ ext in
                   if (List.length name' <=? cap)%nat then Some (name', t ++ ext) else None
  end.
(** main_LinEl.C 972-1009: files opened for the extensions [exts] in turn; the string returned by strcat is used. *)
Fixpoint dumpFiles (cap : nat) (name : chars) (exts : list chars) : option (list chars) :=
  match exts with
  | [] => Some []
  | e :: r => match strcatExt cap name e with
              | None => None
              | Some (name', file) => option_map (cons file) (dumpFiles cap name' r) end
  end.
Definition linDumps (infile : chars) (exts : list chars) : option (list chars) := dumpFiles (List.length infile) infile exts.
(** main_NonLinEl.C 94-103: the overwritten input file name itself is used. *)
Fixpoint dumpFilesNL (cap : nat) (name : chars) (exts : list chars) : option (list chars) :=
  match exts with
  | [] => Some []
  | e :: r => match strcatExt cap name e with
              | None => None
              | Some (name', _) => option_map (cons name') (dumpFilesNL cap name' r) end
  end.
Definition nonlinDumps (infile : chars) (exts : list chars) : option (list chars) := dumpFilesNL (List.length infile) infile exts.

(** Restart files. [std::string::replace] from the last dot; without a dot an exception is thrown. *)
Fixpoint beforeLastDot (s : chars) : option chars :=
  match s with
  | [] => None
  | c :: r => match beforeLastDot r with
              | Some p => Some (c :: p)
              | None => if Ascii.eqb c dot then Some [] else None end
  end.
Definition restartBase (hdf5 infile : chars) : option chars :=
  match hdf5 with
  | [] => option_map (fun p => p ++ str "_restart") (beforeLastDot infile)
  | _ => Some (hdf5 ++ str "_restart")
  end.
Definition dec (n : nat) : chars := str (NilZero.string_of_uint (Nat.to_uint n)).
(** main_NonLinEl.C 196-197; the loop carries fuel. *)
Fixpoint freshLoop (fuel : nat) (exist : chars -> bool) (base name : chars) (i : nat) : option chars :=
  match fuel with
  | O => None
  | S n => if exist (name ++ str ".hdf5") then freshLoop n exist base (base ++ dec i) (S i) else Some name
  end.
Definition restartNonLin (fuel : nat) (exist : chars -> bool) (hdf5 infile : chars) : option chars :=
  match restartBase hdf5 infile with None => None | Some b => freshLoop fuel exist b b 1 end.
(** The other programs take the name as it is. *)
Definition restartOther (hdf5 infile : chars) : option chars := restartBase hdf5 infile.
