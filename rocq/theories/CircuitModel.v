(** Model of /repo/src/plaquette/circuit/__init__.py: class Circuit (construction, text
    format, counters).

    Python strings are Coq strings (Latin-1 characters).  Floats are rationals; their
    text form is a parameter pair [show_float]/[read_float] (Python's repr/float), never
    computed in the model.  NaN and infinities are not modelled. *)
Require Import List Bool Arith ZArith QArith Lia String Ascii.
Require Import DecimalString Decimal DecimalZ.
From Verif Require Import Base.
Import ListNotations.
Local Open Scope string_scope.

(** circuit/__init__.py:80: stored arguments are ints, floats and gate names. *)
Inductive arg := AInt (z : Z) | AFlt (q : Q) | AStr (s : string).

(** circuit/__init__.py:80: [self.gates]. *)
Definition gate := (string * list arg)%type.
Definition circuit := list gate.

(** circuit/__init__.py:93-100 error_gates. *)
Definition error_gates : list string :=
  ["E_ERASE"; "E_PAULI"; "E_PAULI2"; "ERROR"; "ERROR_ELSE"; "ERROR_CONTINUE"].
(** circuit/__init__.py:105 deterministic_gates. *)
Definition deterministic_gates : list string :=
  ["X"; "Y"; "Z"; "H"; "CX"; "CZ"; "M"; "R"; "DEPOLARIZE"].
(** circuit/__init__.py:110 allowed_gates. *)
Definition allowed_gates : list string := (error_gates ++ deterministic_gates)%list.

(** Python [x in set_of_strings] for a string. *)
Definition mem_str (s : string) (l : list string) : bool := existsb (String.eqb s) l.

(** * Python text primitives *)
(** str.isspace for Latin-1 characters (used by strip and split). *)
Definition is_space (c : ascii) : bool :=
  let n := nat_of_ascii c in
  ((9 <=? n) && (n <=? 13) || (28 <=? n) && (n <=? 32) || (n =? 133) || (n =? 160))%nat%bool.

Definition newline : ascii := ascii_of_nat 10.

(** str.lstrip() *)
Fixpoint lstrip (s : string) : string :=
  match s with
  | EmptyString => EmptyString
  | String c s' => if is_space c then lstrip s' else s
  end.
(** str.rstrip() *)
Fixpoint rstrip (s : string) : string :=
  match s with
  | EmptyString => EmptyString
  | String c s' =>
      match rstrip s' with
      | EmptyString => if is_space c then EmptyString else String c EmptyString
      | r => String c r
      end
  end.
(** str.strip() *)
Definition strip (s : string) : string := rstrip (lstrip s).

(** str.split(c) for a one-character separator. *)
Fixpoint split_on (c : ascii) (s : string) : list string :=
  match s with
  | EmptyString => [EmptyString]
  | String a s' =>
      if Ascii.eqb a c then EmptyString :: split_on c s'
      else match split_on c s' with
           | [] => [String a EmptyString]
           | h :: t => String a h :: t
           end
  end.

(** str.split("#", 1)[0]: the text before the first '#'. *)
Fixpoint before_hash (s : string) : string :=
  match s with
  | EmptyString => EmptyString
  | String a s' => if Ascii.eqb a "#"%char then EmptyString else String a (before_hash s')
  end.

(** str.split(): maximal runs of non-space characters.  [cur] is the current run. *)
Fixpoint split_ws_aux (s : string) : list string * string :=
  match s with
  | EmptyString => ([], EmptyString)
  | String a s' =>
      let '(l, w) := split_ws_aux s' in
      if is_space a
      then (match w with EmptyString => l | _ => w :: l end, EmptyString)
      else (l, String a w)
  end.
Definition split_ws (s : string) : list string :=
  let '(l, w) := split_ws_aux s in
  match w with EmptyString => l | _ => w :: l end.

(** str.join *)
Fixpoint join (sep : string) (l : list string) : string :=
  match l with
  | [] => ""
  | [s] => s
  | s :: l' => s ++ sep ++ join sep l'
  end.

Definition is_digit (c : ascii) : bool :=
  let n := nat_of_ascii c in ((48 <=? n) && (n <=? 57))%nat%bool.

(** Digit groups of int(str): underscores must stand between two digits. *)
Fixpoint drop_underscores (prev_digit : bool) (s : string) : option string :=
  match s with
  | EmptyString => Some EmptyString
  | String a s' =>
      if Ascii.eqb a "_"%char then
        match s' with
        | String b _ => if prev_digit && is_digit b then drop_underscores false s' else None
        | EmptyString => None
        end
      else match drop_underscores (is_digit a) s' with
           | Some r => Some (String a r)
           | None => None
           end
  end.

(** Python int(str), base 10: surrounding spaces, an optional sign, digits with single
    underscores between them.  (Non-ASCII digits are not modelled.) *)
Definition py_int (s : string) : option Z :=
  let s1 := strip s in
  let s2 := match s1 with
            | String c (String d r) => if Ascii.eqb c "+"%char && is_digit d then String d r else s1
            | _ => s1
            end in
  match drop_underscores false s2 with
  | Some s3 => match NilZero.int_of_string s3 with
               | Some i => Some (Z.of_int i)
               | None => None
               end
  | None => None
  end.

(** Python str(int). *)
Definition show_int (z : Z) : string := NilZero.string_of_int (Z.to_int z).

(** * Circuit *)
(** Arguments given to append: from_str passes strings, programs pass numbers, too. *)
Inductive rarg := RInt (z : Z) | RFlt (q : Q) | RStr (s : string).

Section Text.
(** Python's float(str) and str(float). *)
Variable read_float : string -> option Q.
Variable show_float : Q -> string.

(** Python int(x) for the three argument types; truncation for floats. *)
Definition to_int (a : rarg) : Res Z :=
  match a with
  | RInt z => Ok z
  | RFlt q => Ok (Z.quot (Qnum q) (Zpos (Qden q)))
  | RStr s => match py_int s with Some z => Ok z | None => Err ValueError end
  end.

(** Python float(x). *)
Definition to_float (a : rarg) : Res Q :=
  match a with
  | RInt z => Ok (inject_Z z)
  | RFlt q => Ok q
  | RStr s => match read_float s with Some q => Ok q | None => Err ValueError end
  end.

(** [arg in self.allowed_gates] (only a string can be a member); IndexError if missing
    is raised by the caller. *)
Definition gate_name (a : rarg) : Res string :=
  match a with
  | RStr s => if mem_str s allowed_gates then Ok s else Err AssertionError
  | _ => Err AssertionError
  end.

(** circuit/__init__.py:188-229 append, returning the stored gate. *)
Definition make_gate (name : string) (args : list rarg) : Res gate :=
  if String.eqb name "ERROR" || String.eqb name "ERROR_ELSE" then
    match args with
    | [] => Err IndexError
    | a :: rest =>
        do p <- to_float a;
        if negb (Qle_bool 0 p && Qle_bool p 1) then Err ValueError
        else match rest with
             | [] => Err IndexError
             | g :: qs => do nm <- gate_name g; do zs <- mapR to_int qs;
                          Ok (name, AFlt p :: AStr nm :: map AInt zs)
             end
    end
  else if String.eqb name "ERROR_CONTINUE" then
    match args with
    | [] => Err IndexError
    | g :: qs => do nm <- gate_name g; do zs <- mapR to_int qs;
                 Ok (name, AStr nm :: map AInt zs)
    end
  else if String.eqb name "E_ERASE" then
    match args with
    | [a; b] => do p <- to_float a; do z <- to_int b; Ok (name, [AFlt p; AInt z])
    | _ => Err AssertionError
    end
  else if String.eqb name "E_PAULI" then
    if negb (List.length args =? 4)%nat then Err AssertionError
    else do ps <- mapR to_float (firstn 3 args); do zs <- mapR to_int (skipn 3 args);
         Ok (name, (map AFlt ps ++ map AInt zs)%list)
  else if String.eqb name "E_PAULI2" then
    if negb (List.length args =? 17)%nat then Err AssertionError
    else do ps <- mapR to_float (firstn 15 args); do zs <- mapR to_int (skipn 15 args);
         Ok (name, (map AFlt ps ++ map AInt zs)%list)
  else if mem_str name deterministic_gates then
    match mapR to_int args with
    | Ok zs => Ok (name, map AInt zs)
    | Err ValueError => Err TypeError
    | Err e => Err e
    end
  else Err ValueError.

Definition append (c : circuit) (name : string) (args : list rarg) : Res circuit :=
  do g <- make_gate name args; Ok (c ++ [g])%list.

(** circuit/__init__.py:183-186, one line of append_from_str. *)
Definition append_line (c : circuit) (line : string) : Res circuit :=
  match split_ws (strip (before_hash line)) with
  | [] => Ok c                                     (* "if line:" *)
  | name :: args => append c name (map RStr args)
  end.

(** circuit/__init__.py:170-186 append_from_str. *)
Definition append_from_str (c : circuit) (s : string) : Res circuit :=
  foldR append_line (split_on newline (strip s)) c.

(** circuit/__init__.py:152-168 from_str. *)
Definition from_str (s : string) : Res circuit := append_from_str [] s.

(** str() of a stored argument. *)
Definition show_arg (a : arg) : string :=
  match a with AInt z => show_int z | AFlt q => show_float q | AStr s => s end.

(** circuit/__init__.py:83-87 __str__. *)
Definition show_gate (g : gate) : string := fst g ++ " " ++ join " " (map show_arg (snd g)).
Definition show_circuit (c : circuit) : string :=
  join (String newline EmptyString) (map show_gate c).
End Text.

(** circuit/__init__.py:112-127 number_measured_qubits. *)
Definition number_measured_qubits (c : circuit) : nat :=
  fold_left (fun n (g : gate) => if String.eqb (fst g) "M" then (n + List.length (snd g))%nat else n) c 0%nat.

(** circuit/__init__.py:129-145 number_of_qubits. *)
Definition max_arg (n : Z) (a : arg) : Z :=
  match a with AInt z => if (n <? z)%Z then z else n | _ => n end.
Definition number_of_qubits (c : circuit) : nat :=
  Z.to_nat (fold_left (fun n (g : gate) => fold_left max_arg (snd g) n) c 0%Z + 1).
