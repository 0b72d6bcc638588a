(** Model of /repo/src/jaqmc/writer/console.py: FieldSpec (18-72), ConsoleWriter
    (75-129).

    Simplifications: strings are ASCII ([str.isdigit], [str.strip] on ASCII only); a
    statistic is an abstract value [V]; [f"{val:{fmt}}"] (line 117) is the parameter
    [render], which may raise; the logger is the list of messages it was handed. *)
From Coq Require Import String Ascii List Bool Arith ZArith.
From Verif Require Import Common.
Import ListNotations.
Open Scope string_scope.

(** FieldSpec, lines 18-32. *)
Record field_spec := { key : string; alias : option string; fmt : option string }.

(** display_name, lines 34-36: [self.alias or self.key]. *)
Definition display_name (f : field_spec) : string :=
  match alias f with Some a => if String.eqb a "" then key f else a | None => key f end.

(** [s.split(c, 1)] when [c] occurs in [s]: text before the first [c], text after it. *)
Fixpoint split_first (c : ascii) (s : string) : option (string * string) :=
  match s with
  | EmptyString => None
  | String a s' =>
      if Ascii.eqb c a then Some ("", s')
      else match split_first c s' with Some (x, y) => Some (String a x, y) | None => None end
  end.

(** [s.rsplit(c, 1)] when [c] occurs in [s]: text before the last [c], text after it. *)
Fixpoint split_last (c : ascii) (s : string) : option (string * string) :=
  match s with
  | EmptyString => None
  | String a s' =>
      match split_last c s' with
      | Some (x, y) => Some (String a x, y)
      | None => if Ascii.eqb c a then Some ("", s') else None
      end
  end.

(** [c.isdigit()], ASCII *)
Definition is_digit (a : ascii) : bool :=
  let n := nat_of_ascii a in Nat.leb 48 n && Nat.leb n 57.
(** [any(c.isdigit() for c in s)], line 64. *)
Fixpoint any_digit (s : string) : bool :=
  match s with EmptyString => false | String a s' => is_digit a || any_digit s' end.

(** FieldSpec.parse, lines 38-72. *)
Definition parse (spec : string) : field_spec :=
  let (al, rest) := match split_first "=" spec with
                    | Some (a, r) => (Some a, r)
                    | None => (None, spec)
                    end in
  match split_last ":" rest with
  | Some (k, candidate) =>
      if any_digit candidate then {| key := k; alias := al; fmt := Some candidate |}
      else {| key := rest; alias := al; fmt := None |}
  | None => {| key := rest; alias := al; fmt := None |}
  end.

(** [s.split(c)] *)
Fixpoint split_all (c : ascii) (s : string) : list string :=
  match s with
  | EmptyString => [""]
  | String a s' =>
      if Ascii.eqb c a then "" :: split_all c s'
      else match split_all c s' with
           | p :: ps => String a p :: ps
           | [] => [String a ""]      (* split never returns [] *)
           end
  end.

(** [str.isspace] on ASCII: tab, LF, VT, FF, CR, FS, GS, RS, US, space *)
Definition is_space (a : ascii) : bool :=
  let n := nat_of_ascii a in (Nat.leb 9 n && Nat.leb n 13) || (Nat.leb 28 n && Nat.leb n 32).
Fixpoint lstrip (s : string) : string :=
  match s with String a s' => if is_space a then lstrip s' else s | EmptyString => "" end.
Fixpoint rstrip (s : string) : string :=
  match s with
  | EmptyString => ""
  | String a s' => match rstrip s' with
                   | EmptyString => if is_space a then "" else String a ""
                   | t => String a t
                   end
  end.
Definition strip (s : string) : string := rstrip (lstrip s).

(** ConsoleWriter.__post_init__, lines 93-94. *)
Definition fields_specs (fields : string) : list field_spec := map (fun f => parse (strip f)) (split_all "," fields).

Section Write.
  Variable V : Type.
  Variable of_step : Z -> V.                       (* the integer step as a value *)
  Variable render : V -> string -> res string.     (* f"{val:{fmt}}" *)
  Variable step_text : Z -> string.                (* f"step={step}" *)

  Inductive message :=
  | Info (line : string)
  | Warn (missing available : list string).

  Record writer := { interval : Z; specs : list field_spec; warned : list string }.

  Definition mem (x : string) (l : list string) : bool := existsb (String.eqb x) l.
  (** [set.add] *)
  Definition add (x : string) (l : list string) : list string := if mem x l then l else (l ++ [x])%list.

  (** The loop of lines 113-119. *)
  Fixpoint parts (values : list (string * V)) (w : list string) (ss : list field_spec)
      (missing acc : list string) : res (list string * list string) :=
    match ss with
    | [] => Ok (acc, missing)
    | s :: ss' =>
        match dict_get values (key s) with
        | Some v =>
            bind (render v (match fmt s with Some f => if String.eqb f "" then ".4f" else f | None => ".4f" end))
              (fun t => parts values w ss' missing (acc ++ [(display_name s ++ "=" ++ t)%string])%list)
        | None =>
            if mem (key s) w then parts values w ss' missing acc
            else parts values w ss' (add (key s) missing) acc
        end
    end.

  (** write, lines 102-129.  [step % 0] raises. *)
  Definition write (st : writer) (step : Z) (stats : list (string * V)) : res (writer * list message) :=
    if Z.eqb (interval st) 0 then Raise ZeroDivisionError
    else if negb (Z.eqb (Z.modulo step (interval st)) 0) then Ok (st, [])
    else
      let values := dict_update [("step", of_step step)] stats in
      bind (parts values (warned st) (specs st) [] [step_text step]) (fun pm =>
        let (ps, missing) := pm in
        let info := Info (str_join ", " ps) in
        match missing with
        | [] => Ok (st, [info])
        | _ => Ok ({| interval := interval st; specs := specs st;
                      warned := (warned st ++ missing)%list |},
                   [Warn missing (dict_keys values); info])
        end).
End Write.
