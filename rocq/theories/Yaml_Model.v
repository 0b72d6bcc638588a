(** Model of /repo/src/jaqmc/utils/yaml_format.py: annotate_yaml_with_sources (83-139).

    Simplifications: text is ASCII and "\n" is the only line break ([str.splitlines]
    knows more; PyYAML escapes the others in what it dumps). *)
From Coq Require Import String Ascii List Bool Arith.
From Verif Require Import Common Console_Model Backup_Model.
Import ListNotations.
Open Scope string_scope.

Definition nl : ascii := ascii_of_nat 10.
Definition sp : ascii := ascii_of_nat 32.

(** [s.splitlines()]: no empty last line after a final line break. *)
Definition splitlines (s : string) : list string :=
  let ps := split_all nl s in
  match rev ps with
  | EmptyString :: r => rev r
  | _ => ps
  end.

(** Characters of the class [^:\s#] of line 113. *)
Definition key_char (a : ascii) : bool :=
  negb (Ascii.eqb a ":" || Ascii.eqb a "#" || is_space a).

(** Longest prefix satisfying [p], and the rest. *)
Fixpoint span (p : ascii -> bool) (s : string) : string * string :=
  match s with
  | EmptyString => ("", "")
  | String a s' => if p a then let (x, y) := span p s' in (String a x, y) else ("", s)
  end.

(** [key_pattern.match(line)], line 113: blanks, then one or more of
    the class above, then blanks, then a colon.  Greedy matching
    without backtracking is exact here: giving back characters of a group never helps,
    since the classes of neighbouring groups are disjoint. *)
Definition match_key (line : string) : option (string * string) :=
  let (ind, r) := span is_space line in
  let (k, r') := span key_char r in
  if String.eqb k "" then None
  else match snd (span is_space r') with
       | String a _ => if Ascii.eqb a ":" then Some (ind, k) else None
       | EmptyString => None
       end.

(** source_map: path -> (source file, line number, docstring). *)
Definition smap := list (string * (string * nat * option string)).

(** Lines 123-125; the top of the Python list is the head here. *)
Fixpoint pop_deeper (indent : nat) (stack : list (nat * string)) : list (nat * string) :=
  match stack with
  | (i, k) :: st => if Nat.leb indent i then pop_deeper indent st else stack
  | [] => []
  end.

Definition current_path (stack : list (nat * string)) : string := str_join "." (rev (map snd stack)).

(** Lines 129-135: the comment lines for one key. *)
Definition comments (m : smap) (verbose : bool) (prefix path : string) : list string :=
  match dict_get m path with
  | Some (file, lineno, doc) =>
      (prefix ++ "# Defined in " ++ file ++ ":" ++ str_nat lineno) ::
      match doc with
      | Some d => if verbose && negb (String.eqb d "") then map (fun l => prefix ++ "# " ++ l) (splitlines d) else []
      | None => []
      end
  | None => []
  end.

(** The loop of lines 115-137. *)
Fixpoint annotate_lines (m : smap) (verbose : bool) (stack : list (nat * string)) (lines : list string) : list string :=
  match lines with
  | [] => []
  | line :: rest =>
      match match_key line with
      | Some (ind, k) =>
          let st := (String.length ind, k) :: pop_deeper (String.length ind) stack in
          (comments m verbose ind (current_path st) ++ line :: annotate_lines m verbose st rest)%list
      | None => line :: annotate_lines m verbose stack rest
      end
  end.

Definition annotate (yaml_str : string) (m : smap) (verbose : bool) : string :=
  match m with
  | [] => yaml_str                                      (* lines 105-106 *)
  | _ => str_join (String nl "") (annotate_lines m verbose [] (splitlines yaml_str))
  end.

(** What PyYAML writes for a nested mapping (dump_yaml, 44-80, default_flow_style=False):
    keys at two blanks per level; a scalar or flow list on the key's line (plus
    continuation lines for block lists and folded scalars), an empty mapping as [{}]. *)
Inductive node :=
| Leaf (text : string) (more : list string)
| Map (items : list (string * node)).

Fixpoint blanks (n : nat) : string := match n with O => "" | S n' => String sp (blanks n') end.

Fixpoint render (d : nat) (key : string) (n : node) : list string :=
  match n with
  | Leaf t more => (blanks d ++ key ++ ": " ++ t) :: more
  | Map [] => [blanks d ++ key ++ ": {}"]
  | Map items => (blanks d ++ key ++ ":") :: flat_map (fun kn => render (2 + d) (fst kn) (snd kn)) items
  end.
Definition render_map (d : nat) (items : list (string * node)) : list string :=
  flat_map (fun kn => render d (fst kn) (snd kn)) items.
