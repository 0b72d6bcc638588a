(** Model of system configuration: utils/atomic/{atomic_system,atom,pp}.py, the atoms
    property of app/molecule/config/base.py and app/solid/config/base.py, electron
    initialization (utils/atomic/initialization.py 124-163) and the data initializers
    app/molecule/data.py, app/solid/data.py; the choice of energy terms of
    app/molecule/workflow.py make_estimators.

    Simplifications: spins (s_z, local_s_z) are real numbers; the element table is a function
    from symbols to atomic number and unpaired electrons, [None] a KeyError (the heavy
    elements whose number of unpaired electrons the package does not know are refused here
    instead of at the first use of that number); PySCF's ECP library is a function returning the number of core
    electrons of its entry, if there is one. *)
From Coq Require Import Reals ZArith List Bool String.
From Verif Require Import Common Spins_Model.
Import ListNotations.
Open Scope Z_scope.

(** Python's round: to the nearest integer, ties to even. *)
Definition pyround (x : R) : Z :=
  let f := Int_part x in
  let d := (x - IZR f)%R in
  if Rlt_dec d (/ 2) then f else if Rlt_dec (/ 2) d then f + 1 else if Z.even f then f else f + 1.
(** math.isclose with its defaults: relative tolerance 1e-9, absolute 0. *)
Definition isclose (a b : R) : bool :=
  if Rle_dec (Rabs (a - b)) (/ 10 ^ 9 * Rmax (Rabs a) (Rabs b))%R then true else false.

(** AtomInitialization: atomic_system.py 17-47. *)
Record hint := { local_s_z : option R; hint_charge : Z }.
Definition hint_ok (h : hint) : bool :=
  match local_s_z h with Some s => isclose (2 * s)%R (IZR (pyround (2 * s)%R)) | None => true end.
Definition ainit_of (h : hint) : ainit :=
  {| imbalance := option_map (fun s => pyround (2 * s)%R) (local_s_z h); local_charge := hint_charge h |}.

(** The pp option: atomic_system.py 60-64; resolution for one symbol: molecule/config/base.py 71,
    solid/config/base.py 153. *)
Inductive pp_spec := NoPP | SamePP (name : string) | MapPP (m : list (string * string)).
Definition pp_of (pp : pp_spec) (symbol : string) : option string :=
  match pp with NoPP => None | SamePP n => Some n | MapPP m => dict_get m symbol end.

(** pp.py 37-49. *)
Definition PP_PH : string := "ph".
Definition ph_elements_supported : list string := ["Cr"; "Mn"; "Fe"; "Co"; "Ni"; "Cu"; "Zn"; "P"; "S"; "Cl"]%string.

Section Library.
Variable element : string -> option (Z * Z).        (* atomic number, unpaired electrons *)
Variable ecp_core : string -> string -> option Z.   (* ECP name, symbol *)

(** core_electrons_by_pp: pp.py 52-79. *)
Definition core_electrons (symbol : string) (pp : option string) : res Z :=
  match pp with
  | None => Ok 0
  | Some n =>
      if String.eqb n PP_PH then
        if existsb (String.eqb symbol) ph_elements_supported then Ok 10 else Raise ValueError
      else match ecp_core n symbol with Some c => Ok c | None => Raise ValueError end
  end.

(** Atom: atom.py 12-50. *)
Record ratom := { symbol : string; r_charge : Z; core : Z; r_pp : option string; r_unpaired : Z }.
Definition make_atom (sym : string) (charge : option Z) (pp : option string) : res ratom :=
  bind (core_electrons sym pp) (fun c =>
  match element sym with
  | None => Raise KeyError
  | Some (z, u) =>
      match charge with
      | Some q =>
          if negb (q + c =? z) && match pp with Some n => String.eqb n PP_PH | None => false end then Raise ValueError
          else Ok {| symbol := sym; r_charge := q; core := c; r_pp := pp; r_unpaired := u |}
      | None => Ok {| symbol := sym; r_charge := z - c; core := c; r_pp := pp; r_unpaired := u |}
      end
  end).

(** A system: the atoms as the user wrote them. *)
Record sys := { sys_pp : pp_spec; total_charge : Z; s_z : R; entries : list (string * option Z * hint) }.
(** atoms: molecule/config/base.py 62-74. *)
Definition sys_atoms (c : sys) : res (list ratom) :=
  map_res (fun e => make_atom (fst (fst e)) (snd (fst e)) (pp_of (sys_pp c) (fst (fst e)))) (entries c).
Definition hints (c : sys) : list hint := map snd (entries c).

Definition core_of (a : ratom) : atom := {| charge := r_charge a; unpaired := r_unpaired a |}.
Definition n_electrons (c : sys) (ats : list ratom) : Z := zsum (map r_charge ats) - total_charge c.
(** __post_init__: atomic_system.py 74-123, and that of the hints. *)
Definition post_init (c : sys) : res (list ratom) :=
  bind (sys_atoms c) (fun ats =>
  if negb (forallb hint_ok (hints c)) then Raise ValueError
  else if negb (match sys_pp c with MapPP m => forallb (fun k => existsb (fun a => String.eqb k (symbol a)) ats) (dict_keys m) | _ => true end) then Raise ValueError
  else if negb (forallb (fun p => atom_config_ok (core_of (fst p)) (ainit_of (snd p))) (combine ats (hints c))) then Raise ValueError
  else if n_electrons c ats <? 0 then Raise ValueError
  else if negb (isclose (2 * s_z c)%R (IZR (pyround (2 * s_z c)%R))) then Raise ValueError
  else if (if Rlt_dec (IZR (n_electrons c ats)) (Rabs (2 * s_z c)) then true else false)
          || negb (pyround (IZR (n_electrons c ats) + 2 * s_z c)%R mod 2 =? 0) then Raise ValueError
  else Ok ats).
(** electron_spins: atomic_system.py 133-142. *)
Definition sys_spins (c : sys) (ats : list ratom) : Z * Z := electron_spins (map core_of ats) (total_charge c) (pyround (2 * s_z c)%R).

(** ecp_coefficients (its keys) and ph_elements: atomic_system.py 144-156. *)
Definition ecp_symbols (ats : list ratom) : list string :=
  map symbol (filter (fun a => match r_pp a with Some n => negb (String.eqb n PP_PH) | None => false end) ats).
Definition ph_symbols (ats : list ratom) : list string :=
  map symbol (filter (fun a => match r_pp a with Some n => String.eqb n PP_PH | None => false end) ats).
End Library.

(** make_estimators, the energy terms: molecule/workflow.py 160-192. *)
Inductive term := Potential | Kinetic | Ecp (l : list string) | Ph (l : list string) | Total.
Definition energy_terms (ats : list ratom) : list term :=
  [Potential] ++ (match ph_symbols ats with [] => [Kinetic] | _ => [] end)
  ++ (match ecp_symbols ats with [] => [] | l => [Ecp l] end)
  ++ (match ph_symbols ats with [] => [] | l => [Ph l] end) ++ [Total].
(** The atoms an estimator acts on are those whose symbol is in its table: ecp/estimator.py 95,
    ph/estimator.py. *)
Definition treated_by (l : list string) (ats : list ratom) : list nat :=
  filter (fun j => match nth_error ats j with Some a => existsb (String.eqb (symbol a)) l | None => false end) (seq 0 (List.length ats)).

(** initialize_electrons_gaussian: initialization.py 149-161. The rows are the centre, here
    the index of the atom, plus the noise of that row. *)
Definition centres (spins : list (Z * Z)) : list nat :=
  flat_map (fun i => flat_map (fun j => repeat j (Z.to_nat ((if (i =? 0)%nat then fst else snd) (nth j spins (0, 0))))) (seq 0 (List.length spins))) [0%nat; 1%nat].
(** solid/data.py 53-68: the list of spins is repeated [scale] times; row R * n + j of the
    simulation-cell atoms is atom j of copy R. *)
Definition solid_centres (scale : nat) (spins : list (Z * Z)) : list nat := centres (List.concat (repeat spins scale)).
