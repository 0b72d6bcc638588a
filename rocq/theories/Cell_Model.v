(** Model of the geometry builders: app/solid/config/{base,rock_salt,two_atom_chain}.py and
    app/molecule/config/{base,diatomic,alkane}.py, utils/units.py.

    Real arithmetic; vectors are triples. *)
From Coq Require Import Reals ZArith List String Ascii Bool.
From Verif Require Import Common Sys_Model.
Import ListNotations.
Open Scope R_scope.

Definition vec := (R * R * R)%type.
Definition mk (x y z : R) : vec := (x, y, z).
Definition vadd (a b : vec) : vec := let '(x, y, z) := a in let '(x', y', z') := b in (x + x', y + y', z + z').
Definition vscale (t : R) (a : vec) : vec := let '(x, y, z) := a in (x * t, y * t, z * t).

(** units.py 27-33. *)
Definition bohr_in_angstrom : R := 52917721067 / 10 ^ 11.
Definition angstrom_in_bohr : R := 1 / bohr_in_angstrom.
Inductive unit_ := Bohr | Angstrom.

(** _cosd_snap_90, _sind_snap_90: solid/config/base.py 169-178. *)
Definition near90 (angle : R) : bool := if Rle_dec (Rabs (Rabs angle - 90)) (/ 10 ^ 12) then true else false.
Definition deg (a : R) : R := a * (PI / 180).
Definition cosd (angle : R) : R := if near90 angle then 0 else cos (deg angle).
Definition sind (angle : R) : R := if near90 angle then (if Rlt_dec angle 0 then -1 else 1) else sin (deg angle).

(** LatticeParams.to_array: base.py 64-83. [NanLattice]: sin gamma = 0 and 0/0 in cy. With
    sin gamma = 0 and a non-zero numerator cy is infinite and cz_sqr < 0. *)
Inductive lattice := Rows (a b c : vec) | Refused | NanLattice.
Definition to_array (a b c alpha beta gamma : R) : lattice :=
  let ca := cosd alpha in let cb := cosd beta in let cg := cosd gamma in let sg := sind gamma in
  if Req_EM_T sg 0 then (if Req_EM_T (ca - cb * cg) 0 then NanLattice else Refused)
  else
    let cx := cb in
    let cy := (ca - cb * cg) / sg in
    let cz2 := 1 - cx ^ 2 - cy ^ 2 in
    if Rlt_dec cz2 0 then Refused else if Rle_dec (Rabs cz2) (/ 10 ^ 8) then Refused
    else Rows (mk a 0 0) (mk (b * cg) (b * sg) 0) (mk (c * cx) (c * cy) (c * sqrt cz2)).

(** lattice_vectors and atoms: base.py 133-157. *)
Definition scale_lattice (t : R) (l : lattice) : lattice :=
  match l with Rows a b c => Rows (vscale t a) (vscale t b) (vscale t c) | r => r end.
Definition lattice_vectors (u : unit_) (l : lattice) : lattice := match u with Bohr => l | Angstrom => scale_lattice angstrom_in_bohr l end.
Definition from_frac (f : vec) (a b c : vec) : vec := let '(x, y, z) := f in vadd (vadd (vscale x a) (vscale y b)) (vscale z c).

(** rock_salt_config: rock_salt.py 54-77 (fractional coordinates, lattice in bohr). *)
Definition rock_salt_fracs : list vec := [mk 0 0 0; mk (/ 2) (/ 2) (/ 2)].
Definition rock_salt_lattice (L : R) (u : unit_) : lattice :=
  let a := L / sqrt 2 in lattice_vectors u (to_array a a a 60 60 60).

(** two_atom_chain: two_atom_chain.py 48-71. *)
Definition chain_fracs : list vec := [mk 0 (/ 2) (/ 2); mk (/ 2) (/ 2) (/ 2)].
Definition chain_lattice (bond vacuum : R) (u : unit_) : lattice :=
  let bond := match u with Angstrom => bond * angstrom_in_bohr | Bohr => bond end in
  lattice_vectors Bohr (Rows (mk (2 * bond) 0 0) (mk 0 vacuum 0) (mk 0 0 vacuum)).

(** diatomic_config: diatomic.py 76-93, through MoleculeConfig.atoms (base.py 62-74) with the
    default unit, bohr. *)
Definition diatomic (bond : R) (u : unit_) : vec * vec :=
  let bond := match u with Angstrom => bond * angstrom_in_bohr | Bohr => bond end in
  let half := bond / 2 in (mk 0 0 (-1 * half), mk 0 0 (1 * half)).

(** _parse_diatomic_formula: diatomic.py 14-45; re.findall(r"[A-Z][a-z]*") scans from the
    left, each match as long as possible, skipping characters that start no match. *)
Definition is_upper (c : ascii) : bool := (65 <=? nat_of_ascii c)%nat && (nat_of_ascii c <=? 90)%nat.
Definition is_lower (c : ascii) : bool := (97 <=? nat_of_ascii c)%nat && (nat_of_ascii c <=? 122)%nat.
Fixpoint take_lower (s : string) : string * string :=
  match s with
  | EmptyString => (EmptyString, EmptyString)
  | String c s' => if is_lower c then (String c (fst (take_lower s')), snd (take_lower s')) else (EmptyString, s)
  end.
Fixpoint findall (fuel : nat) (s : string) : list string :=
  match fuel, s with
  | O, _ => []
  | _, EmptyString => []
  | S n, String c s' => if is_upper c then String c (fst (take_lower s')) :: findall n (snd (take_lower s')) else findall n s'
  end.
Fixpoint drop_last (s : string) : string :=
  match s with EmptyString => EmptyString | String c EmptyString => EmptyString | String c s' => String c (drop_last s') end.
Definition parse_formula (known : string -> bool) (f : string) : res (string * string) :=
  if str_suffixb "2" f && known (drop_last f) then Ok (drop_last f, drop_last f)
  else match findall (String.length f) f with
       | [a; b] => if String.eqb (a ++ b) f then (if known a && known b then Ok (a, b) else Raise ValueError) else Raise ValueError
       | _ => Raise ValueError
       end.

(** alkane_config: alkane.py 16-136. Every atom: symbol, position in angstrom, hinted (alpha, beta). *)
Definition r_cc : R := 155 / 100.
Definition r_ch : R := 109 / 100.
Definition theta : R := deg (1094712 / 10000).
Definition dx_c := r_cc * sin (theta / 2).
Definition dy_c := r_cc * cos (theta / 2).
Definition dx_h := r_ch * sin (theta / 2).
Definition dy_h := r_ch * cos (theta / 2).
Definition c1 := mk (- (1 / 2) * dx_c) (- (1 / 2) * dy_c) 0.
Definition c2 := mk (1 / 2 * dx_c) (1 / 2 * dy_c) 0.
Definition h11 := mk (- (1 / 2) * dx_c) (- (1 / 2) * dy_c - dy_h) dx_h.
Definition h12 := mk (- (1 / 2) * dx_c) (- (1 / 2) * dy_c - dy_h) (- dx_h).
Definition h21 := mk (1 / 2 * dx_c) (1 / 2 * dy_c + dy_h) dx_h.
Definition h22 := mk (1 / 2 * dx_c) (1 / 2 * dy_c + dy_h) (- dx_h).
Definition repeat_d := mk (2 * dx_c) 0 0.
Definition left_h := mk (- dx_h - 1 / 2 * dx_c) (dy_h - 1 / 2 * dy_c) 0.
Definition right_h := mk (dx_h + 1 / 2 * dx_c) (- dy_h + 1 / 2 * dy_c) 0.
Record aatom := { sym : string; pos : vec; up_down : Z * Z }.
Definition atm (s : string) (p : vec) (ud : Z * Z) : aatom := {| sym := s; pos := p; up_down := ud |}.
Definition alkane_unit (cs : Z * Z) (i : nat) : list aatom :=
  let shift := vscale (INR i) repeat_d in
  [atm "C" (vadd c1 shift) cs; atm "C" (vadd c2 shift) cs; atm "H" (vadd h11 shift) (0, 1)%Z; atm "H" (vadd h12 shift) (1, 0)%Z;
   atm "H" (vadd h21 shift) (0, 1)%Z; atm "H" (vadd h22 shift) (1, 0)%Z].
(** [carbon_electrons] is the charge of a carbon under the chosen pseudopotential. *)
Definition alkane (carbon_electrons : Z) (n : nat) : option (list aatom) :=
  if (n <? 1)%nat then None
  else
    let cs := (carbon_electrons / 2, carbon_electrons / 2)%Z in
    Some (atm "H" left_h (1, 0)%Z :: flat_map (alkane_unit cs) (seq 0 n) ++ [atm "H" (vadd right_h (vscale (INR (n - 1)) repeat_d)) (0, 1)%Z]).
(** s_z: alkane.py 96-103, twice it. *)
Definition alkane_imbalance (l : list aatom) : Z := fold_right Z.add 0%Z (map (fun a => fst (up_down a) - snd (up_down a))%Z l).
(** _make_atom: positions in bohr. *)
Definition in_bohr (p : vec) : vec := vscale angstrom_in_bohr p.
(** The configuration it returns: alkane.py 96-117. *)
Definition alkane_config (pp : pp_spec) (l : list aatom) : sys :=
  {| sys_pp := pp; total_charge := 0%Z; s_z := IZR (alkane_imbalance l) / 2;
     entries := map (fun a => (sym a, None, {| local_s_z := Some (IZR (fst (up_down a) - snd (up_down a)) / 2); hint_charge := 0%Z |})) l |}.
