(** Model of the legacy package's local energy: /repo/src/jaqmc_legacy/pp/hamiltonian.py, pp/ecp_potential.py,
    pp/special.py, pp/quadrature.py, pp/ph/hamiltonian.py, pp/ph/data.py and dmc/hamiltonian.py.

    Floats are reals.  [None] is an exception (or NaN from a Cholesky factorisation).  Automatic differentiation is
    the exact derivative; the forward-Laplacian library (lapjax) is an argument.  Arrays of positions are flat
    vectors in the kinetic and Coulomb parts, lists of triples in the effective core potential, as the code reshapes
    them.  Wavefunctions are real: a sign and the logarithm of the modulus.  The uniform draws behind the rotations
    are an argument.  Logging is not modelled. *)
From Coq Require Import String Reals List Arith ZArith Bool.
From Coquelicot Require Import Coquelicot.
From Verif Require Import Lin Quad_Spec Quad_Model Branch_Model Ecp_Spec Ph_Model.
Import ListNotations.
Open Scope list_scope.
Open Scope R_scope.
Local Notation vec := Lin.vec.
Local Notation pt := Quad_Spec.vec.
Local Notation mat := Lin.mat.
Local Notation S := Datatypes.S.

(** ** Kinetic energy *)
(** jax.grad, jax.jvp, jax.hessian of functions of a flat vector *)
Definition grad (f : vec -> R) (x : vec) : vec := fun k => Derive (fun t => f (fun j => if Nat.eqb j k then t else x j)) (x k).
Definition jvp (g : vec -> vec) (x v : vec) : vec * vec := (g x, fun k => Derive (fun s => g (fun j => x j + s * v j) k) 0).
Definition hessian (f : vec -> R) (x : vec) : mat := fun i k => Derive (fun t => grad f (fun j => if Nat.eqb j i then t else x j) k) (x i).
Definition unit_row (i : nat) : vec := fun j => if Nat.eqb i j then 1 else 0.
Definition rows (n : nat) : list vec := map unit_row (seq 0 n). (* jnp.eye(n) *)
(** jnp.array_split: the first (n mod k) pieces have one element more *)
Fixpoint cut {A} (sizes : list nat) (l : list A) : list (list A) := match sizes with [] => [] | s :: ss => firstn s l :: cut ss (skipn s l) end.
Definition array_split {A} (l : list A) (k : nat) : list (list A) :=
  let n := length l in cut (repeat (S (n / k)) (n mod k) ++ repeat (n / k)%nat (k - n mod k)) l.
(** sum of the squared diagonal, trace of a matrix given by its rows *)
Definition diag_sum (h : R -> R) (m : list vec) : R := fold_right Rplus 0 (map (fun ir => h (snd ir (fst ir))) (combine (seq 0 (length m)) m)).
(** pp/hamiltonian.py 130-134 and 149-159; dmc/hamiltonian.py 44-48 and 57-68: the part both files share *)
Definition hessian_mode (n : nat) (f : vec -> R) (x : vec) : R :=
  let g := grad f x in let h := hessian f x in - (1 / 2) * (sum n (fun i => h i i) + sum n (fun i => g i ^ 2)).
Definition chunk_mode (n p : nat) (f : vec -> R) (x : vec) : option R :=
  if negb (Nat.eqb (n mod p) 0) then None else
  let eyes := array_split (rows n) p in
  (* lax.scan stacks the outputs; the stack of (n/p) x n blocks is then reshaped to n x n *)
  let out := fold_left (fun acc e => acc ++ [map (jvp (grad f) x) e]) eyes [] in
  let primal := map fst (concat out) in let tangent := map snd (concat out) in
  Some (- (1 / 2) * (diag_sum (fun v => v ^ 2) primal + diag_sum (fun v => v) tangent)).
(** pp/hamiltonian.py 124-159 *)
Definition pp_kinetic (use_scan : bool) (p n : nat) (f : vec -> R) (x : vec) : option R :=
  if Nat.eqb p 1 then Some (hessian_mode n f x)
  else if Nat.eqb p 0 then
    let primal := grad f x in
    let dgrad v := snd (jvp (grad f) x v) in (* jax.linearize *)
    let result :=
      if use_scan then
        let '(_, diagonal) := fold_left (fun st (_ : nat) => let '(i, out) := st in (S i, out ++ [dgrad (unit_row i) i])) (seq 0 n) (0%nat, []) in
        - (1 / 2) * fold_right Rplus 0 diagonal
      else - (1 / 2) * fold_left (fun v i => v + dgrad (unit_row i) i) (seq 0 n) 0 in
    Some (result - 1 / 2 * sum n (fun k => primal k ^ 2))
  else chunk_mode n p f x.
(** pp/hamiltonian.py 118-122: [out] is what lapjax returns for the gradient and the Laplacian *)
Definition forward_kinetic (n : nat) (out : vec * R) : R := - (1 / 2) * snd out - 1 / 2 * sum n (fun k => fst out k ^ 2).
(** dmc/hamiltonian.py 40-68 *)
Definition dmc_kinetic (p n : nat) (f : vec -> R) (x : vec) : option R :=
  if Nat.eqb p 1 then Some (hessian_mode n f x)
  else if Nat.eqb p 0 then
    Some (- (1 / 2) * fold_left (fun v i => let '(primal, tangent) := jvp (grad f) x (unit_row i) in v + primal i ^ 2 + tangent i) (seq 0 n) 0)
  else chunk_mode n p f x.

(** ** Coulomb energy *)
(** pp/hamiltonian.py 85-95, dmc/hamiltonian.py 107-119: ee[i,j] = pos[j] - pos[i] *)
Definition place_of (x : vec) (e : nat) : vec := fun c => x (3 * e + c)%nat.
Definition r_ae (x : vec) (atoms : nat -> vec) (e a : nat) : R := norm 3 (fun c => place_of x e c - atoms a c).
Definition r_ee (x : vec) (i j : nat) : R := norm 3 (fun c => place_of x j c - place_of x i c + delta i j) * (1 - delta i j).
Definition r_aa (atoms : nat -> vec) (i j : nat) : R := norm 3 (fun c => atoms j c - atoms i c).
(** pp/hamiltonian.py 166-221 *)
Definition pp_potential (N natom : nat) (x : vec) (atoms : nat -> vec) (charges : nat -> R) : R :=
  sum N (fun i => sum N (fun j => triu1 i j (1 / (r_ee x i j + delta i j))))
  + - sum N (fun e => sum natom (fun a => charges a / r_ae x atoms e a))
  + sum natom (fun i => sum natom (fun j => triu1 i j (charges j * charges i / r_aa atoms i j))).
(** dmc/hamiltonian.py 73-90 *)
Definition dmc_potential (N natom : nat) (x : vec) (atoms : nat -> vec) (charges : nat -> R) : R :=
  sum N (fun i => sum N (fun j => triu1 i j (1 / r_ee x i j)))
  + - sum N (fun e => sum natom (fun a => charges a / r_ae x atoms e a))
  + sum natom (fun i => sum natom (fun j => triu1 i j (charges j * charges i / r_aa atoms i j))).
(** dmc/hamiltonian.py 122-152 *)
Definition dmc_local_energy (N natom p : nat) (f : vec -> R) (atoms : nat -> vec) (charges : nat -> R) (x : vec) : option R :=
  option_map (fun k => dmc_potential N natom x atoms charges + k) (dmc_kinetic p (3 * N) f x).

(** ** Effective core potential *)
(** mol._ecp: symbol to radial table (the number of core electrons is not used) *)
Definition ecp_dict := list (string * table).
Definition lookup {A} (d : list (string * A)) (s : string) : option A := option_map snd (find (fun e => String.eqb (fst e) s) d).
Definition known {A} (d : list (string * A)) (s : string) : bool := match lookup d s with Some _ => true | None => false end.
Definition atom := (string * pt)%type. (* an entry of mol._atom *)
(** assignment to a dict: an existing key keeps its place *)
Fixpoint assign {A} (d : list (string * A)) (k : string) (v : A) : list (string * A) :=
  match d with [] => [(k, v)] | e :: d' => if String.eqb (fst e) k then (k, v) :: d' else e :: assign d' k v end.
(** pp/hamiltonian.py 336-346: the positions of every element of the list; elements without positions get None *)
Definition coords_of (mol : list atom) (d : ecp_dict) (ele : string) : option (list pt) :=
  match map snd (filter (fun a => String.eqb (fst a) ele && known d (fst a)) mol) with [] => None | l => Some l end.
Definition element_coords (mol : list atom) (d : ecp_dict) (elements : list string) : list (string * option (list pt)) :=
  fold_left (fun m ele => assign m ele (coords_of mol d ele)) elements [].
(** 334-335; max of an empty list raises *)
Definition max_l (d : ecp_dict) : option nat := match map (fun e => length (snd e)) d with [] => None | n :: ns => Some (fold_left Nat.max ns n) end.
(** 279-295: one channel at one distance; a channel without a term leaves the Python integer 0, which cannot be
    stacked with arrays *)
Definition channel (gs : list group) (r : R) : option R :=
  if forallb (fun g => match g with [] => true | _ => false end) gs then None else
  Some (fold_left (fun result pg => fold_left (fun res ac => res + powerRZ r (Z.of_nat (fst pg) - 2) * exp (- fst ac * r ^ 2) * snd ac) (snd pg) result) (combine (seq 0 (length gs)) gs) 0).
Fixpoint all_some {A} (l : list (option A)) : option (list A) :=
  match l with [] => Some [] | Some x :: l' => option_map (cons x) (all_some l') | None :: _ => None end.
Definition select_core (t : table) (ml : nat) (r : R) : option (list R) :=
  all_some (map (fun l => if Nat.ltb l (length t) then channel (snd (nth l t (0%Z, []))) r else Some 0) (seq 0 ml)).
(** one atom seen by one electron: channel values, electron minus atom, distance *)
Definition seen := (list R * pt * R)%type.
Definition view (e : pt) (ml : nat) (t : table) (a : pt) : option seen :=
  let v := vsub e a in let r := vlen v in option_map (fun ch => (ch, v, r)) (select_core t ml r).
(** 297-322 for one electron; no element with a potential raises *)
Definition concat_views (e : pt) (coords : list (string * option (list pt))) (d : ecp_dict) (ml : nat) : option (list seen) :=
  match filter (fun se => known d (fst se)) coords with
  | [] => None
  | l => option_map (@concat _) (all_some (map (fun se => match lookup d (fst se), snd se with
           | Some t, Some ps => all_some (map (view e ml t) ps)
           | _, _ => None
           end) l))
  end.
Definition ecp_all (e : pt) (coords : list (string * option (list pt))) (d : ecp_dict) (ml : nat) : option (list seen) :=
  match concat_views e coords d ml with
  | None => None
  | Some l =>
      let norms := map snd l in
      let index := order (fun i j => rleb (at_ norms i) (at_ norms j)) (length norms) in (* jnp.argsort *)
      Some (map (fun i => nth i l ([], (0, 0, 0), 0)) index)
  end.
(** pp/special.py 7-27; no branch for l above 7 returns None, whose indexing raises *)
Definition legendre (x : R) (l : nat) : option R :=
  match l with
  | 0%nat => Some 1
  | 1%nat => Some x
  | 2%nat => Some ((3 * x ^ 2 - 1) / 2)
  | 3%nat => Some ((5 * x ^ 3 - 3 * x) / 2)
  | 4%nat => Some ((35 * x ^ 4 - 30 * x ^ 2 + 3) / 8)
  | 5%nat => Some ((63 * x ^ 5 - 70 * x ^ 3 + 15 * x) / 8)
  | 6%nat => Some ((231 * x ^ 6 - 315 * x ^ 4 + 105 * x ^ 2 - 5) / 16)
  | 7%nat => Some ((429 * x ^ 7 - 693 * x ^ 5 + 315 * x ^ 3 - 35 * x) / 16)
  | _ => None
  end.
(** 29-33: concatenation of an empty list raises *)
Definition legendre_list (x : R) (ls : list nat) : option (list R) := match ls with [] => None | _ => all_some (map (legendre x) ls) end.
(** pp/quadrature.py 10-26: only three identifiers; KeyError otherwise *)
Definition get_quadrature (id : option string) : option quadrature :=
  match id with
  | None => icosahedron 12
  | Some s => if String.eqb s "" then icosahedron 12 else if String.eqb s "octahedron_6" then octahedron 6 else if String.eqb s "octahedron_26" then octahedron 26
              else if String.eqb s "icosahedron_12" then icosahedron 12 else None
  end.
(** pp/quadrature.py 99-101 *)
Definition integral_value (q : quadrature) (pl psi_r : list R) : R :=
  fold_right Rplus 0 (map (fun x => fst (fst x) * snd (fst x) * snd x) (combine (combine pl psi_r) (coefs q))) * PI * 4.
Fixpoint set_nth {A} (i : nat) (x : A) (l : list A) : list A := match l, i with [], _ => [] | _ :: l', O => x :: l' | y :: l', S i' => y :: set_nth i' x l' end.
(** pp/ecp_potential.py 29-59: one core, seen as (vector, distance) by each electron; the ratio of the moved to the
    present wavefunction is an argument.  [ranges] = (n_up_start, n_up_end, n_down_start, n_down_end); electrons
    outside keep zeros *)
Definition value := (R * R)%type. (* sign, log modulus *)
Definition psi_r (psi : list pt -> value) (walkers : list pt) (i : nat) (rv : pt) (r : R) (x : pt) : R :=
  let coords := vsub (vadd (vscale r x) (nth i walkers (0, 0, 0))) rv in
  let num := psi (set_nth i coords walkers) in let den := psi walkers in
  fst num * fst den * exp (snd num - snd den).
Definition integral_of (ratio : nat -> pt -> R -> pt -> R) (q : quadrature) (pts : list pt) (ls : list nat) (i : nat) (rv : pt) (r : R) : option (list R) :=
  let normal := vscale (/ r) rv in
  match all_some (map (fun p => legendre_list (vdot p normal) ls) pts) with
  | None => None
  | Some pls => Some (map (fun l => integral_value q (map (fun pl => nth l pl 0) pls) (map (ratio i rv r) pts) * (2 * INR (nth l ls 0%nat) + 1)) (seq 0 (length ls)))
  end.
Definition fori {A} (lo hi : nat) (body : nat -> A -> A) (a : A) : A := fold_left (fun s i => body i s) (seq lo (hi - lo)) a.
Definition one_core (ratio : nat -> pt -> R -> pt -> R) (q : quadrature) (ml : nat) (draws : nat -> R * R) (n : nat) (ranges : nat * nat * nat * nat) (core : list (pt * R)) : option (list (list R)) :=
  let ls := seq 0 (ml - 1) in
  let npts i := rotated q (fst (draws i)) (snd (draws i)) in
  let body i (res : option (list (list R))) :=
    match res, integral_of ratio q (npts i) ls i (fst (nth i core ((0, 0, 0), 0))) (snd (nth i core ((0, 0, 0), 0))) with
    | Some rs, Some v => Some (set_nth i v rs)
    | _, _ => None
    end in
  let '(us, ue, ds, de) := ranges in
  fori ds de body (fori us ue body (Some (repeat (repeat 0 (length ls)) n))).
(** ecp_potential.py 114-136 vmaps over the cores (axis 1) and transposes; pp/hamiltonian.py 352-374.  [coresof] are, for each
    electron, the atoms it sees, nearest first *)
Definition transposed {A} (d : A) (m : list (list A)) (k : nat) : list A := map (fun r => nth k r d) m.
Definition non_local_sum (ratio : nat -> pt -> R -> pt -> R) (q : quadrature) (coords : list (string * option (list pt))) (d : ecp_dict) (ml max_core : nat) (draws : nat -> R * R) (ranges : nat * nat * nat * nat) (pe : list pt) : option R :=
  match all_some (map (fun e => ecp_all e coords d ml) pe) with
  | None => None
  | Some lists =>
    let natoms := match lists with [] => 0%nat | l :: _ => length l end in
    let ncore := Nat.min max_core natoms in
    let cores := map (fun k => map (fun s => (snd (fst s), snd s)) (transposed ([], (0, 0, 0), 0) lists k)) (seq 0 ncore) in
    match all_some (map (one_core ratio q ml draws (length pe) ranges) cores) with
    | None => None
    | Some ints => (* ints[core][electron][l] *)
      let psi_int i k l := nth l (nth i (nth k ints []) []) 0 / (4 * PI) in
      let nonlocal := fold_right Rplus 0 (map (fun i => fold_right Rplus 0 (map (fun k =>
            fold_right Rplus 0 (map (fun l => nth (S l) (fst (fst (nth k (nth i lists []) ([], (0, 0, 0), 0)))) 0 * psi_int i k l) (seq 0 (ml - 1))))
          (seq 0 ncore))) (seq 0 (length pe))) in
      Some (nonlocal + fold_right Rplus 0 (map (fun l => fold_right Rplus 0 (map (fun s => nth 0 (fst (fst s)) 0) l)) lists))
    end
  end.
(** 324-376 *)
Definition non_local_energy (psi : list pt -> value) (mol : list atom) (d : ecp_dict) (elements : list string) (id : option string) (max_core : nat) (ranges : nat * nat * nat * nat) (draws : nat -> R * R) (pe : list pt) : option R :=
  match get_quadrature id, max_l d with
  | Some q, Some ml => non_local_sum (psi_r psi pe) q (element_coords mol d elements) d ml max_core draws ranges pe
  | _, _ => None
  end.
(** 509-566 with ecp_potential.py 60-112: the same with a memory updated for the moved electron *)
Definition psi_r_optim {M} (modify : M -> list pt -> value) (memory : list pt -> M) (update : M -> list pt -> nat -> M) (walkers : list pt) (i : nat) (rv : pt) (r : R) (x : pt) : R :=
  let coords := vsub (vadd (vscale r x) (nth i walkers (0, 0, 0))) rv in
  let m := memory walkers in let den := modify m walkers in
  let moved := set_nth i coords walkers in
  let num := modify (update m moved i) moved in
  fst num * fst den * exp (snd num - snd den).
Definition non_local_energy_optim {M} (modify : M -> list pt -> value) (memory : list pt -> M) (update : M -> list pt -> nat -> M) (mol : list atom) (d : ecp_dict) (elements : list string) (id : option string) (max_core : nat) (ranges : nat * nat * nat * nat) (draws : nat -> R * R) (pe : list pt) : option R :=
  match get_quadrature id, max_l d with
  | Some q, Some ml => non_local_sum (psi_r_optim modify memory update pe) q (element_coords mol d elements) d ml max_core draws ranges pe
  | _, _ => None
  end.

(** ** Pseudo-Hamiltonian *)
(** an entry of ph_info: the positions of the atoms and the tables (r V_loc, r V_L2) of each symbol *)
Definition tables := ((nat -> R) * (nat -> R))%type.
Definition ph_info := (list atom * list (string * tables))%type.
(** pp/ph/data.py 178-193 and 201-217: [supported] is gen_ph_data; an unsupported symbol raises *)
Definition gen_info (supported : string -> option tables) (consider : string -> bool) (mol : list atom) : option ph_info :=
  fold_left (fun st a =>
    match st with
    | None => None
    | Some (ps, data) =>
        if consider (fst a) then
          if known data (fst a) then Some (ps ++ [a], data)
          else match supported (fst a) with Some t => Some (ps ++ [a], assign data (fst a) t) | None => None end
        else Some (ps, data)
    end) mol (Some ([], [])).
Definition in_list (s : string) (l : list string) : bool := existsb (String.eqb s) l.
(** 12-31 and 168-199 *)
Definition ph_elements_default : list string := ["Cr"; "Mn"; "Fe"; "Co"; "Ni"; "Cu"; "Zn"; "S"]%string.
Definition ph_supported (data : string -> tables) (s : string) : option tables :=
  if String.eqb s "Sc" || in_list s ph_elements_default then Some (data s) else None.
Definition hph_supported (data : string -> tables) (s : string) : option tables := if String.eqb s "Sc" then Some (data s) else None.
Definition gen_ph_info (data : string -> tables) (ph_elements : option (list string)) (mol : list atom) : option ph_info :=
  gen_info (ph_supported data) (fun s => match ph_elements with None => in_list s ph_elements_default | Some l => in_list s l end) mol.
Definition gen_hph_info (data : string -> tables) (hph_elements : option (list string)) (mol : list atom) : option ph_info :=
  gen_info (hph_supported data) (fun s => match hph_elements with None => false | Some l => in_list s l end) mol.
(** pp/ph/data.py 63-79 at one grid point, channels s, p, d *)
Definition parse_TM (s p d : R) : R * R := let local_nl := d in let v0 := s - local_nl in (local_nl + v0, - v0 / 6).
(** pp/hamiltonian.py 378-403 *)
Definition merge_info (ph hph : option ph_info) : option ph_info :=
  match ph, hph with
  | None, None => None
  | None, Some h => Some h
  | Some p, None => Some p
  | Some p, Some h => Some (fst p ++ fst h, fold_left (fun m e => assign m (fst e) (snd e)) (snd h) (snd p))
  end.
(** the tables of every PH atom: pp/ph/hamiltonian.py 25-39 (linear), 104-127 (spline: the i-th key of the dict);
    a missing symbol raises *)
Inductive rv_type := Spline | Linear.
Fixpoint index_of (s : string) (keys : list string) : option nat :=
  match keys with [] => None | k :: ks => if String.eqb k s then Some 0%nat else option_map S (index_of s ks) end.
Definition atom_tables (rv : rv_type) (data : list (string * tables)) (s : string) : option tables :=
  match rv with
  | Linear => lookup data s
  | Spline => match index_of s (map fst data) with Some i => Some (snd (nth i data (EmptyString, (fun _ => 0, fun _ => 0)))) | None => None end
  end.
(** kinetic_ph, 40-98 and 128-184: second_order, first_order and zero_order; [spline t r] is the library's cubic
    spline through the 10001 values of t.  mass and first-order vector as in the code, without a guard for r = 0 *)
Definition rV (spline : (nat -> R) -> R -> R) (rv : rv_type) (t : nat -> R) (r : R) : R :=
  match rv with Linear => interp 10000 t r | Spline => spline t r end.
Definition madd (a b : mat) : mat := fun i j => a i j + b i j.
Definition eff_mass (l2 : list (R * vec)) (p : vec) : mat :=
  let m := fold_left (fun carry a => let r := norm 3 (fun c => p c - snd a c) in
       madd (fun i j => - fst a * ((p i - snd a i) * (p j - snd a j)) / r + delta i j * (fst a * r)) carry) l2 (fun _ _ => 0) in
  fun i j => m i j + 1 / 2 * delta i j.
Definition first_vector (l2 : list (R * vec)) (p : vec) : vec :=
  fold_left (fun carry a => fun i => carry i + fst a * 2 / norm 3 (fun c => p c - snd a c) * (p i - snd a i)) l2 (fun _ => 0).
Definition zero_order_of (loc : list (R * vec)) (p : vec) : R :=
  fold_left (fun carry a => carry + fst a / norm 3 (fun c => p c - snd a c)) loc 0.
(** values of the tables of all PH atoms at the distances from p *)
Definition at_atoms (f : (nat -> R) -> R -> R) (sel : tables -> (nat -> R)) (ats : list (tables * vec)) (p : vec) : list (R * vec) :=
  map (fun a => (f (sel (fst a)) (norm 3 (fun c => p c - snd a c)), snd a)) ats.
(** [g] is jax.grad of log|psi|, [pass L] what lapjax returns (gradient, Laplacian) for coordinates whose derivatives
    are seeded with L instead of the identity: the derivatives of y -> f (x + L y) at 0 *)
Definition kinetic_ph (f : (nat -> R) -> R -> R) (ats : list (tables * vec)) (N : nat) (x g : vec) (pass : (nat -> mat) -> vec * R) : option R :=
  match stack N (fun e => cholesky (eff_mass (at_atoms f snd ats (place_of x e)) (place_of x e))) with
  | None => None
  | Some L =>
      let out := pass L in
      Some ((- snd out - sum (3 * N) (fun k => fst out k ^ 2))
            + sum N (fun e => sum 3 (fun i => g (3 * e + i)%nat * first_vector (at_atoms f snd ats (place_of x e)) (place_of x e) i))
            + sum N (fun e => zero_order_of (at_atoms f fst ats (place_of x e)) (place_of x e)))
  end.

(** ** The energy *)
Definition keys {A} (d : list (string * A)) : list string := map fst d.
Definition info_keys (i : option ph_info) : list string := match i with None => [] | Some p => keys (snd p) end.
(** arguments that stay fixed in one evaluation *)
Record setting := {
  n_el : nat; n_at : nat; at_pos : nat -> vec; at_charge : nat -> R; (* atoms, charges *)
  log_abs_f : vec -> R; (* f(.)[1] *)
  out_f : vec * R; pass_f : (nat -> mat) -> vec * R; (* lapjax *)
  spline_f : (nat -> R) -> R -> R; ph_rv : rv_type;
  scan_f : bool; part_f : nat; forward_f : bool }.
(** 223-256 *)
Definition local_energy (s : setting) (ph_atoms : list string) (info : option ph_info) (x : vec) : option R :=
  let kinetic :=
    match ph_atoms with
    | _ :: _ =>
        if negb (forward_f s) then None else
        match info with
        | None => None
        | Some (ps, data) =>
            match all_some (map (fun a => option_map (fun t => (t, of3 (snd a))) (atom_tables (ph_rv s) data (fst a))) ps) with
            | None => None
            | Some ats => kinetic_ph (rV (spline_f s) (ph_rv s)) ats (n_el s) x (grad (log_abs_f s) x) (pass_f s)
            end
        end
    | [] => if forward_f s then Some (forward_kinetic (3 * n_el s) (out_f s)) else pp_kinetic (scan_f s) (part_f s) (3 * n_el s) (log_abs_f s) x
    end in
  option_map (fun k => pp_potential (n_el s) (n_at s) x (at_pos s) (at_charge s) + k) kinetic.
(** which elements get a non-local term: 454-461; 609-612 has the same test *)
Definition ecp_elements (mol : list atom) (d : ecp_dict) (ph_atoms : list string) : list string :=
  map fst (filter (fun a => known d (fst a) && negb (in_list (fst a) ph_atoms)) mol).
Definition add (a b : option R) : option R := match a, b with Some u, Some v => Some (u + v) | _, _ => None end.
Definition ranges_of (nspins : nat * nat) : nat * nat * nat * nat := (0%nat, fst nspins, fst nspins, (fst nspins + snd nspins)%nat).
Definition to_list (N : nat) (x : vec) : list pt := map (fun e => (place_of x e 0%nat, place_of x e 1%nat, place_of x e 2%nat)) (seq 0 N). (* x.reshape(-1, 3) *)
(** 405-507 *)
Definition pp_energy (s : setting) (psi : list pt -> value) (nspins : nat * nat) (mol : list atom) (d : ecp_dict) (ph hph : option ph_info)
  (id : option string) (max_core : nat) (energy_local : option (vec -> option R)) (draws : nat -> R * R) (x : vec) : option R :=
  let ph_atoms := info_keys ph in
  let all_ph_atoms := ph_atoms ++ info_keys hph in
  let elements := ecp_elements mol d ph_atoms in
  let local := match energy_local, all_ph_atoms with
               | Some el, [] => el x
               | _, _ => local_energy s all_ph_atoms (merge_info ph hph) x
               end in
  let nonlocal := match elements with
                  | [] => Some 0
                  | _ => non_local_energy psi mol d elements id max_core (ranges_of nspins) draws (to_list (n_el s) x)
                  end in
  add local nonlocal.
(** 568-660: hph_info is not read *)
Definition ecp_energy_optim {M} (s : setting) (modify : M -> list pt -> value) (memory : list pt -> M) (update : M -> list pt -> nat -> M) (nspins : nat * nat) (mol : list atom) (d : ecp_dict) (ph hph : option ph_info)
  (id : option string) (max_core : nat) (energy_local : option (vec -> option R)) (draws : nat -> R * R) (x : vec) : option R :=
  let ph_atoms := info_keys ph in
  let elements := ecp_elements mol d ph_atoms in
  let local := match energy_local, ph_atoms with
               | Some el, [] => el x
               | _, _ => local_energy s ph_atoms ph x
               end in
  let nonlocal := match elements with
                  | [] => Some 0
                  | _ => non_local_energy_optim modify memory update mol d elements id max_core (ranges_of nspins) draws (to_list (n_el s) x)
                  end in
  add local nonlocal.
