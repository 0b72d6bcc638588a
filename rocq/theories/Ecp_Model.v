(** Model of /repo/src/jaqmc/estimator/ecp/estimator.py and nonlocal_integral.py, in exact real arithmetic.

    A wavefunction value is its phase (a complex number) and the logarithm of its modulus.  Positions are
    triples; the lattice and its inverse are matrices of [Lin].  The draws that choose the rotation of
    each electron's quadrature points are an argument.  [None] is an exception. *)
From Coq Require Import Reals List Arith ZArith String Bool.
From Coquelicot Require Import Coquelicot.
From Verif Require Import Quad_Spec Quad_Model Lin Geom_Model Branch_Model Ecp_Spec.
Import ListNotations.
Open Scope list_scope.
Open Scope R_scope.

Definition vec := Quad_Spec.vec.
(** mol._ecp; the number of core electrons (entry 0) is not used by this code *)
Definition ecp_dict := list (string * table).
Definition lookup (d : ecp_dict) (s : string) : option table := option_map snd (find (fun e => String.eqb (fst e) s) d).

(** estimator.py 90-93: max over all elements of the dictionary; max of an empty list raises *)
Definition max_l (t : table) : option Z := match map fst t with [] => None | l :: ls => Some (fold_left Z.max ls l) end.
Fixpoint max_channels (ts : list table) : option Z :=
  match ts with
  | [] => None
  | [t] => option_map (fun l => (l + 2)%Z) (max_l t)
  | t :: ts' => match max_l t, max_channels ts' with Some l, Some c => Some (Z.max (l + 2) c) | _, _ => None end
  end.
Definition num_channels (d : ecp_dict) : option Z := max_channels (map snd d).
(** 96-98 *)
Definition ecp_atom_indices (symbols : list string) (d : ecp_dict) : list nat :=
  map fst (filter (fun p => match lookup d (snd p) with Some _ => true | None => false end) (combine (seq 0 (List.length symbols)) symbols)).

(** ** ECPRadial.from_pyscf *)
Definition len {A} := @List.length A.
(** 216-222: maximum number of terms over the tables of the atoms *)
Definition n_terms (gs : list group) : nat := fold_right Nat.add 0%nat (map len gs).
Definition max_terms (ts : list table) : nat := fold_right Nat.max 0%nat (map (fun t => fold_right Nat.max 0%nat (map (fun e => n_terms (snd e)) t)) ts).
(** one row [i] of the three padded arrays: channel and term index to exponent, coefficient, power *)
Definition row := nat -> nat -> R * R * Z.
Definition zeros : row := fun _ _ => (0, 0, 0%Z).
Definition write (w : row) (c k : nat) (v : R * R * Z) : row := fun c' k' => if andb (Nat.eqb c' c) (Nat.eqb k' k) then v else w c' k'.
(** 245-249: one power group, then all of them; the state carries term_idx *)
Definition write_group (c power_idx : nat) (st : row * nat) (g : group) : row * nat :=
  fold_left (fun s ac => (write (fst s) c (snd s) (fst ac, snd ac, (Z.of_nat power_idx - 2)%Z), S (snd s))) g st.
Fixpoint write_groups (c power_idx : nat) (gs : list group) (st : row * nat) : row * nat :=
  match gs with [] => st | g :: gs' => write_groups c (S power_idx) gs' (write_group c power_idx st g) end.
(** 240-249: the channels of one atom *)
Definition write_atom (t : table) : row :=
  fold_left (fun w e => fst (write_groups (Z.to_nat (fst e + 1)) 0 (snd e) (w, 0%nat))) t zeros.
(** 270-272: coeff * r^power * exp(-alpha r^2), summed over the term axis *)
Definition radial (w : row) (mt : nat) (c : nat) (r : R) : R :=
  sum mt (fun k => let v := w c k in snd (fst v) * powerRZ r (snd v) * exp (- fst (fst v) * r ^ 2)).

(** ** _select_nearest_cores, 303-319: the indices kept for one electron *)
Definition nearest_cores (dists : list R) (max_core : nat) : list nat :=
  if Nat.leb (len dists) max_core then seq 0 (len dists) else smallest dists max_core.

(** ** nonlocal_integral.py *)
(** 195-205 *)
Definition legendre_polynomials (x : R) (num_l : nat) : option (list R) :=
  if Nat.ltb 3 num_l then None else Some (firstn num_l [1; x; (3 * x ^ 2 - 1) / 2]).
(** 75-82 *)
Definition value := (C * R)%type.
Definition wf_ratio (wf : list vec -> value) (ref : value) (displaced : list vec) : C :=
  Cmult (Cmult (fst (wf displaced)) (Cconj (fst ref))) (RtoC (exp (snd (wf displaced) - snd ref))).
(** .at[i].set *)
Fixpoint set_nth {A} (i : nat) (x : A) (l : list A) : list A := match l, i with [], _ => [] | _ :: l', O => x :: l' | y :: l', S i' => y :: set_nth i' x l' end.
(** 159-178 *)
Record pbc := { plattice : mat; pinv : mat; ptwist : option vec }.
Definition wrap_with_bloch_phase (b : pbc) (p : vec) : vec * C :=
  let wrapped := to3 (wrap_positions 3 (pinv b) (plattice b) (of3 p)) in
  (wrapped, match ptwist b with
            | Some tw => let fractional_shift := to3 (vecmat 3 (of3 (vsub p wrapped)) (pinv b)) in
                         cis (2 * PI * vdot fractional_shift (rmod (fst (fst tw)) 1, rmod (snd (fst tw)) 1, rmod (snd tw) 1))
            | None => RtoC 1
            end).
(** quadrature.integrate of complex values; the weights are real *)
Definition integrate_c (q : quadrature) (vs : list C) : C := (integrate q (map fst vs), integrate q (map snd vs)).
(** 112-119: the wavefunction ratio with electron i displaced to [pos] *)
Definition displaced_ratio (b : option pbc) (wf : list vec -> value) (els : list vec) (i : nat) (pos : vec) : C :=
  let ref := wf els in
  match b with
  | Some pb => let (w, ph) := wrap_with_bloch_phase pb pos in Cmult (wf_ratio wf ref (set_nth i w els)) ph
  | None => wf_ratio wf ref (set_nth i pos els)
  end.
(** 84-137: the integrals of one electron and one atom, one for each nonlocal channel *)
Definition electron_contribution (q : quadrature) (n_nonlocal : nat) (b : option pbc) (wf : list vec -> value) (els : list vec) (i : nat) (atom : vec) (qpts : list vec) : option (list C) :=
  let r_vec := vsub (nth i els (0, 0, 0)) atom in
  let r := vlen r_vec in
  let dir := vscale (/ r) r_vec in
  let ratios := map (fun p => displaced_ratio b wf els i (vadd atom (vscale r p))) qpts in
  match legendre_polynomials 0 n_nonlocal with
  | None => None
  | Some _ => Some (map (fun l =>
      let pl := map (fun p => match legendre_polynomials (vdot p dir) n_nonlocal with Some v => nth l v 0 | None => 0 end) qpts in
      Cmult (Cmult (integrate_c q (map (fun x => Cmult (RtoC (fst x)) (snd x)) (combine pl ratios))) (RtoC (2 * INR l + 1))) (RtoC (/ (4 * PI))))
      (seq 0 n_nonlocal))
  end.

(** ** evaluate_single_walker, estimator.py 118-152 *)
Definition csum (l : list C) : C := fold_right Cplus (RtoC 0) l.
Definition rsum (l : list R) : R := fold_right Rplus 0 l.
Definition displacement (b : option pbc) (e a : vec) : vec :=
  match b with Some pb => to3 (fst (distance 3 (pinv pb) (plattice pb) (of3 (vsub e a)))) | None => vsub e a end.
Definition dist (b : option pbc) (e a : vec) : R :=
  match b with Some pb => snd (distance 3 (pinv pb) (plattice pb) (of3 (vsub e a))) | None => vlen (vsub e a) end.
(** [all_some]: an exception anywhere is an exception *)
Fixpoint all_some {A} (l : list (option A)) : option (list A) :=
  match l with [] => Some [] | Some x :: l' => option_map (cons x) (all_some l') | None :: _ => None end.
(** the tables and positions of the atoms that have a potential *)
Definition ecp_energy (d : ecp_dict) (q : quadrature) (b : option pbc) (max_core : nat)
  (atoms : list (table * vec)) (wf : list vec -> value) (els : list vec) (draws : nat -> R * R) : option C :=
  match num_channels d with
  | None => None
  | Some nc =>
    let mt := max_terms (map fst atoms) in
    let n_nonlocal := Z.to_nat (nc - 1) in
    let local_energy := rsum (flat_map (fun e => map (fun a => radial (write_atom (fst a)) mt 0 (dist b e (snd a))) atoms) els) in
    let pair (ie : nat * vec) (j : nat) : option C :=
      let a := nth j atoms ([], (0, 0, 0)) in
      let e := snd ie in
      let atom_position := vsub e (displacement b e (snd a)) in
      if Nat.eqb n_nonlocal 0 then Some (RtoC 0) else
      match electron_contribution q n_nonlocal b wf els (fst ie) atom_position (rotated q (fst (draws (fst ie))) (snd (draws (fst ie)))) with
      | None => None
      | Some ints => Some (csum (map (fun l => Cmult (nth l ints (RtoC 0)) (RtoC (radial (write_atom (fst a)) mt (S l) (dist b e (snd a))))) (seq 0 n_nonlocal)))
      end in
    let pairs := flat_map (fun ie => map (pair ie) (nearest_cores (map (fun a => dist b (snd ie) (snd a)) atoms) max_core)) (combine (seq 0 (len els)) els) in
    option_map (fun l => Cplus (RtoC local_energy) (csum l)) (all_some pairs)
  end.
(** init, 88-117: the atoms that have a potential, in order; [None] when there is none *)
Definition ecp_atoms (d : ecp_dict) (symbols : list string) (positions : list vec) : option (list (table * vec)) :=
  match ecp_atom_indices symbols d with
  | [] => None
  | idx => Some (map (fun i => (match lookup d (nth i symbols EmptyString) with Some t => t | None => [] end, nth i positions (0, 0, 0))) idx)
  end.
