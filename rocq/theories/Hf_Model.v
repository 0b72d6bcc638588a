(** The Hartree-Fock reference and the pretraining stage
    (/repo/src/jaqmc/utils/atomic/scf.py, utils/atomic/pretrain.py, gto.py 293-363, and the wiring in
    app/molecule/workflow.py 64-85 and app/solid/workflow.py 66-93, 102-105), over the reals.
    pyscf's self-consistent field is not modelled: its result (coefficients and occupations) is arbitrary.
    One walker at a time (leading_dims = ()): the code flattens a batch, evaluates every position on its own and
    reshapes back. *)
From Coq Require Import Reals List Arith Bool Lra Lia ZArith.
From Coquelicot Require Import Coquelicot.
From Verif Require Import Lin Geom_Model Det Wf_Model Gto_Model Bloch_Model.
Import ListNotations.
Open Scope R_scope.
Local Notation vec := Lin.vec.
Local Notation mat := Lin.mat.

(** ** Molecules *)
(** mean_field.mo_coeff: one array for RHF, two for UHF; entry (basis function, orbital) *)
Inductive mo_coeff := Restricted (c : mat) | Unrestricted (ca cb : mat).
(** jnp.matmul(ao_values, coeff), the row of one position *)
Definition matmul_row (ao : list R) (c : mat) (j : nat) : R := sum (length ao) (fun mu => nth mu ao 0 * c mu j).
(** scf.py 226-269 eval_mos *)
Definition eval_mos (atoms : list atom_t) (dict : nat -> list shell) (mf : mo_coeff) (pos : nat -> vec) : (nat -> nat -> R) * (nat -> nat -> R) :=
  let ao := fun i => eval_aos atoms dict (pos i) in
  match mf with
  | Restricted c => (fun i j => matmul_row (ao i) c j, fun i j => matmul_row (ao i) c j)
  | Unrestricted ca cb => (fun i j => matmul_row (ao i) ca j, fun i j => matmul_row (ao i) cb j)
  end.
(** scf.py 51-79 _extract_spin_blocks: [:n_alpha, :n_alpha] and [n_alpha:, :n_beta] *)
Definition extract_spin_blocks {A} (alpha beta : nat -> nat -> A) (ns : spins) : (nat -> nat -> A) * (nat -> nat -> A) :=
  (fun i j => alpha i j, fun i j => beta (fst ns + i)%nat j).
(** scf.py 271-297 *)
Definition eval_orbitals (atoms : list atom_t) (dict : nat -> list shell) (mf : mo_coeff) (ns : spins) (pos : nat -> vec) :=
  let '(a, b) := eval_mos atoms dict mf pos in extract_spin_blocks a b ns.
(** x + y with -inf *)
Definition eplus (x y : ext) : ext :=
  match x, y with NaN, _ | _, NaN => NaN | NegInf, _ | _, NegInf => NegInf | Fin a, Fin b => Fin (a + b) end.
(** scf.py 82-99 *)
Definition slogdet_spin_block (n : nat) (m : nat -> nat -> R) : R * ext := if Nat.eqb n 0 then (1, Fin 0) else slogdet (rdet n m).
(** scf.py 102-116 *)
Definition slater_from_orbitals (ns : spins) (a b : nat -> nat -> R) : R * ext :=
  let '(sa, la) := slogdet_spin_block (fst ns) a in
  let '(sb, lb) := slogdet_spin_block (snd ns) b in
  (sa * sb, eplus la lb).
(** scf.py 299-312 *)
Definition eval_slater (atoms : list atom_t) (dict : nat -> list shell) (mf : mo_coeff) (ns : spins) (pos : nat -> vec) : R * ext :=
  let '(a, b) := eval_orbitals atoms dict mf ns pos in slater_from_orbitals ns a b.

(** ** Periodic systems *)
Definition phase (t : R) : C := (cos t, sin t).
Definition csum (l : list C) : C := fold_right Cplus (RtoC 0) l.
Definition n_aos (atoms : list atom_t) (dict : nat -> list shell) : nat := length (s_angular (construction atoms dict)).
(** gto.py 346-363: exp(1j k.L) over the image translation vectors, summed with the orbitals at r - L *)
Definition bloch_ao (atoms : list atom_t) (dict : nat -> list shell) (images : list vec) (k r : vec) (mu : nat) : C :=
  csum (map (fun L => Cmult (phase (Lin.dot 3 k L)) (RtoC (nth mu (eval_aos atoms dict (fun i => r i - L i)) 0))) images).
(** An orbital of one k-point: its occupation and its column of coefficients *)
Definition band := (R * (nat -> C))%type.
Inductive k_mean_field := KRestricted (bands : list (list band)) | KUnrestricted (ba bb : list (list band)).
(** scf.py 434-485 _extract_mo_coeffs *)
Definition occupied (threshold : R) (bs : list band) : list (nat -> C) := map snd (filter (fun b => rltb threshold (fst b)) bs).
Definition extract_mo_coeffs (mf : k_mean_field) : list (list (nat -> C)) * list (list (nat -> C)) :=
  match mf with
  | KRestricted bs => (map (occupied (9 / 10)) bs, map (occupied (11 / 10)) bs)
  | KUnrestricted ba bb => (map (occupied (9 / 10)) ba, map (occupied (9 / 10)) bb)
  end.
Record pbc := { pbc_lattice : mat; pbc_inv : mat; pbc_images : list vec; pbc_kpts : list vec }.
(** scf.py 607-631: the row of one electron, all k-points concatenated *)
Definition orbital_row (atoms : list atom_t) (dict : nat -> list shell) (p : pbc) (coeffs : list (list (nat -> C))) (pos : vec) : list C :=
  let wrapped := wrap_positions 3 (pbc_inv p) (pbc_lattice p) pos in
  let R := fun i => pos i - wrapped i in
  let ao := fun k mu => Cmult (bloch_ao atoms dict (pbc_images p) k wrapped mu) (phase (Lin.dot 3 k R)) in
  flat_map (fun kc => map (fun col => csum (map (fun mu => Cmult (ao (fst kc) mu) (col mu)) (seq 0 (n_aos atoms dict)))) (snd kc)) (combine (pbc_kpts p) coeffs).
(** scf.py 633-650: columns beyond n_spin are cut off; a matrix with fewer is not square *)
Definition spin_matrix (atoms : list atom_t) (dict : nat -> list shell) (p : pbc) (coeffs : list (list (nat -> C))) (n off : nat) (pos : nat -> vec) : nat * (nat -> nat -> C) :=
  (match n with O => 0%nat | _ => Nat.min n (length (concat coeffs)) end, fun i j => nth j (firstn n (orbital_row atoms dict p coeffs (pos (off + i)%nat))) (RtoC 0)).
Definition eval_orbitals_pbc (atoms : list atom_t) (dict : nat -> list shell) (p : pbc) (mf : k_mean_field) (ns : spins) (pos : nat -> vec) :=
  let '(ca, cb) := extract_mo_coeffs mf in
  (spin_matrix atoms dict p ca (fst ns) 0 pos, spin_matrix atoms dict p cb (snd ns) (fst ns) pos).
Definition cslogdet_spin_block (n : nat) (m : nat * (nat -> nat -> C)) : option (C * ext) :=
  if Nat.eqb (fst m) 0 then Some (RtoC 1, Fin 0) else if Nat.eqb (fst m) n then Some (cslogdet (cdet n (snd m))) else None. (* not square: slogdet raises *)
Definition cslater_from_orbitals (ns : spins) (a b : nat * (nat -> nat -> C)) : option (C * ext) :=
  match cslogdet_spin_block (fst ns) a, cslogdet_spin_block (snd ns) b with
  | Some (sa, la), Some (sb, lb) => Some (Cmult sa sb, eplus la lb)
  | _, _ => None
  end.
Definition cslater (atoms : list atom_t) (dict : nat -> list shell) (p : pbc) (mf : k_mean_field) (ns : spins) (pos : nat -> vec) : option (C * ext) :=
  let '(a, b) := eval_orbitals_pbc atoms dict p mf ns pos in cslater_from_orbitals ns a b.
(** scf.py 654-666 and the [.real] of app/solid/workflow.py 84: Re (logdet + log sign), log 0 = -inf *)
Definition slater_log_amplitude (o : option (C * ext)) : option ext :=
  match o with
  | Some (s, l) => Some (eplus l (if Ceqb s then NegInf else Fin (fst (clog s))))
  | None => None
  end.
(** scf.py 668-716: the k-point of each orbital *)
Definition get_orbital_kpoints (p : pbc) (mf : k_mean_field) : list vec :=
  let '(ca, cb) := extract_mo_coeffs mf in
  orbital_kpoints (pbc_kpts p) (map (@length _) ca) (map (@length _) cb).

(** ** Pretraining: sampling amplitude (pretrain.py 46-88) *)
Definition escale (c : R) (x : ext) : ext := match x with Fin a => Fin (c * a) | y => y end. (* c > 0 *)
Definition pretrain_log_amplitude {D} (log_psi log_scf : D -> ext) (f : R) : option (D -> ext) :=
  if rltb 1 f || rltb f 0 then None (* ValueError *)
  else if rleb f 0 then Some log_psi
  else if rleb 1 f then Some log_scf
  else Some (fun d => eplus (escale (1 - f) (log_psi d)) (escale f (log_scf d))).

(** ** Pretraining: loss (pretrain.py 110-127) *)
(** jnp.block([[a, 0], [0, b]]) *)
Definition block_target (na : nat) (a b : nat -> nat -> C) (i j : nat) : C :=
  if Nat.ltb i na then (if Nat.ltb j na then a i j else RtoC 0)
  else if Nat.ltb j na then RtoC 0 else b (i - na)%nat (j - na)%nat.
Definition cabs2 (z : C) : R := Cmod z ^ 2.
(** jnp.mean over a (ndets, n, n) array *)
Definition mean3 (k n : nat) (f : nat -> nat -> nat -> R) : R := sum k (fun x => sum n (fun i => sum n (fun j => f x i j))) / INR (k * n * n).
Definition loss_full (ns : spins) (ndets : nat) (a b : nat -> nat -> C) (orb : nat -> nat -> nat -> C) : R :=
  mean3 ndets (n_el ns) (fun k i j => cabs2 (Cminus (block_target (fst ns) a b i j) (orb k i j))).
(** full_det=False: [zip] of the two spin blocks with the leading axis of the orbitals; each difference of an
    (m, m) with an (n, n) array broadcasts when the sizes agree or one of them is 1, and raises otherwise *)
Definition broadcast (m n : nat) : option nat := if Nat.eqb m n then Some n else if Nat.eqb m 1 then Some n else if Nat.eqb n 1 then Some m else None.
Definition at_ (m i : nat) : nat := if Nat.eqb m 1 then 0%nat else i.
Definition pair_loss (m n : nat) (t o : nat -> nat -> C) : option R :=
  match broadcast m n with
  | Some s => Some (sum s (fun i => sum s (fun j => cabs2 (Cminus (t (at_ m i) (at_ m j)) (o (at_ n i) (at_ n j))))) / INR (s * s))
  | None => None
  end.
Fixpoint opt_total (l : list (option R)) : option R := match l with [] => Some 0 | x :: l' => match x, opt_total l' with Some a, Some b => Some (a + b) | _, _ => None end end.
Definition loss_split (ns : spins) (ndets : nat) (a b : nat -> nat -> C) (orb : nat -> nat -> nat -> C) : option R :=
  opt_total (map (fun p => let '((m, t), k) := p in pair_loss m (n_el ns) t (orb k)) (combine [(fst ns, a); (snd ns, b)] (seq 0 ndets))).
Definition pretrain_loss (full_det : bool) (ns : spins) (ndets : nat) (a b : nat -> nat -> C) (orb : nat -> nat -> nat -> C) : option R :=
  if full_det then Some (loss_full ns ndets a b orb) else loss_split ns ndets a b orb.
