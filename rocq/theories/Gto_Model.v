(** The Gaussian atomic orbitals evaluated by the Hartree-Fock reference
    (/repo/src/jaqmc/utils/atomic/gto.py), over the reals.
    One grid point at a time: the code evaluates a batch of points, each independently of the others (the
    reshapes to (G*A, 3) and back are a bookkeeping of that batch and are not modelled). Element symbols are numbers.
    Library functions are modelled by their documented meaning: [jax.scipy.special.lpmn_values] with
    is_normalized=True by the recurrence of the associated Legendre functions with the Condon-Shortley phase times
    the orthonormal factor, [jnp.arctan2], [jax.ops.segment_sum], and gathers that clamp an index beyond the end. *)
From Coq Require Import Reals List Arith Lra Lia ZArith Factorial.
From Coquelicot Require Import Complex.
From Verif Require Import Lin Wf_Model.
Import ListNotations.
Open Scope R_scope.

(** ** pyscf's storage of a basis and the read-back (gto.py 27-53) *)
(** one shell: angular momentum, and a row [alpha, w_1, ..., w_nctr] for each primitive *)
Record shell := { ell : nat; rows : list (R * list R) }.
(** [pyscf.gto.mole.make_bas_env], the part read back: for each shell the exponents, then the weights one
    contraction after another; and the record (angular momentum, nprim, nctr, pointer to the exponents).
    The weights are those already normalised by pyscf. *)
Definition n_contr (s : shell) : nat := match rows s with [] => 0%nat | r :: _ => length (snd r) end.
Definition shell_env (s : shell) : list R :=
  map fst (rows s) ++ flat_map (fun w => map (fun r => nth w (snd r) 0) (rows s)) (seq 0 (n_contr s)).
Record bas_row := { b_angl : nat; b_nprim : nat; b_nctr : nat; b_ptr : nat }.
Fixpoint make_bas (ptr : nat) (l : list shell) : list bas_row :=
  match l with
  | [] => []
  | s :: l' => {| b_angl := ell s; b_nprim := length (rows s); b_nctr := n_contr s; b_ptr := ptr |} ::
      make_bas (ptr + length (rows s) * S (n_contr s))%nat l'
  end.
Definition make_env (l : list shell) : list R := flat_map shell_env l.
(** gto.py 44-53: env[start:stop].reshape(nctr + 1, nprim).T as rows *)
Definition read_shell (env : list R) (b : bas_row) : shell :=
  let n0 := (b_nctr b + 1)%nat in
  let n1 := b_nprim b in
  let chunk := firstn (n0 * n1) (skipn (b_ptr b) env) in
  {| ell := b_angl b;
     rows := map (fun p => (nth (0 * n1 + p) chunk 0, map (fun c => nth (c * n1 + p)%nat chunk 0) (seq 1 (n0 - 1)))) (seq 0 n1) |}.
Definition normalize_primitive_weights (bas : list bas_row) (env : list R) : list shell := map (read_shell env) bas.

(** ** Spherical coordinates and solid harmonics (gto.py 68-110) *)
Definition atan2 (y x : R) : R := if Req_EM_T x 0 then (if Req_EM_T y 0 then 0 else carg (x, y)) else carg (x, y).
(** gto.py 80-83 *)
Definition cart2sph (r : vec) : R * R * R :=
  let rho := norm 3 r in
  let phi := atan2 (r 1%nat) (r 0%nat) in
  let theta := atan2 (norm 2 r) (r 2%nat) in
  (rho, phi, theta).
(** the associated Legendre function P_l^m(x), m <= l, by the recurrence in l; k = l - m.
    [sq] is sqrt (1 - x^2) *)
Fixpoint dfact (m : nat) : R := match m with O => 1 | S k => (2 * INR k + 1) * dfact k end.
Fixpoint legendre_pair (m : nat) (x sq : R) (k : nat) : R * R := (* (P_{m+k}, P_{m+k-1}) *)
  match k with
  | O => ((-1) ^ m * dfact m * sq ^ m, 0)
  | S j => let '(p, q) := legendre_pair m x sq j in
      (((2 * (INR m + INR j) + 1) * x * p - (INR m + INR j + INR m) * q) / (INR j + 1), p)
  end.
Definition legendre (m l : nat) (x : R) : R := fst (legendre_pair m x (sqrt (1 - x * x)) (l - m)).
(** the factor that makes the spherical harmonics orthonormal on the sphere *)
Definition sph_norm (l m : nat) : R := sqrt ((2 * INR l + 1) / (4 * PI) * (INR (fact (l - m)) / INR (fact (l + m)))).
(** [jss.lpmn_values(l_max, l_max, z, True)[m][l]]: zero above the diagonal *)
Definition lpmn (m l : nat) (x : R) : R := if Nat.leb m l then sph_norm l m * legendre m l x else 0.
(** gto.py 93-107: the rows of [harmonics], m = -l_max .. l_max, one column per l *)
Definition harmonic_rows (r : vec) (l_max : nat) : list (nat -> R) :=
  let '(rho, phi, theta) := cart2sph r in
  let cos_theta := cos theta in
  let positive := map (fun m l => sqrt 2 * (lpmn m l cos_theta * cos (INR m * phi)) * (-1) ^ m) (seq 1 l_max) in
  let zero := [fun l => lpmn 0 l cos_theta] in
  let negative := map (fun m l => sqrt 2 * (lpmn m l cos_theta * sin (INR m * phi) * (-1) ^ m)) (seq 1 l_max) in
  (rev negative ++ zero ++ positive)%list.
(** gto.py 109-110 *)
Definition solid_harmonic (r : vec) (l_max : nat) : list (nat -> R) :=
  let '(rho, _, _) := cart2sph r in map (fun h l => h l * rho ^ l) (harmonic_rows r l_max).

(** ** Construction lists (gto.py 155-224) *)
Record spec := {
  s_alpha : list R; s_weights : list R; s_atom : list nat; s_cshell : list nat;
  s_radial : list nat; s_angular : list (nat * Z * nat) }.
Definition empty_spec : spec := {| s_alpha := []; s_weights := []; s_atom := []; s_cshell := []; s_radial := []; s_angular := [] |}.
Definition tiny : R := / 10 ^ 12.
(** gto.py 203-211: one primitive *)
Definition add_primitive (atom cid w : nat) (sp : spec) (info : R * list R) : spec :=
  if Rlt_dec tiny (Rabs (nth w (snd info) 0)) then
    {| s_alpha := s_alpha sp ++ [fst info]; s_weights := s_weights sp ++ [nth w (snd info) 0]; s_atom := s_atom sp ++ [atom];
       s_cshell := s_cshell sp ++ [cid]; s_radial := s_radial sp; s_angular := s_angular sp |}
  else sp.
(** gto.py 215-217: pyscf's order of the m of a shell *)
Definition m_order (l : nat) : list Z :=
  if Nat.eqb l 1 then [1; -1; 0]%Z else map (fun k => (Z.of_nat k - Z.of_nat l)%Z) (seq 0 (2 * l + 1)).
(** gto.py 202-220: one contraction of one shell *)
Definition add_contraction (atom : nat) (b : shell) (st : spec * nat) (w : nat) : spec * nat :=
  let '(sp, cid) := st in
  let sp1 := fold_left (add_primitive atom cid w) (rows b) sp in
  ({| s_alpha := s_alpha sp1; s_weights := s_weights sp1; s_atom := s_atom sp1; s_cshell := s_cshell sp1;
      s_radial := s_radial sp1 ++ repeat cid (2 * ell b + 1);
      s_angular := s_angular sp1 ++ map (fun m => (ell b, m, atom)) (m_order (ell b)) |}, S cid).
Definition add_shell (atom : nat) (st : spec * nat) (b : shell) : spec * nat :=
  fold_left (add_contraction atom b) (seq 0 (n_contr b)) st.
Definition atom_t := (nat * vec)%type.
Definition add_atom (dict : nat -> list shell) (st : spec * nat) (a : nat * atom_t) : spec * nat :=
  fold_left (add_shell (fst a)) (dict (fst (snd a))) st.
Definition construction (atoms : list atom_t) (dict : nat -> list shell) : spec :=
  fst (fold_left (add_atom dict) (combine (seq 0 (length atoms)) atoms) (empty_spec, 0%nat)).
(** gto.py 147-153 *)
Definition max_l (atoms : list atom_t) (dict : nat -> list shell) : nat :=
  fold_right Nat.max 0%nat (flat_map (fun a => map ell (dict (fst a))) atoms).

(** ** Evaluation (gto.py 226-290) *)
Definition segment_sum (xs : list R) (ids : list nat) (num : nat) : list R :=
  map (fun s => rsum (map fst (filter (fun p => Nat.eqb (snd p) s) (combine xs ids)))) (seq 0 num).
Definition gather {A} (l : list A) (i : nat) (d : A) : A := nth (Nat.min i (length l - 1)) l d.
Definition eval_aos (atoms : list atom_t) (dict : nat -> list shell) (r : vec) : list R :=
  let sp := construction atoms dict in
  let num := (list_max (s_cshell sp) + 1)%nat in
  let centre := fun a => snd (nth a atoms (0%nat, fun _ => 0)) in
  let dr := fun a : nat => (fun k => r k - centre a k) in
  let lm := max_l atoms dict in
  let sh := fun a => solid_harmonic (dr a) lm in
  let r_sqr := fun a => norm 3 (dr a) ^ 2 in
  let g := map (fun p => let '(alpha, w, a) := p in exp (- alpha * r_sqr a) * w) (combine (combine (s_alpha sp) (s_weights sp)) (s_atom sp)) in
  let g := segment_sum g (s_cshell sp) num in
  let radial := map (fun c => gather g c 0) (s_radial sp) in
  let angular := map (fun q => let '(l, m, a) := q in (nth (Z.to_nat (m + Z.of_nat lm)) (sh a) (fun _ => 0)) l) (s_angular sp) in
  map (fun p => fst p * snd p) (combine angular radial).
