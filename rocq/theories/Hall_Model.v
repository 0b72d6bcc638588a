(** Model of the wavefunctions on the Haldane sphere, /repo/src/jaqmc/app/hall/wavefunction/
    {mhpo,jastrow,laughlin,free}.py.

    An electron is a pair (theta, phi).  Simplifications: exact arithmetic; parameters are arbitrary; a
    complex power with a whole-number exponent is repeated multiplication (in the code, u ** (Q + m) with
    floating Q + m); a floating-point monopole strength Q = flux/2 is represented by the whole number
    2Q, and m by 2Q-relative whole numbers; a call that would raise (a matrix that is not square, a
    negative effective flux) is None. *)
From Coq Require Import Reals List Arith Bool Lra.
From Coquelicot Require Import Coquelicot.
From Verif Require Import Lin Geom_Model Det Wf_Model.
Import ListNotations.
Open Scope R_scope.

Definition electrons := nat -> R * R.
(** z ** k *)
Fixpoint cpow (x : C) (k : nat) : C := match k with O => RtoC 1 | S k' => Cmult x (cpow x k') end.
(** 0.5j * phi exponentials: mhpo.py 60-61 and 139-140, laughlin.py 38-39 *)
Definition spinor_u (x : R * R) : C := Cmult (RtoC (cos (fst x / 2))) (cexp (0, / 2 * snd x)).
Definition spinor_v (x : R * R) : C := Cmult (RtoC (sin (fst x / 2))) (cexp (0, - / 2 * snd x)).
(** mhpo.py 121-128; the same stack in jastrow.py 58-65 *)
Definition cartesian (x : R * R) : nat -> R :=
  fun k => nth k [cos (fst x); sin (fst x) * cos (snd x); sin (fst x) * sin (snd x)] 0.
(** jastrow.py _chord_distance, 56-69: cart_ee[i, j] = cart_e[j] - cart_e[i] *)
Definition chord (e : electrons) (i j : nat) : R :=
  norm 3 (fun k => cartesian (e j) k - cartesian (e i) k + delta i j) * (1 - delta i j).
(** SphericalJastrow.__call__, jastrow.py 25-54 (the blocks, pairs and formulas are those of SimpleEEJastrow) *)
Definition spherical_jastrow (ns : spins) (alpha_par alpha_anti : R) (e : electrons) : R :=
  jastrow ns alpha_par alpha_anti (chord e).

Definition csum (l : list C) : C := fold_right Cplus (RtoC 0) l.
(** MonopoleOrbitals, mhpo.py 46-66; [q2] = 2Q and the summation index t = Q + m.  SplitChannelDense
    (output/orbital.py 12-30) gives each spin channel its own weights and bias, indexed (t, orbital, determinant). *)
Definition monopole_params := bool -> nat -> nat -> nat -> wb.
Definition monopole_norm (q2 t : nat) : R := sqrt (Binomial.C q2 (q2 - t)).
Definition monopole_envelope (q2 t : nat) (x : R * R) : C :=
  Cmult (Cmult (RtoC (monopole_norm q2 t)) (cpow (spinor_u x) t)) (cpow (spinor_v x) (q2 - t)).
Definition monopole_orbital (ns : spins) (q2 : nat) (re im : monopole_params) (h : nat -> list R) (e : electrons) (k i j : nat) : C :=
  csum (map (fun t => Cmult (affine (re (channel_of ns true i) t j k) (h i), affine (im (channel_of ns true i) t j k) (h i))
                            (monopole_envelope q2 t (e i))) (seq 0 (q2 + 1))).
(** mhpo.py 138-142: triu(log(element), k=1), element[i, j] = u_j v_i - u_i v_j off the diagonal *)
Definition cf_log (n : nat) (e : electrons) : C :=
  csum (map (fun p => clog (Cminus (Cmult (spinor_u (e (snd p))) (spinor_v (e (fst p)))) (Cmult (spinor_u (e (fst p))) (spinor_v (e (snd p))))))
            (upper_pairs 0 n)).
Record mhpo_params := { mh_backbone : psi_backbone; mh_re : monopole_params; mh_im : monopole_params; mh_par : R; mh_anti : R; mh_ndets : nat }.
(** mhpo.py 135-142: the exponent *)
Definition mhpo_jastrow (ns : spins) (fpe : nat) (p : mhpo_params) (e : electrons) : C :=
  let j := RtoC (spherical_jastrow ns (mh_par p) (mh_anti p) e) in
  if Nat.ltb 0 fpe then Cplus j (Cmult (cf_log (n_el ns) e) (RtoC (INR fpe))) else j.
(** MHPO.__call__, mhpo.py 116-151, with setup, 101-114: reduced_flux = flux - flux_per_elec * (N - 1) *)
Definition mhpo_entry (ns : spins) (q2 fpe : nat) (p : mhpo_params) (e : electrons) (k i j : nat) : C :=
  let h := psiformer ns (mh_backbone p) (fun i => to_list 3 (cartesian (e i))) in
  Cmult (cexp (Cdiv (mhpo_jastrow ns fpe p e) (RtoC (INR (n_el ns))))) (monopole_orbital ns q2 (mh_re p) (mh_im p) h e k i j).
Definition mhpo (ns : spins) (flux fpe : nat) (p : mhpo_params) (e : electrons) : option complex_out :=
  if Nat.leb (fpe * (n_el ns - 1)) flux then
    Some (logdet_complex (map (fun k => cdet (n_el ns) (mhpo_entry ns (flux - fpe * (n_el ns - 1)) fpe p e k)) (seq 0 (mh_ndets p))))
  else None.

(** Laughlin, laughlin.py 30-50: 2 Q1 = flux - 2 cf (N - 1); column c is m = -Q1 + c *)
Definition laughlin_row (n : nat) (e : electrons) (i : nat) : C :=
  fold_right Cmult (RtoC 1) (map (fun j => Cplus (Cminus (Cmult (spinor_u (e i)) (spinor_v (e j))) (Cmult (spinor_u (e j)) (spinor_v (e i)))) (RtoC (delta i j))) (seq 0 n)).
Definition laughlin_entry (q2 n : nat) (e : electrons) (i c : nat) : C :=
  Cmult (Cmult (cpow (spinor_u (e i)) c) (cpow (spinor_v (e i)) (q2 - c))) (laughlin_row n e i).
Definition laughlin (ns : spins) (flux cf : nat) (e : electrons) : option complex_out :=
  let n := n_el ns in
  if Nat.leb (2 * cf * (n - 1)) flux && Nat.eqb (flux - 2 * cf * (n - 1) + 1) n then
    Some (logdet_complex [cdet n (laughlin_entry (flux - 2 * cf * (n - 1)) n e)])
  else None.

(** make_monopole_harm, free.py 16-49, with q = flux/2, ell = q + shell and m = ell - k, so that
    ell - m = k, ell + m = flux + 2 shell - k, ell - q = shell, ell + q = flux + shell and
    (m + q)/2 = (flux + shell - k)/2; scipy's comb(a, b) is 0 when b > a. *)
Definition comb (a b : nat) : R := if Nat.leb b a then Binomial.C a b else 0.
Definition half_flux (flux shell : nat) : R := (INR flux + 2 * INR shell) / 2.
Definition harm_norm (flux shell k : nat) : R :=
  sqrt ((2 * half_flux flux shell + 1) / (4 * PI) * (INR (fact k) * INR (fact (flux + 2 * shell - k))) / (INR (fact shell) * INR (fact (flux + shell)))).
Definition harm_theta (flux shell k : nat) (x : R) : R :=
  let mq2 := (INR flux + INR shell - INR k) / 2 in
  rsum (map (fun s => (-1) ^ (k - s) * comb shell s * comb (flux + shell) (k - s)
                      * Rpower (1 - x) (half_flux flux shell - INR s - mq2) * Rpower (1 + x) (INR s + mq2)) (seq 0 (k + 1))).
Definition harm (flux shell k : nat) (x : R * R) : C :=
  Cmult (RtoC (harm_norm flux shell k / Rpower 2 (half_flux flux shell) * harm_theta flux shell k (cos (fst x))))
        (cexp (0, (half_flux flux shell - INR k) * snd x)).
(** Free.setup, free.py 65-78: the orbitals (shell, k) in the order they are appended *)
Fixpoint fill (flux n shell k : nat) : list (nat * nat) :=
  match n with
  | O => []
  | S n' => (shell, k) :: if Nat.ltb (flux + 2 * shell) (k + 1) then fill flux n' (shell + 1) 0 else fill flux n' shell (k + 1)
  end.
(** Free.__call__, free.py 80-86: row = orbital, column = electron *)
Definition free_entry (ns : spins) (flux : nat) (e : electrons) (r c : nat) : C :=
  let o := nth r (fill flux (n_el ns) 0 0) (0%nat, 0%nat) in harm flux (fst o) (snd o) (e c).
Definition free (ns : spins) (flux : nat) (e : electrons) : complex_out := logdet_complex [cdet (n_el ns) (free_entry ns flux e)].
