(** C78: the S^2 estimator. *)
From Coq Require Import Reals Arith List Lia Lra FunctionalExtensionality.
From Coquelicot Require Import Coquelicot.
From Verif Require Import Det Wf_Model Vandermonde Det_T Rdm_Props Sph_Spec Sph_Ops Spin_Spec Spin_Model.
Import ListNotations.
Open Scope C_scope.

(** The amplitude that a phase and a logarithm stand for. *)
Definition amplitude (w : C * option R) : C := fst w * RtoC (oexp (snd w)).
Definition represents {P} (plp : (nat -> P) -> C * option R) (psi : (nat -> P) -> C) : Prop :=
  forall r, amplitude (plp r) = psi r /\ (psi r <> 0 -> Cmod (fst (plp r)) = 1%R).

Lemma zsum_csigma n f : zsum n f = csigma n f. Proof. reflexivity. Qed.
Lemma oexp_sub a x : oexp (osub a x) = (oexp a * exp (- x))%R.
Proof. destruct a as [y|]; cbn; [|ring]. unfold Rminus. apply exp_plus. Qed.
Lemma logsumexp_value n a b : let res := logsumexp n a b in
  snd res * RtoC (oexp (fst res)) = csigma n (fun j => b j * RtoC (oexp (a j))).
Proof.
  unfold logsumexp. set (m := match amax n a with Some x => x | None => 0%R end).
  set (out := zsum n _). cbv zeta.
  assert (E : csigma n (fun j => b j * RtoC (oexp (a j))) = out * RtoC (exp m)).
  { unfold out. change zsum with csigma. rewrite (Cmult_comm (csigma n _)), <- csigma_scal. apply csigma_ext. intros j _. rewrite oexp_sub, exp_Ropp, RtoC_mult.
    rewrite (RtoC_inv (exp m)) by (pose proof (exp_pos m); lra). field. intros Z. apply RtoC_inj in Z. pose proof (exp_pos m). lra. }
  rewrite E. destruct (Req_EM_T (Cmod out) 0) as [Z|Z]; cbn [fst snd oexp].
  - apply Cmod_eq_0 in Z. rewrite Z. ring.
  - assert (P : (0 < Cmod out)%R) by (pose proof (Cmod_ge_0 out); lra). rewrite exp_plus, exp_ln by exact P. rewrite RtoC_mult. field. intros X. apply RtoC_inj in X. contradiction.
Qed.
Lemma swapped_exchange {P} (r : nat -> P) a b : swapped r a b = exchange a b r.
Proof.
  apply functional_extensionality. intros k. unfold swapped, set_at, exchange.
  destruct (Nat.eqb_spec k b) as [B|B], (Nat.eqb_spec k a) as [A|A]; subst; reflexivity.
Qed.
Lemma unit_conj z : Cmod z = 1%R -> z * Cconj z = 1.
Proof.
  intros H. unfold Cmod in H. assert (Q : (fst z ^ 2 + snd z ^ 2 = 1)%R).
  { rewrite <- (sqrt_sqrt (fst z ^ 2 + snd z ^ 2)) by (pose proof (pow2_ge_0 (fst z)); pose proof (pow2_ge_0 (snd z)); lra). rewrite H. ring. }
  unfold Cmult, Cconj, RtoC. cbn [fst snd]. apply injective_projections; cbn [fst snd]; lra.
Qed.

(** The ratio sum: n_minority minus the sum of psi(swapped)/psi. *)
Lemma s2_ratios {P} up down (plp : (nat -> P) -> C * option R) psi r : represents plp psi -> psi r <> 0 ->
  s2_local up down plp r = Some (RtoC (sz up down * (sz up down + 1)) +
    csigma (n_minor up down) (fun i => 1 - csigma (n_major up down) (fun j => psi (exchange (minor up down i) (major up down j) r)) / psi r)).
Proof.
  intros HR NZ. unfold s2_local. destruct (HR r) as [A U]. specialize (U NZ). unfold amplitude in A. destruct (plp r) as [s0 [l0|]] eqn:E; cbn [fst snd oexp] in *.
  2:{ exfalso. apply NZ. rewrite <- A. ring. }
  do 2 f_equal. change zsum with csigma. apply csigma_ext. intros i Hi. unfold ratio_one. cbv zeta.
  match goal with |- context [logsumexp ?n ?a ?b] => pose proof (logsumexp_value n a b) as LV end. cbv zeta in LV. rewrite LV. f_equal. f_equal. unfold Cdiv.
  rewrite (Cmult_comm (csigma _ _)), <- csigma_scal. apply csigma_ext. intros j Hj. rewrite <- swapped_exchange.
  destruct (HR (swapped r (minor up down i) (major up down j))) as [B _]. rewrite <- B, <- A. unfold amplitude. rewrite oexp_sub, RtoC_mult, exp_Ropp.
  assert (X : RtoC (exp l0) <> 0) by (intros Z; apply RtoC_inj in Z; pose proof (exp_pos l0); lra).
  rewrite (RtoC_inv (exp l0)) by (pose proof (exp_pos l0); lra). pose proof (unit_conj s0 U) as UC.
  assert (S0 : s0 <> 0) by (intros Z; rewrite Z, Cmult_0_l in UC; apply RtoC_inj in UC; lra).
  replace (Cconj s0) with (/ s0); [field; auto|]. rewrite <- (Cmult_1_r (/ s0)), <- UC. field. exact S0.
Qed.

(** ** The spin operator *)
Lemma csigma_split n m f : csigma (n + m) f = csigma n f + csigma m (fun i => f (n + i)%nat).
Proof. induction m as [|m IH]; [rewrite Nat.add_0_r; cbn; ring|]. rewrite Nat.add_succ_r. cbn [csigma]. rewrite IH. ring. Qed.
Lemma csigma_const n z : csigma n (fun _ => z) = RtoC (INR n) * z.
Proof. induction n as [|n IH]; [cbn; ring|]. rewrite S_INR. cbn [csigma]. rewrite IH, RtoC_plus. ring. Qed.
Lemma flip_flip i s : flip i (flip i s) = s.
Proof. apply functional_extensionality. intros k. unfold flip. destruct (Nat.eqb k i); [apply Bool.negb_involutive|reflexivity]. Qed.
Lemma flip_pair i j s : i <> j -> s i <> s j -> flip j (flip i s) = exchange i j s.
Proof.
  intros N D. apply functional_extensionality. intros k. unfold flip, exchange.
  destruct (Nat.eqb_spec k j) as [J|J], (Nat.eqb_spec k i) as [I|I]; subst; try congruence; destruct (s i), (s j); cbn; congruence.
Qed.
Lemma exchange_twice {A} i j (l : nat -> A) : exchange i j (exchange i j l) = l.
Proof.
  apply functional_extensionality. intros k. unfold exchange. destruct (Nat.eqb_spec k i) as [->|I].
  - rewrite Nat.eqb_refl. destruct (Nat.eqb_spec j i) as [->|]; reflexivity.
  - destruct (Nat.eqb_spec k j) as [->|J]; [rewrite Nat.eqb_refl; reflexivity|reflexivity].
Qed.
Lemma exchange_sym {A} i j (l : nat -> A) : exchange i j l = exchange j i l.
Proof.
  apply functional_extensionality. intros k. unfold exchange. destruct (Nat.eqb_spec k i) as [I|I], (Nat.eqb_spec k j) as [J|J]; subst; auto.
Qed.
Lemma two_nz : RtoC 2 <> 0. Proof. intros Z. apply RtoC_inj in Z. lra. Qed.

Lemma two_two : 1 + 1 = RtoC 2. Proof. rewrite <- RtoC_plus. reflexivity. Qed.

Lemma Sx_Sy {P} n (f : state P) r s : fermionic n f ->
  Sx n (Sx n f) r s + Sy n (Sy n f) r s
  = csigma n (fun i => / 2 * f r s - / 2 * csigma n (fun j => if Bool.eqb (s i) (s j) then RtoC 0 else f (exchange i j r) s)).
Proof.
  intros F. unfold Sx, Sy. rewrite <- !csigma_scal, <- csigma_plus. apply csigma_ext. intros i Hi.
  transitivity (csigma n (fun j => / 2 * / 2 * (1 - pm (s i) * pm (flip i s j)) * f r (flip j (flip i s)))).
  { rewrite <- !csigma_scal, <- csigma_plus. apply csigma_ext. intros j Hj.
    assert (II : Ci * Ci = - (1)) by (unfold Ci, Cmult, Copp, RtoC; cbn; f_equal; ring).
    transitivity (/ 2 * / 2 * (1 + Ci * Ci * pm (s i) * pm (flip i s j)) * f r (flip j (flip i s))); [ring|rewrite II; ring]. }
  transitivity (csigma n (fun j => (if Nat.eqb j i then / 2 * f r s else RtoC 0) + - (/ 2) * (if Bool.eqb (s i) (s j) then RtoC 0 else f (exchange i j r) s))).
  - apply csigma_ext. intros j Hj. destruct (Nat.eqb_spec j i) as [->|N].
    + rewrite flip_flip, Bool.eqb_reflx. unfold flip. rewrite Nat.eqb_refl. destruct (s i); cbn [pm negb]; (transitivity (/ 2 * / 2 * (1 + 1) * f r s); [ring|]; rewrite two_two; field; apply two_nz).
    + replace (flip i s j) with (s j) by (unfold flip; rewrite (proj2 (Nat.eqb_neq j i) N); reflexivity). destruct (Bool.eqb (s i) (s j)) eqn:E.
      * apply Bool.eqb_prop in E. rewrite E. destruct (s j); cbn [pm]; ring.
      * apply Bool.eqb_false_iff in E. rewrite flip_pair by auto.
        assert (X : f r (exchange i j s) = - f (exchange i j r) s).
        { rewrite <- (F i j (exchange i j r) s Hi Hj) by auto. rewrite exchange_twice. reflexivity. }
        rewrite X. destruct (s i), (s j); try congruence; cbn [pm]; (transitivity (/ 2 * / 2 * (1 + 1) * - f (exchange i j r) s); [ring|]; rewrite two_two; field; apply two_nz).
  - rewrite csigma_plus, csigma_scal, csigma_single by exact Hi. ring.
Qed.
Lemma Sz_Sz {P} n (f : state P) r s : Sz n (Sz n f) r s = (/ 2 * csigma n (fun i => pm (s i))) * (/ 2 * csigma n (fun i => pm (s i))) * f r s.
Proof.
  unfold Sz. rewrite (csigma_ext n (fun i => pm (s i) * (/ 2 * csigma n (fun i0 => pm (s i0) * f r s))) (fun i => (/ 2 * csigma n (fun i0 => pm (s i0)) * f r s) * pm (s i))).
  - rewrite csigma_scal. ring.
  - intros i _. rewrite (csigma_ext n (fun i0 => pm (s i0) * f r s) (fun i0 => f r s * pm (s i0))) by (intros; ring). rewrite csigma_scal. ring.
Qed.

Lemma up_first_lt up i : (i < up)%nat -> up_first up i = true.
Proof. intros H. apply Nat.ltb_lt, H. Qed.
Lemma up_first_ge up i : up_first up (up + i)%nat = false.
Proof. apply Nat.ltb_ge. lia. Qed.

Lemma S2_value {P} up down (f : state P) r : fermionic (up + down) f ->
  S2 (up + down) f r (up_first up) = RtoC ((INR up - INR down) * (INR up - INR down) / 4 + (INR up + INR down) / 2) * f r (up_first up)
    - csigma up (fun i => csigma down (fun j => f (exchange i (up + j)%nat r) (up_first up))).
Proof.
  intros F. unfold S2. rewrite Sx_Sy, Sz_Sz by exact F. set (s := up_first up). set (n := (up + down)%nat).
  assert (PM : csigma n (fun i => pm (s i)) = RtoC (INR up - INR down)).
  { unfold n. rewrite csigma_split. rewrite (csigma_ext up _ (fun _ => 1)), (csigma_ext down _ (fun _ => - (1))).
    - rewrite !csigma_const, RtoC_minus. ring.
    - intros i Hi. unfold s. rewrite up_first_ge. reflexivity.
    - intros i Hi. unfold s. rewrite up_first_lt by exact Hi. reflexivity. }
  rewrite PM.
  set (T := csigma up (fun i => csigma down (fun j => f (exchange i (up + j)%nat r) s))).
  assert (Q : csigma n (fun i => csigma n (fun j => if Bool.eqb (s i) (s j) then RtoC 0 else f (exchange i j r) s)) = 2 * T).
  { unfold n. rewrite csigma_split.
    assert (A : csigma up (fun i => csigma (up + down) (fun j => if Bool.eqb (s i) (s j) then RtoC 0 else f (exchange i j r) s)) = T).
    { apply csigma_ext. intros i Hi. rewrite csigma_split, (csigma_zero up).
      - rewrite Cplus_0_l. apply csigma_ext. intros j Hj. unfold s. rewrite up_first_lt, up_first_ge by exact Hi. reflexivity.
      - intros j Hj. unfold s. rewrite !up_first_lt by assumption. reflexivity. }
    assert (B : csigma down (fun i => csigma (up + down) (fun j => if Bool.eqb (s (up + i)%nat) (s j) then RtoC 0 else f (exchange (up + i)%nat j r) s)) = T).
    { unfold T. symmetry. rewrite csigma_exch. symmetry. apply csigma_ext. intros i Hi. rewrite csigma_split, (csigma_zero down).
      - rewrite Cplus_0_r. apply csigma_ext. intros j Hj. unfold s. rewrite up_first_ge, (up_first_lt up j) by exact Hj. cbn [Bool.eqb]. rewrite exchange_sym. reflexivity.
      - intros j Hj. unfold s. rewrite !up_first_ge. reflexivity. }
    rewrite A, B. change (RtoC 2) with (RtoC (1 + 1)). rewrite RtoC_plus. ring. }
  rewrite csigma_minus, csigma_const, csigma_scal, Q. unfold n. rewrite plus_INR, !RtoC_plus, !RtoC_minus.
  unfold Rdiv. rewrite !RtoC_mult, !RtoC_minus, !RtoC_plus, !RtoC_inv by lra.
  replace (RtoC 4) with (2 * 2) by (rewrite <- RtoC_mult; f_equal; ring). field. apply two_nz.
Qed.

Lemma sz_value up down : (sz up down * (sz up down + 1) + INR (n_minor up down) = (INR up - INR down) * (INR up - INR down) / 4 + (INR up + INR down) / 2)%R.
Proof.
  unfold sz, n_minor. destruct (Nat.ltb_spec down up) as [H|H].
  - apply lt_INR in H. rewrite Rabs_pos_eq by lra. field.
  - apply le_INR in H. rewrite Rabs_left1 by lra. field.
Qed.

(** The local value is (S^2 f)/f: for every fermionic state whose amplitude with the first
    [up] electrons up is what the wavefunction returns. *)
Theorem C78_local {P} up down (plp : (nat -> P) -> C * option R) (f : state P) r :
  fermionic (up + down) f -> represents plp (fun r => f r (up_first up)) -> f r (up_first up) <> 0 ->
  exists v, s2_local up down plp r = Some v /\ v * f r (up_first up) = S2 (up + down) f r (up_first up).
Proof.
  intros F HR NZ. eexists. split; [apply (s2_ratios up down plp _ r HR NZ)|]. rewrite (S2_value up down f r F), <- sz_value, RtoC_plus.
  set (psi := fun r => f r (up_first up)) in *. change (f r (up_first up)) with (psi r).
  rewrite csigma_minus, csigma_const.
  assert (T : csigma (n_minor up down) (fun i => csigma (n_major up down) (fun j => psi (exchange (minor up down i) (major up down j) r)))
    = csigma up (fun i => csigma down (fun j => psi (exchange i (up + j)%nat r)))).
  { unfold n_minor, n_major, minor, major. destruct (Nat.ltb down up).
    - rewrite csigma_exch. apply csigma_ext. intros i Hi. apply csigma_ext. intros j Hj. rewrite exchange_sym. reflexivity.
    - reflexivity. }
  assert (D : forall z, csigma (n_minor up down) (fun i => csigma (n_major up down) (fun j => psi (exchange (minor up down i) (major up down j) r)) / z)
    = / z * csigma (n_minor up down) (fun i => csigma (n_major up down) (fun j => psi (exchange (minor up down i) (major up down j) r)))).
  { intros z. rewrite <- csigma_scal. apply csigma_ext. intros i _. unfold Cdiv. apply Cmult_comm. }
  rewrite D, T. change (csigma up (fun i => csigma down (fun j => f (exchange i (up + j)%nat r) (up_first up))))
    with (csigma up (fun i => csigma down (fun j => psi (exchange i (up + j)%nat r)))).
  set (Q := csigma up (fun i => csigma down (fun j => psi (exchange i (up + j)%nat r)))). field. exact NZ.
Qed.

(** On an eigenstate of S^2 the local value is the eigenvalue at every walker: no variance. *)
Theorem C78_eigenstate {P} up down (plp : (nat -> P) -> C * option R) (f : state P) (lam : C) r :
  fermionic (up + down) f -> represents plp (fun r => f r (up_first up)) -> f r (up_first up) <> 0 ->
  (forall r s, S2 (up + down) f r s = lam * f r s) -> s2_local up down plp r = Some lam.
Proof.
  intros F HR NZ EV. destruct (C78_local up down plp f r F HR NZ) as [v [A B]]. rewrite A. f_equal. rewrite EV in B.
  rewrite <- (Cmult_1_r v), <- (Cmult_1_r lam). rewrite <- (Cinv_r (f r (up_first up)) NZ), !Cmult_assoc, B. reflexivity.
Qed.

(** With one spin species the local value is sz (sz + 1) whatever the wavefunction. *)
Theorem C78_polarised {P} up down (plp : (nat -> P) -> C * option R) psi r : (up = 0 \/ down = 0)%nat ->
  represents plp psi -> psi r <> 0 ->
  s2_local up down plp r = Some (RtoC (INR (up + down) / 2 * (INR (up + down) / 2 + 1))).
Proof.
  intros Z HR NZ. rewrite (s2_ratios up down plp psi r HR NZ).
  assert (M : n_minor up down = 0%nat) by (unfold n_minor; destruct (Nat.ltb_spec down up); lia).
  assert (S : sz up down = (INR (up + down) / 2)%R).
  { unfold sz. rewrite plus_INR. destruct Z as [-> | ->]; cbn [INR]; [rewrite Rabs_left1 by (pose proof (pos_INR down); lra)|rewrite Rabs_pos_eq by (pose proof (pos_INR up); lra)]; field. }
  rewrite M, S. cbn [csigma]. f_equal. ring.
Qed.
(** A wavefunction that vanishes at the walker: no value. *)
Theorem C78_node {P} up down (plp : (nat -> P) -> C * option R) (r : nat -> P) : snd (plp r) = None -> s2_local up down plp r = None.
Proof. intros H. unfold s2_local. destruct (plp r) as [s [l|]]; [discriminate|reflexivity]. Qed.

(** ** Determinants *)
Lemma cdet_row_linear n k m x y (w w' : nat -> C) : (k < n)%nat ->
  cdet n (with_row k (fun c => x * w c + y * w' c) m) = x * cdet n (with_row k w m) + y * cdet n (with_row k w' m).
Proof.
  intros K. rewrite (cdet_transpose n (with_row k (fun c => x * w c + y * w' c) m)), (cdet_transpose n (with_row k w m)), (cdet_transpose n (with_row k w' m)).
  apply (cdet_col_linear n k (fun r c => m c r) x y w w' K).
Qed.
Lemma cdet_row_sum n k m p (x : nat -> C) (W : nat -> nat -> C) : (k < n)%nat ->
  cdet n (with_row k (fun c => csigma p (fun j => x j * W j c)) m) = csigma p (fun j => x j * cdet n (with_row k (W j) m)).
Proof.
  intros K. induction p as [|p IH].
  - cbn. apply (cdet_zero_row n _ k K). intros c _. unfold with_row. rewrite Nat.eqb_refl. reflexivity.
  - cbn [csigma]. rewrite <- IH. rewrite <- (Cmult_1_l (cdet n (with_row k (fun c => csigma p _) m))), <- cdet_row_linear by exact K.
    apply cdet_ext. intros r c _ _. unfold with_row. destruct (Nat.eqb r k); [ring|reflexivity].
Qed.

(** The restricted determinant: the electrons of the majority species occupy orbitals
    0..n_major-1, those of the minority the first n_minor of these. *)
Definition restricted {P} (up down : nat) (phi : nat -> P -> C) (r : nat -> P) : C :=
  cdet up (fun i k => phi k (r i)) * cdet down (fun i k => phi k (r (up + i)%nat)).

Lemma n_minor_le up down : (n_minor up down <= n_major up down)%nat.
Proof. unfold n_minor, n_major. destruct (Nat.ltb_spec down up); lia. Qed.
Lemma restricted_mm {P} up down (phi : nat -> P -> C) r : restricted up down phi r =
  cdet (n_major up down) (fun j k => phi k (r (major up down j))) * cdet (n_minor up down) (fun i k => phi k (r (minor up down i))).
Proof. unfold restricted, n_major, n_minor, major, minor. destruct (Nat.ltb down up); [reflexivity|apply Cmult_comm]. Qed.
Lemma major_inj up down i j : (major up down i =? major up down j)%nat = (i =? j)%nat.
Proof. unfold major. destruct (Nat.ltb down up); [reflexivity|]. destruct (Nat.eqb_spec (up + i) (up + j)), (Nat.eqb_spec i j); lia || reflexivity. Qed.
Lemma minor_inj up down i j : (minor up down i =? minor up down j)%nat = (i =? j)%nat.
Proof. unfold minor. destruct (Nat.ltb down up); [|reflexivity]. destruct (Nat.eqb_spec (up + i) (up + j)), (Nat.eqb_spec i j); lia || reflexivity. Qed.
Lemma major_minor up down i j : (i < n_minor up down)%nat -> (j < n_major up down)%nat -> (major up down j =? minor up down i)%nat = false.
Proof. unfold n_minor, n_major, major, minor. intros I J. apply Nat.eqb_neq. destruct (Nat.ltb down up); lia. Qed.

Theorem C78_restricted {P} up down (plp : (nat -> P) -> C * option R) (phi : nat -> P -> C) r :
  represents plp (restricted up down phi) -> restricted up down phi r <> 0 ->
  s2_local up down plp r = Some (RtoC (Rabs (INR up - INR down) / 2 * (Rabs (INR up - INR down) / 2 + 1))).
Proof.
  intros HR NZ. rewrite (s2_ratios up down plp _ r HR NZ). f_equal.
  rewrite (csigma_zero (n_minor up down)).
  { rewrite Cplus_0_r. unfold sz. f_equal. field. }
  intros i Hi.
  set (A := fun j k => phi k (r (major up down j))). set (B := fun i k => phi k (r (minor up down i))).
  assert (E : csigma (n_major up down) (fun j => restricted up down phi (exchange (minor up down i) (major up down j) r)) = restricted up down phi r).
  { transitivity (csigma (n_major up down) (fun j => cdet (n_major up down) (with_row j (B i) A) * cdet (n_minor up down) (with_row i (A j) B))).
    - apply csigma_ext. intros j Hj. rewrite restricted_mm. f_equal.
      + apply cdet_ext. intros a k Ha _. unfold with_row, A, B, exchange. rewrite major_minor, major_inj by assumption. destruct (Nat.eqb a j); reflexivity.
      + apply cdet_ext. intros a k Ha _. unfold with_row, A, B, exchange. rewrite minor_inj, (Nat.eqb_sym (minor up down a)), major_minor by assumption. destruct (Nat.eqb a i); reflexivity.
    - rewrite <- cdet_row_sum by exact Hi. rewrite restricted_mm. fold A B.
      transitivity (cdet (n_minor up down) (with_row i (fun c => cdet (n_major up down) A * B i c + RtoC 0 * B i c) B)).
      + apply cdet_ext. intros a k _ Hk. unfold with_row. destruct (Nat.eqb a i); [|reflexivity].
        pose proof (cramer (n_major up down) A (B i) k (Nat.lt_le_trans _ _ _ Hk (n_minor_le up down))) as CR.
        etransitivity; [exact CR|]. ring.
      + rewrite cdet_row_linear by exact Hi. rewrite (cdet_ext _ (with_row i (B i) B) B); [ring|].
        intros a k _ _. unfold with_row. destruct (Nat.eqb_spec a i) as [->|]; reflexivity. }
  rewrite E. field. exact NZ.
Qed.

(** Every wavefunction has a phase and logarithm. *)
Definition to_plp {P} (psi : (nat -> P) -> C) (r : nat -> P) : C * option R :=
  if Req_EM_T (Cmod (psi r)) 0 then (RtoC 1, None) else (psi r / RtoC (Cmod (psi r)), Some (ln (Cmod (psi r)))).
Lemma to_plp_represents {P} (psi : (nat -> P) -> C) : represents (to_plp psi) psi.
Proof.
  intros r. unfold amplitude, to_plp. destruct (Req_EM_T (Cmod (psi r)) 0) as [Z|Z]; cbn [fst snd oexp].
  - apply Cmod_eq_0 in Z. rewrite Z. split; [ring|congruence].
  - assert (N : RtoC (Cmod (psi r)) <> 0) by (intros X; apply RtoC_inj in X; contradiction). pose proof (Cmod_ge_0 (psi r)).
    split; [rewrite exp_ln by lra; field; exact N|]. intros _. rewrite Cmod_div by exact N. rewrite Cmod_R, Rabs_pos_eq by lra. field. exact Z.
Qed.

(** ** Two electrons of opposite spin: 0 if symmetric in the positions (singlet), 2 if antisymmetric (triplet). *)
Theorem C78_two_electrons {P} (plp : (nat -> P) -> C * option R) psi r : represents plp psi -> psi r <> 0 ->
  (psi (exchange 0 1 r) = psi r -> s2_local 1 1 plp r = Some (RtoC 0)) /\ (psi (exchange 0 1 r) = - psi r -> s2_local 1 1 plp r = Some (RtoC 2)).
Proof.
  intros HR NZ. rewrite (s2_ratios 1 1 plp psi r HR NZ).
  change (n_minor 1 1) with 1%nat. change (n_major 1 1) with 1%nat. cbn [csigma]. change (minor 1 1 0) with 0%nat. change (major 1 1 0) with 1%nat.
  assert (Z : sz 1 1 = 0%R) by (unfold sz; rewrite Rminus_eq_0, Rabs_R0; ring). rewrite Z, Rmult_0_l.
  split; intros ->; f_equal; [|rewrite <- two_two]; field; exact NZ.
Qed.

(** A fermionic state of two electrons on the line, up and down: singlet. *)
Definition singlet : state R := fun r s => if Bool.eqb (s 0%nat) (s 1%nat) then RtoC 0 else pm (s 0%nat) * RtoC (r 0%nat + r 1%nat).
Theorem C78_example : let r := fun k => INR (S k) in
  fermionic 2 singlet /\ singlet r (up_first 1) <> 0 /\ represents (to_plp (fun r => singlet r (up_first 1))) (fun r => singlet r (up_first 1)) /\
  s2_local 1 1 (to_plp (fun r => singlet r (up_first 1))) r = Some (RtoC 0).
Proof.
  intros r. assert (F : fermionic 2 singlet).
  { intros i j q s Hi Hj N. unfold singlet. destruct i as [|[|i]], j as [|[|j]]; try lia; unfold exchange; cbn [Nat.eqb].
    - destruct (s 0%nat), (s 1%nat); cbn [Bool.eqb pm]; rewrite ?(Rplus_comm (q 1%nat)); ring.
    - destruct (s 0%nat), (s 1%nat); cbn [Bool.eqb pm]; rewrite ?(Rplus_comm (q 1%nat)); ring. }
  assert (NZ : singlet r (up_first 1) <> 0). { unfold singlet, r. cbn. intros Z. rewrite Cmult_1_l in Z. apply RtoC_inj in Z. lra. }
  split; [exact F|]. split; [exact NZ|]. split; [apply to_plp_represents|].
  apply (C78_two_electrons _ _ r (to_plp_represents _) NZ). unfold singlet, exchange, r. cbn. rewrite Rplus_comm. reflexivity.
Qed.
