(** C82, periodic systems: the Hartree-Fock orbitals are Bloch functions, in the order of the k-points handed to the network. *)
From Coq Require Import Reals List Arith Bool Lra Lia ZArith Permutation.
From Coquelicot Require Import Coquelicot.
From Verif Require Import Lin Geom_Spec Geom_Model Geom_Props Periodic_Props Det Wf_Model Wf_Spec Wf_Lemmas Wf_Logdet Wf_Props Bloch_Model Bloch_Props Gto_Model Hf_Model Hf_Props.
From Verif Require Supercell_Model Supercell_Spec Supercell_Props.
Import ListNotations.
Open Scope R_scope.
Local Notation vec := Lin.vec.
Local Notation mat := Lin.mat.

Lemma solid_harmonic_ext r r' lm : same 3 r r' -> solid_harmonic r lm = solid_harmonic r' lm.
Proof.
  intros E. assert (C : cart2sph r = cart2sph r').
  { unfold cart2sph. rewrite (Lin.norm_ext 3 r r') by exact E. rewrite (Lin.norm_ext 2 r r') by (intros; apply E; lia). rewrite !E by lia. reflexivity. }
  unfold solid_harmonic, harmonic_rows. rewrite C. reflexivity.
Qed.
Lemma eval_aos_ext atoms dict r r' : same 3 r r' -> eval_aos atoms dict r = eval_aos atoms dict r'.
Proof.
  intros E. unfold eval_aos. cbv zeta. set (sp := construction atoms dict). set (centre := fun a : nat => snd (nth a atoms (0%nat, fun _ => 0))).
  assert (D : forall a, same 3 (fun k => r k - centre a k) (fun k => r' k - centre a k)) by (intros a k K; rewrite (E k K); reflexivity).
  assert (E1 : map (fun q : nat * Z * nat => let '(l, m, a) := q in nth (Z.to_nat (m + Z.of_nat (max_l atoms dict))) (solid_harmonic (fun k => r k - centre a k) (max_l atoms dict)) (fun _ => 0) l) (s_angular sp) =
    map (fun q : nat * Z * nat => let '(l, m, a) := q in nth (Z.to_nat (m + Z.of_nat (max_l atoms dict))) (solid_harmonic (fun k => r' k - centre a k) (max_l atoms dict)) (fun _ => 0) l) (s_angular sp)).
  { apply map_ext. intros [[l m] a]. rewrite (solid_harmonic_ext _ _ _ (D a)). reflexivity. }
  assert (E2 : map (fun p : R * R * nat => let '(alpha, w, a) := p in exp (- alpha * norm 3 (fun k => r k - centre a k) ^ 2) * w) (combine (combine (s_alpha sp) (s_weights sp)) (s_atom sp)) =
    map (fun p : R * R * nat => let '(alpha, w, a) := p in exp (- alpha * norm 3 (fun k => r' k - centre a k) ^ 2) * w) (combine (combine (s_alpha sp) (s_weights sp)) (s_atom sp))).
  { apply map_ext. intros [[al w] a]. rewrite (Lin.norm_ext 3 _ _ (D a)). reflexivity. }
  unfold centre in E1, E2 |- *. rewrite E1, E2. reflexivity.
Qed.
Lemma csum_perm l l' : Permutation l l' -> csum l = csum l'.
Proof. induction 1; simpl; auto; [rewrite IHPermutation; reflexivity|ring|congruence]. Qed.
Lemma csum_scal c l : csum (map (Cmult c) l) = Cmult c (csum l).
Proof. induction l as [|x l IH]; simpl; [ring|]. rewrite IH. ring. Qed.
Lemma csum_ext {A} (f g : A -> C) l : (forall x, f x = g x) -> csum (map f l) = csum (map g l).
Proof. intros H. f_equal. apply map_ext. exact H. Qed.
Lemma phase_cis t : phase t = cis t. Proof. reflexivity. Qed.

(** The lattice sum does not depend on the order of the images. *)
Theorem C82_image_order : forall atoms dict images images' k r mu, Permutation images images' ->
  bloch_ao atoms dict images k r mu = bloch_ao atoms dict images' k r mu.
Proof. intros. unfold bloch_ao. apply csum_perm, Permutation_map. assumption. Qed.
(** Moving the point by R is moving the images by -R, with the phase: exact Bloch periodicity up to the images cut off. *)
Theorem C82_bloch_sum : forall atoms dict images k r t mu,
  bloch_ao atoms dict images k (add r t) mu = Cmult (phase (Lin.dot 3 k t)) (bloch_ao atoms dict (map (fun L i => L i - t i) images) k r mu).
Proof.
  intros. unfold bloch_ao. rewrite <- csum_scal, !map_map. apply csum_ext. intros L.
  rewrite (eval_aos_ext atoms dict (fun i => add r t i - L i) (fun i => r i - (L i - t i))) by (intros j J; unfold add; ring).
  rewrite Cmult_assoc. f_equal. rewrite !phase_cis, <- cis_plus. f_equal. unfold Lin.dot. rewrite <- sum_plus. apply sum_ext. intros; ring.
Qed.

(** ** The orbitals *)
(** Orbital with k-point k and coefficients c: inside the cell the sum over basis functions of the lattice sums ... *)
Definition in_cell_value (atoms : list atom_t) (dict : nat -> list shell) (images : list vec) (k : vec) (c : nat -> C) (r : vec) : C :=
  csum (map (fun mu => Cmult (bloch_ao atoms dict images k r mu) (c mu)) (seq 0 (n_aos atoms dict))).
(** ... and continued by Bloch's law. *)
Definition crystal_orbital (atoms : list atom_t) (dict : nat -> list shell) (p : pbc) (k : vec) (c : nat -> C) (f : vec -> C) : Prop :=
  (forall r, in_cell 3 (pbc_lattice p) r -> f r = in_cell_value atoms dict (pbc_images p) k c r) /\
  (forall r m, let t := lattice_vector 3 (pbc_lattice p) m in f (add r t) = Cmult (phase (Lin.dot 3 k t)) (f r)).
Lemma in_cell_ext atoms dict images k c r r' : same 3 r r' -> in_cell_value atoms dict images k c r = in_cell_value atoms dict images k c r'.
Proof.
  intros E. unfold in_cell_value. apply csum_ext. intros mu. f_equal. unfold bloch_ao. apply csum_ext. intros L. do 3 f_equal. apply eval_aos_ext. intros j J. rewrite (E j J). reflexivity.
Qed.
Definition entry (atoms : list atom_t) (dict : nat -> list shell) (p : pbc) (k : vec) (c : nat -> C) (r : vec) : C :=
  let w := wrap_positions 3 (pbc_inv p) (pbc_lattice p) r in
  csum (map (fun mu => Cmult (Cmult (bloch_ao atoms dict (pbc_images p) k w mu) (phase (Lin.dot 3 k (fun i => r i - w i)))) (c mu)) (seq 0 (n_aos atoms dict))).
Lemma entry_factor atoms dict p k c r : let w := wrap_positions 3 (pbc_inv p) (pbc_lattice p) r in
  entry atoms dict p k c r = Cmult (phase (Lin.dot 3 k (fun i => r i - w i))) (in_cell_value atoms dict (pbc_images p) k c w).
Proof. cbv zeta. unfold entry, in_cell_value. rewrite <- csum_scal, map_map. apply csum_ext. intros mu. ring. Qed.
Lemma entry_crystal atoms dict p k c : inverse 3 (pbc_lattice p) (pbc_inv p) -> crystal_orbital atoms dict p k c (entry atoms dict p k c).
Proof.
  intros INV. split.
  - intros r I. rewrite entry_factor. pose proof (C34_fixes_cell 3 (pbc_lattice p) (pbc_inv p) INV r I) as W.
    set (w := wrap_positions 3 (pbc_inv p) (pbc_lattice p) r) in *. rewrite (in_cell_ext _ _ _ _ _ w r W).
    replace (Lin.dot 3 k (fun i => r i - w i)) with 0.
    + unfold phase. rewrite cos_0, sin_0. change (1, 0) with (RtoC 1). ring.
    + unfold Lin.dot. symmetry. apply sum_0. intros i Hi. rewrite (W i Hi). ring.
  - intros r m t. rewrite !entry_factor. assert (I : is_image 3 (pbc_lattice p) r (add r t)) by (exists m; intros j J; reflexivity).
    pose proof (C34_translation_invariant 3 (pbc_lattice p) (pbc_inv p) INV r (add r t) I) as W.
    set (w' := wrap_positions 3 (pbc_inv p) (pbc_lattice p) (add r t)) in *. set (w := wrap_positions 3 (pbc_inv p) (pbc_lattice p) r) in *.
    rewrite (in_cell_ext _ _ _ _ _ w' w W), Cmult_assoc. f_equal. rewrite !phase_cis, <- cis_plus. f_equal. unfold Lin.dot. rewrite <- sum_plus. apply sum_ext. intros i Hi. rewrite (W i Hi). unfold add. ring.
Qed.
(** Such a function is determined by its two laws, so the specification leaves nothing open. *)
Theorem C82_crystal_orbital_unique : forall atoms dict p k c f g, inverse 3 (pbc_lattice p) (pbc_inv p) ->
  crystal_orbital atoms dict p k c f -> crystal_orbital atoms dict p k c g -> (forall r r', same 3 r r' -> f r = f r') -> (forall r r', same 3 r r' -> g r = g r') -> forall r, f r = g r.
Proof.
  intros atoms dict p k c f g INV [F1 F2] [G1 G2] FE GE r. destruct (C34_moves_by_lattice_vector 3 (pbc_lattice p) (pbc_inv p) INV r) as [m M].
  pose proof (C34_lands_in_cell 3 (pbc_lattice p) (pbc_inv p) r) as IC. set (w := wrap_positions 3 (pbc_inv p) (pbc_lattice p) r) in *.
  assert (E : same 3 w (add r (lattice_vector 3 (pbc_lattice p) m))) by (intros j J; rewrite (M j J); reflexivity).
  pose proof (F2 r m) as A. pose proof (G2 r m) as B. cbv zeta in A, B. rewrite <- (FE w _ E) in A. rewrite <- (GE w _ E) in B. rewrite (F1 w IC) in A. rewrite (G1 w IC) in B. rewrite A in B.
  set (z := phase _) in *. assert (Z : z <> RtoC 0). { intros X. pose proof (cis_mod (Lin.dot 3 k (lattice_vector 3 (pbc_lattice p) m))) as Y. change (cis _) with z in Y. rewrite X, Cmod_0 in Y. lra. }
  replace (f r) with (Cmult (Cinv z) (Cmult z (f r))) by (rewrite Cmult_assoc, Cinv_l, Cmult_1_l by exact Z; reflexivity). rewrite B, Cmult_assoc, Cinv_l, Cmult_1_l by exact Z. reflexivity.
Qed.

Definition pairs (kpts : list vec) (coeffs : list (list (nat -> C))) : list (vec * (nat -> C)) :=
  flat_map (fun kc => map (fun col => (fst kc, col)) (snd kc)) (combine kpts coeffs).
Lemma row_pairs atoms dict p coeffs r : orbital_row atoms dict p coeffs r = map (fun kc => entry atoms dict p (fst kc) (snd kc) r) (pairs (pbc_kpts p) coeffs).
Proof.
  unfold orbital_row, pairs. cbv zeta. induction (combine (pbc_kpts p) coeffs) as [|[k cs] l IH]; [reflexivity|]. cbn [flat_map fst snd]. rewrite map_app, map_map, IH. reflexivity.
Qed.
Lemma pairs_fst kpts : forall coeffs, length kpts = length coeffs -> map fst (pairs kpts coeffs) = repeat_each kpts (map (@length _) coeffs) /\ map snd (pairs kpts coeffs) = concat coeffs.
Proof.
  unfold pairs, repeat_each. induction kpts as [|k kpts IH]; intros [|c coeffs] L; simpl in L; try discriminate; [split; reflexivity|]. cbn [combine flat_map map fst snd concat].
  rewrite !map_app. destruct (IH coeffs ltac:(lia)) as [-> ->]. rewrite !map_map. cbn [fst snd]. rewrite map_id. split; [|reflexivity]. f_equal. clear. induction c as [|x c IH]; simpl; auto. rewrite IH. reflexivity.
Qed.
Lemma nth_firstn_lt {A} (l : list A) n j d : (j < n)%nat -> nth j (firstn n l) d = nth j l d.
Proof. revert n j. induction l as [|x l IH]; intros [|n] [|j] H; simpl; auto; try lia. apply IH. lia. Qed.
Definition zero_col : nat -> C := fun _ => RtoC 0.
Lemma row_entry atoms dict p coeffs n r j : length (pbc_kpts p) = length coeffs -> n = length (concat coeffs) -> (j < n)%nat ->
  nth j (firstn n (orbital_row atoms dict p coeffs r)) (RtoC 0) =
  entry atoms dict p (nth j (repeat_each (pbc_kpts p) (map (@length _) coeffs)) (fun _ => 0)) (nth j (concat coeffs) zero_col) r.
Proof.
  intros L N J. rewrite nth_firstn_lt, row_pairs by exact J. destruct (pairs_fst _ _ L) as [A B].
  assert (LEN : length (pairs (pbc_kpts p) coeffs) = n) by (rewrite N, <- B, map_length; reflexivity).
  rewrite (nth_indep _ _ ((fun kc => entry atoms dict p (fst kc) (snd kc) r) (((fun _ => 0) : vec), zero_col))) by (rewrite map_length; lia).
  rewrite (map_nth (fun kc => entry atoms dict p (fst kc) (snd kc) r)).
  assert (E1 : fst (nth j (pairs (pbc_kpts p) coeffs) (((fun _ => 0) : vec), zero_col)) = nth j (repeat_each (pbc_kpts p) (map (@length _) coeffs)) (fun _ => 0)).
  { exact (eq_trans (eq_sym (map_nth fst (pairs (pbc_kpts p) coeffs) (((fun _ => 0) : vec), zero_col) j)) (f_equal (fun l => nth j l ((fun _ => 0) : vec)) A)). }
  assert (E2 : snd (nth j (pairs (pbc_kpts p) coeffs) (((fun _ => 0) : vec), zero_col)) = nth j (concat coeffs) zero_col).
  { exact (eq_trans (eq_sym (map_nth snd (pairs (pbc_kpts p) coeffs) (((fun _ => 0) : vec), zero_col) j)) (f_equal (fun l => nth j l zero_col) B)). }
  exact (f_equal2 (fun a b => entry atoms dict p a b r) E1 E2).
Qed.
(** The occupations fill the electrons: as many occupied orbitals as electrons of each spin, one list per k-point. *)
Definition filled (p : pbc) (mf : k_mean_field) (ns : spins) : Prop :=
  let '(ca, cb) := extract_mo_coeffs mf in
  length ca = length (pbc_kpts p) /\ length cb = length (pbc_kpts p) /\ length (concat ca) = fst ns /\ length (concat cb) = snd ns.
Lemma repeat_each_length {A} (ks : list A) : forall cs : list (list (nat -> C)), length ks = length cs -> length (repeat_each ks (map (@length _) cs)) = length (concat cs).
Proof.
  unfold repeat_each. induction ks as [|k ks IH]; intros [|c cs] L; simpl in L; try discriminate; [reflexivity|]. cbn [combine map flat_map concat fst snd]. rewrite !app_length, repeat_length, IH by lia. reflexivity.
Qed.
(** The columns of both orbital matrices: column j of the spin-up block is an orbital of the j-th k-point in the
    list handed to the network, column j of the spin-down block of the (n_up + j)-th. *)
Theorem C82_orbital_columns : forall atoms dict p mf ns pos, inverse 3 (pbc_lattice p) (pbc_inv p) -> filled p mf ns ->
  let ks := get_orbital_kpoints p mf in
  let '((wa, A), (wb, B)) := eval_orbitals_pbc atoms dict p mf ns pos in
  length ks = n_el ns /\ wa = fst ns /\ wb = snd ns /\
  (forall j, (j < fst ns)%nat -> exists c f, crystal_orbital atoms dict p (klist_of ks j) c f /\ In c (concat (fst (extract_mo_coeffs mf))) /\ forall i, (i < fst ns)%nat -> A i j = f (pos i)) /\
  (forall j, (j < snd ns)%nat -> exists c f, crystal_orbital atoms dict p (klist_of ks (fst ns + j)%nat) c f /\ In c (concat (snd (extract_mo_coeffs mf))) /\ forall i, (i < snd ns)%nat -> B i j = f (pos (fst ns + i)%nat)).
Proof.
  intros atoms dict p mf ns pos INV FL ks. unfold eval_orbitals_pbc, filled in *. unfold get_orbital_kpoints in ks. destruct (extract_mo_coeffs mf) as [ca cb] eqn:X.
  destruct FL as (LA & LB & NA & NB). unfold spin_matrix. cbn [fst snd].
  pose proof (repeat_each_length (pbc_kpts p) ca (eq_sym LA)) as RA. pose proof (repeat_each_length (pbc_kpts p) cb (eq_sym LB)) as RB.
  split; [unfold ks, orbital_kpoints, n_el; rewrite app_length; lia|]. split; [rewrite NA, Nat.min_id; destruct (fst ns); reflexivity|]. split; [rewrite NB, Nat.min_id; destruct (snd ns); reflexivity|].
  split; intros j J.
  - exists (nth j (concat ca) zero_col), (entry atoms dict p (klist_of ks j) (nth j (concat ca) zero_col)). split; [apply entry_crystal; exact INV|]. split; [apply nth_In; lia|].
    intros i _. rewrite (row_entry atoms dict p ca (fst ns)) by (auto; lia). f_equal. unfold klist_of, ks, orbital_kpoints. rewrite app_nth1 by lia. reflexivity.
  - exists (nth j (concat cb) zero_col), (entry atoms dict p (klist_of ks (fst ns + j)%nat) (nth j (concat cb) zero_col)). split; [apply entry_crystal; exact INV|]. split; [apply nth_In; lia|].
    intros i _. rewrite (row_entry atoms dict p cb (snd ns)) by (auto; lia). f_equal. unfold klist_of, ks, orbital_kpoints. rewrite app_nth2 by lia. f_equal. lia.
Qed.

(** ** The Slater determinant *)
Lemma cblock_value n m : fst m = n -> exists o, cslogdet_spin_block n m = Some o /\ cvalue o = cdet n (snd m) /\
  snd o = (if Ceqb (cdet n (snd m)) then NegInf else Fin (ln (Cmod (cdet n (snd m))))) /\ (cdet n (snd m) <> RtoC 0 -> Cmod (fst o) = 1) /\ (cdet n (snd m) = RtoC 0 -> fst o = RtoC 0).
Proof.
  intros E. unfold cslogdet_spin_block. rewrite E, Nat.eqb_refl. destruct (Nat.eqb_spec n 0) as [Z|NZ].
  - exists (RtoC 1, Fin 0). split; [reflexivity|]. subst n. rewrite Z. change (cdet 0 (snd m)) with (RtoC 1). pose proof (Ceqb_spec (RtoC 1)) as Q.
    destruct (Ceqb (RtoC 1)); [apply RtoC_inj in Q; lra|]. unfold cvalue. cbn [fst snd]. rewrite exp_0, Cmod_1, ln_1. repeat split; try ring. intros H. apply RtoC_inj in H. lra.
  - eexists. split; [reflexivity|]. set (d := cdet n (snd m)). unfold cslogdet, cvalue. pose proof (Ceqb_spec d) as Q. destruct (Ceqb d); cbn [fst snd].
    + rewrite Q. repeat split; auto. intros X. contradiction.
    + assert (P : 0 < Cmod d) by (apply Cmod_gt_0; exact Q). assert (PC : RtoC (Cmod d) <> RtoC 0) by (intros X; apply RtoC_inj in X; lra).
      rewrite exp_ln by exact P. repeat split.
      * unfold Cdiv. rewrite <- Cmult_assoc, Cinv_l, Cmult_1_r by exact PC. reflexivity.
      * intros _. rewrite Cmod_div by exact PC. rewrite Cmod_R, Rabs_right by lra. field. lra.
      * intros X. contradiction.
Qed.
Lemma cslater_value ns a b : fst a = fst ns -> fst b = snd ns -> let p := Cmult (cdet (fst ns) (snd a)) (cdet (snd ns) (snd b)) in
  exists o, cslater_from_orbitals ns a b = Some o /\ cvalue o = p /\ slater_log_amplitude (Some o) = Some (if Ceqb p then NegInf else Fin (ln (Cmod p))).
Proof.
  intros EA EB p. destruct (cblock_value (fst ns) a EA) as ([sa la] & OA & VA & LA & MA & ZA), (cblock_value (snd ns) b EB) as ([sb lb] & OB & VB & LB & MB & ZB).
  cbn [fst snd] in *. unfold cslater_from_orbitals. rewrite OA, OB. eexists. split; [reflexivity|]. unfold cvalue in *. cbn [fst snd] in *. unfold p.
  set (A := cdet (fst ns) (snd a)) in *. set (B := cdet (snd ns) (snd b)) in *. clearbody A B.
  pose proof (Ceqb_spec A) as QA. pose proof (Ceqb_spec B) as QB. pose proof (Ceqb_spec (Cmult A B)) as QP.
  unfold slater_log_amplitude. cbn [fst snd].
  assert (CN : forall z : C, z = RtoC 0 -> Ceqb z = true). { intros z Z. pose proof (Ceqb_spec z) as Q. destruct (Ceqb z); [reflexivity|contradiction]. }
  assert (CT : forall z : C, z <> RtoC 0 -> Ceqb z = false). { intros z Z. pose proof (Ceqb_spec z) as Q. destruct (Ceqb z); [contradiction|reflexivity]. }
  destruct (Ceqb A) eqn:EA'.
  - rewrite LA. rewrite QA in *. rewrite (CN (Cmult 0 B)) by ring. rewrite (ZA eq_refl). rewrite (CN (Cmult 0 sb)) by ring. rewrite LB. destruct (Ceqb B); cbn; split; auto; ring.
  - destruct (Ceqb B) eqn:EB'.
    + rewrite LA, LB. rewrite QB in *. rewrite (CN (Cmult A 0)) by ring. rewrite (ZB eq_refl). rewrite (CN (Cmult sa 0)) by ring. cbn. split; auto; ring.
    + rewrite LA, LB in *. cbn [eplus]. rewrite (CT (Cmult A B)) by (apply Cmult_neq_0; auto). specialize (MA QA). specialize (MB QB).
      assert (MS : Cmod (Cmult sa sb) = 1) by (rewrite Cmod_mult, MA, MB; ring).
      rewrite (CT (Cmult sa sb)) by (intros X; rewrite X, Cmod_0 in MS; lra). cbn [eplus]. unfold clog. cbn [fst]. rewrite MS, ln_1. split.
      * rewrite exp_plus, RtoC_mult. transitivity (Cmult (Cmult sa (RtoC (exp (ln (Cmod A))))) (Cmult sb (RtoC (exp (ln (Cmod B)))))); [ring|]. rewrite VA, VB. reflexivity.
      * do 2 f_equal. rewrite Cmod_mult, ln_mult by (apply Cmod_gt_0; auto). ring.
Qed.
(** the product of the two determinants of entries [f_j (r_i)], f_j the crystal orbital with the j-th k-point and
    the j-th occupied column of coefficients, spin-up first *)
Definition occupied_columns (mf : k_mean_field) : list (nat -> C) := (concat (fst (extract_mo_coeffs mf)) ++ concat (snd (extract_mo_coeffs mf)))%list.
Definition two_determinants (ns : spins) (f : nat -> vec -> C) (pos : nat -> vec) : C :=
  Cmult (cdet (fst ns) (fun i j => f j (pos i))) (cdet (snd ns) (fun i j => f (fst ns + j)%nat (pos (fst ns + i)%nat))).
Theorem C82_periodic_slater : forall atoms dict p mf ns, inverse 3 (pbc_lattice p) (pbc_inv p) -> filled p mf ns ->
  let ks := get_orbital_kpoints p mf in
  exists f : nat -> vec -> C, (forall j, (j < n_el ns)%nat -> crystal_orbital atoms dict p (klist_of ks j) (nth j (occupied_columns mf) zero_col) (f j)) /\
    forall pos, let v := two_determinants ns f pos in
    exists o, cslater atoms dict p mf ns pos = Some o /\ cvalue o = v /\ slater_log_amplitude (Some o) = Some (if Ceqb v then NegInf else Fin (ln (Cmod v))).
Proof.
  intros atoms dict p mf ns INV FL ks. unfold cslater, eval_orbitals_pbc, filled, occupied_columns in *. unfold get_orbital_kpoints in ks. destruct (extract_mo_coeffs mf) as [ca cb] eqn:X. cbn [fst snd].
  destruct FL as (LA & LB & NA & NB). pose proof (repeat_each_length (pbc_kpts p) ca (eq_sym LA)) as RA. pose proof (repeat_each_length (pbc_kpts p) cb (eq_sym LB)) as RB.
  set (cs := fun j => nth j (concat ca ++ concat cb) zero_col).
  exists (fun j => entry atoms dict p (klist_of ks j) (cs j)). split; [intros j _; apply entry_crystal; exact INV|]. intros pos. set (v := two_determinants ns _ pos).
  unfold spin_matrix. 
  assert (WA : (match fst ns with O => 0 | _ => Nat.min (fst ns) (length (concat ca)) end = fst ns)%nat) by (rewrite NA, Nat.min_id; destruct (fst ns); reflexivity).
  assert (WB : (match snd ns with O => 0 | _ => Nat.min (snd ns) (length (concat cb)) end = snd ns)%nat) by (rewrite NB, Nat.min_id; destruct (snd ns); reflexivity).
  match goal with |- context [cslater_from_orbitals ns ?a ?b] => destruct (cslater_value ns a b WA WB) as (o & O & V & L) end. cbn [fst snd] in V, L.
  exists o. split; [exact O|]. assert (E : Cmult (cdet (fst ns) (fun i j => nth j (firstn (fst ns) (orbital_row atoms dict p ca (pos (0 + i)%nat))) (RtoC 0)))
     (cdet (snd ns) (fun i j => nth j (firstn (snd ns) (orbital_row atoms dict p cb (pos (fst ns + i)%nat))) (RtoC 0))) = v).
  { unfold v, two_determinants. f_equal; apply cdet_ext; intros r c RR CC.
    - rewrite (row_entry atoms dict p ca (fst ns)) by (auto; lia). cbn [Nat.add]. f_equal.
      + unfold klist_of, ks, orbital_kpoints. rewrite app_nth1 by lia. reflexivity.
      + unfold cs. rewrite app_nth1 by lia. reflexivity.
    - rewrite (row_entry atoms dict p cb (snd ns)) by (auto; lia). f_equal.
      + unfold klist_of, ks, orbital_kpoints. rewrite app_nth2 by lia. f_equal. lia.
      + unfold cs. rewrite app_nth2 by lia. f_equal. lia. }
  rewrite E in V, L. split; [exact V|exact L].
Qed.

(** ** Translations of the determinant *)
Lemma value_function atoms dict p mf ns : inverse 3 (pbc_lattice p) (pbc_inv p) -> filled p mf ns ->
  exists f : nat -> vec -> C, (forall j, (j < n_el ns)%nat -> crystal_orbital atoms dict p (klist_of (get_orbital_kpoints p mf) j) (nth j (occupied_columns mf) zero_col) (f j)) /\
    forall pos, option_map cvalue (cslater atoms dict p mf ns pos) = Some (two_determinants ns f pos).
Proof.
  intros INV FL. destruct (C82_periodic_slater atoms dict p mf ns INV FL) as (f & F & V). exists f. split; [exact F|]. intros pos. destruct (V pos) as (o & O & E & _). rewrite O. cbn [option_map]. rewrite E. reflexivity.
Qed.
Lemma sum_app n m f : sum (n + m) f = sum n f + sum m (fun i => f (n + i)%nat).
Proof. induction m as [|m IH]; [rewrite Nat.add_0_r; cbn; ring|]. rewrite <- plus_n_Sm. cbn [sum]. rewrite IH. ring. Qed.
Lemma wrap_same_in inv l r r' : same 3 r r' -> same 3 (wrap_positions 3 inv l r) (wrap_positions 3 inv l r').
Proof. intros E k K. unfold wrap_positions. apply vecmat_ext. intros j _. f_equal. apply vecmat_ext. exact E. Qed.
Lemma entry_ext atoms dict p k c r r' : same 3 r r' -> entry atoms dict p k c r = entry atoms dict p k c r'.
Proof.
  intros E. pose proof (wrap_same_in (pbc_inv p) (pbc_lattice p) r r' E) as W. rewrite !entry_factor. f_equal; [|apply in_cell_ext; exact W]. f_equal. apply sum_ext. intros i I. rewrite (W i I), (E i I). reflexivity.
Qed.
Lemma row_ext atoms dict p cs r r' : same 3 r r' -> orbital_row atoms dict p cs r = orbital_row atoms dict p cs r'.
Proof. intros E. rewrite !row_pairs. apply map_ext. intros [k c]. apply entry_ext. exact E. Qed.
Lemma cslater_same atoms dict p mf ns pos pos' : (forall i, same 3 (pos i) (pos' i)) -> option_map cvalue (cslater atoms dict p mf ns pos) = option_map cvalue (cslater atoms dict p mf ns pos').
Proof.
  intros E. f_equal. unfold cslater, eval_orbitals_pbc. destruct (extract_mo_coeffs mf) as [ca cb]. unfold spin_matrix, cslater_from_orbitals, cslogdet_spin_block. cbn [fst snd].
  rewrite (cdet_ext (fst ns) (fun i j => nth j (firstn (fst ns) (orbital_row atoms dict p ca (pos (0 + i)%nat))) (RtoC 0)) (fun i j => nth j (firstn (fst ns) (orbital_row atoms dict p ca (pos' (0 + i)%nat))) (RtoC 0))).
  2:{ intros r c _ _. rewrite (row_ext atoms dict p ca _ _ (E (0 + r)%nat)). reflexivity. }
  rewrite (cdet_ext (snd ns) (fun i j => nth j (firstn (snd ns) (orbital_row atoms dict p cb (pos (fst ns + i)%nat))) (RtoC 0)) (fun i j => nth j (firstn (snd ns) (orbital_row atoms dict p cb (pos' (fst ns + i)%nat))) (RtoC 0))).
  2:{ intros r c _ _. rewrite (row_ext atoms dict p cb _ _ (E (fst ns + r)%nat)). reflexivity. }
  reflexivity.
Qed.
Lemma scale_row_c n i c m : (i < n)%nat -> cdet n (fun r q => Cmult (if Nat.eqb r i then c else RtoC 1) (m r q)) = Cmult c (cdet n m).
Proof. intros I. exact (det_scale_row _ _ Cplus Cmult Cminus Copp C_rt n i c m I). Qed.
(** One electron moved by a lattice vector of the cell whose phase is the same for all k-points. *)
Theorem C82_one_electron : forall atoms dict p mf ns pos i m theta, inverse 3 (pbc_lattice p) (pbc_inv p) -> filled p mf ns -> (i < n_el ns)%nat ->
  let t := lattice_vector 3 (pbc_lattice p) m in
  (forall j, (j < n_el ns)%nat -> exists z, Lin.dot 3 (klist_of (get_orbital_kpoints p mf) j) t = theta + IZR z * (2 * PI)) ->
  option_map cvalue (cslater atoms dict p mf ns (moved pos (Nat.eqb i) t)) = option_map (Cmult (phase theta)) (option_map cvalue (cslater atoms dict p mf ns pos)).
Proof.
  intros atoms dict p mf ns pos i m theta INV FL I t K. destruct (value_function atoms dict p mf ns INV FL) as (f & F & V). rewrite !V. cbn [option_map]. f_equal.
  assert (M : forall j r, (j < n_el ns)%nat -> f j (moved pos (Nat.eqb i) t r) = Cmult (if Nat.eqb r i then phase theta else RtoC 1) (f j (pos r))).
  { intros j r J. unfold moved. rewrite (Nat.eqb_sym i r). destruct (Nat.eqb r i).
    - etransitivity; [exact (proj2 (F j J) (pos r) m)|]. fold t. destruct (K j J) as [z ->]. rewrite !phase_cis, cis_shift2. reflexivity.
    - ring. }
  unfold two_determinants. unfold n_el in *. destruct (Nat.lt_ge_cases i (fst ns)) as [A|B].
  - rewrite (cdet_ext (fst ns) _ (fun r q => Cmult (if Nat.eqb r i then phase theta else RtoC 1) (f q (pos r)))) by (intros r q R Q; apply M; lia).
    rewrite (cdet_ext (snd ns) (fun i0 j => f (fst ns + j)%nat (moved pos (Nat.eqb i) t (fst ns + i0)%nat)) (fun r q => f (fst ns + q)%nat (pos (fst ns + r)%nat))).
    2:{ intros r q R Q. rewrite M by lia. destruct (Nat.eqb_spec (fst ns + r) i); [lia|]. ring. }
    rewrite scale_row_c by exact A. ring.
  - rewrite (cdet_ext (fst ns) _ (fun r q => f q (pos r))).
    2:{ intros r q R Q. rewrite M by lia. destruct (Nat.eqb_spec r i); [lia|]. ring. }
    rewrite (cdet_ext (snd ns) (fun i0 j => f (fst ns + j)%nat (moved pos (Nat.eqb i) t (fst ns + i0)%nat)) (fun r q => Cmult (if Nat.eqb r (i - fst ns) then phase theta else RtoC 1) (f (fst ns + q)%nat (pos (fst ns + r)%nat)))).
    2:{ intros r q R Q. rewrite M by lia. destruct (Nat.eqb_spec (fst ns + r) i), (Nat.eqb_spec r (i - fst ns)); try lia; reflexivity. }
    rewrite scale_row_c by lia. ring.
Qed.
(** All electrons moved by a lattice vector of the cell: the crystal momentum is the sum of the k-points, the same
    law as the network's ([C66_crystal_momentum]). *)
Theorem C82_crystal_momentum : forall atoms dict p mf ns pos m, inverse 3 (pbc_lattice p) (pbc_inv p) -> filled p mf ns ->
  let t := lattice_vector 3 (pbc_lattice p) m in
  option_map cvalue (cslater atoms dict p mf ns (moved pos (fun _ => true) t)) =
  option_map (Cmult (phase (Lin.dot 3 (fun x => sum (n_el ns) (fun j => klist_of (get_orbital_kpoints p mf) j x)) t))) (option_map cvalue (cslater atoms dict p mf ns pos)).
Proof.
  intros atoms dict p mf ns pos m INV FL t. destruct (value_function atoms dict p mf ns INV FL) as (f & F & V). rewrite !V. cbn [option_map]. f_equal. set (k := klist_of (get_orbital_kpoints p mf)) in *.
  assert (M : forall j r, (j < n_el ns)%nat -> f j (moved pos (fun _ => true) t r) = Cmult (cis (Lin.dot 3 (k j) t)) (f j (pos r))) by (intros j r J; exact (proj2 (F j J) (pos r) m)).
  unfold two_determinants. unfold n_el in *.
  rewrite (cdet_ext (fst ns) _ (fun r q => Cmult (cis (Lin.dot 3 (k q) t)) (f q (pos r)))) by (intros r q R Q; apply M; lia).
  rewrite (cdet_ext (snd ns) (fun i0 j => f (fst ns + j)%nat (moved pos (fun _ => true) t (fst ns + i0)%nat)) (fun r q => Cmult (cis (Lin.dot 3 (k (fst ns + q)%nat) t)) (f (fst ns + q)%nat (pos (fst ns + r)%nat)))) by (intros r q R Q; apply M; lia).
  unfold cdet. rewrite !det_scale_columns, !cis_product.
  replace (phase (Lin.dot 3 (fun x => sum (fst ns + snd ns) (fun j => k j x)) t)) with (Cmult (cis (sum (fst ns) (fun c => Lin.dot 3 (k c) t))) (cis (sum (snd ns) (fun c => Lin.dot 3 (k (fst ns + c)%nat) t)))); [ring|].
  rewrite <- cis_plus. apply (f_equal cis). rewrite <- (sum_app (fst ns) (snd ns) (fun c => Lin.dot 3 (k c) t)). unfold Lin.dot. rewrite sum_swap. apply sum_ext. intros x _. apply sum_scal_r.
Qed.

(** With the k-points of the workflow (symmetric supercell matrices): the reference obeys the twist of the
    simulation cell, so network and reference satisfy the same boundary condition ([C66_workflow_partial]). *)
Theorem C82_twist_partial : forall atoms dict p mf ns s sim_inv twist pos i m,
  Supercell_Model.det s <> 0%Z -> (Z.abs (Supercell_Model.det s) < 100000)%Z -> Supercell_Props.symmetric s ->
  inverse 3 (pbc_lattice p) (pbc_inv p) -> inverse 3 (supercell_lattice s (pbc_lattice p)) sim_inv ->
  pbc_kpts p = scf_kpts s twist (pbc_inv p) sim_inv -> filled p mf ns -> (i < n_el ns)%nat ->
  option_map cvalue (cslater atoms dict p mf ns (moved pos (Nat.eqb i) (lattice_vector 3 (supercell_lattice s (pbc_lattice p)) m))) =
  option_map (Cmult (phase (2 * PI * sum 3 (fun j => IZR (m j) * twist j)))) (option_map cvalue (cslater atoms dict p mf ns pos)).
Proof.
  intros atoms dict p mf ns s sim_inv twist pos i m D L SY INV INVS KP FL I. set (m' := vec_entry (Supercell_Model.vmul (Supercell_Model.V (m 0%nat) (m 1%nat) (m 2%nat)) s)).
  assert (T : forall j, (j < 3)%nat -> lattice_vector 3 (supercell_lattice s (pbc_lattice p)) m j = lattice_vector 3 (pbc_lattice p) m' j) by (intros; apply supercell_vector; auto).
  rewrite <- (C82_one_electron atoms dict p mf ns pos i m' (2 * PI * sum 3 (fun j => IZR (m j) * twist j)) INV FL I).
  - destruct (value_function atoms dict p mf ns INV FL) as (f & F & V). apply cslater_same. intros r. unfold moved. destruct (Nat.eqb i r); [|intros j J; reflexivity]. intros j J. unfold add. rewrite (T j J). reflexivity.
  - intros j J. assert (IN : In (klist_of (get_orbital_kpoints p mf) j) (pbc_kpts p)).
    { unfold get_orbital_kpoints, filled in *. destruct (extract_mo_coeffs mf) as [ca cb]. destruct FL as (LA & LB & NA & NB). eapply orbital_kpoints_in. apply nth_In. unfold orbital_kpoints. rewrite app_length, !repeat_each_length by auto. unfold n_el in J. lia. }
    rewrite KP in IN. destruct (C66_kpoints_partial s (pbc_lattice p) (pbc_inv p) sim_inv twist _ D L SY INV INVS IN m) as [z Z]. exists z. rewrite <- Z. rewrite Lin.dot_comm. apply dot_ext_l. intros q Q. symmetry. apply T. exact Q.
Qed.

(** ** Pretrained solids *)
Theorem C82_pretrained_solid : forall ns atoms dict p mf sp na prim sim klist e at', (0 < n_el ns)%nat -> (0 < so_ndets sp)%nat ->
  inverse 3 (pbc_lattice p) (pbc_inv p) -> filled p mf ns ->
  let '((_, A), (_, B)) := eval_orbitals_pbc atoms dict p mf ns e in
  loss_full ns (so_ndets sp) A B (solid_entry ns sp 3 na klist e (solid_features (so_dist sp) 3 na prim sim e at')) = 0 ->
  forall v, option_map cvalue (cslater atoms dict p mf ns e) = Some v -> v <> RtoC 0 ->
  cpsi (solid ns sp 3 na prim sim klist e at') = Some (Cmult (RtoC (INR (so_ndets sp))) v).
Proof.
  intros ns atoms dict p mf sp na prim sim klist e at' N D INV FL. unfold cslater. destruct (eval_orbitals_pbc atoms dict p mf ns e) as [[wa A] [wb B]] eqn:EV.
  assert (W : wa = fst ns /\ wb = snd ns).
  { pose proof (C82_orbital_columns atoms dict p mf ns e INV FL) as Q. cbv zeta in Q. rewrite EV in Q. tauto. }
  destruct W as [-> ->]. intros L v V NZ. destruct (cslater_value ns (fst ns, A) (snd ns, B) eq_refl eq_refl) as (o & O & CV & _). rewrite O in V. cbn [option_map] in V. injection V. intros <-. rewrite CV in *. cbn [fst snd] in *. clear V.
  set (x := Cmult (cdet (fst ns) A) (cdet (snd ns) B)) in *.
  pose proof (C82_pretrained_determinants ns (so_ndets sp) A B _ N D L) as E. unfold solid. set (orb := solid_entry ns sp 3 na klist e _) in *. clearbody orb.
  assert (ALL : map (fun k => cdet (n_el ns) (orb k)) (seq 0 (so_ndets sp)) = repeat x (so_ndets sp)).
  { assert (G : forall n lo, (forall k, (lo <= k < lo + n)%nat -> cdet (n_el ns) (orb k) = x) -> map (fun k => cdet (n_el ns) (orb k)) (seq lo n) = repeat x n).
    { induction n as [|n IH]; intros lo H; [reflexivity|]. cbn [seq map repeat]. rewrite H by lia. f_equal. apply IH. intros; apply H; lia. }
    apply G. intros k K. apply E. lia. }
  rewrite ALL. destruct (C67_complex_sum (repeat x (so_ndets sp))) as [R _].
  { exists x. split; [|exact NZ]. destruct (so_ndets sp); [lia|left; reflexivity]. }
  rewrite R. f_equal. clear. unfold ctotal. induction (so_ndets sp) as [|n IH]; [simpl; ring|]. cbn [repeat fold_right]. rewrite S_INR, RtoC_plus. rewrite IH. ring.
Qed.

(** ** Which bands are occupied *)
Lemma occupied_in t bs c : In c (occupied t bs) <-> exists o, In (o, c) bs /\ t < o.
Proof.
  unfold occupied. rewrite in_map_iff. split.
  - intros ([o c'] & <- & F). apply filter_In in F as [I L]. exists o. unfold rltb in L. cbn [fst snd] in *. destruct (Rlt_dec t o); [auto|discriminate].
  - intros (o & I & L). exists (o, c). split; [reflexivity|]. apply filter_In. split; [exact I|]. unfold rltb. cbn [fst]. destruct (Rlt_dec t o); [reflexivity|contradiction].
Qed.
(** Spatial orbitals with occupation 0, 1 or 2: the spin-up electrons fill those occupied once or twice, the
    spin-down electrons those occupied twice; spin orbitals with occupation 0 or 1: those occupied. At each k-point
    the order of the bands is kept. *)
Theorem C82_occupied_restricted : forall bs, (forall b, In b bs -> fst b = 0 \/ fst b = 1 \/ fst b = 2) ->
  let '(a, b) := extract_mo_coeffs (KRestricted [bs]) in
  a = [map snd (filter (fun x => if Req_EM_T (fst x) 0 then false else true) bs)] /\ b = [map snd (filter (fun x => if Req_EM_T (fst x) 2 then true else false) bs)] /\
  INR (length (concat a) + length (concat b)) = rsum (map fst bs).
Proof.
  intros bs H. cbn [extract_mo_coeffs map]. unfold occupied.
  assert (FA : filter (fun b => rltb (9 / 10) (fst b)) bs = filter (fun x => if Req_EM_T (fst x) 0 then false else true) bs).
  { apply filter_ext_in. intros x X. unfold rltb. destruct (H x X) as [->|[->| ->]]; destruct (Rlt_dec _ _), (Req_EM_T _ _); auto; lra. }
  assert (FB : filter (fun b => rltb (11 / 10) (fst b)) bs = filter (fun x => if Req_EM_T (fst x) 2 then true else false) bs).
  { apply filter_ext_in. intros x X. unfold rltb. destruct (H x X) as [->|[->| ->]]; destruct (Rlt_dec _ _), (Req_EM_T _ _); auto; lra. }
  rewrite FA, FB. split; [reflexivity|]. split; [reflexivity|]. cbn [concat]. rewrite !app_nil_r, !map_length, plus_INR. clear FA FB.
  induction bs as [|x bs IH]; [simpl; lra|]. cbn [map filter]. unfold rsum in *. cbn [fold_right]. rewrite <- IH by (intros; apply H; right; auto). clear IH.
  destruct (H x (or_introl eq_refl)) as [->|[->| ->]]; repeat destruct (Req_EM_T _ _); cbn [length]; rewrite ?S_INR; try lra.
Qed.
Theorem C82_occupied_unrestricted : forall ba bb, (forall b, In b (ba ++ bb) -> fst b = 0 \/ fst b = 1) ->
  let '(a, b) := extract_mo_coeffs (KUnrestricted [ba] [bb]) in
  let held := fun bs : list band => map snd (filter (fun x => if Req_EM_T (fst x) 1 then true else false) bs) in
  a = [held ba] /\ b = [held bb].
Proof.
  intros ba bb H. cbn [extract_mo_coeffs map]. cbv zeta. unfold occupied.
  assert (G : forall bs, incl bs (ba ++ bb) -> filter (fun b => rltb (9 / 10) (fst b)) bs = filter (fun x => if Req_EM_T (fst x) 1 then true else false) bs).
  { intros bs I. apply filter_ext_in. intros x X. unfold rltb. destruct (H x (I x X)) as [->| ->]; destruct (Rlt_dec _ _), (Req_EM_T _ _); auto; lra. }
  rewrite !G; [split; reflexivity|intros x X; apply in_or_app; auto|intros x X; apply in_or_app; auto].
Qed.
(** Occupations other than these (not produced by pyscf without smearing) are not rejected: with no column above the
    threshold the spin block counts as empty and the determinant is 1; with some but too few, slogdet raises. *)
Theorem C82_fractional_occupation : forall atoms dict p c0 c1 pos,
  let mf := KUnrestricted [[(1 / 2, c0); (1 / 2, c1)]] [[]] in
  cslater atoms dict p mf (1, 0)%nat pos = Some (RtoC 1, Fin 0) /\ cslater atoms dict p (KUnrestricted [[(1, c0); (1 / 2, c1); (1 / 2, c1)]] [[]]) (2, 0)%nat pos = None.
Proof.
  intros. assert (H : rltb (9 / 10) (1 / 2) = false) by (unfold rltb; destruct (Rlt_dec _ _); [lra|reflexivity]). assert (H1 : rltb (9 / 10) 1 = true) by (unfold rltb; destruct (Rlt_dec _ _); [reflexivity|lra]).
  unfold mf, cslater, eval_orbitals_pbc. cbn [extract_mo_coeffs map]. unfold occupied. cbn [filter fst]. rewrite H, H1. cbn. split; [|reflexivity]. f_equal. f_equal; [ring|]. f_equal. ring.
Qed.

(** ** The hypotheses are met *)
Example C82_filled_example : forall l inv k0 k1 c0 c1 c2,
  let p := {| pbc_lattice := l; pbc_inv := inv; pbc_images := []; pbc_kpts := [k0; k1] |} in
  let mf := KRestricted [[(2, c0); (0, c2)]; [(2, c1)]] in
  filled p mf (2, 2)%nat /\ get_orbital_kpoints p mf = [k0; k1; k0; k1] /\ occupied_columns mf = [c0; c1; c0; c1].
Proof.
  intros. assert (A : rltb (9 / 10) 2 = true) by (unfold rltb; destruct (Rlt_dec _ _); [reflexivity|lra]). assert (B : rltb (11 / 10) 2 = true) by (unfold rltb; destruct (Rlt_dec _ _); [reflexivity|lra]).
  assert (A0 : rltb (9 / 10) 0 = false) by (unfold rltb; destruct (Rlt_dec _ _); [lra|reflexivity]). assert (B0 : rltb (11 / 10) 0 = false) by (unfold rltb; destruct (Rlt_dec _ _); [lra|reflexivity]).
  unfold filled, get_orbital_kpoints, occupied_columns, mf. cbn [extract_mo_coeffs map]. unfold occupied. cbn [filter fst]. rewrite A, B, A0, B0. repeat split.
Qed.
