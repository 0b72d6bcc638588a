(** C66: the solid wavefunction is a Bloch function of every electron. *)
From Coq Require Import Reals List Arith Bool ZArith QArith Qreals Lra Lia.
From Coquelicot Require Import Coquelicot.
From Verif Require Import Lin Geom_Spec Geom_Model Geom_Props Periodic_Props Det Wf_Model Wf_Spec Wf_Lemmas Wf_Logdet Wf_Props Bloch_Model.
From Verif Require Supercell_Model Supercell_Spec Supercell_Props.
Import ListNotations.
Open Scope R_scope.
Local Notation vec := Lin.vec.
Local Notation mat := Lin.mat.

Definition cis (t : R) : C := (cos t, sin t).
Lemma cis_plus a b : cis (a + b) = Cmult (cis a) (cis b).
Proof. unfold cis, Cmult. cbn [fst snd]. rewrite cos_plus, sin_plus. f_equal; ring. Qed.
Lemma cis_shift2 x z : cis (x + IZR z * (2 * PI)) = cis x.
Proof. unfold cis. rewrite cos_shift, sin_shift. reflexivity. Qed.
Lemma cis_mod t : Cmod (cis t) = 1.
Proof. unfold Cmod, cis. cbn [fst snd]. rewrite <- sqrt_1. f_equal. pose proof (sin2_cos2 t) as E. unfold Rsqr in E. simpl. lra. Qed.
Lemma scaled_cpsi dets dets' u : Cmod u = 1 -> map (fun d => Cmult u d) dets = dets' ->
  cpsi (logdet_complex dets') = option_map (Cmult u) (cpsi (logdet_complex dets)).
Proof.
  intros U E. pose proof (complex_scaled dets dets' u U E) as H. destruct (logdet_complex dets), (logdet_complex dets'); cbn [cpsi option_map]; try contradiction; auto.
  - destruct H as [-> ->]. apply f_equal. ring.
  - apply f_equal. ring.
Qed.

(** ** Equal features give equal embeddings *)
Lemma id_spin_perm ns : spin_perm ns (fun i => i).
Proof. split; auto; rewrite map_id; apply Permutation.Permutation_refl. Qed.
Lemma to_list_ext n (u v : vec) : (forall j, u j = v j) -> to_list n u = to_list n v.
Proof. intros H. unfold to_list. apply map_ext. exact H. Qed.
Lemma features_equal ty d na prim sim e e' atoms :
  (forall i j, same_feature (Geom_Model.ae_features d ty prim e' atoms i j) (Geom_Model.ae_features d ty prim e atoms i j)) ->
  (forall i j, same_feature (Geom_Model.ee_features d ty sim e' i j) (Geom_Model.ee_features d ty sim e i j)) ->
  equi_emb (fun i => i) (solid_features ty d na prim sim e' atoms) (solid_features ty d na prim sim e atoms).
Proof.
  intros A B. unfold equi_emb, solid_features. cbn [ae_width ee_width ae_feat ee_feat emb_r emb_vec].
  split; [reflexivity|]. split; [reflexivity|]. split; [|split; [|split]].
  - intros i. f_equal. apply map_ext. intros a. destruct (A i a) as [F G]. rewrite F. f_equal. apply to_list_ext. exact G.
  - intros i j. destruct (B i j) as [F G]. rewrite F. f_equal. apply to_list_ext. exact G.
  - intros i a. apply (A i a).
  - intros i a. apply to_list_ext. apply (A i a).
Qed.
Lemma solid_entry_phase ns p d na prim sim klist e e' atoms k i j :
  equi_emb (fun i => i) (solid_features (so_dist p) d na prim sim e' atoms) (solid_features (so_dist p) d na prim sim e atoms) ->
  solid_entry ns p d na klist e' (solid_features (so_dist p) d na prim sim e' atoms) k i j =
  Cmult (cis (Lin.dot d (e' i) (klist j) - Lin.dot d (e i) (klist j))) (solid_entry ns p d na klist e (solid_features (so_dist p) d na prim sim e atoms) k i j).
Proof.
  intros M. pose proof (id_spin_perm ns) as T. unfold solid_entry.
  pose proof (fun i => ferminet_layers_t ns (fun i => i) T false (so_layers p) _ _ i M) as H.
  rewrite !(orbital_projection_t ns (fun i => i) T _ _ _ _ k i j H), (envelope_t ns (fun i => i) T _ _ _ _ _ _ k i j M).
  fold (cis (Lin.dot d (e' i) (klist j))). fold (cis (Lin.dot d (e i) (klist j))).
  replace (Lin.dot d (e' i) (klist j)) with ((Lin.dot d (e' i) (klist j) - Lin.dot d (e i) (klist j)) + Lin.dot d (e i) (klist j)) at 1 by ring.
  rewrite cis_plus. ring.
Qed.

Lemma dot_add d u t k : Lin.dot d (add u t) k = Lin.dot d u k + Lin.dot d t k.
Proof. unfold Lin.dot. rewrite <- sum_plus. apply sum_ext. intros. unfold add. ring. Qed.
Lemma dot_ext_l d u v k : same d u v -> Lin.dot d u k = Lin.dot d v k.
Proof. intros H. apply sum_ext. intros i Hi. rewrite (H i Hi). reflexivity. Qed.

(** One electron moved by a lattice vector of the simulation cell. *)
Theorem C66_bloch : forall n ns p na s prim sim klist e atoms i m phase,
  made_by_symmetry_lat n s prim -> made_by_symmetry_lat n s sim -> supercell_of n (lattice sim) (lattice prim) -> (i < n_el ns)%nat ->
  (forall j, (j < n_el ns)%nat -> exists z, Lin.dot n (lattice_vector n (lattice sim) m) (klist j) = phase + IZR z * (2 * PI)) ->
  cpsi (solid ns p n na prim sim klist (moved e (Nat.eqb i) (lattice_vector n (lattice sim) m)) atoms) =
  option_map (Cmult (cis phase)) (cpsi (solid ns p n na prim sim klist e atoms)).
Proof.
  intros n ns p na s prim sim klist e atoms i m phase MP MS SU I K. set (e' := moved e (Nat.eqb i) (lattice_vector n (lattice sim) m)).
  destruct (C58_simulation_translations n (so_dist p) s prim sim e atoms (Nat.eqb i) (lattice_vector n (lattice sim) m) m MP MS SU) as [A B]; [intros j _; reflexivity|].
  pose proof (features_equal (so_dist p) n na prim sim e e' atoms A B) as M.
  unfold solid. apply scaled_cpsi; [apply cis_mod|]. rewrite map_map. apply map_ext. intros k. unfold cdet.
  rewrite <- (det_scale_row _ _ Cplus Cmult Cminus Copp C_rt (n_el ns) i (cis phase) _ I).
  apply det_ext. intros r c R C. rewrite (solid_entry_phase ns p n na prim sim klist e e' atoms k r c M). f_equal.
  unfold e', moved. rewrite (Nat.eqb_sym r i). destruct (Nat.eqb_spec i r) as [->|N].
  - rewrite dot_add. destruct (K c C) as [z ->]. replace (Lin.dot n (e r) (klist c) + (phase + IZR z * (2 * PI)) - Lin.dot n (e r) (klist c)) with (phase + IZR z * (2 * PI)) by ring. symmetry. apply cis_shift2.
  - replace (Lin.dot n (e r) (klist c) - Lin.dot n (e r) (klist c)) with 0 by ring. unfold cis. rewrite cos_0, sin_0. reflexivity.
Qed.

(** ** The k-points of the workflow *)
Lemma dot_vecmat d t v (M : mat) : Lin.dot d t (vecmat d v M) = sum d (fun i => v i * Lin.dot d t (M i)).
Proof.
  unfold Lin.dot, vecmat. rewrite (sum_ext d _ (fun k => sum d (fun i => t k * (v i * M i k)))) by (intros; rewrite <- sum_scal_l; reflexivity).
  rewrite sum_swap. apply sum_ext. intros i _. rewrite <- sum_scal_l. apply sum_ext. intros; ring.
Qed.
Lemma dot_lattice_reciprocal n l inv (c : nat -> Z) i : inverse n l inv -> (i < n)%nat ->
  Lin.dot n (lattice_vector n l c) (reciprocal_vectors inv i) = 2 * PI * IZR (c i).
Proof.
  intros [I1 _] Hi. unfold Lin.dot, lattice_vector, reciprocal_vectors.
  rewrite (sum_ext n _ (fun k => sum n (fun p => 2 * PI * (IZR (c p) * (l p k * inv k i))))).
  - rewrite sum_swap. rewrite (sum_ext n _ (fun p => (2 * PI * IZR (c p)) * delta p i)).
    + rewrite (sum_delta_r n (fun p => 2 * PI * IZR (c p)) i Hi). reflexivity.
    + intros p Hp. rewrite <- (I1 p i Hp Hi), <- sum_scal_l. apply sum_ext. intros; ring.
  - intros k _. rewrite <- sum_scal_r. apply sum_ext. intros; ring.
Qed.
(** supercell translations in primitive coordinates *)
Lemma supercell_vector s l m j : (j < 3)%nat ->
  lattice_vector 3 (supercell_lattice s l) m j =
  lattice_vector 3 l (vec_entry (Supercell_Model.vmul (Supercell_Model.V (m 0%nat) (m 1%nat) (m 2%nat)) s)) j.
Proof.
  intros _. unfold lattice_vector, supercell_lattice, Supercell_Model.vmul, mat_entry, vec_entry. cbn [sum Supercell_Model.vx Supercell_Model.vy Supercell_Model.vz].
  destruct s as [[a b c] [d e f] [g h i]]. cbn [Supercell_Model.r1 Supercell_Model.r2 Supercell_Model.r3 Supercell_Model.vx Supercell_Model.vy Supercell_Model.vz]. rewrite !plus_IZR, !mult_IZR. ring.
Qed.
Lemma supercell_lattice_is s l : supercell_of 3 (supercell_lattice s l) l.
Proof. exists (mat_entry s). intros i j _ _. reflexivity. Qed.
Lemma Q2R_Z z : Q2R (inject_Z z) = IZR z.
Proof. unfold Q2R. cbn. field. Qed.
Lemma phase_real f v : Q2R (Supercell_Spec.phase f v) = sum 3 (fun i => of_frac f i * IZR (vec_entry v i)).
Proof.
  destruct f as [[a b] c]. unfold Supercell_Spec.phase. rewrite !Q2R_plus, !Q2R_mult, !Q2R_Z. unfold of_frac, vec_entry. cbn [sum fst snd]. ring.
Qed.
(** k.T for a k-point of the workflow and a lattice vector of the simulation cell *)
Lemma folding_phase s l inv f m : inverse 3 l inv ->
  Lin.dot 3 (lattice_vector 3 (supercell_lattice s l) m) (vecmat 3 (of_frac f) (reciprocal_vectors inv)) =
  2 * PI * Q2R (Supercell_Spec.phase f (Supercell_Model.vmul (Supercell_Model.V (m 0%nat) (m 1%nat) (m 2%nat)) s)).
Proof.
  intros INV. rewrite phase_real, dot_vecmat, <- sum_scal_l. apply sum_ext. intros i Hi.
  rewrite (dot_ext_l 3 _ _ (reciprocal_vectors inv i) (fun j Hj => supercell_vector s l m j Hj)), (dot_lattice_reciprocal 3 l inv _ i INV Hi). ring.
Qed.
Lemma twist_phase l inv (tw : vec) m : inverse 3 l inv ->
  Lin.dot 3 (lattice_vector 3 l m) (vecmat 3 tw (reciprocal_vectors inv)) = 2 * PI * sum 3 (fun i => IZR (m i) * tw i).
Proof.
  intros INV. rewrite dot_vecmat, <- sum_scal_l. apply sum_ext. intros i Hi. rewrite (dot_lattice_reciprocal 3 l inv _ i INV Hi). ring.
Qed.
Lemma dot_plus_r d t u v : Lin.dot d t (fun j => u j + v j) = Lin.dot d t u + Lin.dot d t v.
Proof. unfold Lin.dot. rewrite <- sum_plus. apply sum_ext. intros; ring. Qed.

(** what a k-point list has to satisfy for a twist *)
Definition matches_twist (sim : mat) (twist : vec) (k : vec) : Prop :=
  forall m, exists z, Lin.dot 3 (lattice_vector 3 sim m) k = 2 * PI * sum 3 (fun i => IZR (m i) * twist i) + IZR z * (2 * PI).
Theorem C66_kpoints_partial : forall s l inv sim_inv twist k, Supercell_Model.det s <> 0%Z -> (Z.abs (Supercell_Model.det s) < 100000)%Z ->
  Supercell_Props.symmetric s -> inverse 3 l inv -> inverse 3 (supercell_lattice s l) sim_inv ->
  In k (scf_kpts s twist inv sim_inv) -> matches_twist (supercell_lattice s l) twist k.
Proof.
  intros s l inv sim_inv twist k D L SY INV INVS K m. unfold scf_kpts, folding_kpts in K. cbv zeta in K. rewrite map_map in K. apply in_map_iff in K as (f & <- & F).
  destruct (Supercell_Props.C33_symmetric_partial s D L SY) as [A _]. destruct (A f F) as [FO _].
  destruct (FO (Supercell_Model.V (m 0%nat) (m 1%nat) (m 2%nat))) as [z Z]. exists z.
  rewrite dot_plus_r, (folding_phase s l inv f m INV), (twist_phase _ sim_inv twist m INVS).
  rewrite (Qeq_eqR _ _ Z), Q2R_Z. ring.
Qed.
Lemma repeat_each_in {A} (ks : list A) cs k : In k (repeat_each ks cs) -> In k ks.
Proof.
  unfold repeat_each. intros H. apply in_flat_map in H as ((x & c) & I & J). cbn [fst snd] in J. apply repeat_spec in J. subst x. apply (in_combine_l _ _ _ _ I).
Qed.
Lemma orbital_kpoints_in ks a b k : In k (orbital_kpoints ks a b) -> In k ks.
Proof. unfold orbital_kpoints. intros H. apply in_app_or in H as [H|H]; apply repeat_each_in in H; exact H. Qed.

(** The wavefunction the workflow trains: for a symmetric supercell matrix, moving one electron by the lattice
    vector m of the simulation cell multiplies psi by exp (2 pi i m.twist). *)
Theorem C66_workflow_partial : forall ns p na sy s prim sim twist alpha beta e atoms i m,
  Supercell_Model.det s <> 0%Z -> (Z.abs (Supercell_Model.det s) < 100000)%Z -> Supercell_Props.symmetric s ->
  made_by_symmetry_lat 3 sy prim -> made_by_symmetry_lat 3 sy sim -> lattice sim = supercell_lattice s (lattice prim) ->
  let ks := orbital_kpoints (scf_kpts s twist (invl prim) (invl sim)) alpha beta in
  n_el ns = length ks -> (i < n_el ns)%nat ->
  cpsi (solid ns p 3 na prim sim (klist_of ks) (moved e (Nat.eqb i) (lattice_vector 3 (lattice sim) m)) atoms) =
  option_map (Cmult (cis (2 * PI * sum 3 (fun j => IZR (m j) * twist j)))) (cpsi (solid ns p 3 na prim sim (klist_of ks) e atoms)).
Proof.
  intros ns p na sy s prim sim twist alpha beta e atoms i m D L SY MP MS LS ks N I.
  apply (C66_bloch 3 ns p na sy); auto.
  - rewrite LS. apply supercell_lattice_is.
  - intros j Hj. rewrite LS. assert (IN : In (klist_of ks j) ks) by (apply nth_In; lia). apply orbital_kpoints_in in IN.
    refine (C66_kpoints_partial s (lattice prim) (invl prim) (invl sim) twist (klist_of ks j) D L SY _ _ IN m); [apply MP|rewrite <- LS; apply MS].
Qed.

(** ** All electrons moved by one lattice vector of the primitive cell: the crystal momentum is the sum of
    the k-points of the orbitals, for every supercell matrix and every list of k-points. *)
Lemma det_scale_columns n : forall (d : nat -> C) m, det (RtoC 0) (RtoC 1) Cplus Cmult Copp n (fun r c => Cmult (d c) (m r c)) =
  Cmult (bigprod (RtoC 1) Cmult n d) (det (RtoC 0) (RtoC 1) Cplus Cmult Copp n m).
Proof.
  induction n as [|n IH]; intros d m; [simpl; ring|].
  assert (P : bigprod (RtoC 1) Cmult (S n) d = Cmult (d 0%nat) (bigprod (RtoC 1) Cmult n (fun c => d (S c)))).
  { rewrite (bigprod_skip _ _ Cplus Cmult Cminus Copp C_rt n d 0) by lia. reflexivity. }
  rewrite P. cbn [det]. rewrite <- (bigsum_scal _ _ Cplus Cmult Cminus Copp C_rt). apply bigsum_ext. intros i Hi.
  rewrite (IH (fun c => d (S c)) (fun r c => m (skip i r) (S c))). unfold alt. destruct (Nat.even i); ring.
Qed.
Lemma cis_product n (w : nat -> R) : bigprod (RtoC 1) Cmult n (fun c => cis (w c)) = cis (sum n w).
Proof.
  induction n as [|n IH]; cbn [bigprod sum]; [unfold cis; rewrite cos_0, sin_0; reflexivity|]. rewrite IH, cis_plus. reflexivity.
Qed.
Theorem C66_crystal_momentum : forall n ns p na s prim sim klist e atoms m,
  made_by_symmetry_lat n s prim -> made_by_symmetry_lat n s sim ->
  let t := lattice_vector n (lattice prim) m in
  cpsi (solid ns p n na prim sim klist (moved e (fun _ => true) t) atoms) =
  option_map (Cmult (cis (Lin.dot n t (fun x => sum (n_el ns) (fun j => klist j x))))) (cpsi (solid ns p n na prim sim klist e atoms)).
Proof.
  intros n ns p na s prim sim klist e atoms m MP MS t. set (e' := moved e (fun _ => true) t).
  destruct (C58_primitive_translations n (so_dist p) s prim sim e atoms t m MP MS) as [A B]; [intros j _; reflexivity|].
  pose proof (features_equal (so_dist p) n na prim sim e e' atoms A B) as M.
  unfold solid. apply scaled_cpsi; [apply cis_mod|]. rewrite map_map. apply map_ext. intros k. unfold cdet.
  assert (X : cis (Lin.dot n t (fun x => sum (n_el ns) (fun j => klist j x))) = bigprod (RtoC 1) Cmult (n_el ns) (fun c => cis (Lin.dot n t (klist c)))).
  { rewrite cis_product. f_equal. unfold Lin.dot. rewrite (sum_ext n _ (fun i => sum (n_el ns) (fun j => t i * klist j i))) by (intros; rewrite <- sum_scal_l; reflexivity). symmetry. apply sum_swap. }
  rewrite X, <- det_scale_columns. apply det_ext. intros r c R C. rewrite (solid_entry_phase ns p n na prim sim klist e e' atoms k r c M). f_equal. f_equal.
  unfold e', moved. rewrite dot_add. ring.
Qed.

(** ** Only the first n coordinates of the electrons count *)
Lemma solid_same n ns p na prim sim klist e e' atoms : (forall i, same n (e' i) (e i)) ->
  cpsi (solid ns p n na prim sim klist e' atoms) = cpsi (solid ns p n na prim sim klist e atoms).
Proof.
  intros E. assert (W : forall c i k, wrap_positions n (invl c) (lattice c) (e' i) k = wrap_positions n (invl c) (lattice c) (e i) k).
  { intros c i k. unfold wrap_positions. apply vecmat_ext. intros j _. f_equal. apply vecmat_ext. apply E. }
  assert (M : equi_emb (fun i => i) (solid_features (so_dist p) n na prim sim e' atoms) (solid_features (so_dist p) n na prim sim e atoms)).
  { apply features_equal.
    - intros i j. apply distance_ext; [|reflexivity]. intros k _. rewrite W. reflexivity.
    - intros i j. unfold Geom_Model.ee_features.
      assert (S : same_feature (distance_function (so_dist p) n (nvec sim) (fun k => wrap_positions n (invl sim) (lattice sim) (e' i) k - wrap_positions n (invl sim) (lattice sim) (e' j) k + delta i j) (av sim) (bv sim))
                               (distance_function (so_dist p) n (nvec sim) (fun k => wrap_positions n (invl sim) (lattice sim) (e i) k - wrap_positions n (invl sim) (lattice sim) (e j) k + delta i j) (av sim) (bv sim))).
      { apply distance_ext; [|reflexivity]. intros k _. rewrite !W. reflexivity. }
      destruct S as [A B]. split; cbn [fst snd]; [rewrite A; reflexivity|]. intros k. rewrite B. reflexivity. }
  unfold solid. f_equal. f_equal. apply map_ext. intros k. unfold cdet. apply det_ext. intros r c _ _.
  rewrite (solid_entry_phase ns p n na prim sim klist e e' atoms k r c M). rewrite (dot_ext_l n _ _ (klist c) (E r)).
  replace (Lin.dot n (e r) (klist c) - Lin.dot n (e r) (klist c)) with 0 by ring. unfold cis. rewrite cos_0, sin_0.
  match goal with |- ?a = ?b => change (@eq C a b) end. change (1, 0) with (RtoC 1). ring.
Qed.

(** ** A supercell matrix that is not symmetric: the k-points do not fold, and psi is not even periodic up to a
    phase. Two up electrons in the cell with rows (2,1,0), (0,1,0), (0,0,1) of the cubic lattice, one orbital per
    k-point, no twist; moving one electron by the first cell vector multiplies |psi| by sqrt 3. *)
Definition sheared : mat := supercell_lattice Supercell_Props.shear cubic.
Definition sheared_inv : mat := of_rows3 (of_list3 (1/2) (-1/2) 0) (of_list3 0 1 0) (of_list3 0 0 1).
Lemma sheared_inverse : inverse 3 sheared sheared_inv.
Proof.
  split; intros i j Hi Hj; (destruct i as [|[|[|i]]]; [| | |lia]); (destruct j as [|[|[|j]]]; [| | |lia]);
    unfold sheared, supercell_lattice, sheared_inv, cubic, of_rows3, of_list3, delta; cbn; lra.
Qed.
Definition cell_of (l inv : mat) (a : nat -> vec) : cell := {| lattice := l; invl := inv; av := a; bv := sym_b 3 inv Minimal; nvec := 3 |}.
Lemma cell_of_ok l inv a : inverse 3 l inv -> made_by_symmetry_lat 3 Minimal (cell_of l inv a).
Proof. intros I. split; [exact I|]. split; reflexivity. Qed.
(** every orbital is the distance to the atom *)
Definition distance_orbital (w : list R) : orbital_params := fun _ _ _ => (w, 0).
Definition distance_params : solid_params :=
  {| so_ndets := 1; so_split := false; so_layers := []; so_real := distance_orbital [1; 0; 0; 0]; so_imag := distance_orbital [0; 0; 0; 0];
     so_env_t := NullEnvelope; so_env := fun _ => {| env_pi := fun _ _ _ => 0; env_sigma := fun _ _ _ => 0; env_sigmas := fun _ _ _ => [] |}; so_dist := Nu |}.
Definition two_electrons : nat -> vec := fun i => match i with O => of_list3 0 0 (1/2) | _ => of_list3 (1/3) 0 (1/2) end.
Definition origin_atom : nat -> vec := fun _ _ => 0.
Definition shear_prim : cell := cell_of cubic cubic cubic.
Definition shear_sim : cell := cell_of sheared sheared_inv cubic.
Definition shear_klist : nat -> vec := klist_of (orbital_kpoints (scf_kpts Supercell_Props.shear (fun _ => 0) (invl shear_prim) (invl shear_sim)) [1; 1]%nat [0; 0]%nat).

Lemma shear_k0 v : Lin.dot 3 v (shear_klist 0) = 0.
Proof.
  unfold shear_klist, scf_kpts, folding_kpts. destruct Supercell_Props.C33_nonsymmetric_refuted as (_ & -> & _).
  unfold orbital_kpoints, repeat_each, klist_of, Lin.dot, vecmat, of_frac, reciprocal_vectors, shear_prim, shear_sim, cell_of. cbn [map combine flat_map repeat app nth fst snd sum invl].
  unfold Q2R. cbn. lra.
Qed.
Lemma shear_k1 v : Lin.dot 3 v (shear_klist 1) = PI * (v 0%nat + v 1%nat).
Proof.
  unfold shear_klist, scf_kpts, folding_kpts. destruct Supercell_Props.C33_nonsymmetric_refuted as (_ & -> & _).
  unfold orbital_kpoints, repeat_each, klist_of, Lin.dot, vecmat, of_frac, reciprocal_vectors, shear_prim, shear_sim, cell_of. cbn [map combine flat_map repeat app nth fst snd sum invl].
  unfold Q2R, cubic, delta. cbn. lra.
Qed.
Definition atom_distance (i : nat) : R := fst (Geom_Model.ae_features 3 Nu shear_prim two_electrons origin_atom i 0).
Lemma atom_distance_nz i : (i < 2)%nat -> atom_distance i <> 0.
Proof.
  intros Hi E. unfold atom_distance, Geom_Model.ae_features in E. cbn [distance_function] in E.
  change (nvec shear_prim) with (sym_count 3 Minimal) in E. change (bv shear_prim) with (sym_b 3 cubic Minimal) in E.
  apply (C59_nu_contact 3 cubic cubic) in E; [|apply cubic_inverse|].
  - destruct E as [k K]. specialize (K 2%nat ltac:(lia)). rewrite (C34_fixes_cell 3 cubic cubic) in K; [|apply cubic_inverse| |lia].
    + unfold origin_atom, lattice_vector, cubic, delta in K. cbn [sum Nat.eqb] in K. assert (T : two_electrons i 2%nat = 1/2) by (destruct i as [|[|i]]; [reflexivity|reflexivity|lia]).
      rewrite T in K. assert (X : IZR (2 * k 2%nat) = IZR 1) by (rewrite mult_IZR; lra). apply eq_IZR in X. lia.
    + exists (two_electrons i). split.
      * intros j Hj. unfold cubic. symmetry. rewrite (sum_delta_r 3 (two_electrons i) j Hj). reflexivity.
      * intros j Hj. destruct i as [|[|i]]; [| |lia]; (destruct j as [|[|[|j]]]; [| | |lia]); cbn; lra.
  - intros j Hj. unfold Lin.dot, shear_prim, cell_of, cubic, delta. cbn [av]. destruct j as [|[|[|j]]]; [| | |lia]; cbn; lra.
Qed.
Lemma distance_entry i j : solid_entry (2, 0)%nat distance_params 3 1 shear_klist two_electrons (solid_features Nu 3 1 shear_prim shear_sim two_electrons origin_atom) 0 i j =
  Cmult (RtoC (atom_distance i)) (cis (Lin.dot 3 (two_electrons i) (shear_klist j))).
Proof.
  unfold solid_entry. cbv zeta. fold (cis (Lin.dot 3 (two_electrons i) (shear_klist j))). f_equal.
  unfold orbital_projection, envelope, distance_params, distance_orbital, affine. cbn [so_split so_real so_imag so_env_t so_env so_layers fermi_layers f1 fst snd].
  unfold solid_features. cbn [ae_feat seq map concat app vec_width]. unfold to_list. cbn [seq map]. unfold atom_distance.
  destruct (Geom_Model.ae_features 3 Nu shear_prim two_electrons origin_atom i 0) as [x y]. unfold ldot, lmap2. cbn [app combine map rsum fold_right fst snd]. unfold Cmult, RtoC. cbn [fst snd]. f_equal; ring.
Qed.
Theorem C66_nonsymmetric_refuted : exists v v',
  let t := lattice_vector 3 sheared (fun i => if Nat.eqb i 0 then 1%Z else 0%Z) in
  Supercell_Model.det Supercell_Props.shear = 2%Z /\ made_by_symmetry_lat 3 Minimal shear_prim /\ made_by_symmetry_lat 3 Minimal shear_sim /\
  lattice shear_sim = supercell_lattice Supercell_Props.shear (lattice shear_prim) /\
  cpsi (solid (2, 0)%nat distance_params 3 1 shear_prim shear_sim shear_klist two_electrons origin_atom) = Some v /\
  cpsi (solid (2, 0)%nat distance_params 3 1 shear_prim shear_sim shear_klist (moved two_electrons (Nat.eqb 0) t) origin_atom) = Some v' /\
  v <> RtoC 0 /\ Cmod v' = sqrt 3 * Cmod v.
Proof.
  set (t := lattice_vector 3 sheared (fun i => if Nat.eqb i 0 then 1%Z else 0%Z)).
  set (q := RtoC (atom_distance 0 * atom_distance 1)). exists (Cmult q (Cminus (cis (PI / 3)) (RtoC 1))), (Cmult q (Cplus (cis (PI / 3)) (RtoC 1))).
  cbv zeta. split; [reflexivity|]. assert (MP : made_by_symmetry_lat 3 Minimal shear_prim) by (apply cell_of_ok, cubic_inverse).
  assert (MS : made_by_symmetry_lat 3 Minimal shear_sim) by (apply cell_of_ok, sheared_inverse).
  split; [exact MP|]. split; [exact MS|]. split; [reflexivity|].
  assert (QN : q <> RtoC 0). { unfold q. intros E. apply RtoC_inj in E. apply Rmult_integral in E as [E|E]; revert E; apply atom_distance_nz; lia. }
  assert (S3 : 0 < sqrt 3) by (apply sqrt_lt_R0; lra). assert (S33 : sqrt 3 * sqrt 3 = 3) by (apply sqrt_sqrt; lra).
  assert (C3 : cis (PI / 3) = (1 / 2, sqrt 3 / 2)) by (unfold cis; rewrite cos_PI3, sin_PI3; reflexivity).
  assert (V0 : Cmult q (Cminus (cis (PI / 3)) (RtoC 1)) <> RtoC 0).
  { apply Cmult_neq_0; [exact QN|]. rewrite C3. unfold Cminus, Cplus, Copp, RtoC. cbn [fst snd]. intros E. injection E. intros. lra. }
  assert (V1 : Cmult q (Cplus (cis (PI / 3)) (RtoC 1)) <> RtoC 0).
  { apply Cmult_neq_0; [exact QN|]. rewrite C3. unfold Cplus, RtoC. cbn [fst snd]. intros E. injection E. intros. lra. }
  assert (ONE : forall D v, D = v -> v <> RtoC 0 -> cpsi (logdet_complex [D]) = Some v).
  { intros D v -> N. destruct (C67_complex_sum [v]) as [E _]; [exists v; split; [left; reflexivity|exact N]|]. rewrite E. f_equal. cbn [ctotal]. ring. }
  assert (K00 : cis (Lin.dot 3 (two_electrons 0) (shear_klist 0)) = RtoC 1) by (rewrite shear_k0; unfold cis; rewrite cos_0, sin_0; reflexivity).
  assert (K10 : cis (Lin.dot 3 (two_electrons 1) (shear_klist 0)) = RtoC 1) by (rewrite shear_k0; unfold cis; rewrite cos_0, sin_0; reflexivity).
  assert (K01 : cis (Lin.dot 3 (two_electrons 0) (shear_klist 1)) = RtoC 1) by (rewrite shear_k1; cbn [two_electrons of_list3]; rewrite Rplus_0_l, Rmult_0_r; unfold cis; rewrite cos_0, sin_0; reflexivity).
  assert (K11 : cis (Lin.dot 3 (two_electrons 1) (shear_klist 1)) = cis (PI / 3)) by (rewrite shear_k1; cbn [two_electrons of_list3]; f_equal; field).
  assert (QE : q = Cmult (RtoC (atom_distance 0)) (RtoC (atom_distance 1))) by (unfold q; apply RtoC_mult).
  split; [|split; [|split; [exact V0|]]].
  - unfold solid. apply ONE; [|exact V0]. unfold cdet, n_el. cbn [fst snd Nat.add det bigsum]. unfold alt. cbn [Nat.even]. unfold skip. cbn [Nat.ltb Nat.leb so_dist distance_params]. fold distance_params.
    rewrite !distance_entry, K00, K01, K10, K11, QE. ring.
  - assert (M : equi_emb (fun i => i) (solid_features Nu 3 1 shear_prim shear_sim (moved two_electrons (Nat.eqb 0) t) origin_atom) (solid_features Nu 3 1 shear_prim shear_sim two_electrons origin_atom)).
    { apply features_equal; apply (C58_simulation_translations 3 Nu Minimal shear_prim shear_sim two_electrons origin_atom (Nat.eqb 0) t (fun i => if Nat.eqb i 0 then 1%Z else 0%Z)); auto; try (apply supercell_lattice_is); intros ? ?; reflexivity. }
    unfold solid. apply ONE; [|exact V1]. unfold cdet, n_el. cbn [fst snd Nat.add det bigsum]. unfold alt. cbn [Nat.even]. unfold skip. cbn [Nat.ltb Nat.leb].
    rewrite !(solid_entry_phase (2, 0)%nat distance_params 3 1 shear_prim shear_sim shear_klist two_electrons (moved two_electrons (Nat.eqb 0) t) origin_atom 0 _ _ M).
    cbn [so_dist distance_params]. fold distance_params. rewrite !distance_entry, K00, K01, K10, K11, QE.
    assert (T1 : cis (Lin.dot 3 (moved two_electrons (Nat.eqb 0) t 0%nat) (shear_klist 1) - Lin.dot 3 (two_electrons 0) (shear_klist 1)) = RtoC (-1)).
    { rewrite !shear_k1. unfold moved, add. cbn [Nat.eqb two_electrons of_list3]. unfold t, lattice_vector, sheared, supercell_lattice, cubic, delta. cbn.
      replace (PI * _ - PI * _) with (PI + IZR 1 * (2 * PI)) by ring. rewrite cis_shift2. unfold cis. rewrite cos_PI, sin_PI. reflexivity. }
    assert (T0 : forall i, cis (Lin.dot 3 (moved two_electrons (Nat.eqb 0) t i) (shear_klist 0) - Lin.dot 3 (two_electrons i) (shear_klist 0)) = RtoC 1).
    { intros i. rewrite !shear_k0, Rminus_0_r. unfold cis. rewrite cos_0, sin_0. reflexivity. }
    assert (T11 : cis (Lin.dot 3 (moved two_electrons (Nat.eqb 0) t 1%nat) (shear_klist 1) - Lin.dot 3 (two_electrons 1) (shear_klist 1)) = RtoC 1).
    { unfold moved. cbn [Nat.eqb]. rewrite Rminus_diag_eq by reflexivity. unfold cis. rewrite cos_0, sin_0. reflexivity. }
    rewrite T1, !T0, T11. unfold RtoC, Cmult, Cplus, Copp, cis. cbn [fst snd]. f_equal; ring.
  - rewrite !Cmod_mult. replace (sqrt 3 * (Cmod q * Cmod (Cminus (cis (PI / 3)) (RtoC 1)))) with (Cmod q * (sqrt 3 * Cmod (Cminus (cis (PI / 3)) (RtoC 1)))) by ring. f_equal.
    rewrite C3. unfold Cminus, Cplus, Copp, RtoC, Cmod. cbn [fst snd].
    replace ((1 / 2 + - (1)) ^ 2 + (sqrt 3 / 2 + - 0) ^ 2) with 1 by (simpl; lra). replace ((1 / 2 + 1) ^ 2 + (sqrt 3 / 2 + 0) ^ 2) with 3 by (simpl; lra). rewrite sqrt_1. ring.
Qed.

(** A supercell that meets the hypotheses of C66_workflow_partial: the symmetric matrix of determinant 3, three up
    electrons and one down, twist (1/2, 0, 0). *)
Definition sym3 : Supercell_Model.mat := Supercell_Model.M (Supercell_Model.V 2 1 0) (Supercell_Model.V 1 2 0) (Supercell_Model.V 0 0 1).
Definition sym3_inv : mat := of_rows3 (of_list3 (2/3) (-1/3) 0) (of_list3 (-1/3) (2/3) 0) (of_list3 0 0 1).
Example C66_example :
  Supercell_Model.det sym3 = 3%Z /\ Supercell_Props.symmetric sym3 /\ made_by_symmetry_lat 3 Minimal (cell_of cubic cubic cubic) /\
  made_by_symmetry_lat 3 Minimal (cell_of (supercell_lattice sym3 cubic) sym3_inv cubic) /\
  n_el (3, 1)%nat = length (orbital_kpoints (scf_kpts sym3 (of_list3 (1/2) 0 0) cubic sym3_inv) [1; 1; 1]%nat [1; 0; 0]%nat).
Proof.
  split; [reflexivity|]. split; [reflexivity|]. split; [apply cell_of_ok, cubic_inverse|]. split.
  - apply cell_of_ok. split; intros i j Hi Hj; (destruct i as [|[|[|i]]]; [| | |lia]); (destruct j as [|[|[|j]]]; [| | |lia]);
      unfold supercell_lattice, sym3_inv, cubic, of_rows3, of_list3, delta; cbn; lra.
  - reflexivity.
Qed.
