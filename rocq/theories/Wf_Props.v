(** C65: the molecular and solid wavefunctions are antisymmetric under exchange of two electrons of the
    same spin, for all parameters. *)
From Coq Require Import Reals List Arith Bool Lra Lia.
From Coquelicot Require Import Coquelicot.
From Verif Require Import Lin Geom_Model Det Wf_Model Wf_Spec Wf_Lemmas Wf_Logdet.
Import ListNotations.
Open Scope R_scope.
Local Notation vec := Lin.vec.

Lemma same_spin_lt ns a b : same_spin ns a b -> (a < n_el ns /\ b < n_el ns)%nat.
Proof. unfold same_spin, n_el. lia. Qed.
Lemma R_rt : ring_theory 0 1 Rplus Rmult Rminus Ropp (@eq R).
Proof. exact RTheory. Qed.
Lemma C_rt : ring_theory (RtoC 0) (RtoC 1) Cplus Cmult Cminus Copp (@eq C).
Proof. apply (Field_theory.F_R C_field_theory). Qed.

(** Matrices whose rows follow the electrons *)
Lemma real_antisymmetric ns nd a b (M M' : nat -> nat -> nat -> R) : same_spin ns a b -> a <> b ->
  (forall k i j, M' k i j = M k (swap a b i) j) ->
  opposite (logdet_real (orbital_matrices ns nd M)) (logdet_real (orbital_matrices ns nd M')).
Proof.
  intros S N E. apply same_spin_lt in S as [A B].
  replace (orbital_matrices ns nd M') with (map Ropp (orbital_matrices ns nd M)); [apply logdet_real_opp|].
  unfold orbital_matrices. rewrite map_map. apply map_ext. intros k. unfold rdet.
  rewrite <- (det_swap_rows 0 1 Rplus Rmult Rminus Ropp R_rt (n_el ns) a b (M k) A B N). apply det_ext. intros r c _ _. symmetry. apply E.
Qed.
Lemma complex_antisymmetric n nd a b (M M' : nat -> nat -> nat -> C) : (a < n)%nat -> (b < n)%nat -> a <> b ->
  (forall k i j, M' k i j = M k (swap a b i) j) ->
  copposite (logdet_complex (map (fun k => cdet n (M k)) (seq 0 nd))) (logdet_complex (map (fun k => cdet n (M' k)) (seq 0 nd))).
Proof.
  intros A B N E.
  replace (map (fun k => cdet n (M' k)) (seq 0 nd)) with (map Copp (map (fun k => cdet n (M k)) (seq 0 nd))); [apply logdet_complex_opp|].
  rewrite map_map. apply map_ext. intros k. unfold cdet.
  rewrite <- (det_swap_rows _ _ Cplus Cmult Cminus Copp C_rt n a b (M k) A B N). apply det_ext. intros r c _ _. symmetry. apply E.
Qed.
Lemma plus_jastrow_opposite o o' j : opposite o o' -> opposite (plus_jastrow o j) (plus_jastrow o' j).
Proof. intros [A B]. destruct j as [v|]; [|split; assumption]. unfold opposite, plus_jastrow. cbn [sign_logpsi logpsi]. rewrite A. split; [reflexivity|exact B]. Qed.

Theorem C65_ferminet : forall ns p d na e atoms a b, same_spin ns a b -> a <> b ->
  opposite (ferminet ns p d na e atoms) (ferminet ns p d na (exchange a b e) atoms).
Proof.
  intros ns p d na e atoms a b S N. pose proof (swap_spin_perm ns a b S) as T. unfold ferminet. apply (real_antisymmetric ns _ a b); auto.
  intros k i j. pose proof (molecule_features_t ns (swap a b) T false d na e (exchange a b e) atoms (exchange_swap a b e)) as M.
  apply (molecule_entry_t ns (swap a b) T); auto. intros i'. unfold ferminet_h. apply (ferminet_layers_t ns (swap a b) T). exact M.
Qed.
Theorem C65_psiformer : forall ns p d na e atoms a b, same_spin ns a b -> a <> b ->
  opposite (psiformer_wf ns p d na e atoms) (psiformer_wf ns p d na (exchange a b e) atoms).
Proof.
  intros ns p d na e atoms a b S N. pose proof (swap_spin_perm ns a b S) as T. unfold psiformer_wf.
  rewrite (ee_jastrow_t ns (swap a b) (pf_jastrow p) d e (exchange a b e)) by (auto; apply exchange_swap). apply plus_jastrow_opposite. apply (real_antisymmetric ns _ a b); auto.
  intros k i j. pose proof (molecule_features_t ns (swap a b) T (rescale (pf_common p)) d na e (exchange a b e) atoms (exchange_swap a b e)) as M.
  apply (molecule_entry_t ns (swap a b) T); auto. intros i'. apply (psiformer_t ns (swap a b) T). apply M.
Qed.
Theorem C65_lapnet : forall ns p d na e atoms a b, same_spin ns a b -> a <> b ->
  opposite (lapnet_wf ns p d na e atoms) (lapnet_wf ns p d na (exchange a b e) atoms).
Proof.
  intros ns p d na e atoms a b S N. pose proof (swap_spin_perm ns a b S) as T. unfold lapnet_wf.
  rewrite (ee_jastrow_t ns (swap a b) (lp_jastrow p) d e (exchange a b e)) by (auto; apply exchange_swap). apply plus_jastrow_opposite. apply (real_antisymmetric ns _ a b); auto.
  intros k i j. pose proof (molecule_features_t ns (swap a b) T (rescale (lp_common p)) d na e (exchange a b e) atoms (exchange_swap a b e)) as M.
  apply (molecule_entry_t ns (swap a b) T); auto. intros i'. apply (lapnet_t ns (swap a b) T). apply M.
Qed.
Theorem C65_solid : forall ns p d na prim sim klist e atoms a b, same_spin ns a b -> a <> b ->
  copposite (solid ns p d na prim sim klist e atoms) (solid ns p d na prim sim klist (exchange a b e) atoms).
Proof.
  intros ns p d na prim sim klist e atoms a b S N. pose proof (swap_spin_perm ns a b S) as T. apply same_spin_lt in S as [A B]. unfold solid. apply (complex_antisymmetric _ _ a b); auto.
  intros k i j. pose proof (solid_features_t ns (swap a b) T (so_dist p) d na prim sim e (exchange a b e) atoms (exchange_swap a b e)) as M.
  unfold solid_entry. pose proof (fun i => ferminet_layers_t ns (swap a b) T false (so_layers p) _ _ i M) as H.
  rewrite !(orbital_projection_t ns (swap a b) T _ _ _ _ k i j H), (envelope_t ns (swap a b) T _ _ _ _ _ _ k i j M), exchange_swap. reflexivity.
Qed.
(** In terms of the wavefunction value: psi changes sign. *)
Lemma opposite_psi o o' v : opposite o o' -> psi o = Some v -> psi o' = Some (- v).
Proof.
  intros [A B] E. unfold psi in *. rewrite A, B. destruct (sign_logpsi o) as [s|]; [|discriminate]. cbn [option_map]. destruct (logpsi o); [|inversion E; rewrite Ropp_0; reflexivity|discriminate].
  assert (v = s * exp r) by congruence. subst v. f_equal. ring.
Qed.
Lemma copposite_psi o o' v : copposite o o' -> cpsi o = Some v -> cpsi o' = Some (Copp v).
Proof.
  intros H E. destruct o, o'; cbn [copposite cpsi] in *; try tauto; try discriminate.
  - destruct H as [A B]. rewrite A, B. assert (v = Cmult (RtoC (exp (fst z))) (cos (snd z), sin (snd z))) by congruence. subst v. f_equal. destruct z. unfold Cmult, Copp, RtoC. cbn [fst snd]. f_equal; ring.
  - assert (v = RtoC 0) by congruence. subst v. f_equal. unfold Copp, RtoC. cbn [fst snd]. f_equal; ring.
Qed.
Theorem C65_psi_changes_sign : forall ns d na e atoms a b, same_spin ns a b -> a <> b ->
  (forall p v, psi (ferminet ns p d na e atoms) = Some v -> psi (ferminet ns p d na (exchange a b e) atoms) = Some (- v)) /\
  (forall p v, psi (psiformer_wf ns p d na e atoms) = Some v -> psi (psiformer_wf ns p d na (exchange a b e) atoms) = Some (- v)) /\
  (forall p v, psi (lapnet_wf ns p d na e atoms) = Some v -> psi (lapnet_wf ns p d na (exchange a b e) atoms) = Some (- v)) /\
  (forall p prim sim klist v, cpsi (solid ns p d na prim sim klist e atoms) = Some v -> cpsi (solid ns p d na prim sim klist (exchange a b e) atoms) = Some (Copp v)).
Proof.
  intros. split; [|split; [|split]]; intros.
  - eapply opposite_psi; [apply C65_ferminet; auto|auto].
  - eapply opposite_psi; [apply C65_psiformer; auto|auto].
  - eapply opposite_psi; [apply C65_lapnet; auto|auto].
  - eapply copposite_psi; [apply C65_solid; auto|auto].
Qed.
(** With two electrons of the same spin in one place every determinant is 0, and log|psi| comes out as NaN, not -inf. *)
Theorem C65_coincidence_refuted : forall ns d na e atoms a b, same_spin ns a b -> a <> b -> e a = e b ->
  (forall p, (0 < ndets (fn_common p))%nat -> logpsi (ferminet ns p d na e atoms) = NaN) /\
  (forall p, (0 < ndets (pf_common p))%nat -> logpsi (psiformer_wf ns p d na e atoms) = NaN) /\
  (forall p, (0 < ndets (lp_common p))%nat -> logpsi (lapnet_wf ns p d na e atoms) = NaN).
Proof.
  assert (D : forall ns nd a b (M : nat -> nat -> nat -> R), (0 < nd)%nat -> same_spin ns a b -> a <> b -> (forall k i j, M k i j = M k (swap a b i) j) ->
    logpsi (logdet_real (orbital_matrices ns nd M)) = NaN).
  { intros ns nd a b M ND S N E. apply same_spin_lt in S as [A B]. apply C67_all_zero_refuted.
    - unfold orbital_matrices. destruct nd; [lia|]. discriminate.
    - intros x I. apply in_map_iff in I as (k & <- & _). unfold rdet.
      pose proof (det_swap_rows 0 1 Rplus Rmult Rminus Ropp R_rt (n_el ns) a b (M k) A B N) as X.
      rewrite (det_ext 0 1 Rplus Rmult Ropp (n_el ns) (fun r c => M k (swap a b r) c) (M k)) in X by (intros; symmetry; apply E). lra. }
  assert (J : forall o j, logpsi o = NaN -> logpsi (plus_jastrow o j) = NaN).
  { intros o [j|] Z; [|exact Z]. cbn [plus_jastrow logpsi]. rewrite Z. reflexivity. }
  intros ns d na e atoms a b S N E. pose proof (swap_spin_perm ns a b S) as T.
  assert (ES : forall i, e i = e (swap a b i)) by (intros i; unfold swap; destruct (Nat.eqb_spec i a) as [->|]; auto; destruct (Nat.eqb_spec i b) as [->|]; auto).
  split; [|split]; intros p ND.
  - unfold ferminet. apply (D ns _ a b); auto. intros k i j. pose proof (molecule_features_t ns (swap a b) T false d na e e atoms ES) as M.
    apply (molecule_entry_t ns (swap a b) T); auto. intros i'. unfold ferminet_h. apply (ferminet_layers_t ns (swap a b) T). exact M.
  - unfold psiformer_wf. apply J. apply (D ns _ a b); auto. intros k i j. pose proof (molecule_features_t ns (swap a b) T (rescale (pf_common p)) d na e e atoms ES) as M.
    apply (molecule_entry_t ns (swap a b) T); auto. intros i'. apply (psiformer_t ns (swap a b) T). apply M.
  - unfold lapnet_wf. apply J. apply (D ns _ a b); auto. intros k i j. pose proof (molecule_features_t ns (swap a b) T (rescale (lp_common p)) d na e e atoms ES) as M.
    apply (molecule_entry_t ns (swap a b) T); auto. intros i'. apply (lapnet_t ns (swap a b) T). apply M.
Qed.
(** A case with a non-zero value: two up electrons, one atom at the origin, one determinant of the orbitals x
    and y, so psi = x_0 y_1 - y_0 x_1. *)
Definition unit_weight (j : nat) : wb := ([0; if Nat.eqb j 0 then 1 else 0; if Nat.eqb j 1 then 1 else 0; 0], 0).
Definition example_common : common :=
  {| ndets := 1; split := false; orb := fun _ _ j => unit_weight j; env_t := NullEnvelope;
     env_p := fun _ => {| env_pi := fun _ _ _ => 0; env_sigma := fun _ _ _ => 0; env_sigmas := fun _ _ _ => [] |}; rescale := false |}.
Definition example_params : ferminet_params := {| fn_common := example_common; fn_layers := []; fn_last := false |}.
Definition example_electrons : nat -> vec := fun i k => if Nat.eqb i k then 1 else 0.
Example C65_example : same_spin (2, 0)%nat 0 1 /\
  psi (ferminet (2, 0)%nat example_params 3 1 example_electrons (fun _ _ => 0)) = Some 1 /\
  psi (ferminet (2, 0)%nat example_params 3 1 (exchange 0 1 example_electrons) (fun _ _ => 0)) = Some (-1).
Proof.
  assert (V : psi (ferminet (2, 0)%nat example_params 3 1 example_electrons (fun _ _ => 0)) = Some 1).
  { assert (X : orbital_matrices (2, 0)%nat 1 (molecule_entry (2, 0)%nat example_common 1 (molecule_features false 3 1 example_electrons (fun _ _ => 0))
       (ferminet_h (2, 0)%nat example_params (molecule_features false 3 1 example_electrons (fun _ _ => 0)))) = [1]).
    { unfold orbital_matrices. cbn [seq map]. f_equal. unfold rdet, n_el. cbn [fst snd Nat.add det bigsum]. unfold alt. cbn [Nat.even]. unfold skip. cbn [Nat.ltb Nat.leb].
      unfold molecule_entry, orbital_projection, envelope, ferminet_h, affine, example_params, example_common. cbn [fn_last fn_layers fermi_layers f1 split orb env_t].
      unfold molecule_features. cbn [ae_feat seq map concat pair_feature to_list app]. unfold unit_weight, ae_disp, example_electrons, ldot. cbn. ring. }
    unfold ferminet. cbn [fn_common example_params ndets example_common] in *. fold example_common in *. fold example_params in *.
    match goal with |- psi (logdet_real ?l) = _ => replace l with [1] by (symmetry; exact X) end.
    destruct (C67_real_sum [1]) as (P & _); [exists 1; split; [left; reflexivity|lra]|]. rewrite P. f_equal. unfold total. simpl. ring. }
  assert (S : same_spin (2, 0)%nat 0 1) by (left; cbn; lia).
  split; [exact S|]. split; [exact V|]. replace (-1) with (- 1) by ring. apply (opposite_psi _ _ 1 (C65_ferminet (2, 0)%nat example_params 3 1 example_electrons (fun _ _ => 0) 0 1 S ltac:(lia)) V).
Qed.
