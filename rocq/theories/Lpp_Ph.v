(** C89: the pseudo-Hamiltonian part of the legacy package's local energy. *)
From Coq Require Import String Reals List Arith ZArith Lra Lia Bool Permutation Sorted FunctionalExtensionality.
From Coquelicot Require Import Coquelicot.
From Verif Require Import Lin Lap_Spec Kin_Spec Quad_Spec Ecp_Spec Ph_Spec Ph_Model Ph_Lemmas Ph_Chol Ph_Props Lpp_Spec Lpp_Model Lpp_Kin.
Import ListNotations.
Open Scope list_scope.
Open Scope R_scope.
Local Notation vec := Lin.vec.
Local Notation mat := Lin.mat.
Local Notation S := Datatypes.S.
Local Notation total := Lap_Spec.total.
Local Notation lookup := Lpp_Model.lookup.
Local Notation tables := Lpp_Model.tables.

(** ** The list of atoms as arrays *)
Definition none : tables * vec := ((fun _ => 0, fun _ => 0), fun _ => 0).
Definition places (ats : list (tables * vec)) (a : nat) : vec := snd (nth a ats none).
Definition values (f : (nat -> R) -> R -> R) (sel : tables -> nat -> R) (ats : list (tables * vec)) (x : vec) (e a : nat) : R :=
  f (sel (fst (nth a ats none))) (distance (electron x e) (places ats a)).
Lemma sum_list {A} (d : A) (g : A -> R) (l : list A) : fold_right Rplus 0 (map g l) = sum (length l) (fun a => g (nth a l d)).
Proof. induction l as [|y l IH]; [reflexivity|]. cbn [length]. rewrite sum_shift. cbn [map fold_right nth]. rewrite IH. reflexivity. Qed.
Lemma fold_left_plus {A} (g : A -> R) l : forall z, fold_left (fun c a => c + g a) l z = z + fold_right Rplus 0 (map g l).
Proof. induction l as [|y l IH]; intros z; cbn [fold_left map fold_right]; [ring|]. rewrite IH. ring. Qed.
Lemma mass_fold (g : R * vec -> mat) l i j : forall z, fold_left (fun c a => madd (g a) c) l z i j = z i j + fold_right Rplus 0 (map (fun a => g a i j) l).
Proof. induction l as [|y l IH]; intros z; cbn [fold_left map fold_right]; [ring|]. rewrite IH. unfold madd. ring. Qed.
Lemma vector_fold (g : R * vec -> vec) l i : forall z, fold_left (fun c a => fun k => c k + g a k) l z i = z i + fold_right Rplus 0 (map (fun a => g a i) l).
Proof. induction l as [|y l IH]; intros z; cbn [fold_left map fold_right]; [ring|]. rewrite IH. ring. Qed.
Lemma inv_r_is r : r <> 0 -> 0 <= r -> inv_r r = / r.
Proof. intros N P. unfold inv_r. destruct (Rlt_dec 0 r); [field; lra|lra]. Qed.
Lemma distance_pos p q : 0 <= distance p q. Proof. apply norm_nonneg. Qed.
Lemma stack_ext : forall n g h, (forall e, (e < n)%nat -> g e = h e) -> stack n g = stack n h.
Proof. induction n as [|n IH]; intros g h H; [reflexivity|]. cbn [stack]. rewrite (IH g h) by (intros e HE; apply H; lia). rewrite (H n) by lia. reflexivity. Qed.
Section One.
Variables (f : (nat -> R) -> R -> R) (ats : list (tables * vec)) (N : nat) (x : vec).
Hypothesis AW : away N (length ats) x (places ats).
Let A := length ats.
Lemma mass_same e : (e < N)%nat -> eff_mass (at_atoms f snd ats (place_of x e)) (place_of x e) = mass_fwd A (pos x e) (places ats) (values f snd ats x e).
Proof.
  intros HE. apply functional_extensionality. intros i. apply functional_extensionality. intros j. unfold eff_mass, mass_fwd. rewrite (mass_fold (fun a i j => - fst a * ((place_of x e i - snd a i) * (place_of x e j - snd a j)) / norm 3 (fun c => place_of x e c - snd a c) + delta i j * (fst a * norm 3 (fun c => place_of x e c - snd a c)))).
  rewrite Rplus_0_l, Rplus_comm. f_equal. unfold at_atoms. rewrite map_map, (sum_list none). cbn [fst snd]. apply sum_ext. intros a HA.
  change (norm 3 (fun c => place_of x e c - snd (nth a ats none) c)) with (distance (electron x e) (places ats a)). rewrite rad_distance. specialize (AW e a HE HA).
  rewrite inv_r_is by (try exact AW; apply distance_pos). change (f (snd (fst (nth a ats none))) (distance (electron x e) (places ats a))) with (values f snd ats x e a).
  generalize (values f snd ats x e a). revert AW. generalize (distance (electron x e) (places ats a)). intros r AW' v. unfold rel, pos, place_of. change (@snd tables (nat -> R) (nth a ats none)) with (places ats a). field. exact AW'.
Qed.
Lemma first_same e i : (e < N)%nat -> first_vector (at_atoms f snd ats (place_of x e)) (place_of x e) i = first_fwd A (pos x e) (places ats) (values f snd ats x e) i.
Proof.
  intros HE. unfold first_vector, first_fwd. rewrite (vector_fold (fun a i => fst a * 2 / norm 3 (fun c => place_of x e c - snd a c) * (place_of x e i - snd a i))), Rplus_0_l.
  unfold at_atoms. rewrite map_map, (sum_list none). cbn [fst snd]. apply sum_ext. intros a HA.
  change (norm 3 (fun c => place_of x e c - snd (nth a ats none) c)) with (distance (electron x e) (places ats a)). rewrite rad_distance. specialize (AW e a HE HA).
  rewrite inv_r_is by (try exact AW; apply distance_pos). change (f (snd (fst (nth a ats none))) (distance (electron x e) (places ats a))) with (values f snd ats x e a).
  generalize (values f snd ats x e a). revert AW. generalize (distance (electron x e) (places ats a)). intros r AW' v. unfold rel, pos, place_of. change (@snd tables (nat -> R) (nth a ats none)) with (places ats a). field. exact AW'.
Qed.
Lemma zero_same e : zero_order_of (at_atoms f fst ats (place_of x e)) (place_of x e) = sum A (fun a => values f fst ats x e a / distance (electron x e) (places ats a)).
Proof. unfold zero_order_of. rewrite fold_left_plus, Rplus_0_l. unfold at_atoms. rewrite map_map, (sum_list none). reflexivity. Qed.
Lemma kinetic_ph_is g pass : kinetic_ph f ats N x g pass =
  option_map (fun k => k + sum N (fun e => sum A (fun a => values f fst ats x e a / distance (electron x e) (places ats a)))) (energy_fwd N A x (places ats) (values f snd ats x) g pass).
Proof.
  unfold kinetic_ph, energy_fwd, chol_fwd. rewrite (stack_ext N _ (fun e => cholesky (mass_fwd A (pos x e) (places ats) (values f snd ats x e)))) by (intros e HE; rewrite mass_same by exact HE; reflexivity).
  destruct (stack N _) as [L|]; [|reflexivity]. cbn [option_map]. f_equal. f_equal; [|apply sum_ext; intros e _; apply zero_same]. unfold second_fwd, first_term_fwd. f_equal.
  - rewrite (sum_ext (3 * N) (fun k => fst (pass L) k ^ 2) (fun k => fst (pass L) k * fst (pass L) k)) by (intros; ring). ring.
  - apply sum_ext. intros e HE. apply sum_ext. intros i _. rewrite first_same by exact HE. ring.
Qed.
End One.
(** For every list of pseudo-Hamiltonian atoms, radial interpolation [f], electrons away from those atoms and twice
    differentiable log|psi| with an exact forward pass: the value is the local value of
    -1/2 Laplacian + sum v_L2 L^2 plus the local potentials of those atoms. *)
Theorem C89_pseudo_hamiltonian : forall f ats N x logpsi g h pass s E,
  let A := length ats in
  away N A x (places ats) -> derivatives (3 * N) logpsi x g h -> exact_pass N A logpsi x (places ats) (values f snd ats x) pass ->
  kinetic_ph f ats N x g pass = Some E ->
  exists K, pseudo_hamiltonian N A (places ats) (fun e a => values f snd ats x e a / distance (electron x e) (places ats a)) (fun w => s * exp (logpsi w)) x (K * (s * exp (logpsi x))) /\
    E = K + sum N (fun e => sum A (fun a => values f fst ats x e a / distance (electron x e) (places ats a))).
Proof.
  intros f ats N x logpsi g h pass s E A AW D P H. rewrite kinetic_ph_is in H by exact AW. destruct (energy_fwd N (length ats) x (places ats) (values f snd ats x) g pass) as [K|] eqn:EF; [|discriminate].
  exists K. split; [exact (C77_local_energy_forward N A logpsi x (places ats) _ g h pass s K AW D P EF)|]. unfold option_map in H. injection H as <-. reflexivity.
Qed.
(** It is NaN exactly when the operator of some electron is not elliptic at its place. *)
Theorem C89_pseudo_hamiltonian_nan : forall f ats N x g pass, away N (length ats) x (places ats) ->
  kinetic_ph f ats N x g pass = None <->
  exists e, (e < N)%nat /\ ~ elliptic (length ats) (places ats) (fun a => values f snd ats x e a / distance (electron x e) (places ats a)) (electron x e).
Proof.
  intros f ats N x g pass AW. rewrite kinetic_ph_is by exact AW. rewrite <- (proj1 (C77_nan_iff_not_elliptic N (length ats) x (places ats) (values f snd ats x) g (fun _ _ => 0) pass AW)).
  destruct (energy_fwd _ _ _ _ _ _ _); cbn; split; congruence.
Qed.
(** ** Tables *)
Definition channels (v w : R) (l : nat) : R := v + INR (l * (l + 1)) * w.
(** Channels of the form v + l (l+1) w are read back exactly. *)
Theorem C89_parse : forall v w, parse_TM (channels v w 0) (channels v w 1) (channels v w 2) = (v, w).
Proof. intros v w. unfold parse_TM, channels. cbn [Nat.mul Nat.add INR]. f_equal; field. Qed.
(** Nothing looks at the p channel: a file whose p channel does not fit is read as if it did. *)
Theorem C89_parse_refuted : ~ (forall s p d v w, parse_TM s p d = (v, w) -> p = channels v w 1).
Proof. intros H. pose proof (H 0 1 0 0 0) as X. unfold parse_TM, channels in X. cbn in X. assert (1 = 0 + (1 + 1) * 0); [apply X; f_equal; field|lra]. Qed.
(** Both interpolations use the atom's own tables. *)
Theorem C89_spline_tables : forall data s, atom_tables Spline data s = atom_tables Linear data s.
Proof.
  intros data s. unfold atom_tables, lookup. induction data as [|[k t] data IH]; [reflexivity|]. cbn [map fst index_of find]. destruct (String.eqb k s); [reflexivity|].
  destruct (index_of s (map fst data)) as [i|]; cbn [option_map nth] in *; exact IH.
Qed.
(** interpolating a table raised by a constant *)
Definition raises (f : (nat -> R) -> R -> R) : Prop := forall t z r, f (fun k => t k + z) r = f t r + z.
Lemma linear_raises spline : raises (rV spline Linear).
Proof. intros t z r. apply interp_shift. apply Nat.ltb_lt. vm_compute. reflexivity. Qed.
