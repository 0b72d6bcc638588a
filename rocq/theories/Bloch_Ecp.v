(** C66: the hypothesis of the ECP theorems (C63, [bloch_in]) holds for the solid wavefunction of the workflow. *)
From Coq Require Import Reals List Arith ZArith Lra Lia.
From Coquelicot Require Import Coquelicot.
From Verif Require Import Quad_Spec Lin Geom_Spec Geom_Model Geom_Props Periodic_Props Det Wf_Model Wf_Spec Bloch_Model Bloch_Props Ecp_Spec Ecp_Model Ecp_Props.
From Verif Require Supercell_Model Supercell_Props.
Import ListNotations.
Open Scope R_scope.

Lemma set_nth_length {A} i (x : A) l : length (set_nth i x l) = length l.
Proof. revert i. induction l as [|y l IH]; intros [|i]; cbn; auto. Qed.
Lemma nth_set_nth {A} i j (x d : A) l : (i < length l)%nat -> nth j (set_nth i x l) d = if Nat.eqb i j then x else nth j l d.
Proof.
  revert i j. induction l as [|y l IH]; intros [|i] [|j] H; cbn in *; try lia; auto. apply IH. lia.
Qed.
(** Electron positions as the list the ECP estimator edits *)
Definition positions (els : list Quad_Spec.vec) : nat -> Lin.vec := fun i => of3 (nth i els (0, 0, 0)).
Theorem C66_ecp_partial : forall ns p na sy s prim sim (twist : Quad_Spec.vec) alpha beta atoms wf els i,
  Supercell_Model.det s <> 0%Z -> (Z.abs (Supercell_Model.det s) < 100000)%Z -> Supercell_Props.symmetric s ->
  made_by_symmetry_lat 3 sy prim -> made_by_symmetry_lat 3 sy sim -> lattice sim = supercell_lattice s (lattice prim) ->
  let ks := orbital_kpoints (scf_kpts s (of3 twist) (invl prim) (invl sim)) alpha beta in
  n_el ns = length ks -> length els = n_el ns -> (i < n_el ns)%nat ->
  (forall els', length els' = n_el ns -> cpsi (solid ns p 3 na prim sim (klist_of ks) (positions els') atoms) = Some (amplitude (wf els'))) ->
  bloch_in (Some {| plattice := lattice sim; pinv := invl sim; ptwist := Some twist |}) wf els i.
Proof.
  intros ns p na sy s prim sim twist alpha beta atoms wf els i D L SY MP MS LS ks N LE I W. cbn [bloch_in plattice pinv ptwist]. split; [apply MS|].
  intros q m. pose proof (C66_workflow_partial ns p na sy s prim sim (of3 twist) alpha beta (positions (set_nth i q els)) atoms i m D L SY MP MS LS N I) as B.
  cbv zeta in B. fold ks in B. rewrite W in B by (rewrite set_nth_length; exact LE). cbn [option_map] in B.
  rewrite (solid_same 3 ns p na prim sim (klist_of ks) (positions (set_nth i (vadd q (to3 (lattice_vector 3 (lattice sim) m))) els))
             (moved (positions (set_nth i q els)) (Nat.eqb i) (lattice_vector 3 (lattice sim) m))) in B.
  - rewrite W in B by (rewrite set_nth_length; exact LE).
    assert (X : amplitude (wf (set_nth i (vadd q (to3 (lattice_vector 3 (lattice sim) m))) els)) = Cmult (Bloch_Props.cis (2 * PI * sum 3 (fun j => IZR (m j) * of3 twist j))) (amplitude (wf (set_nth i q els)))) by congruence.
    rewrite X. f_equal. unfold cis, Bloch_Props.cis, vdot, of3. cbn [sum fst snd].
    replace (0 + IZR (m 0%nat) * fst (fst twist) + IZR (m 1%nat) * snd (fst twist) + IZR (m 2%nat) * snd twist) with (IZR (m 0%nat) * fst (fst twist) + IZR (m 1%nat) * snd (fst twist) + IZR (m 2%nat) * snd twist) by ring. reflexivity.
  - intros j k Hk. unfold moved, positions. rewrite !nth_set_nth; [|exact (eq_ind_r (fun z => (i < z)%nat) I LE)|exact (eq_ind_r (fun z => (i < z)%nat) I LE)]. destruct (Nat.eqb i j); [|reflexivity].
    unfold add, of3, vadd, to3. destruct k as [|[|[|k]]]; cbn [fst snd]; try reflexivity; lia.
Qed.
