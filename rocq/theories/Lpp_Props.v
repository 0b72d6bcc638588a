(** C89: the local energy of the legacy package as a whole; what is refused; examples. *)
From Coq Require Import String Reals List Arith ZArith Lra Lia Bool Permutation Sorted FunctionalExtensionality.
From Coquelicot Require Import Coquelicot.
From Verif Require Import Lin Lap_Spec Jet Kin_Spec Quad_Spec Quad_Sphere Quad_Model Ecp_Spec Ph_Spec Ph_Model Ph_Lemmas Ph_Props Lpp_Spec Lpp_Model Lpp_Kin Lpp_Ecp Lpp_Ph Lpp_Route.
Import ListNotations.
Open Scope list_scope.
Open Scope R_scope.
Local Notation vec := Lin.vec.
Local Notation pt := Quad_Spec.vec.
Local Notation mat := Lin.mat.
Local Notation S := Datatypes.S.
Local Notation total := Lpp_Spec.total.
Local Notation lookup := Lpp_Model.lookup.
Local Notation tables := Lpp_Model.tables.
Local Notation value := Lpp_Model.value.
Local Notation set_nth := Lpp_Model.set_nth.
Local Notation max_l := Lpp_Model.max_l.
Local Notation all_some := Lpp_Model.all_some.
Local Notation ecp_dict := Lpp_Model.ecp_dict.

(** ** The semi-local part *)
Lemma set_nth_relocated q : forall i els, (i < length els)%nat -> set_nth i q els = relocated i q els.
Proof. induction i as [|i IH]; intros [|e els] L; cbn [length] in L; try lia; [reflexivity|]. cbn [Lpp_Model.set_nth]. rewrite IH by lia. reflexivity. Qed.
Definition psi_of (psi : list pt -> value) (els : list pt) : R := psi_value (psi els).
(** molecules, tables, draws and wavefunctions the effective core potential is exact for *)
Definition ecp_case (psi : list pt -> value) (atoms : list (table * pt)) (d : ecp_dict) (id : option string) (ml : nat) (draws : nat -> R * R) (els : list pt) : Prop :=
  exists deg, promised id deg /\ (forall i, 0 <= fst (draws i) <= 1 /\ 0 <= snd (draws i) <= 1) /\ most_channels d ml /\ (2 <= ml <= 9)%nat /\ proper_dict d /\
    (fst (psi els) = 1 \/ fst (psi els) = -1) /\
    forall i a, (i < length els)%nat -> In a atoms -> vlen (vsub (nth i els (0, 0, 0)) (snd a)) <> 0 /\ exists k, (k + (ml - 2) <= deg)%nat /\ sphere_poly k (around (psi_of psi) els i (snd a)).
Theorem C89_semilocal : forall psi mol d l id ml max_core nup ndown draws els,
  ecp_case psi (ecp_atoms mol d l) d id ml draws els -> present mol d l -> l <> [] -> length els = (nup + ndown)%nat ->
  exists v, non_local_energy psi mol d l id max_core (0, nup, nup, nup + ndown)%nat draws els = Some v /\
    semilocal_energy (psi_of psi) (ecp_atoms mol d l) els max_core (ml - 1) v.
Proof.
  intros psi mol d l id ml max_core nup ndown draws els (deg & P & DR & M & ML & PD & SG & CS) PR NE LP.
  destruct (C89_ecp psi mol d l id deg ml max_core nup ndown draws els P DR M ML PD PR NE LP SG) as [near [AR H]].
  assert (Q : exists q, Lpp_Model.get_quadrature id = Some q) by (apply C89_quadratures; exists deg; exact P). destruct Q as [q Q].
  set (comp := fun i (a : table * pt) c => nth c (integrals (fun _ _ _ => moved_ratio psi els i (snd a)) q draws (ml - 1) i (vsub (nth i els (0, 0, 0)) (snd a)) (vlen (vsub (nth i els (0, 0, 0)) (snd a)))) 0 / (4 * PI)).
  assert (SM : forall i a, (i < length els)%nat -> moved_ratio psi els i a = around (psi_of psi) els i a).
  { intros i a I. apply functional_extensionality. intros p. unfold moved_ratio, around, psi_of. rewrite set_nth_relocated by exact I. reflexivity. }
  assert (CO : forall i a c, (i < length els)%nat -> In a (firstn max_core (near i)) -> (c < ml - 1)%nat -> (exists k, (k + c <= deg)%nat /\ sphere_poly k (moved_ratio psi els i (snd a))) /\
     angular_component c (direction (nth i els (0, 0, 0)) (snd a)) (moved_ratio psi els i (snd a)) (comp i a c)).
  { intros i a c I IA C. assert (IN : In a (ecp_atoms mol d l)) by (apply (Permutation_in _ (proj1 (AR i))); rewrite <- (firstn_skipn max_core (near i)); apply in_app_iff; left; exact IA).
    destruct (CS i a I IN) as [_ [k [K SP]]]. rewrite SM by exact I. split; [exists k; split; [lia|exact SP]|]. unfold comp. rewrite (SM i (snd a) I). destruct (DR i). eapply component_is; [exact P|exact Q|assumption|assumption|exact C| |exact SP]. lia. }
  exists (semilocal (ecp_atoms mol d l) els max_core (ml - 1) near comp). split; [apply H; exact CO|]. exists near, comp. split; [exact AR|]. split; [|reflexivity].
  intros i a c I IA C. rewrite <- SM by exact I. apply CO; assumption.
Qed.
Lemma semilocal_nothing psi els max_core nl : semilocal_energy psi [] els max_core nl 0.
Proof.
  exists (fun _ => []), (fun _ _ _ => 0). split; [intros i; split; constructor|]. split; [intros i a l _ I; rewrite firstn_nil in I; destruct I|].
  unfold semilocal, total. rewrite firstn_nil. cbn [map fold_right]. rewrite Rplus_0_l. induction (seq 0 (length els)) as [|i is IH]; [reflexivity|]. cbn [map fold_right]. rewrite <- IH. ring.
Qed.
(** the atoms of the molecule the effective core potential acts on *)
Definition core_atoms (mol : list atom) (d : ecp_dict) (excluded : string -> bool) : list (table * pt) :=
  map (fun a => (match lookup d (fst a) with Some t => t | None => [] end, snd a)) (filter (fun a => known d (fst a) && negb (excluded (fst a))) mol).
Lemma elements_present mol d ph_atoms : present mol d (ecp_elements mol d ph_atoms).
Proof.
  intros s I. unfold ecp_elements in I. apply in_map_iff in I. destruct I as [[k p] [E I]]. cbn in E. subst k. apply filter_In in I. destruct I as [I K]. apply andb_true_iff in K. split; [tauto|]. exists p. exact I.
Qed.
Lemma elements_atoms mol d ph_atoms : ecp_atoms mol d (ecp_elements mol d ph_atoms) = core_atoms mol d (fun s => in_list s ph_atoms).
Proof.
  unfold ecp_atoms, core_atoms. f_equal. apply filter_ext_in. intros a I. destruct (known d (fst a)) eqn:K; [|rewrite andb_comm; reflexivity]. rewrite andb_true_r. cbn [andb].
  destruct (in_list (fst a) ph_atoms) eqn:P; cbn [negb].
  - apply not_true_is_false. intros T. apply in_list_In in T. unfold ecp_elements in T. apply in_map_iff in T. destruct T as [b [E T]]. apply filter_In in T. rewrite E, P in T. rewrite andb_comm in T. destruct T; discriminate.
  - apply in_list_In. unfold ecp_elements. apply in_map, filter_In. split; [exact I|]. rewrite K, P. reflexivity.
Qed.
Lemma nonlocal_part psi mol d ph_atoms id ml max_core nspins draws els v : length els = (fst nspins + snd nspins)%nat ->
  (core_atoms mol d (fun s => in_list s ph_atoms) <> [] -> ecp_case psi (core_atoms mol d (fun s => in_list s ph_atoms)) d id ml draws els) ->
  match ecp_elements mol d ph_atoms with
  | [] => Some 0
  | _ => non_local_energy psi mol d (ecp_elements mol d ph_atoms) id max_core (ranges_of nspins) draws els
  end = Some v -> semilocal_energy (psi_of psi) (core_atoms mol d (fun s => in_list s ph_atoms)) els max_core (ml - 1) v.
Proof.
  intros LE CS. pose proof (elements_atoms mol d ph_atoms) as EA. pose proof (elements_present mol d ph_atoms) as EP. destruct (ecp_elements mol d ph_atoms) as [|s l] eqn:E.
  - intros X. injection X as <-. assert (Z : core_atoms mol d (fun s => in_list s ph_atoms) = []).
    { rewrite <- EA. unfold ecp_atoms. clear. induction mol as [|a mol IH]; [reflexivity|]. exact IH. }
    rewrite Z. apply semilocal_nothing.
  - assert (NE : core_atoms mol d (fun s => in_list s ph_atoms) <> []).
    { assert (I : In s (ecp_elements mol d ph_atoms)) by (rewrite E; left; reflexivity). unfold ecp_elements in I. apply in_map_iff in I. destruct I as [a [_ I]]. unfold core_atoms. intros Z. apply map_eq_nil in Z. rewrite Z in I. exact I. }
    specialize (CS NE). rewrite <- EA in CS |- *. intros X.
    destruct (C89_semilocal psi mol d (s :: l) id ml max_core (fst nspins) (snd nspins) draws els CS EP ltac:(discriminate) LE) as [v' [A B]]. unfold ranges_of in X. rewrite A in X. injection X as <-. exact B.
Qed.

(** ** Without pseudo-Hamiltonian *)
Definition configuration (N : nat) (x : vec) (els : list pt) : Prop := length els = N /\ forall e c, (e < N)%nat -> (c < 3)%nat -> of3 (nth e els (0, 0, 0)) c = electron x e c.
Lemma to_list_length N x : length (to_list N x) = N. Proof. unfold to_list. rewrite map_length, seq_length. reflexivity. Qed.
Lemma to_list_is N x els : configuration N x els -> to_list N x = els.
Proof.
  intros [L C]. apply (nth_ext _ _ (0, 0, 0) (0, 0, 0)); rewrite to_list_length; [symmetry; exact L|]. intros e E. unfold to_list. rewrite (nth_map_lt _ (seq 0 N) e 0%nat) by (rewrite seq_length; exact E). rewrite seq_nth by exact E. cbn [Nat.add].
  assert (Q : forall p : pt, of3 p 0%nat = electron x e 0%nat -> of3 p 1%nat = electron x e 1%nat -> of3 p 2%nat = electron x e 2%nat -> (place_of x e 0%nat, place_of x e 1%nat, place_of x e 2%nat) = p).
  { intros [[a b] c] C0 C1 C2. cbv [of3 fst snd] in C0, C1, C2. rewrite C0, C1, C2. reflexivity. }
  apply Q; apply C; lia.
Qed.
(** For every molecule, wavefunction, kinetic mode and accepted partition: the energy times psi is the kinetic energy
    applied to psi plus Coulomb and semi-local energies times psi. *)
Theorem C89_energy : forall s psi nspins mol d ph hph id ml max_core draws x els Psi E,
  let atoms := core_atoms mol d (fun _ => false) in
  configuration (n_el s) x els -> info_keys ph = [] -> info_keys hph = [] -> n_el s = (fst nspins + snd nspins)%nat ->
  log_abs (3 * n_el s) Psi (log_abs_f s) x ->
  (forward_f s = true -> exists v, gradient_and_laplacian (3 * n_el s) (fun _ => 1) x (log_abs_f s) v (fst (out_f s)) (snd (out_f s))) ->
  (atoms <> [] -> ecp_case psi atoms d id ml draws els) ->
  pp_energy s psi nspins mol d ph hph id max_core None draws x = Some E ->
  exists v, semilocal_energy (psi_of psi) atoms els max_core (ml - 1) v /\
    E * Psi x = kinetic_energy (3 * n_el s) Psi x + (coulomb (n_el s) (n_at s) x (at_pos s) (at_charge s) (fun e a => - at_charge s a / distance (electron x e) (at_pos s a)) + v) * Psi x.
Proof.
  intros s psi nspins mol d ph hph id ml max_core draws x els Psi E atoms CF KP KH NS LA FW CS HE. unfold pp_energy in HE. rewrite (to_list_is _ x els CF) in HE. rewrite KP, KH in HE. cbn [app] in HE. unfold add in HE.
  destruct (local_energy s [] (merge_info ph hph) x) as [lo|] eqn:LO; [|discriminate].
  match type of HE with match ?mm with _ => _ end = _ => destruct mm as [v|] eqn:NL; [|discriminate] end. injection HE as <-. exists v. split.
  - apply (nonlocal_part psi mol d [] id ml max_core nspins draws els v); [rewrite (proj1 CF); exact NS|exact CS|exact NL].
  - unfold local_energy in LO. destruct (if forward_f s then _ else _) as [k|] eqn:K; [|discriminate]. cbn [option_map] in LO. injection LO as <-.
    rewrite (proj1 (C89_coulomb (n_el s) (n_at s) x (at_pos s) (at_charge s))). rewrite <- (C89_kinetic (3 * n_el s) Psi (log_abs_f s) x (scan_f s) (part_f s) k LA); [ring|].
    destruct (forward_f s); [|left; exact K]. right. right. destruct (FW eq_refl) as [w G]. exists w, (fst (out_f s)), (snd (out_f s)). split; [exact G|]. injection K as <-. destruct (out_f s). reflexivity.
Qed.

(** ** With pseudo-Hamiltonian *)
Lemma grad_total n f x G k : (k < n)%nat -> Lap_Spec.total n f x G -> grad f x k = G k.
Proof.
  intros K T. unfold grad. apply is_derive_unique, is_derive_Reals.
  pose proof (total_chain n f x G (fun j t => if Nat.eqb j k then t else x j) (fun j => delta j k) (x k)) as X.
  cbv beta in X. rewrite (sum_delta_r n G k K) in X. apply X.
  - intros a _. destruct (Nat.eqb_spec a k); [subst|]; reflexivity.
  - exact T.
  - intros a _. unfold delta. destruct (Nat.eqb a k); [apply derivable_pt_lim_id|apply derivable_pt_lim_const].
Qed.
Definition ph_atoms_of (data : string -> tables) (l : list atom) : list (tables * vec) := map (fun a => (data (fst a), of3 (snd a))) l.
(** For every molecule and request of PH and hybrid PH elements: the energy is the local value of
    -1/2 Laplacian + sum v_L2 L^2 over the requested atoms, plus Coulomb energy, plus the local tables of the requested
    atoms, plus the semi-local energy of the atoms with a core potential that were not requested as pure PH. *)
Theorem C89_energy_ph : forall s psi nspins mol d data pel hel ph hph id ml max_core energy_local draws x els g h sg E,
  let cores := core_atoms mol d (asks_ph pel) in
  let ats := ph_atoms_of data (filter (fun a => asks_ph pel (fst a)) mol ++ filter (fun a => asks_hph hel (fst a)) mol) in
  let f := rV (spline_f s) (ph_rv s) in let N := n_el s in
  configuration N x els -> gen_ph_info data pel mol = Some ph -> gen_hph_info data hel mol = Some hph -> ats <> [] -> N = (fst nspins + snd nspins)%nat ->
  away N (length ats) x (places ats) -> derivatives (3 * N) (log_abs_f s) x g h -> exact_pass N (length ats) (log_abs_f s) x (places ats) (values f snd ats x) (pass_f s) ->
  (cores <> [] -> ecp_case psi cores d id ml draws els) ->
  pp_energy s psi nspins mol d (Some ph) (Some hph) id max_core energy_local draws x = Some E ->
  exists K v, pseudo_hamiltonian N (length ats) (places ats) (fun e a => values f snd ats x e a / distance (electron x e) (places ats a)) (fun w => sg * exp (log_abs_f s w)) x (K * (sg * exp (log_abs_f s x))) /\
    semilocal_energy (psi_of psi) cores els max_core (ml - 1) v /\
    E = K + coulomb N (n_at s) x (at_pos s) (at_charge s) (fun e a => - at_charge s a / distance (electron x e) (at_pos s a))
        + sum N (fun e => sum (length ats) (fun a => values f fst ats x e a / distance (electron x e) (places ats a))) + v.
Proof.
  intros s psi nspins mol d data pel hel ph hph id ml max_core energy_local draws x els g h sg E cores ats f N CF HP HH NE NS AW DV EX CS HE.
  destruct (C89_routing data pel hel mol ph hph d (ph_rv s) HP HH) as (m & MG & MA & MT & MK & ME).
  assert (CE : core_atoms mol d (fun s => in_list s (info_keys (Some ph))) = cores).
  { unfold cores, core_atoms. f_equal. apply filter_ext_in. intros a I. f_equal. f_equal. destruct (gen_ph_parts _ _ _ _ HP) as [_ [_ P3]]. cbn [info_keys]. destruct (asks_ph pel (fst a)) eqn:AP.
    - apply in_list_In, P3, in_map, filter_In. auto.
    - apply not_true_is_false. intros T. apply in_list_In, P3 in T. apply in_map_iff in T. destruct T as [b [Q T]]. apply filter_In in T. rewrite Q in T. destruct T. congruence. }
  assert (KN : info_keys (Some ph) ++ info_keys (Some hph) <> []).
  { intros Z. apply MK in Z. rewrite MA in Z. apply NE. unfold ats. rewrite Z. reflexivity. }
  unfold pp_energy in HE. rewrite (to_list_is (n_el s) x els CF) in HE. rewrite MG in HE.
  assert (LE : match energy_local with Some el => match info_keys (Some ph) ++ info_keys (Some hph) with [] => el x | _ :: _ => local_energy s (info_keys (Some ph) ++ info_keys (Some hph)) (Some m) x end | None => local_energy s (info_keys (Some ph) ++ info_keys (Some hph)) (Some m) x end = local_energy s (info_keys (Some ph) ++ info_keys (Some hph)) (Some m) x).
  { destruct energy_local; [|reflexivity]. destruct (info_keys (Some ph) ++ info_keys (Some hph)); [congruence|reflexivity]. }
  cbv zeta in HE. rewrite LE in HE. clear LE. unfold add in HE. destruct (local_energy s _ (Some m) x) as [lo|] eqn:LO; [|discriminate].
  match type of HE with match ?mm with _ => _ end = _ => destruct mm as [v|] eqn:NL; [|discriminate] end. injection HE as <-.
  unfold local_energy in LO. destruct (info_keys (Some ph) ++ info_keys (Some hph)) as [|k0 ks]; [congruence|].
  destruct (forward_f s); cbn [negb] in LO; [|discriminate]. destruct m as [ps dt]. cbn [fst snd] in *.
  rewrite (all_some_map _ (fun a => (data (fst a), of3 (snd a)))) in LO by (intros a I; rewrite (MT a I); reflexivity). rewrite MA in LO.
  change (map (fun a : string * pt => (data (fst a), of3 (snd a))) (filter (fun a => asks_ph pel (fst a)) mol ++ filter (fun a => asks_hph hel (fst a)) mol)) with ats in LO.
  destruct (kinetic_ph _ ats _ _ _ _) as [k|] eqn:KP; [|discriminate]. cbn [option_map] in LO. injection LO as <-.
  assert (G : kinetic_ph f ats N x g (pass_f s) = Some k).
  { rewrite <- KP. unfold kinetic_ph. destruct (stack _ _); [|reflexivity]. f_equal. f_equal. f_equal. apply sum_ext. intros e HE. apply sum_ext. intros i HI. f_equal.
    destruct DV as (D & G & OD & Dx & TG & _ & Gg). rewrite Gg by (unfold N in HE; lia). symmetry. apply grad_total with (n := (3 * N)%nat); [unfold N in *; lia|]. apply TG, Dx. }
  destruct (C89_pseudo_hamiltonian f ats N x (log_abs_f s) g h (pass_f s) sg k AW DV EX G) as [K [PH EK]]. exists K, v. split; [exact PH|]. split.
  - rewrite <- CE in *. apply (nonlocal_part psi mol d (info_keys (Some ph)) id ml max_core nspins draws els v); [rewrite (proj1 CF); exact NS|exact CS|exact NL].
  - rewrite (proj1 (C89_coulomb (n_el s) (n_at s) x (at_pos s) (at_charge s))). rewrite EK. fold N. ring.
Qed.
