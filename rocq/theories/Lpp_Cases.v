(** C89: effective charges, refusals, the version with a memory, and concrete cases. *)
From Coq Require Import String Reals List Arith ZArith Lra Lia Bool Permutation Sorted FunctionalExtensionality.
From Coquelicot Require Import Coquelicot.
From Verif Require Import Lin Lap_Spec Jet Kin_Spec Quad_Spec Quad_Sphere Quad_Rot Quad_Model Ecp_Spec Ecp_Props Ph_Spec Ph_Model Ph_Lemmas Ph_Props Lpp_Spec Lpp_Model Lpp_Kin Lpp_Ecp Lpp_Ph Lpp_Route Lpp_Props.
Import ListNotations.
Open Scope list_scope.
Open Scope R_scope.
Local Notation vec := Lin.vec.
Local Notation pt := Quad_Spec.vec.
Local Notation mat := Lin.mat.
Local Notation S := Datatypes.S.
Local Notation total := Lpp_Spec.total.
Local Notation lookup := Lpp_Model.lookup.
Local Notation tables := Lpp_Model.tables.
Local Notation value := Lpp_Model.value.
Local Notation set_nth := Lpp_Model.set_nth.
Local Notation max_l := Lpp_Model.max_l.
Local Notation all_some := Lpp_Model.all_some.
Local Notation ecp_dict := Lpp_Model.ecp_dict.
Local Notation get_quadrature := Lpp_Model.get_quadrature.
Local Notation electron := Ph_Spec.electron.

(** ** Effective charges *)
Definition nobody : atom := (EmptyString, (0, 0, 0)).
Lemma total_filter {A} (p : A -> bool) (g : A -> R) l : total (filter p l) g = total l (fun a => if p a then g a else 0).
Proof. unfold total. induction l as [|a l IH]; [reflexivity|]. cbn [filter map fold_right]. destruct (p a); cbn [map fold_right]; rewrite IH; ring. Qed.
Lemma total_sum {A} (d : A) (g : A -> R) l : total l g = sum (length l) (fun a => g (nth a l d)).
Proof. apply sum_list. Qed.
(** When the local tables are r v_loc + Z, as the data files are read, the pseudo-Hamiltonian's local term turns the
    -Z/r of exactly the requested atoms into v_loc; all others keep -Z/r. *)
Theorem C89_effective_charge : forall f data mol pel hel N x places_of_atoms charges (rv : string -> nat -> R),
  raises f -> (forall i, (i < length mol)%nat -> places_of_atoms i = of3 (snd (nth i mol nobody))) ->
  (forall a, In a mol -> asks_ph pel (fst a) = true -> asks_hph hel (fst a) = false) ->
  (forall i k, (i < length mol)%nat -> fst (data (fst (nth i mol nobody))) k = rv (fst (nth i mol nobody)) k + charges i) ->
  away N (length mol) x places_of_atoms ->
  let ats := ph_atoms_of data (filter (fun a => asks_ph pel (fst a)) mol ++ filter (fun a => asks_hph hel (fst a)) mol) in
  let r e a := distance (electron x e) (places_of_atoms a) in
  coulomb N (length mol) x places_of_atoms charges (fun e a => - charges a / r e a)
  + sum N (fun e => sum (length ats) (fun a => values f fst ats x e a / distance (electron x e) (places ats a)))
  = coulomb N (length mol) x places_of_atoms charges (fun e a => let s := fst (nth a mol nobody) in if asks_ph pel s || asks_hph hel s then f (rv s) (r e a) / r e a else - charges a / r e a).
Proof.
  intros f data mol pel hel N x pa charges rv RF PA DJ TB AW ats r. unfold coulomb.
  assert (E : sum N (fun e => sum (length ats) (fun a => values f fst ats x e a / distance (electron x e) (places ats a)))
     = sum N (fun e => sum (length mol) (fun a => let s := fst (nth a mol nobody) in if asks_ph pel s || asks_hph hel s then (f (rv s) (r e a) + charges a) / r e a else 0))).
  { apply sum_ext. intros e HE. set (g := fun a : atom => f (fst (data (fst a))) (distance (electron x e) (of3 (snd a))) / distance (electron x e) (of3 (snd a))).
    set (cand := filter (fun a : atom => asks_ph pel (fst a)) mol ++ filter (fun a : atom => asks_hph hel (fst a)) mol).
    transitivity (total cand g).
    - rewrite (total_sum nobody). unfold ats, ph_atoms_of. fold cand. rewrite map_length. apply sum_ext. intros a HA. unfold values, places. rewrite (nth_map_lt _ cand a nobody none HA). reflexivity.
    - rewrite (total_perm cand _ g (C89_each_once pel hel mol DJ)), total_filter, (total_sum nobody). apply sum_ext. intros a HA. cbv zeta. destruct (asks_ph pel (fst (nth a mol nobody)) || asks_hph hel (fst (nth a mol nobody)))%bool; [|reflexivity].
      unfold g, r. rewrite PA by exact HA. f_equal. rewrite <- RF. f_equal. apply functional_extensionality. intros k. apply TB, HA. }
  rewrite E. match goal with |- ?p + ?q + ?u + ?w = _ => replace (p + q + u + w) with ((p + w) + q + u) by ring end. f_equal. f_equal. rewrite <- sum_plus. apply sum_ext. intros e HE. rewrite <- sum_plus. apply sum_ext. intros a HA. cbv zeta.
  specialize (AW e a HE HA). fold (r e a) in AW. destruct (_ || _)%bool; [field; exact AW|ring].
Qed.

(** ** Refusals *)
Lemma body_none (g : nat -> option (list R)) : forall is (st : option (list (list R))), (st = None \/ is <> []) -> (forall i, g i = None) ->
  fold_left (fun res i => match res, g i with Some rs, Some v => Some (set_nth i v rs) | _, _ => None end) is st = None.
Proof.
  induction is as [|i is IH]; intros st H G; cbn [fold_left]; [destruct H; [assumption|congruence]|]. apply IH; [left|exact G]. rewrite G. destruct st; reflexivity.
Qed.
Lemma rotated_some id deg q u v : promised id deg -> get_quadrature id = Some q -> rotated q u v <> [].
Proof.
  intros P Q. assert (N : pts q <> []).
  { destruct P; cbv [Lpp_Model.get_quadrature String.eqb Ascii.eqb Bool.eqb icosahedron octahedron ico_coefs oct_coefs] in Q; injection Q as <-; cbn [pts firstn map]; discriminate. }
  unfold rotated. destruct (pts q); [congruence|discriminate].
Qed.
(** Tables with nothing but a local part, and tables with channels above l = 7, are refused as soon as there is an
    electron. *)
Theorem C89_channels_refused : forall psi mol d l id deg ml max_core nup ndown draws (pe : list pt),
  promised id deg -> most_channels d ml -> (ml <= 1 \/ 9 < ml)%nat -> proper_dict d -> present mol d l -> l <> [] -> (0 < max_core)%nat -> length pe = (nup + ndown)%nat -> pe <> [] ->
  non_local_energy psi mol d l id max_core (0, nup, nup, nup + ndown)%nat draws pe = None.
Proof.
  intros psi mol d l id deg ml max_core nup ndown draws pe P MO ML PD PR NE MC LP NP. pose proof (most_max d ml MO) as M.
  assert (Q : exists q, get_quadrature id = Some q) by (apply C89_quadratures; exists deg; exact P). destruct Q as [q Q]. unfold non_local_energy. rewrite Q, M. unfold non_local_sum.
  set (g := grouped mol d (uniq [] l)).
  rewrite (all_some_map _ (fun e => map (seen_of ml e) (nearest_first e g))) by (intros e _; apply ecp_all_is; assumption).
  assert (NG : (0 < length g)%nat).
  { destruct l as [|s l']; [congruence|]. destruct (PR s (or_introl eq_refl)) as [K [a A]]. assert (IU : In s (uniq [] (s :: l'))) by (apply (uniq_spec (s :: l') [] (NoDup_nil _)); right; left; reflexivity).
    unfold g, grouped. assert (X : exists y, In y (flat_map (fun k => map (fun a0 : string * pt => (match lookup d k with Some t => t | None => [] end, snd a0)) (filter (fun a0 => (String.eqb (fst a0) k && known d (fst a0))%bool) mol)) (uniq [] (s :: l')))).
    { eexists. apply in_flat_map. exists s. split; [exact IU|]. apply in_map_iff. exists (s, a). split; [reflexivity|]. apply filter_In. split; [exact A|]. cbn [fst]. rewrite String.eqb_refl, K. reflexivity. }
    destruct X as [y Y]. destruct (flat_map _ _); [destruct Y|cbn; lia]. }
  set (lists := map _ pe).
  assert (NC : (0 < Nat.min max_core (match lists with [] => 0 | l0 :: _ => length l0 end))%nat).
  { unfold lists. destruct pe as [|e pe']; [congruence|]. cbn [map]. rewrite map_length, (Permutation_length (nearest_perm e g)). lia. }
  destruct (Nat.min max_core _) as [|nc] eqn:E; [lia|]. cbn [seq map].
  match goal with |- context [all_some (?h :: _)] => assert (HN : h = None) end.
  { unfold one_core. rewrite seq_length. rewrite (seq_app_fold _ 0 nup ndown). cbn [Nat.add]. unfold fori. rewrite Nat.sub_0_r.
    apply (body_none (fun i => integral_of _ _ _ _ _ _ _)).
    - right. rewrite <- LP. destruct pe; [congruence|]. discriminate.
    - intros i. apply integral_of_none; [eapply rotated_some; eassumption|lia]. }
  cbn [Lpp_Model.all_some]. rewrite HN. reflexivity.
Qed.
(** Channels are taken by their place in the table, not by their label: a table that omits s has its p channel applied
    to s. *)
Theorem C89_channel_labels_refuted : ~ (forall t ml r ch l, proper t -> filled t -> (S l < ml)%nat -> select_core t ml r = Some ch -> nth (S l) ch 0 = V t (Z.of_nat l) r).
Proof.
  intros H. set (t := [((-1)%Z, [[(0, 1)]]); (1%Z, [[(0, 1)]])] : table).
  assert (ND : proper t) by (split; [repeat constructor; cbn; intuition discriminate|intros e [<-|[<-|[]]]; cbn; lia]).
  assert (FL : filled t) by (intros e [<-|[<-|[]]]; exists [(0, 1)]; split; [left; reflexivity|discriminate|left; reflexivity|discriminate]).
  pose proof (H t 2%nat 1 _ 0%nat ND FL ltac:(lia) eq_refl) as X. cbn in X. assert (E : - 0 * (1 * (1 * 1)) = 0) by ring. rewrite E, exp_0, pow1, Rinv_1 in X. lra.
Qed.
(** A local energy of the user's own is ignored when any atom is asked for as PH or hybrid PH; without forward Laplacian
    such a request is refused. *)
Theorem C89_custom_local : forall s psi nspins mol d ph hph id max_core el draws x, info_keys ph ++ info_keys hph <> [] ->
  pp_energy s psi nspins mol d ph hph id max_core (Some el) draws x = pp_energy s psi nspins mol d ph hph id max_core None draws x /\
  (forward_f s = false -> pp_energy s psi nspins mol d ph hph id max_core (Some el) draws x = None).
Proof.
  intros s psi nspins mol d ph hph id max_core el draws x N.
  assert (E : pp_energy s psi nspins mol d ph hph id max_core (Some el) draws x = pp_energy s psi nspins mol d ph hph id max_core None draws x) by (unfold pp_energy; destruct (info_keys ph ++ info_keys hph); [congruence|reflexivity]).
  split; [exact E|]. intros F. rewrite E. unfold pp_energy, local_energy. rewrite F. destruct (info_keys ph ++ info_keys hph); [congruence|]. reflexivity.
Qed.

(** ** The version with a memory *)
(** [modify] with an up-to-date memory is psi *)
Definition faithful {M} (psi : list pt -> value) (modify : M -> list pt -> value) (memory : list pt -> M) (update : M -> list pt -> nat -> M) : Prop :=
  (forall w, modify (memory w) w = psi w) /\ (forall w i q, (i < length w)%nat -> modify (update (memory w) (set_nth i q w) i) (set_nth i q w) = psi (set_nth i q w)).
Lemma set_nth_beyond {A} (q : A) : forall l i, (length l <= i)%nat -> set_nth i q l = l.
Proof. induction l as [|y l IH]; intros [|i] L; cbn in *; try reflexivity; [lia|]. rewrite IH by lia. reflexivity. Qed.
Lemma core_ext ratio ratio' q ml draws n us ue ds de core : (forall i rv r p, (i < n)%nat -> ratio i rv r p = ratio' i rv r p) -> (ue <= n)%nat -> (de <= n)%nat ->
  one_core ratio q ml draws n (us, ue, ds, de) core = one_core ratio' q ml draws n (us, ue, ds, de) core.
Proof.
  intros H U D. unfold one_core.
  assert (B : forall i st, (i < n)%nat -> match st, integral_of ratio q (rotated q (fst (draws i)) (snd (draws i))) (seq 0 (ml - 1)) i (fst (nth i core ((0, 0, 0), 0))) (snd (nth i core ((0, 0, 0), 0))) with Some rs, Some v => Some (set_nth i v rs) | _, _ => None end
     = match st, integral_of ratio' q (rotated q (fst (draws i)) (snd (draws i))) (seq 0 (ml - 1)) i (fst (nth i core ((0, 0, 0), 0))) (snd (nth i core ((0, 0, 0), 0))) with Some rs, Some v => Some (set_nth i v rs) | _, _ => None end).
  { intros i st I. unfold integral_of. rewrite (map_ext _ (ratio' i (fst (nth i core ((0, 0, 0), 0))) (snd (nth i core ((0, 0, 0), 0)))) (fun p => H i _ _ p I)). reflexivity. }
  assert (F : forall lo hi st, (hi <= n)%nat -> fori lo hi (fun i res => match res, integral_of ratio q (rotated q (fst (draws i)) (snd (draws i))) (seq 0 (ml - 1)) i (fst (nth i core ((0, 0, 0), 0))) (snd (nth i core ((0, 0, 0), 0))) with Some rs, Some v => Some (set_nth i v rs) | _, _ => None end) st
     = fori lo hi (fun i res => match res, integral_of ratio' q (rotated q (fst (draws i)) (snd (draws i))) (seq 0 (ml - 1)) i (fst (nth i core ((0, 0, 0), 0))) (snd (nth i core ((0, 0, 0), 0))) with Some rs, Some v => Some (set_nth i v rs) | _, _ => None end) st).
  { intros lo hi st HI. unfold fori. assert (AL : forall i, In i (seq lo (hi - lo)) -> (i < n)%nat) by (intros i I; apply in_seq in I; lia). revert st AL. induction (seq lo (hi - lo)) as [|i is IH]; intros st AL; [reflexivity|]. cbn [fold_left]. rewrite B by (apply AL; left; reflexivity). apply IH. intros j J. apply AL. right. exact J. }
  rewrite (F ds de) by exact D. rewrite (F us ue) by exact U. reflexivity.
Qed.
Lemma sum_ext_ratio ratio ratio' q coords d ml max_core draws us ue ds de pe : (forall i rv r p, (i < length pe)%nat -> ratio i rv r p = ratio' i rv r p) -> (ue <= length pe)%nat -> (de <= length pe)%nat ->
  non_local_sum ratio q coords d ml max_core draws (us, ue, ds, de) pe = non_local_sum ratio' q coords d ml max_core draws (us, ue, ds, de) pe.
Proof.
  intros H U D. unfold non_local_sum. destruct (all_some _) as [lists|]; [|reflexivity]. cbv zeta. erewrite (map_ext (one_core ratio q ml draws (length pe) (us, ue, ds, de))); [reflexivity|]. intros core. apply core_ext; assumption.
Qed.
(** With a faithful memory and no hybrid PH atoms both versions return the same energy, for every input. *)
Theorem C89_optim : forall M s psi (modify : M -> list pt -> value) memory update nspins mol d ph hph id max_core el draws x,
  faithful psi modify memory update -> info_keys hph = [] -> n_el s = (fst nspins + snd nspins)%nat -> (forall p h, ph = Some p -> hph = Some h -> fst h = []) ->
  ecp_energy_optim s modify memory update nspins mol d ph hph id max_core el draws x = pp_energy s psi nspins mol d ph hph id max_core el draws x.
Proof.
  intros M s psi modify memory update nspins mol d ph hph id max_core el draws x [F1 F2] KH NS EH.
  unfold ecp_energy_optim, pp_energy. rewrite KH, app_nil_r. f_equal.
  - assert (LE : local_energy s (info_keys ph) ph x = local_energy s (info_keys ph) (merge_info ph hph) x).
    { destruct hph as [h|]; [|destruct ph; reflexivity]. destruct ph as [p|]; [|reflexivity]. cbn [merge_info]. rewrite (EH p h eq_refl eq_refl), app_nil_r. cbn [info_keys] in KH. unfold keys in KH. apply map_eq_nil in KH. rewrite KH. cbn [fold_left]. destruct p. reflexivity. }
    destruct el; [destruct (info_keys ph); [reflexivity|exact LE]|exact LE].
  - destruct (ecp_elements mol d (info_keys ph)); [reflexivity|]. unfold non_local_energy_optim, non_local_energy. destruct (get_quadrature id); [|reflexivity]. destruct (max_l d); [|reflexivity]. unfold ranges_of.
    apply sum_ext_ratio; try (rewrite to_list_length; lia). intros i rv r p I. unfold psi_r_optim, psi_r. rewrite F1, F2 by exact I. reflexivity.
Qed.
(** ** A p state *)
Definition sign (x : R) : R := if Rlt_dec x 0 then -1 else if Rlt_dec 0 x then 1 else 0.
Definition p_psi (els : list pt) : value := let x := fst (fst (nth 0 els (0, 0, 0))) in (sign x, ln (Rabs x)).
Lemma p_value els : psi_value (p_psi els) = fst (fst (nth 0 els (0, 0, 0))).
Proof.
  unfold psi_value, p_psi. cbn [fst snd]. set (x := fst (fst (nth 0 els (0, 0, 0)))). unfold sign. destruct (Rlt_dec x 0); [|destruct (Rlt_dec 0 x)].
  - rewrite exp_ln by (apply Rabs_pos_lt; lra). rewrite Rabs_left by lra. ring.
  - rewrite exp_ln by (apply Rabs_pos_lt; lra). rewrite Rabs_right by lra. ring.
  - assert (x = 0) by lra. lra.
Qed.
Theorem C89_p_wave_example : forall (t : table) (e : pt) draws, in_order t -> filled t -> length t = 3%nat -> fst (fst e) <> 0 -> (forall i : nat, 0 <= fst (draws i) <= 1 /\ 0 <= snd (draws i) <= 1) ->
  non_local_energy p_psi [("X"%string, (0, 0, 0))] [("X"%string, t)] ["X"%string] (Some "octahedron_6"%string) 5 (0, 1, 1, 1)%nat draws [e] = Some (V t (-1) (vlen e) + V t 1 (vlen e)).
Proof.
  intros t e draws IO FL LT X DR.
  destruct (C89_ecp p_psi [("X"%string, (0, 0, 0))] [("X"%string, t)] ["X"%string] (Some "octahedron_6"%string) 3 3 5 1 0 draws [e] POct6 DR) as [near [AR H]].
  - split; [exists ("X"%string, t); split; [left; reflexivity|exact LT]|intros u [<-|[]]; cbn [snd]; lia].
  - lia.
  - intros s u [I|[]]. injection I as <- <-. auto.
  - intros s [<-|[]]. split; [reflexivity|]. exists (0, 0, 0). left. reflexivity.
  - discriminate.
  - reflexivity.
  - unfold p_psi, sign. cbn [nth fst]. destruct (Rlt_dec (fst (fst e)) 0); [auto|]. destruct (Rlt_dec 0 (fst (fst e))); [auto|]. exfalso. lra.
  - assert (EA : ecp_atoms [("X"%string, (0, 0, 0))] [("X"%string, t)] ["X"%string] = [(t, (0, 0, 0))]) by reflexivity. rewrite EA in *.
    assert (NR : forall i, near i = [(t, (0, 0, 0))]) by (intros i; apply Permutation_length_1_inv, Permutation_sym, (proj1 (AR i))).
    assert (SV : vsub e (0, 0, 0) = e) by (destruct e as [[x y] z]; unfold vsub; cbn [fst snd]; f_equal; [f_equal|]; ring).
    assert (R2 : 0 < vdot e e) by (destruct e as [[x y] z]; unfold vdot; cbn [fst snd] in *; nra). assert (RP : 0 < vlen e) by (apply sqrt_lt_R0; exact R2).
    assert (MR : moved_ratio p_psi [e] 0 (0, 0, 0) = fun p => vlen e / fst (fst e) * fst (fst p)).
    { apply functional_extensionality. intros p. unfold moved_ratio. rewrite !p_value. cbn [nth Lpp_Model.set_nth]. rewrite SV. destruct p as [[u v] w]. unfold vadd, vscale. cbn [fst snd]. field. exact X. }
    change 1%nat with (1 + 0)%nat at 4. rewrite (H (fun _ _ c => if Nat.eqb c 0 then 0 else 1)).
    + f_equal. unfold semilocal, total. cbn [length seq map fold_right nth fst snd firstn Nat.eqb Nat.sub]. rewrite NR. cbn [firstn map fold_right fst snd]. rewrite SV. cbn [Z.of_nat Pos.of_succ_nat]. ring.
    + intros i a c I IA C. cbn [length] in I. assert (i = 0%nat) by lia. subst i. rewrite NR in IA. destruct IA as [<-|[]]. cbn [snd nth]. rewrite SV, MR. split.
      * exists 1%nat. split; [lia|]. exists (fun x y z => vlen e / fst (fst e) * x). split; [eapply Ext; [apply (Mono 1 (vlen e / fst (fst e)) 1 0 0); lia|]; intros; cbn; ring|]. intros p _. reflexivity.
      * unfold angular_component. destruct c as [|[|c]]; [| |lia]; cbn [Nat.eqb].
        -- eapply sphere_ext; [|replace 0 with (1 / (4 * PI) * (vlen e / fst (fst e)) * mom 1 0 0); [apply mono_is|rewrite mom_odd; [ring|left; exists 0%nat; reflexivity]]]. intros x y z. cbn. field. split; [exact X|apply PI_neq0].
        -- destruct e as [[ex ey] ez]. cbn [fst snd] in *. set (r := vlen (ex, ey, ez)) in *. set (k := 3 / (4 * PI) * (r / ex)).
           eapply sphere_ext; [|replace 1 with (k * (/ r * ex) * mom 2 0 0 + (k * (/ r * ey) * mom 1 1 0 + k * (/ r * ez) * mom 1 0 1)); [apply sphere_plus; [apply mono_is|apply sphere_plus; apply mono_is]|]].
           ++ intros x y z. unfold legendre_polynomial, k. cbn [legendre_pair fst INR]. unfold vdot, vscale. cbn [fst snd]. cbn [pow]. field. repeat split; try lra; apply PI_neq0.
           ++ rewrite (mom_odd 1 1 0) by (left; exists 0%nat; reflexivity). rewrite (mom_odd 1 0 1) by (left; exists 0%nat; reflexivity). change (mom 2 0 0) with (mom (0 + 2) 0 0). rewrite mom_step_a by (exists 0%nat; reflexivity). rewrite mom_0. unfold k. cbn [Nat.add INR]. field. repeat split; try lra; apply PI_neq0.
Qed.
(** ** An iron atom as pseudo-Hamiltonian *)
Lemma interp_const last c r : interp last (fun _ => c) r = c.
Proof. unfold interp. destruct (Rlt_dec r _); [reflexivity|]. destruct (Rlt_dec _ r); [reflexivity|]. replace (c - c) with 0 by ring. ring. Qed.
Lemma energy_ext N A x atoms atoms' l2 l2' g pass : (forall a, (a < A)%nat -> atoms a = atoms' a) -> (forall e a, (e < N)%nat -> (a < A)%nat -> l2 e a = l2' e a) ->
  energy_fwd N A x atoms l2 g pass = energy_fwd N A x atoms' l2' g pass.
Proof.
  intros HA HL. unfold energy_fwd, chol_fwd. rewrite (stack_ext N _ (fun e => cholesky (mass_fwd A (pos x e) atoms' (l2' e)))).
  - destruct (stack N _); [|reflexivity]. f_equal. f_equal. unfold first_term_fwd. apply sum_ext. intros e HE. apply sum_ext. intros i HI. f_equal. unfold first_fwd. apply sum_ext. intros a Ha. unfold rad, rel. rewrite HA, HL by assumption. reflexivity.
  - intros e HE. f_equal. apply functional_extensionality. intros i. apply functional_extensionality. intros j. unfold mass_fwd. f_equal. apply sum_ext. intros a Ha. unfold rad, rel. rewrite HA, HL by assumption. reflexivity.
Qed.
Theorem C89_ph_example : exists pass,
  let data := fun _ : string => ((fun _ : nat => 2, fun _ : nat => 1) : tables) in let mol := [("Fe"%string, (0, 0, 0))] in
  let s := {| n_el := 1; n_at := 1; at_pos := fun _ _ => 0; at_charge := fun _ => 16; log_abs_f := ex_f; out_f := (fun _ => 0, 0); pass_f := pass; spline_f := fun _ _ => 0; ph_rv := Linear; scan_f := false; part_f := 0; forward_f := true |} in
  exists ph hph, gen_ph_info data None mol = Some ph /\ gen_hph_info data None mol = Some hph /\
    pp_energy s (fun _ => (1, 0)) (1, 0)%nat mol [] (Some ph) (Some hph) None 0 None (fun _ => (0, 0)) ex_x = Some (-3 + 2 - 16).
Proof.
  destruct C77_example as [pass [_ [EF _]]]. exists pass. intros data mol s. do 2 eexists. split; [reflexivity|]. split; [reflexivity|].
  assert (Z : of3 (0, 0, 0) = fun _ => 0) by (apply functional_extensionality; intros [|[|[|k]]]; reflexivity).
  assert (D1 : distance (electron ex_x 0) (fun _ => 0) = 1).
  { unfold distance, norm, dot, electron, ex_x. cbn [sum Nat.mul Nat.add Nat.eqb]. match goal with |- sqrt ?z = 1 => replace z with 1 by ring end. apply sqrt_1. }
  set (ats := [(((fun _ : nat => 2), (fun _ : nat => 1)), (fun _ : nat => 0))] : list (tables * vec)).
  assert (AW : away 1 (length ats) ex_x (places ats)) by (intros e a HE HA; cbn in HA; assert (e = 0%nat) by lia; assert (a = 0%nat) by lia; subst; cbn [places nth ats snd]; rewrite D1; lra).
  assert (GR : grad ex_f ex_x = ex_g).
  { apply functional_extensionality. intros k. unfold grad, ex_f, ex_g. destruct (Nat.eqb_spec 1 k) as [<-|N1].
    - apply is_derive_unique. auto_derive; [exact I|]. unfold ex_x. cbn [Nat.eqb]. ring.
    - apply Derive_const. }
  unfold pp_energy. cbn [info_keys keys snd map app fst]. unfold local_energy. change (forward_f s) with true. cbn [negb]. unfold merge_info. cbn [fst snd app fold_left map].
  change (atom_tables (ph_rv s) (assign [] "Fe" (data "Fe")) "Fe") with (Some (data "Fe"%string)). cbn [option_map Lpp_Model.all_some]. rewrite Z.
  change [(data "Fe"%string, fun _ : nat => 0)] with ats. change (log_abs_f s) with ex_f. change (pass_f s) with pass. change (n_el s) with 1%nat. rewrite GR, kinetic_ph_is by exact AW.
  rewrite (energy_ext 1 (length ats) ex_x (places ats) (fun _ _ => 0) (values (rV (spline_f s) (ph_rv s)) snd ats ex_x) (fun _ _ => 1)).
  - cbn [length ats]. rewrite EF. cbn [option_map ecp_elements filter map known Lpp_Model.lookup find fst andb add]. f_equal. cbn [sum]. unfold values. cbn [nth fst snd ats places]. change (rV (spline_f s) (ph_rv s)) with (interp 10000). rewrite interp_const, D1.
    rewrite (proj1 (C89_coulomb 1 (n_at s) ex_x (at_pos s) (at_charge s))). unfold coulomb, pairs. change (n_at s) with 1%nat. cbn [sum s at_pos at_charge]. rewrite D1.
    change (map fst (assign [] "Fe"%string (data "Fe"%string))) with ["Fe"%string]. cbn [app option_map].
    change (ecp_elements mol [] ["Fe"%string]) with (@nil string). cbn [add]. f_equal. field.
  - intros a HA. cbn in HA. assert (a = 0%nat) by lia. subst. reflexivity.
  - intros e a HE HA. cbn in HA. assert (a = 0%nat) by lia. subst. unfold values. cbn [nth fst snd ats]. change (rV (spline_f s) (ph_rv s)) with (interp 10000). apply interp_const.
Qed.
(** With hybrid PH atoms the version with a memory leaves out their operator and local potential: scandium as hybrid PH, same
    configuration. *)
Theorem C89_optim_hph_refuted : exists pass,
  let data := fun _ : string => ((fun _ : nat => 2, fun _ : nat => 1) : tables) in let mol := [("Sc"%string, (0, 0, 0))] in
  let s := {| n_el := 1; n_at := 1; at_pos := fun _ _ => 0; at_charge := fun _ => 16; log_abs_f := ex_f; out_f := (fun _ => 0, 0); pass_f := pass; spline_f := fun _ _ => 0; ph_rv := Linear; scan_f := false; part_f := 0; forward_f := true |} in
  exists ph hph, gen_ph_info data (Some []) mol = Some ph /\ gen_hph_info data (Some ["Sc"%string]) mol = Some hph /\
    pp_energy s (fun _ => (1, 0)) (1, 0)%nat mol [] (Some ph) (Some hph) None 0 None (fun _ => (0, 0)) ex_x = Some (-3 + 2 - 16) /\
    ecp_energy_optim s (fun (_ : unit) _ => (1, 0)) (fun _ => tt) (fun _ _ _ => tt) (1, 0)%nat mol [] (Some ph) (Some hph) None 0 None (fun _ => (0, 0)) ex_x = Some (-16).
Proof.
  destruct C77_example as [pass [_ [EF _]]]. exists pass. intros data mol s. do 2 eexists. split; [reflexivity|]. split; [reflexivity|]. split.
  2:{ unfold ecp_energy_optim. cbn [info_keys keys snd map app fst]. unfold local_energy. change (forward_f s) with true. cbv iota. cbn [option_map]. change (ecp_elements mol [] []) with (@nil string). cbn [add]. f_equal.
      assert (D1 : distance (electron ex_x 0) (fun _ => 0) = 1).
      { unfold distance, norm, dot, electron, ex_x. cbn [sum Nat.mul Nat.add Nat.eqb]. match goal with |- sqrt ?z = 1 => replace z with 1 by ring end. apply sqrt_1. }
      rewrite (proj1 (C89_coulomb (n_el s) (n_at s) ex_x (at_pos s) (at_charge s))). unfold coulomb, pairs, forward_kinetic. change (n_at s) with 1%nat. change (n_el s) with 1%nat. cbn [sum s at_pos at_charge out_f fst snd Nat.mul Nat.add]. rewrite D1. field. }
  assert (Z : of3 (0, 0, 0) = fun _ => 0) by (apply functional_extensionality; intros [|[|[|k]]]; reflexivity).
  assert (D1 : distance (electron ex_x 0) (fun _ => 0) = 1).
  { unfold distance, norm, dot, electron, ex_x. cbn [sum Nat.mul Nat.add Nat.eqb]. match goal with |- sqrt ?z = 1 => replace z with 1 by ring end. apply sqrt_1. }
  set (ats := [(((fun _ : nat => 2), (fun _ : nat => 1)), (fun _ : nat => 0))] : list (tables * vec)).
  assert (AW : away 1 (length ats) ex_x (places ats)) by (intros e a HE HA; cbn in HA; assert (e = 0%nat) by lia; assert (a = 0%nat) by lia; subst; cbn [places nth ats snd]; rewrite D1; lra).
  assert (GR : grad ex_f ex_x = ex_g).
  { apply functional_extensionality. intros k. unfold grad, ex_f, ex_g. destruct (Nat.eqb_spec 1 k) as [<-|N1].
    - apply is_derive_unique. auto_derive; [exact I|]. unfold ex_x. cbn [Nat.eqb]. ring.
    - apply Derive_const. }
  unfold pp_energy. cbn [info_keys keys snd map app fst]. unfold local_energy. change (forward_f s) with true. cbn [negb]. unfold merge_info. cbn [fst snd app fold_left map].
  cbn [assign app fold_left map fst snd]. match goal with |- context [atom_tables ?r ?d ?k] => change (atom_tables r d k) with (Some (data "Sc"%string)) end. cbn [option_map Lpp_Model.all_some]. rewrite Z.
  change [(data "Sc"%string, fun _ : nat => 0)] with ats. change (log_abs_f s) with ex_f. change (pass_f s) with pass. change (n_el s) with 1%nat. rewrite GR, kinetic_ph_is by exact AW.
  rewrite (energy_ext 1 (length ats) ex_x (places ats) (fun _ _ => 0) (values (rV (spline_f s) (ph_rv s)) snd ats ex_x) (fun _ _ => 1)).
  - cbn [length ats]. rewrite EF. cbn [option_map ecp_elements filter map known Lpp_Model.lookup find fst andb add]. f_equal. cbn [sum]. unfold values. cbn [nth fst snd ats places]. change (rV (spline_f s) (ph_rv s)) with (interp 10000). rewrite interp_const, D1.
    rewrite (proj1 (C89_coulomb 1 (n_at s) ex_x (at_pos s) (at_charge s))). unfold coulomb, pairs. change (n_at s) with 1%nat. cbn [sum s at_pos at_charge]. rewrite D1.
    change (ecp_elements mol [] []) with (@nil string). cbn [add]. f_equal. field.
  - intros a HA. cbn in HA. assert (a = 0%nat) by lia. subst. reflexivity.
  - intros e a HE HA. cbn in HA. assert (a = 0%nat) by lia. subst. unfold values. cbn [nth fst snd ats]. change (rV (spline_f s) (ph_rv s)) with (interp 10000). apply interp_const.
Qed.
