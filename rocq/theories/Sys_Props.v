(** C79: system configuration. *)
From Coq Require Import Reals ZArith List Bool String Lia Lra.
From Verif Require Import Common Spins_Model Spins_Props Elements_Model Sys_Model.
Import ListNotations.
Open Scope Z_scope.

(** ** Rounding *)
Lemma pyround_near x k : (Rabs (x - IZR k) < / 2)%R -> pyround x = k.
Proof.
  intros H. apply Rabs_def2 in H as [H1 H2]. unfold pyround. pose proof (base_Int_part x) as [B1 B2]. set (f := Int_part x) in *.
  assert (F : f = k \/ f = k - 1).
  { assert (f < k + 1) by (apply lt_IZR; rewrite plus_IZR; lra). assert (k - 1 < f + 1) by (apply lt_IZR; rewrite plus_IZR, minus_IZR; lra). lia. }
  destruct F as [-> | ->]; [destruct (Rlt_dec _ _); [reflexivity|lra]|].
  rewrite minus_IZR in *. destruct (Rlt_dec _ _); [lra|]. destruct (Rlt_dec _ _); [lia|lra].
Qed.
Lemma pyround_IZR k : pyround (IZR k) = k.
Proof. apply pyround_near. rewrite Rminus_eq_0, Rabs_R0. lra. Qed.
Lemma isclose_refl x : isclose x x = true.
Proof.
  unfold isclose. destruct (Rle_dec _ _) as [|N]; [reflexivity|exfalso; apply N]. rewrite Rminus_eq_0, Rabs_R0.
  apply Rmult_le_pos; [apply Rlt_le, Rinv_0_lt_compat, pow_lt; lra|]. apply Rle_trans with (Rabs x); [apply Rabs_pos|apply Rmax_l].
Qed.
Definition within_1e9 (x y : R) : Prop := (Rabs (x - y) <= / 10 ^ 9 * Rmax (Rabs x) (Rabs y))%R.
Lemma isclose_spec x y : isclose x y = true <-> within_1e9 x y.
Proof. unfold isclose, within_1e9. destruct (Rle_dec _ _); split; intros; auto; discriminate. Qed.
Lemma pyround_half x : (Rabs (x - IZR (pyround x)) <= / 2)%R.
Proof.
  unfold pyround. pose proof (base_Int_part x) as [B1 B2]. set (f := Int_part x) in *. apply Rabs_le.
  destruct (Rlt_dec _ _); [lra|]. destruct (Rlt_dec _ _); [rewrite plus_IZR; lra|]. destruct (Z.even f); [lra|rewrite plus_IZR; lra].
Qed.
(** Below 4e8, close to an integer means nearer than one half. *)
Lemma close_near x : within_1e9 x (IZR (pyround x)) -> (Rabs x <= 4 * 10 ^ 8)%R -> (Rabs (x - IZR (pyround x)) < / 2)%R.
Proof.
  intros W B. eapply Rle_lt_trans; [exact W|]. pose proof (pyround_half x) as H. pose proof (Rabs_triang_inv (IZR (pyround x)) x) as T.
  rewrite Rabs_minus_sym in H. assert (M : (Rmax (Rabs x) (Rabs (IZR (pyround x))) <= 4 * 10 ^ 8 + 1)%R) by (apply Rmax_lub; lra).
  apply Rle_lt_trans with (/ 10 ^ 9 * (4 * 10 ^ 8 + 1))%R; [apply Rmult_le_compat_l; [apply Rlt_le, Rinv_0_lt_compat, pow_lt; lra|exact M]|lra].
Qed.

Section Library.
Variable element : string -> option (Z * Z).
Variable ecp_core : string -> string -> option Z.
Notation post := (post_init element ecp_core).
Notation atoms_of := (sys_atoms element ecp_core).

(** ** What an accepted configuration satisfies *)
Lemma bind_ok {A B} (r : res A) (f : A -> res B) b : bind r f = Ok b -> exists a, r = Ok a /\ f a = Ok b.
Proof. destruct r; cbn; [eauto|discriminate]. Qed.
Lemma if_ok {A} (b : bool) e (r : res A) a : (if negb b then Raise e else r) = Ok a -> b = true /\ r = Ok a.
Proof. destruct b; cbn; [auto|discriminate]. Qed.

Definition mapping_used (c : sys) (ats : list ratom) : Prop :=
  match sys_pp c with MapPP m => forall k, In k (dict_keys m) -> exists a, In a ats /\ symbol a = k | _ => True end.
(** A hint that can be met: that many electrons near the atom, with that spin. *)
Definition hint_possible (a : ratom) (h : hint) : Prop :=
  0 <= r_charge a + hint_charge h /\
  match local_s_z h with
  | Some s => within_1e9 (2 * s) (IZR (pyround (2 * s))) /\ exists up down, 0 <= up /\ 0 <= down /\ up + down = r_charge a + hint_charge h /\ up - down = pyround (2 * s)
  | None => True
  end.
Definition spin_possible (n k : Z) : Prop := exists up down, 0 <= up /\ 0 <= down /\ up + down = n /\ up - down = k.
Lemma spin_possible_iff n k : spin_possible n k <-> Z.abs k <= n /\ (n + k) mod 2 = 0.
Proof.
  split.
  - intros (a & b & A & B & <- & <-). split; [lia|]. replace (a + b + (a - b)) with (a * 2) by lia. apply Z.mod_mul. lia.
  - intros [A M]. apply Z.mod_divide in M as [q Q]; [|lia]. exists q, (n - q). lia.
Qed.

Lemma post_parts c ats : post c = Ok ats <->
  atoms_of c = Ok ats /\ mapping_used c ats /\ Forall2 hint_possible ats (hints c) /\ 0 <= n_electrons c ats /\
  within_1e9 (2 * s_z c) (IZR (pyround (2 * s_z c))) /\ (Rabs (2 * s_z c) <= IZR (n_electrons c ats))%R /\
  pyround (IZR (n_electrons c ats) + 2 * s_z c) mod 2 = 0.
Proof.
  assert (LEN : atoms_of c = Ok ats -> List.length ats = List.length (hints c)).
  { intros A. apply map_res_spec in A as [L _]. unfold hints. rewrite map_length. exact L. }
  assert (HINTS : List.length ats = List.length (hints c) ->
    (forallb hint_ok (hints c) = true /\ forallb (fun p => atom_config_ok (core_of (fst p)) (ainit_of (snd p))) (combine ats (hints c)) = true) <-> Forall2 hint_possible ats (hints c)).
  { clear LEN. generalize (hints c) as hs0. clear. induction ats as [|a ats IH]; intros [|h hs] L; try discriminate.
    - cbn. split; auto.
    - cbn [List.length] in L. injection L as L; specialize (IH hs L). cbn [forallb combine fst snd]. rewrite !andb_true_iff. split.
      + intros [[H1 H2] [H3 H4]]. constructor; [|apply IH; auto]. unfold hint_possible. unfold atom_config_ok, ainit_of in H3. cbn [charge local_charge imbalance core_of] in H3.
        apply andb_true_iff in H3 as [H3 H5]. apply Z.leb_le in H3. split; [exact H3|]. unfold hint_ok in H1. destruct (local_s_z h) as [s|]; [|exact I].
        apply isclose_spec in H1. split; [exact H1|]. cbn [option_map] in H5. apply andb_true_iff in H5 as [H5 H6]. apply (proj2 (spin_possible_iff _ _)). apply Z.leb_le in H5. apply Z.eqb_eq in H6. auto.
      + intros F. inversion F as [|? ? ? ? [P1 P2] F']; subst. apply IH in F' as [F1 F2]. rewrite F1, F2. unfold hint_ok, atom_config_ok, ainit_of. cbn [charge local_charge imbalance core_of].
        rewrite (proj2 (Z.leb_le _ _) P1). destruct (local_s_z h) as [s|]; cbn [option_map]; [|auto]. destruct P2 as [W P2].
        apply isclose_spec in W. rewrite W. apply (proj1 (spin_possible_iff _ _)) in P2 as [P2 P3]. rewrite (proj2 (Z.leb_le _ _) P2), (proj2 (Z.eqb_eq _ _) P3). auto. }
  assert (MAP : (match sys_pp c with MapPP m => forallb (fun k => existsb (fun a => String.eqb k (symbol a)) ats) (dict_keys m) | _ => true end) = true <-> mapping_used c ats).
  { unfold mapping_used. destruct (sys_pp c) as [| |m]; try tauto. rewrite forallb_forall. split; intros H k K.
    - specialize (H k K). apply existsb_exists in H as (a & A & B). apply String.eqb_eq in B. eauto.
    - destruct (H k K) as (a & A & B). apply existsb_exists. exists a. split; [exact A|]. apply String.eqb_eq. auto. }
  unfold post_init. split.
  - intros H. apply bind_ok in H as (ats' & A & H). apply if_ok in H as [H1 H]. apply if_ok in H as [H2 H]. apply if_ok in H as [H3 H].
    destruct (Z.ltb_spec (n_electrons c ats') 0) as [|N]; [discriminate|]. apply if_ok in H as [H4 H].
    destruct (Rlt_dec _ _) as [|R]; [discriminate|]. cbn [orb] in H. apply if_ok in H as [H5 H]. injection H as ->.
    split; [exact A|]. split; [apply MAP, H2|]. split; [apply HINTS; auto|]. split; [exact N|]. apply isclose_spec in H4. split; [exact H4|]. split; [lra|]. apply Z.eqb_eq, H5.
  - intros (A & M & F & N & W & R & P). rewrite A. cbn [bind]. apply (HINTS (LEN A)) in F as [F1 F2]. apply MAP in M. rewrite F1, F2, M. cbn [negb].
    rewrite (proj2 (Z.ltb_ge _ _) N). apply isclose_spec in W. rewrite W, P. cbn [negb]. destruct (Rlt_dec _ _); [lra|]. reflexivity.
Qed.

(** The electron numbers of an accepted configuration: none negative, together the nuclear
    charges minus the total charge, and their difference 2 s_z. *)
Theorem C79_spins : forall c ats, post c = Ok ats -> n_electrons c ats <= 4 * 10 ^ 8 ->
  let (up, down) := sys_spins c ats in
  0 <= up /\ 0 <= down /\ up + down = zsum (map r_charge ats) - total_charge c /\
  within_1e9 (2 * s_z c) (IZR (up - down)) /\ (forall k, (2 * s_z c = IZR k)%R -> up - down = k).
Proof.
  intros c ats H B. apply post_parts in H as (A & _ & _ & N & W & R & P). unfold sys_spins, electron_spins.
  set (k := pyround (2 * s_z c)) in *. set (n := n_electrons c ats) in *.
  assert (E : zsum (map charge (map core_of ats)) - total_charge c = n) by (rewrite map_map; reflexivity). rewrite E.
  assert (NEAR : (Rabs (2 * s_z c - IZR k) < / 2)%R).
  { apply close_near; [exact W|]. eapply Rle_trans; [exact R|]. apply Rle_trans with (IZR (4 * 10 ^ 8)); [apply IZR_le, B|]. change (4 * 10 ^ 8) with 400000000. lra. }
  assert (PK : pyround (IZR n + 2 * s_z c) = n + k).
  { apply pyround_near. rewrite plus_IZR. replace (IZR n + 2 * s_z c - (IZR n + IZR k))%R with (2 * s_z c - IZR k)%R by ring. exact NEAR. }
  rewrite PK in P.
  assert (KN : Z.abs k <= n).
  { apply Rabs_def2 in NEAR as [N1 N2]. pose proof (Rle_abs (2 * s_z c)). pose proof (Rle_abs (- (2 * s_z c))). rewrite Rabs_Ropp in H0.
    assert (k < n + 1) by (apply lt_IZR; rewrite plus_IZR; lra). assert (- k < n + 1) by (apply lt_IZR; rewrite plus_IZR, opp_IZR; lra). lia. }
  pose proof (proj2 (spin_possible_iff n k) (conj KN P)) as (up & down & U & D & S & Df).
  replace ((n + k) / 2) with up by (apply (Z.div_unique_exact _ 2); lia). replace ((n - k) / 2) with down by (apply (Z.div_unique_exact _ 2); lia).
  split; [exact U|]. split; [exact D|]. split; [unfold n_electrons in n; fold n; exact S|]. rewrite Df. split; [exact W|].
  intros j J. unfold k. rewrite J. apply pyround_IZR.
Qed.

(** For a half-integer s_z a configuration is accepted exactly when its atoms exist, every
    pseudopotential given by element is used, the hints can be met and electron numbers with
    that charge and spin exist. *)
Theorem C79_accepts : forall c k ats, (2 * s_z c = IZR k)%R ->
  post c = Ok ats <->
  atoms_of c = Ok ats /\ mapping_used c ats /\ Forall2 hint_possible ats (hints c) /\
  spin_possible (zsum (map r_charge ats) - total_charge c) k.
Proof.
  intros c k ats K. rewrite post_parts. fold (n_electrons c ats). rewrite K, pyround_IZR, spin_possible_iff.
  rewrite <- plus_IZR, pyround_IZR.
  assert (W : within_1e9 (IZR k) (IZR k)) by (apply isclose_spec, isclose_refl). rewrite Rabs_Zabs.
  split.
  - intros (A & M & F & N & _ & R & P). apply le_IZR in R. auto.
  - intros (A & M & F & R & P). split; [exact A|]. split; [exact M|]. split; [exact F|]. split; [lia|]. split; [exact W|]. split; [apply IZR_le, R|exact P].
Qed.

(** Effective charges. *)
Theorem C79_charge : forall sym q pp a, make_atom element ecp_core sym q pp = Ok a ->
  symbol a = sym /\ r_pp a = pp /\ exists z u, element sym = Some (z, u) /\ r_unpaired a = u /\
  (q = None -> r_charge a = z - core a) /\ (forall v, q = Some v -> r_charge a = v) /\
  match pp with
  | None => core a = 0
  | Some n => if String.eqb n "ph" then core a = 10 /\ r_charge a = z - 10 /\ In sym ph_elements_supported else ecp_core n sym = Some (core a)
  end.
Proof.
  intros sym q pp a H. unfold make_atom in H. apply bind_ok in H as (c & C & H).
  destruct (element sym) as [[z u]|] eqn:E; [|discriminate].
  assert (PC : match pp with None => c = 0 | Some n => if String.eqb n "ph" then c = 10 /\ In sym ph_elements_supported else ecp_core n sym = Some c end).
  { unfold core_electrons in C. destruct pp as [n|]; [|congruence]. unfold PP_PH in C. destruct (String.eqb n "ph").
    - destruct (existsb _ _) eqn:X; [|discriminate]. apply existsb_exists in X as (s & S1 & S2). apply String.eqb_eq in S2. subst s. split; [congruence|exact S1].
    - destruct (ecp_core n sym); [congruence|discriminate]. }
  destruct q as [v|].
  - destruct (negb (v + c =? z) && _) eqn:X; [discriminate|]. injection H as <-. cbn. split; [auto|]. split; [auto|]. exists z, u. split; [auto|]. split; [auto|].
    split; [discriminate|]. split; [congruence|]. destruct pp as [n|]; [|exact PC]. unfold PP_PH in X. destruct (String.eqb n "ph"); [|exact PC]. rewrite andb_true_r in X. apply negb_false_iff, Z.eqb_eq in X. destruct PC as [-> PC]. split; [reflexivity|]. split; [lia|exact PC].
  - injection H as <-. cbn. split; [auto|]. split; [auto|]. exists z, u. split; [auto|]. split; [auto|]. split; [auto|]. split; [discriminate|]. destruct pp as [n|]; [|exact PC]. destruct (String.eqb n "ph"); [|exact PC]. destruct PC as [-> PC]. auto.
Qed.

(** ** Every nucleus is treated once *)
Lemma atoms_pp c ats j a : atoms_of c = Ok ats -> nth_error ats j = Some a -> r_pp a = pp_of (sys_pp c) (symbol a).
Proof.
  intros A J. unfold sys_atoms in A. pose proof (map_res_spec _ _ _ A) as [L M].
  assert (JL : (j < List.length (entries c))%nat) by (rewrite <- L; apply nth_error_Some; congruence).
  destruct (nth_error (entries c) j) as [e|] eqn:E; [|apply nth_error_None in E; lia].
  destruct (M j e E) as (y & Y1 & Y2). rewrite J in Y1. injection Y1 as <-. apply C79_charge in Y2 as (S & P & _). rewrite P, S. reflexivity.
Qed.
Lemma treated_spec l ats j a : nth_error ats j = Some a -> (In j (treated_by l ats) <-> In (symbol a) l).
Proof.
  intros J. unfold treated_by. rewrite filter_In, in_seq, J, existsb_exists. split.
  - intros (_ & s & S1 & S2). apply String.eqb_eq in S2. congruence.
  - intros H. split; [split; [lia|]; cbn; apply nth_error_Some; congruence|]. exists (symbol a). split; [exact H|apply String.eqb_refl].
Qed.
Lemma symbols_spec f ats a : (forall b, In b ats -> symbol b = symbol a -> r_pp b = r_pp a) -> In a ats ->
  (In (symbol a) (map symbol (filter (fun a => match r_pp a with Some n => f n | None => false end) ats)) <-> match r_pp a with Some n => f n = true | None => False end).
Proof.
  intros H A. rewrite in_map_iff. split.
  - intros (b & B & I). apply filter_In in I as [I1 I2]. rewrite (H b I1 B) in I2. destruct (r_pp a); [exact I2|discriminate].
  - intros P. exists a. split; [reflexivity|]. apply filter_In. split; [exact A|]. destruct (r_pp a); [exact P|contradiction].
Qed.
(** The pseudopotential the user chose for an element. *)
Definition chosen (pp : pp_spec) (s n : string) : Prop :=
  match pp with
  | NoPP => False
  | SamePP m => n = m
  | MapPP d => exists before after, d = (before ++ (s, n) :: after)%list /\ ~ In s (map fst before)
  end.
Lemma chosen_spec pp s n : chosen pp s n <-> pp_of pp s = Some n.
Proof.
  destruct pp as [|m|d]; cbn [chosen pp_of].
  - split; [tauto|discriminate].
  - split; congruence.
  - induction d as [|[k v] d IH]; cbn [dict_get].
    + split; [intros ([|? ?] & ? & E & _); discriminate|discriminate].
    + destruct (String.eqb_spec s k) as [E|E].
      * subst. split; [|intros H; injection H as ->; exists [], d; auto]. intros ([|[k' v'] b] & a & E & N); [injection E as -> ->; reflexivity|]. injection E as <- <- ->. contradiction N. left. reflexivity.
      * rewrite <- IH. split.
        { intros ([|[k' v'] b] & a & X & N); [injection X as <- <- ->; contradiction E; reflexivity|]. injection X as <- <- ->. exists b, a. split; [reflexivity|]. intros I. apply N. right. exact I. }
        { intros (b & a & -> & N). exists ((k, v) :: b), a. split; [reflexivity|]. cbn. intros [H|H]; [congruence|contradiction]. }
Qed.
(** The ECP acts on the atoms whose pseudopotential is an ECP, the pseudo-Hamiltonian on
    those with "ph", no atom gets both; the kinetic energy is computed once, by the
    pseudo-Hamiltonian if and only if some atom has one. *)
Theorem C79_terms : forall c ats, atoms_of c = Ok ats ->
  (forall j a, nth_error ats j = Some a ->
    (In j (treated_by (ecp_symbols ats) ats) <-> exists n, chosen (sys_pp c) (symbol a) n /\ n <> "ph"%string) /\
    (In j (treated_by (ph_symbols ats) ats) <-> chosen (sys_pp c) (symbol a) "ph")) /\
  (forall l, In (Ecp l) (energy_terms ats) -> l = ecp_symbols ats) /\ (forall l, In (Ph l) (energy_terms ats) -> l = ph_symbols ats) /\
  ((exists l, In (Ecp l) (energy_terms ats)) <-> exists a n, In a ats /\ chosen (sys_pp c) (symbol a) n /\ n <> "ph"%string) /\
  ((exists l, In (Ph l) (energy_terms ats)) <-> exists a, In a ats /\ chosen (sys_pp c) (symbol a) "ph") /\
  (In Kinetic (energy_terms ats) <-> ~ exists l, In (Ph l) (energy_terms ats)).
Proof.
  intros c ats A. setoid_rewrite chosen_spec.
  assert (PP : forall a, In a ats -> r_pp a = pp_of (sys_pp c) (symbol a)).
  { intros a I. apply In_nth_error in I as [j J]. apply (atoms_pp c ats j a A J). }
  assert (SAME : forall a, In a ats -> forall b, In b ats -> symbol b = symbol a -> r_pp b = r_pp a).
  { intros a I b J E. rewrite (PP a I), (PP b J), E. reflexivity. }
  assert (ECP : forall a, In a ats -> (In (symbol a) (ecp_symbols ats) <-> exists n, pp_of (sys_pp c) (symbol a) = Some n /\ n <> "ph"%string)).
  { intros a I. unfold ecp_symbols. rewrite (symbols_spec (fun n => negb (String.eqb n PP_PH)) ats a (SAME a I) I), (PP a I).
    destruct (pp_of (sys_pp c) (symbol a)) as [n|]; [|split; [tauto|intros (n & N & _); discriminate]]. unfold PP_PH. rewrite negb_true_iff, String.eqb_neq. split; [eauto|]. intros (m & M & N). congruence. }
  assert (PH : forall a, In a ats -> (In (symbol a) (ph_symbols ats) <-> pp_of (sys_pp c) (symbol a) = Some "ph"%string)).
  { intros a I. unfold ph_symbols. rewrite (symbols_spec (fun n => String.eqb n PP_PH) ats a (SAME a I) I), (PP a I).
    destruct (pp_of (sys_pp c) (symbol a)) as [n|]; [|split; [tauto|discriminate]]. unfold PP_PH. rewrite String.eqb_eq. split; congruence. }
  assert (EMP : forall f, map symbol (filter f ats) <> [] -> exists a, In a ats /\ In (symbol a) (map symbol (filter f ats))).
  { intros f N. destruct (filter f ats) as [|a l] eqn:F; [contradiction N; reflexivity|]. exists a. split; [|left; reflexivity]. apply (filter_In f a ats). rewrite F. left. reflexivity. }
  split.
  { intros j a J. rewrite !(treated_spec _ ats j a J). pose proof (nth_error_In _ _ J) as I. split; [apply ECP, I|apply PH, I]. }
  assert (TE : forall l, In (Ecp l) (energy_terms ats) <-> l = ecp_symbols ats /\ l <> []).
  { intros l. unfold energy_terms. rewrite !in_app_iff. destruct (ph_symbols ats), (ecp_symbols ats) as [|e es]; cbn; split; intros H; intuition (try congruence); try discriminate. }
  assert (TP : forall l, In (Ph l) (energy_terms ats) <-> l = ph_symbols ats /\ l <> []).
  { intros l. unfold energy_terms. rewrite !in_app_iff. destruct (ph_symbols ats), (ecp_symbols ats) as [|e es]; cbn; split; intros H; intuition (try congruence); try discriminate. }
  split; [intros l H; apply TE, H|]. split; [intros l H; apply TP, H|]. split; [|split].
  - split.
    + intros (l & H). apply TE in H as [-> N]. destruct (EMP _ N) as (a & I & S). apply (ECP a I) in S as (n & S). eauto.
    + intros (a & n & I & P). exists (ecp_symbols ats). apply TE. split; [reflexivity|]. assert (S : In (symbol a) (ecp_symbols ats)) by (apply ECP; eauto). destruct (ecp_symbols ats); [contradiction|discriminate].
  - split.
    + intros (l & H). apply TP in H as [-> N]. destruct (EMP _ N) as (a & I & S). apply (PH a I) in S. eauto.
    + intros (a & I & P). exists (ph_symbols ats). apply TP. split; [reflexivity|]. assert (S : In (symbol a) (ph_symbols ats)) by (apply PH; auto). destruct (ph_symbols ats); [contradiction|discriminate].
  - split.
    + intros K (l & H). apply TP in H as [-> N]. unfold energy_terms in K. rewrite !in_app_iff in K. destruct (ph_symbols ats); [contradiction N; reflexivity|]. destruct (ecp_symbols ats); cbn in K; intuition discriminate.
    + intros N. unfold energy_terms. rewrite !in_app_iff. destruct (ph_symbols ats) as [|p ps] eqn:E; [right; left; left; reflexivity|]. exfalso. apply N. exists (p :: ps). apply TP; split; [congruence|discriminate].
Qed.
End Library.

(** ** The initial walker *)
Lemma count_occ_repeat (x y : nat) n : count_occ Nat.eq_dec (repeat x n) y = if Nat.eq_dec x y then n else O.
Proof. induction n as [|n IH]; cbn; [destruct (Nat.eq_dec x y); reflexivity|]. rewrite IH. destruct (Nat.eq_dec x y); reflexivity. Qed.
Definition block (f : Z * Z -> Z) (spins : list (Z * Z)) : list nat := flat_map (fun j => repeat j (Z.to_nat (f (nth j spins (0, 0))))) (seq 0 (List.length spins)).
Lemma centres_blocks spins : centres spins = (block fst spins ++ block snd spins)%list.
Proof. unfold centres. cbn. rewrite app_nil_r. reflexivity. Qed.
Lemma block_gen (f : Z * Z -> Z) : forall spins (g : nat -> Z * Z) k, (forall j, (j < List.length spins)%nat -> g (k + j)%nat = nth j spins (0, 0)) ->
  (forall s, In s spins -> 0 <= f s) ->
  let b := flat_map (fun j => repeat j (Z.to_nat (f (g j)))) (seq k (List.length spins)) in
  Z.of_nat (List.length b) = zsum (map f spins) /\
  (forall j, count_occ Nat.eq_dec b j = if ((k <=? j) && (j <? k + List.length spins))%nat then Z.to_nat (f (nth (j - k) spins (0, 0))) else O).
Proof.
  induction spins as [|s spins IH]; intros g k G N; cbn zeta.
  - split; [reflexivity|]. intros j. cbn [List.length seq flat_map count_occ]. rewrite Nat.add_0_r. destruct (Nat.leb_spec k j), (Nat.ltb_spec j k); try reflexivity; lia.
  - cbn [List.length seq flat_map map]. assert (G0 : g k = s) by (pose proof (G 0%nat ltac:(cbn; lia)) as X; rewrite Nat.add_0_r in X; exact X).
    assert (G1 : forall j, (j < List.length spins)%nat -> g (S k + j)%nat = nth j spins (0, 0)).
    { intros j Hj. replace (S k + j)%nat with (k + S j)%nat by lia. rewrite G by (cbn; lia). reflexivity. }
    destruct (IH g (S k) G1 ltac:(intros; apply N; right; auto)) as [L C]. split.
    + rewrite app_length, repeat_length, Nat2Z.inj_add, L, G0, Z2Nat.id by (apply N; left; reflexivity). reflexivity.
    + intros j. rewrite count_occ_app, count_occ_repeat, C, G0. destruct (Nat.eq_dec k j) as [<-|K].
      * destruct (Nat.leb_spec (S k) k); [lia|]. destruct (Nat.leb_spec k k), (Nat.ltb_spec k (k + S (List.length spins))); try lia. cbn [andb]. rewrite Nat.sub_diag. cbn. lia.
      * destruct (Nat.leb_spec (S k) j), (Nat.leb_spec k j), (Nat.ltb_spec j (S k + List.length spins)), (Nat.ltb_spec j (k + S (List.length spins))); try lia; cbn [andb]; try reflexivity.
        replace (j - k)%nat with (S (j - S k)) by lia. reflexivity.
Qed.
Lemma block_spec f spins : (forall s, In s spins -> 0 <= f s) ->
  Z.of_nat (List.length (block f spins)) = zsum (map f spins) /\
  forall j, (j < List.length spins)%nat -> count_occ Nat.eq_dec (block f spins) j = Z.to_nat (f (nth j spins (0, 0))).
Proof.
  intros N. destruct (block_gen f spins (fun j => nth j spins (0, 0)) 0 ltac:(intros; reflexivity) N) as [A B]. split; [exact A|].
  intros j J. unfold block. rewrite B. destruct (Nat.leb_spec 0 j), (Nat.ltb_spec j (0 + List.length spins)); try lia. cbn [andb]. rewrite Nat.sub_0_r. reflexivity.
Qed.

(** Rows of the initial walker: first all spin-up electrons, then all spin-down ones; each
    atom is the centre of as many of either as it was assigned. *)
Theorem C79_walker : forall spins, nonneg spins ->
  let up := Z.to_nat (alphas spins) in
  Z.of_nat (List.length (centres spins)) = alphas spins + betas spins /\
  (forall j, (j < List.length spins)%nat ->
    count_occ Nat.eq_dec (firstn up (centres spins)) j = Z.to_nat (fst (nth j spins (0, 0))) /\
    count_occ Nat.eq_dec (skipn up (centres spins)) j = Z.to_nat (snd (nth j spins (0, 0)))) /\
  (forall j, In j (centres spins) -> (j < List.length spins)%nat).
Proof.
  intros spins N up. unfold nonneg in N. rewrite Forall_forall in N.
  destruct (block_spec fst spins ltac:(intros s S; apply N, S)) as [A1 A2]. destruct (block_spec snd spins ltac:(intros s S; apply N, S)) as [B1 B2].
  assert (U : up = List.length (block fst spins)) by (unfold up, alphas; rewrite <- A1; apply Nat2Z.id).
  rewrite centres_blocks. split; [rewrite app_length, Nat2Z.inj_add, A1, B1; reflexivity|]. split.
  - intros j J. rewrite U, firstn_app, firstn_all, Nat.sub_diag, firstn_O, app_nil_r, skipn_app, skipn_all, Nat.sub_diag, skipn_O. cbn [app]. auto.
  - intros j J. apply in_app_iff in J. unfold block in J. rewrite !in_flat_map in J. destruct J as [(i & I & J)|(i & I & J)]; apply repeat_spec in J; subst i; apply in_seq in I; lia.
Qed.

(** Solids: the same for every copy of the primitive cell. *)
Lemma concat_repeat_nth (spins : list (Z * Z)) d : forall n c j, (c < n)%nat -> (j < List.length spins)%nat ->
  nth (c * List.length spins + j) (List.concat (repeat spins n)) d = nth j spins d.
Proof.
  induction n as [|n IH]; intros c j C J; [lia|]. cbn [repeat List.concat]. destruct c as [|c].
  - cbn. apply app_nth1, J.
  - rewrite app_nth2 by (cbn; lia). replace (S c * List.length spins + j - List.length spins)%nat with (c * List.length spins + j)%nat by (cbn; lia). apply IH; [lia|exact J].
Qed.
Lemma concat_repeat_len {A} (l : list A) n : List.length (List.concat (repeat l n)) = (n * List.length l)%nat.
Proof. induction n as [|n IH]; [reflexivity|]. cbn. rewrite app_length, IH. reflexivity. Qed.
Lemma zsum_app a b : zsum (a ++ b)%list = zsum a + zsum b.
Proof. unfold zsum. induction a as [|x a IH]; cbn [app fold_right]; [lia|]. rewrite IH. lia. Qed.
Lemma zsum_concat f (l : list (Z * Z)) n : zsum (map f (List.concat (repeat l n))) = Z.of_nat n * zsum (map f l).
Proof. induction n as [|n IH]; [reflexivity|]. cbn [repeat List.concat]. rewrite map_app, zsum_app, IH. lia. Qed.
Theorem C79_solid_walker : forall scale spins, nonneg spins ->
  let up := Z.to_nat (Z.of_nat scale * alphas spins) in
  Z.of_nat (List.length (solid_centres scale spins)) = Z.of_nat scale * (alphas spins + betas spins) /\
  (forall copy j, (copy < scale)%nat -> (j < List.length spins)%nat ->
    count_occ Nat.eq_dec (firstn up (solid_centres scale spins)) (copy * List.length spins + j)%nat = Z.to_nat (fst (nth j spins (0, 0))) /\
    count_occ Nat.eq_dec (skipn up (solid_centres scale spins)) (copy * List.length spins + j)%nat = Z.to_nat (snd (nth j spins (0, 0)))).
Proof.
  intros scale spins N up. unfold solid_centres.
  assert (NN : nonneg (List.concat (repeat spins scale))).
  { unfold nonneg in *. rewrite Forall_forall in *. intros s S. apply in_concat in S as (l & L1 & L2). apply repeat_spec in L1. subst l. auto. }
  destruct (C79_walker _ NN) as (L & C & _). unfold alphas, betas in *. rewrite !zsum_concat in *. split; [rewrite L; lia|].
  intros copy j Hc Hj. unfold up. specialize (C (copy * List.length spins + j)%nat). rewrite concat_repeat_nth in C by assumption. apply C. rewrite concat_repeat_len. nia.
Qed.

(** ** Every accepted neutral system starts
    If no hints and no charges are given and the atoms have at least their unpaired
    electrons, of the right parity, then electrons are assigned whatever the random choices. *)
Lemma totals_nonneg (l : list (Z * Z)) : Forall (fun s => 0 <= fst s /\ 0 <= snd s) l -> 0 <= alphas l /\ 0 <= betas l.
Proof. intros N. induction N as [|s l [S1 S2] N IH]; unfold alphas, betas, zsum in *; cbn [map fold_right] in *; lia. Qed.
Lemma assign_exists : forall (l : list (Z * Z)) k, Forall (fun s => 0 <= fst s /\ 0 <= snd s) l -> 0 <= k <= alphas l + betas l ->
  exists f, respects (map (fun _ => false) l) l f /\ nonneg f /\ alphas f = k.
Proof.
  induction l as [|s l IH]; intros k N K.
  - exists []. unfold alphas, betas, zsum in *. cbn in *. split; [split; [reflexivity|cbn; lia]|]. split; [constructor|lia].
  - inversion N as [|? ? [S1 S2] N']; subst. set (x := Z.min k (fst s + snd s)).
    destruct (IH (k - x) N') as (f & [RL R] & FN & FA). { pose proof (totals_nonneg l N'). unfold alphas, betas, zsum in *. cbn [map fold_right] in K. lia. }
    exists ((x, fst s + snd s - x) :: f). split; [|split].
    + split; [cbn; lia|]. intros [|j] J; cbn [nth map List.length] in *; [split; [cbn; lia|discriminate]|]. apply R. lia.
    + constructor; [cbn; lia|exact FN].
    + unfold alphas, zsum in *. cbn [map fold_right]. cbn [fst]. lia.
Qed.

Definition plain (e : string * option Z * hint) : Prop := snd (fst e) = None /\ local_s_z (snd e) = None /\ hint_charge (snd e) = 0.
Lemma spin_config_even a : 0 <= unpaired a <= charge a -> (charge a + unpaired a) mod 2 = 0 ->
  0 <= fst (spin_config a) /\ 0 <= snd (spin_config a) /\ fst (spin_config a) + snd (spin_config a) = charge a.
Proof.
  intros U P. apply Z.mod_divide in P as [q Q]; [|lia]. unfold spin_config. cbn [fst snd].
  replace ((charge a + unpaired a) / 2) with q by (apply (Z.div_unique_exact _ 2); lia). replace ((charge a - unpaired a) / 2) with (charge a - q) by (apply (Z.div_unique_exact _ 2); lia). lia.
Qed.
Theorem C79_starts : forall element ecp_core pick c ats, (forall d n, (0 < n)%nat -> (pick d n < n)%nat) ->
  post_init element ecp_core c = Ok ats -> n_electrons c ats <= 4 * 10 ^ 8 -> total_charge c = 0 -> Forall plain (entries c) -> entries c <> [] ->
  Forall (fun a => 0 <= r_unpaired a <= r_charge a /\ (r_charge a + r_unpaired a) mod 2 = 0) ats ->
  exists n, forall fuel, (n <= fuel)%nat -> exists spins,
    distribute pick fuel (map core_of ats) (map ainit_of (hints c)) (sys_spins c ats) = Some (Ok spins) /\
    nonneg spins /\ alphas spins = fst (sys_spins c ats) /\ betas spins = snd (sys_spins c ats) /\
    (forall j a, nth_error ats j = Some a -> fst (nth j spins (0, 0)) + snd (nth j spins (0, 0)) = r_charge a).
Proof.
  intros element ecp_core pick c ats PR H B TC PL NE FA.
  pose proof (C79_spins element ecp_core c ats H B) as SP. pose proof H as H0. apply post_parts in H as (A & _). set (total := sys_spins c ats) in *.
  assert (L : List.length ats = List.length (hints c)). { apply map_res_spec in A as [L _]. unfold hints. rewrite map_length. exact L. }
  set (inits := map ainit_of (hints c)).
  assert (LI : List.length (map core_of ats) = List.length inits) by (unfold inits; rewrite !map_length; exact L).
  assert (IN : forall i, In i inits -> imbalance i = None /\ local_charge i = 0).
  { intros i I. unfold inits, hints in I. rewrite map_map, in_map_iff in I. destruct I as (e & <- & E). rewrite Forall_forall in PL. destruct (PL e E) as (_ & P1 & P2). cbn. rewrite P1, P2. auto. }
  destruct (C31_terminates pick PR (map core_of ats) inits total LI) as [n T]. exists n. intros fuel F. specialize (T fuel F).
  assert (Z0 : zsum (map local_charge inits) = 0).
  { clear - IN. clearbody inits. induction inits as [|i l IH]; [reflexivity|]. unfold zsum in *. cbn [map fold_right]. destruct (IN i ltac:(left; reflexivity)) as [_ ->]. rewrite IH; [reflexivity|]. intros j J. apply IN. right. exact J. }
  set (start := map (fun a => spin_config (core_of a)) ats).
  assert (M : map_res (fun p => atom_spins (fst p) (snd p)) (combine (map core_of ats) inits) = Ok start).
  { unfold start. clear - FA IN LI. clearbody inits. revert inits IN LI. induction FA as [|a ats Ha FA IH]; intros [|i inits] IN LI; try discriminate; [reflexivity|].
    cbn [map combine map_res fst snd]. destruct (IN i ltac:(left; reflexivity)) as [I1 I2].
    assert (AS : atom_spins (core_of a) i = Ok (spin_config (core_of a))).
    { destruct (spin_config_even (core_of a)) as (S1 & S2 & S3); [apply Ha|apply Ha|]. unfold atom_spins. rewrite I1, I2. destruct (spin_config (core_of a)) as [x y]. cbn [fst snd] in *.
      destruct (Z.gtb_spec 0 x); [lia|]. rewrite Z.sub_0_r. cbn [fst snd]. destruct (Z.ltb_spec x 0); [lia|]. destruct (Z.ltb_spec y 0); [lia|]. reflexivity. }
    rewrite AS. cbn [bind]. rewrite (IH inits); [reflexivity| |cbn in LI; lia]. intros j J. apply IN. right. exact J. }
  assert (NS : Forall (fun s => 0 <= fst s /\ 0 <= snd s) start).
  { unfold start. apply Forall_forall. intros s S. apply in_map_iff in S as (a & <- & I). rewrite Forall_forall in FA. destruct (FA a I). destruct (spin_config_even (core_of a)); auto. tauto. }
  assert (SS : alphas start + betas start = zsum (map r_charge ats)).
  { unfold start. clear - FA. unfold alphas, betas. rewrite !map_map. induction FA as [|a ats Ha FA IH]; [reflexivity|]. unfold zsum in *. cbn [map fold_right].
    destruct (spin_config_even (core_of a)) as (_ & _ & S3); [apply Ha|apply Ha|]. cbn [core_of charge] in S3. lia. }
  destruct total as [up down] eqn:ET. destruct SP as (U & D & S & _). rewrite TC in S.
  assert (FX : map is_fixed inits = map (fun _ => false) start).
  { assert (LS : List.length inits = List.length start) by (unfold start; rewrite map_length, <- LI, map_length; reflexivity). clear - IN LS. clearbody inits. revert LS IN. generalize start. induction inits as [|i l IH]; intros [|s st] LS IN; try discriminate; [reflexivity|].
    cbn [map]. unfold is_fixed at 1. destruct (IN i ltac:(left; reflexivity)) as [-> _]. f_equal. apply IH; [cbn in LS; lia|]. intros j J. apply IN. right. exact J. }
  assert (NF : forallb (fun b => b) (map is_fixed inits) = false).
  { rewrite FX. destruct start as [|s st] eqn:E; [|reflexivity]. exfalso. unfold start in E. apply map_eq_nil in E. subst ats. apply NE. apply map_res_spec in A as [L0 _]. destruct (entries c); [reflexivity|discriminate]. }
  destruct (distribute pick fuel (map core_of ats) inits (up, down)) as [[spins|e]|] eqn:ED; [| |contradiction].
  - exists spins. destruct (C31_assignment pick PR fuel _ inits (up, down) spins LI ED) as (st & HI & [RL RR] & NN & SA & SB). cbn [fst snd] in SA, SB.
    split; [reflexivity|]. split; [exact NN|]. split; [exact SA|]. split; [exact SB|].
    intros j a J. destruct HI as [HL HH]. assert (J' : nth_error (map core_of ats) j = Some (core_of a)) by (rewrite nth_error_map, J; reflexivity).
    destruct (nth_error inits j) as [i|] eqn:EI.
    + destruct (HH j _ i J' EI) as (s & S1 & S2). assert (Lj : (j < List.length st)%nat) by (apply nth_error_Some; congruence).
      destruct (RR j Lj) as [R1 _]. rewrite R1. rewrite (nth_error_nth _ _ _ S1). rewrite Forall_forall in FA. destruct (FA a (nth_error_In _ _ J)) as [P1 P2].
      destruct (spin_config_even (core_of a) P1 P2) as (Q1 & Q2 & Q3). unfold atom_spins in S2. destruct (IN i (nth_error_In _ _ EI)) as [-> ->] in S2.
      destruct (Z.gtb_spec 0 (fst (spin_config (core_of a)))); [lia|]. rewrite Z.sub_0_r in S2. cbn [fst snd] in S2. destruct ((_ <? 0) || _); [discriminate|]. injection S2 as <-. exact Q3.
    + apply nth_error_None in EI. assert (j < List.length (map core_of ats))%nat by (apply nth_error_Some; congruence). lia.
  - exfalso. unfold distribute in ED. rewrite Z0, M in ED. change (0 =? 0) with true in ED. cbn [negb fst snd] in ED. rewrite SS in ED.
    replace (up + down =? zsum (map r_charge ats)) with true in ED by (symmetry; apply Z.eqb_eq; lia). cbn [negb] in ED. rewrite NF in ED.
    apply (C31_raises_only_if_impossible pick PR) in ED; [|rewrite FX, map_length; reflexivity|exact NS]. apply ED.
    destruct (assign_exists start up NS ltac:(lia)) as (f & F1 & F2 & F3). exists f. rewrite FX. auto.
Qed.

(** The element table: neutral atoms have a possible number of unpaired electrons, and so
    have the elements with a pseudo-Hamiltonian without their neon core. *)
Lemma dict_get_In {A} (d : list (string * A)) k v : dict_get d k = Some v -> In (k, v) d.
Proof. induction d as [|[k' v'] d IH]; cbn; [discriminate|]. destruct (String.eqb_spec k k') as [->|]; intros H; [injection H as ->; auto|auto]. Qed.
Theorem C79_elements : forall s z u, element_of s = Some (z, u) ->
  0 <= u <= z /\ (z + u) mod 2 = 0 /\ (In s ph_elements_supported -> 0 <= u <= z - 10 /\ (z - 10 + u) mod 2 = 0).
Proof.
  intros s z u H. unfold element_of in H. destruct (dict_get elements s) as [[[z' g] sp]|] eqn:E; [|discriminate]. apply dict_get_In in E.
  assert (ALL : forallb (fun e => match e with (s, (z, g, sp)) =>
    match unpaired_electron g sp with
    | Some u => (0 <=? u) && (u <=? z) && ((z + u) mod 2 =? 0) && (negb (existsb (String.eqb s) ph_elements_supported) || (u <=? z - 10) && ((z - 10 + u) mod 2 =? 0))
    | None => true end end) elements = true) by (vm_compute; reflexivity).
  rewrite forallb_forall in ALL. specialize (ALL _ E). cbn beta iota in ALL. destruct (unpaired_electron g sp) as [u'|]; [|discriminate]. cbn in H. injection H as -> ->.
  apply andb_true_iff in ALL as [ALL P]. apply andb_true_iff in ALL as [ALL Q]. apply andb_true_iff in ALL as [U1 U2]. apply Z.leb_le in U1, U2. apply Z.eqb_eq in Q.
  split; [auto|]. split; [exact Q|]. intros I. apply orb_true_iff in P as [P|P].
  - apply negb_true_iff in P. exfalso. assert (X : existsb (String.eqb s) ph_elements_supported = true) by (apply existsb_exists; exists s; split; [exact I|apply String.eqb_refl]). congruence.
  - apply andb_true_iff in P as [P1 P2]. apply Z.leb_le in P1. apply Z.eqb_eq in P2. auto.
Qed.
(** So with the package's elements, all-electron or with the pseudo-Hamiltonian, every
    accepted neutral system without hints and charges of its own starts. *)
Theorem C79_starts_table : forall ecp_core pick c ats, (forall d n, (0 < n)%nat -> (pick d n < n)%nat) ->
  post_init element_of ecp_core c = Ok ats -> n_electrons c ats <= 4 * 10 ^ 8 -> total_charge c = 0 -> Forall plain (entries c) -> entries c <> [] ->
  (forall e, In e (entries c) -> match pp_of (sys_pp c) (fst (fst e)) with Some n => n = "ph"%string | None => True end) ->
  exists n, forall fuel, (n <= fuel)%nat -> exists spins,
    distribute pick fuel (map core_of ats) (map ainit_of (hints c)) (sys_spins c ats) = Some (Ok spins) /\
    nonneg spins /\ alphas spins = fst (sys_spins c ats) /\ betas spins = snd (sys_spins c ats) /\
    (forall j a, nth_error ats j = Some a -> fst (nth j spins (0, 0)) + snd (nth j spins (0, 0)) = r_charge a).
Proof.
  intros ecp_core pick c ats PR H B TC PL NE PP. apply (C79_starts element_of ecp_core pick c ats PR H B TC PL NE).
  apply post_parts in H as (A & _). unfold sys_atoms in A. pose proof (map_res_spec _ _ _ A) as [L M]. apply Forall_forall. intros a I. apply In_nth_error in I as [j J].
  destruct (nth_error (entries c) j) as [e|] eqn:E; [|apply nth_error_None in E; assert (j < List.length ats)%nat by (apply nth_error_Some; congruence); lia].
  destruct (M j e E) as (y & Y1 & Y2). rewrite J in Y1. injection Y1 as <-. apply C79_charge in Y2 as (_ & _ & z & u & EL & U & Q & _ & P).
  pose proof (nth_error_In _ _ E) as IE. rewrite Forall_forall in PL. destruct (PL e IE) as (N & _). specialize (Q N). specialize (PP e IE).
  destruct (C79_elements _ z u EL) as (X1 & X2 & X3). rewrite U. destruct (pp_of (sys_pp c) (fst (fst e))) as [n|].
  - subst n. cbn in P. destruct P as (_ & P & S). rewrite P. apply X3, S.
  - rewrite P in Q. rewrite Q, Z.sub_0_r. auto.
Qed.

(** ** What fails: an atom with a charge of its own whose parity differs from the element's
    is accepted, and then no electrons can be assigned. *)
Definition table (s : string) : option (Z * Z) :=
  if String.eqb s "C" then Some (6, 2) else if String.eqb s "H" then Some (1, 1) else if String.eqb s "Fe" then Some (26, 4) else None.
Definition no_hint : hint := {| local_s_z := None; hint_charge := 0 |}.
Lemma spin_sys c ats k : (2 * s_z c = IZR k)%R -> sys_atoms table (fun _ _ => None) c = Ok ats -> mapping_used c ats -> hints c = map (fun _ => no_hint) ats ->
  Forall (fun a => 0 <= r_charge a) ats -> spin_possible (zsum (map r_charge ats) - total_charge c) k -> post_init table (fun _ _ => None) c = Ok ats.
Proof.
  intros K A M HH F S. apply (proj2 (C79_accepts table (fun _ _ => None) c k ats K)). split; [exact A|]. split; [exact M|]. split; [|exact S].
  rewrite HH. clear - F. induction F as [|a l Ha F IH]; [constructor|]. constructor; [|exact IH]. split; [cbn; lia|exact I].
Qed.
Theorem C79_custom_charge_refuted : exists c ats, post_init table (fun _ _ => None) c = Ok ats /\ total_charge c = 0 /\
  Forall (fun h => h = no_hint) (hints c) /\
  forall pick fuel, distribute pick fuel (map core_of ats) (map ainit_of (hints c)) (sys_spins c ats) = Some (Raise ValueError).
Proof.
  exists {| sys_pp := NoPP; total_charge := 0; s_z := / 2; entries := [("C"%string, Some 5, no_hint)] |}.
  exists [{| symbol := "C"; r_charge := 5; core := 0; r_pp := None; r_unpaired := 2 |}].
  split; [|split; [reflexivity|split; [repeat constructor|]]].
  - apply (spin_sys _ _ 1); [cbn [s_z]; lra|reflexivity|exact I|reflexivity|repeat constructor; cbn; lia|exists 3, 2; cbn; lia].
  - intros pick fuel. unfold sys_spins. cbn [s_z map hints entries snd]. replace (pyround (2 * / 2)) with 1; [reflexivity|]. replace (2 * / 2)%R with (IZR 1) by lra. symmetry. apply pyround_IZR.
Qed.

(** Iron ("ph") and carbon. *)
Theorem C79_example :
  let c := {| sys_pp := MapPP [("Fe", "ph")]%string; total_charge := 0; s_z := 1; entries := [("Fe"%string, None, no_hint); ("C"%string, None, no_hint)] |} in
  exists ats, post_init table (fun _ _ => None) c = Ok ats /\ sys_spins c ats = (12, 10) /\
    energy_terms ats = [Potential; Ph ["Fe"%string]; Total] /\
    (forall pick, (forall d n, (0 < n)%nat -> (pick d n < n)%nat) -> exists n, forall fuel, (n <= fuel)%nat -> exists spins,
      distribute pick fuel (map core_of ats) (map ainit_of (hints c)) (sys_spins c ats) = Some (Ok spins)).
Proof.
  intros c. exists [{| symbol := "Fe"; r_charge := 16; core := 10; r_pp := Some "ph"%string; r_unpaired := 4 |}; {| symbol := "C"; r_charge := 6; core := 0; r_pp := None; r_unpaired := 2 |}].
  assert (P : post_init table (fun _ _ => None) c = Ok [{| symbol := "Fe"; r_charge := 16; core := 10; r_pp := Some "ph"%string; r_unpaired := 4 |}; {| symbol := "C"; r_charge := 6; core := 0; r_pp := None; r_unpaired := 2 |}]).
  { apply (spin_sys _ _ 2); [cbn [s_z c]; lra|reflexivity| |reflexivity|repeat constructor; cbn; lia|exists 12, 10; cbn; lia].
    intros k [<-|[]]. eexists. split; [left; reflexivity|reflexivity]. }
  assert (S : pyround (2 * s_z c) = 2) by (cbn [s_z c]; replace (2 * 1)%R with (IZR 2) by lra; apply pyround_IZR).
  split; [exact P|]. split; [unfold sys_spins; rewrite S; reflexivity|]. split; [reflexivity|]. intros pick PR.
  destruct (C79_starts table (fun _ _ => None) pick c _ PR P) as [n N]; [cbn; lia|reflexivity|repeat constructor|discriminate|repeat constructor; cbn; lia|].
  exists n. intros fuel F. destruct (N fuel F) as (spins & E & _). eauto.
Qed.
