(** C69, free electrons on the Haldane sphere, and concrete cases. *)
From Coq Require Import Reals List Arith Bool Lra Lia Permutation.
From Coquelicot Require Import Coquelicot.
From Verif Require Import Lin Geom_Model Det Wf_Model Wf_Spec Wf_Lemmas Wf_Logdet Wf_Props Hall_Model Hall_Spec Vandermonde Det_T Hall_Lemmas Hall_Props.
Import ListNotations.
Open Scope R_scope.

Theorem C69_free_exchange : forall ns flux e a b, (a < fst ns + snd ns)%nat -> (b < fst ns + snd ns)%nat -> a <> b ->
  copposite (free ns flux e) (free ns flux (exchange a b e)).
Proof.
  intros ns flux e a b A B N. unfold free. change (fst ns + snd ns)%nat with (n_el ns) in *.
  assert (E : cdet (n_el ns) (free_entry ns flux (exchange a b e)) = Copp (cdet (n_el ns) (free_entry ns flux e))).
  { rewrite <- (det_swap_columns _ _ Cplus Cmult Cminus Copp C_rt (n_el ns) a b _ A B N : cdet _ _ = _). apply cdet_ext. intros r c _ _. unfold free_entry. rewrite exchange_swap. reflexivity. }
  rewrite E. exact (logdet_complex_opp [_]).
Qed.

(** ** The orbitals that are filled *)
Lemma fill_length flux n : forall s k, length (fill flux n s k) = n.
Proof. induction n as [|n IH]; intros s k; [reflexivity|]. cbn [fill length]. destruct (Nat.ltb _ _); rewrite IH; reflexivity. Qed.
(** position of the orbital (shell, k) in the enumeration shell by shell *)
Fixpoint before (flux shell : nat) : nat := match shell with O => O | S s => (before flux s + (flux + 2 * s + 1))%nat end.
Lemma before_mono flux s s' : (s < s')%nat -> (before flux s + (flux + 2 * s + 1) <= before flux s')%nat.
Proof. induction s' as [|s' IH]; intros H; [lia|]. cbn [before]. destruct (Nat.eq_dec s s') as [->|]; [lia|]. specialize (IH ltac:(lia)). lia. Qed.
Lemma fill_in flux n : forall s k, (k <= flux + 2 * s)%nat -> forall s' k',
  In (s', k') (fill flux n s k) <-> (k' <= flux + 2 * s' /\ before flux s + k <= before flux s' + k' < before flux s + k + n)%nat.
Proof.
  induction n as [|n IH]; intros s k K s' k'; cbn [fill In].
  - split; [tauto|lia].
  - assert (HD : (s, k) = (s', k') <-> (k' <= flux + 2 * s' /\ before flux s' + k' = before flux s + k)%nat).
    { split; [intros E; inversion E; subst; lia|]. intros [K' E]. assert (s = s').
      { destruct (Nat.lt_trichotomy s s') as [L|[L|L]]; auto; pose proof (before_mono flux _ _ L); lia. }
      subst s'. f_equal. lia. }
    rewrite HD. destruct (Nat.ltb_spec (flux + 2 * s) (k + 1)).
    + rewrite IH by lia. replace (s + 1)%nat with (S s) by lia. cbn [before]. lia.
    + rewrite IH by lia. lia.
Qed.
Lemma fill_nodup flux n : forall s k, (k <= flux + 2 * s)%nat -> NoDup (fill flux n s k).
Proof.
  induction n as [|n IH]; intros s k K; [constructor|]. cbn [fill]. destruct (Nat.ltb_spec (flux + 2 * s) (k + 1)).
  - constructor; [|apply IH; lia]. rewrite fill_in by lia. replace (s + 1)%nat with (S s) by lia. cbn [before]. lia.
  - constructor; [|apply IH; lia]. rewrite fill_in by lia. lia.
Qed.
(** N different orbitals, each with |m| <= ell, and no orbital of a higher shell while a lower shell has a vacancy:
    [ell = flux/2 + shell] and [m = ell - k], k = 0 .. 2 ell. *)
Theorem C69_free_filling : forall flux n, let l := fill flux n 0 0 in
  length l = n /\ NoDup l /\ (forall s k, In (s, k) l -> (k <= flux + 2 * s)%nat) /\
  (forall s k s' k', In (s, k) l -> (s' < s)%nat -> (k' <= flux + 2 * s')%nat -> In (s', k') l).
Proof.
  intros flux n l. split; [apply fill_length|]. split; [apply fill_nodup; lia|]. split.
  - intros s k H. apply fill_in in H; lia.
  - intros s k s' k' H L K. apply fill_in in H; [|lia]. apply fill_in; [lia|]. pose proof (before_mono flux _ _ L). cbn [before] in *. lia.
Qed.
Lemma fill_first flux : forall n k r, (r < n)%nat -> (k + r <= flux)%nat -> nth r (fill flux n 0 k) (0%nat, 0%nat) = (0%nat, (k + r)%nat).
Proof.
  induction n as [|n IH]; intros k r R L; [lia|]. cbn [fill]. destruct r as [|r]; [cbn [nth]; f_equal; lia|]. cbn [nth].
  destruct (Nat.ltb_spec (flux + 2 * 0) (k + 1)); [lia|]. rewrite IH by lia. f_equal. lia.
Qed.

(** ** The lowest level *)
Lemma Rpower_sq y k : 0 < y -> Rpower (2 * (y * y)) (INR k / 2) = Rpower 2 (INR k / 2) * y ^ k.
Proof.
  intros Y. rewrite <- Rpower_mult_distr by nra. f_equal. rewrite <- (Rpower_pow k y Y). rewrite <- Rpower_mult_distr by exact Y. rewrite <- Rpower_plus. f_equal. field.
Qed.
Lemma power_RtoC x k : power (RtoC x) k = RtoC (x ^ k).
Proof. induction k as [|k IH]; [reflexivity|]. cbn [power pow]. rewrite IH, RtoC_mult. reflexivity. Qed.
Lemma binom_pos n k : (k <= n)%nat -> 0 < Binomial.C n k.
Proof. intros H. unfold Binomial.C. apply Rdiv_lt_0_compat; [apply lt_0_INR, lt_O_fact|]. apply Rmult_lt_0_compat; apply lt_0_INR, lt_O_fact. Qed.
(** In the lowest level (shell 0) the monopole harmonic is the normalised u^(q+m) v^(q-m). *)
Theorem C69_free_lowest : forall flux k x, (k <= flux)%nat -> 0 < fst x < PI ->
  harm flux 0 k x = Cmult (RtoC ((-1) ^ k * sqrt ((INR flux + 1) / (4 * PI) * Binomial.C flux k))) (Cmult (power (u_of x) (flux - k)) (power (v_of x) k)).
Proof.
  intros flux k x K T. unfold harm, half_flux. change (INR 0) with 0. rewrite Rmult_0_r, Rplus_0_r.
  assert (SP : 0 < sin (fst x / 2)) by (apply sin_gt_0; lra). assert (CP : 0 < cos (fst x / 2)) by (apply cos_gt_0; lra).
  assert (TH : harm_theta flux 0 k (cos (fst x)) = (-1) ^ k * Binomial.C flux k * (Rpower 2 (INR flux / 2) * (sin (fst x / 2) ^ k * cos (fst x / 2) ^ (flux - k)))).
  { unfold harm_theta. replace (k + 1)%nat with (S k) by lia. cbn [seq map]. match goal with |- rsum (?a :: ?l) = _ => change (rsum (a :: l)) with (a + rsum l) end.
    rewrite (rsum_ext _ (fun _ => 0) (seq 1 k)).
    - assert (Z : forall l : list nat, rsum (map (fun _ => 0) l) = 0) by (induction l as [|a l IHl]; cbn; [reflexivity|unfold rsum in IHl; rewrite IHl; ring]). rewrite Z, Rplus_0_r.
      unfold half_flux. change (INR 0) with 0. rewrite Nat.sub_0_r, Nat.add_0_r. unfold comb at 1. cbn [Nat.leb]. unfold comb. destruct (Nat.leb_spec k flux); [|lia].
      replace (Binomial.C 0 0) with 1 by (unfold Binomial.C; cbn; field).
      replace ((INR flux + 2 * 0) / 2 - 0 - (INR flux + 0 - INR k) / 2) with (INR k / 2) by field. replace (0 + (INR flux + 0 - INR k) / 2) with (INR (flux - k) / 2) by (rewrite minus_INR by lia; field).
      destruct (cos_sin_half (fst x)) as [-> _]. pose proof (sin2_cos2 (fst x / 2)) as SC. unfold Rsqr in SC.
      replace (1 - (cos (fst x / 2) * cos (fst x / 2) - sin (fst x / 2) * sin (fst x / 2))) with (2 * (sin (fst x / 2) * sin (fst x / 2))) by lra.
      replace (1 + (cos (fst x / 2) * cos (fst x / 2) - sin (fst x / 2) * sin (fst x / 2))) with (2 * (cos (fst x / 2) * cos (fst x / 2))) by lra.
      rewrite !Rpower_sq by assumption. replace (Rpower 2 (INR flux / 2)) with (Rpower 2 (INR k / 2) * Rpower 2 (INR (flux - k) / 2)); [ring|]. rewrite <- Rpower_plus. f_equal. rewrite minus_INR by lia. field.
    - intros s S. apply in_seq in S. unfold comb. destruct (Nat.leb_spec s 0); [lia|]. ring. }
  rewrite TH.
  assert (NM : harm_norm flux 0 k * Binomial.C flux k = sqrt ((INR flux + 1) / (4 * PI) * Binomial.C flux k)).
  { pose proof (binom_pos flux k K) as CPos. assert (P4 : 0 < 4 * PI) by (pose proof PI_RGT_0; lra). unfold harm_norm, half_flux. change (INR 0) with 0. replace (flux + 2 * 0 - k)%nat with (flux - k)%nat by lia. replace (flux + 0)%nat with flux by lia.
    change (INR (fact 0)) with 1. pose proof (pos_INR flux).
    assert (F1 : INR (fact k) <> 0) by apply INR_fact_neq_0. assert (F2 : INR (fact (flux - k)) <> 0) by apply INR_fact_neq_0. assert (F3 : INR (fact flux) <> 0) by apply INR_fact_neq_0.
    rewrite <- (sqrt_square (Binomial.C flux k)) at 1 by lra. rewrite <- sqrt_mult_alt.
    - f_equal. unfold Binomial.C. field. repeat split; auto. pose proof PI_RGT_0; lra.
    - replace ((2 * ((INR flux + 2 * 0) / 2) + 1) / (4 * PI) * (INR (fact k) * INR (fact (flux - k))) / (1 * INR (fact flux))) with ((INR flux + 1) / (4 * PI) * / Binomial.C flux k).
      + apply Rmult_le_pos; [apply Rdiv_le_0_compat; lra|]. left. apply Rinv_0_lt_compat. exact CPos.
      + unfold Binomial.C. field. repeat split; auto. pose proof PI_RGT_0; lra. }
  assert (P2 : Rpower 2 (INR flux / 2) <> 0) by (unfold Rpower; apply Rgt_not_eq, exp_pos).
  rewrite <- NM. rewrite <- spinor_u_eq, <- spinor_v_eq. unfold spinor_u, spinor_v. rewrite !power_mult, !power_RtoC, !cexp_power.
  replace (cexp (0, (INR flux / 2 - INR k) * snd x)) with (Cmult (cexp (Cmult (0, / 2 * snd x) (RtoC (INR (flux - k))))) (cexp (Cmult (0, - / 2 * snd x) (RtoC (INR k))))).
  - match goal with |- Cmult (RtoC ?r) _ = _ => replace r with ((-1) ^ k * (harm_norm flux 0 k * Binomial.C flux k) * (sin (fst x / 2) ^ k * cos (fst x / 2) ^ (flux - k))) by (field; exact P2) end.
    rewrite !RtoC_mult. ring.
  - rewrite <- cexp_plus. f_equal. rewrite minus_INR by lia. apply C_eq; cbn [Cplus Cmult RtoC fst snd]; field.
Qed.
(** With N = flux + 1 electrons the lowest level is filled: psi is a constant times the product of the pair factors. *)
Theorem C69_free_filled : forall ns flux, (fst ns + snd ns = flux + 1)%nat -> exists c, c <> 0 /\
  forall e, let n := (fst ns + snd ns)%nat in (forall i, (i < n)%nat -> 0 < fst (e i) < PI) -> distinct n e ->
  cpsi (free ns flux e) = Some (Cmult (RtoC c) (pair_product n (pair_factor e))).
Proof.
  intros ns flux N.
  set (a := fun r => (-1) ^ r * sqrt ((INR flux + 1) / (4 * PI) * Binomial.C flux r)).
  assert (AN : forall r, (r <= flux)%nat -> a r <> 0).
  { intros r R. unfold a. apply Rmult_integral_contrapositive_currified; [apply pow_nonzero; lra|]. apply Rgt_not_eq, sqrt_lt_R0. apply Rmult_lt_0_compat; [|apply binom_pos; exact R].
    apply Rdiv_lt_0_compat; [pose proof (pos_INR flux); lra|pose proof PI_RGT_0; lra]. }
  assert (PA : exists c, c <> 0 /\ product (flux + 1) (fun r => RtoC (a r)) = RtoC c).
  { replace (flux + 1)%nat with (S flux) by lia. assert (H : forall m, (m <= S flux)%nat -> exists c, c <> 0 /\ product m (fun r => RtoC (a r)) = RtoC c).
    { induction m as [|m IH]; intros M; [exists 1; split; [lra|reflexivity]|]. destruct IH as (c & C & E); [lia|]. exists (c * a m). split; [apply Rmult_integral_contrapositive_currified; [exact C|apply AN; lia]|].
      rewrite product_S, E, RtoC_mult. reflexivity. }
    apply H. lia. }
  destruct PA as (c & C & PE). exists c. split; [exact C|]. intros e n R D. unfold n in *. rewrite N in *. clear n.
  assert (DE : cdet (flux + 1) (free_entry ns flux e) = Cmult (RtoC c) (pair_product (flux + 1) (pair_factor e))).
  { rewrite (cdet_ext _ _ (fun r k => Cmult ((fun r => RtoC (a r)) r) (Cmult (cpow (v_of (e k)) r) (cpow (u_of (e k)) (flux + 1 - 1 - r))))).
    - rewrite cdet_rows, cprod_eq, PE. f_equal. rewrite cdet_transpose. rewrite (vandermonde (flux + 1) (fun k => v_of (e k)) (fun k => u_of (e k))), vprod_eq. apply pair_product_ext. intros i j _ _. unfold pair_factor. ring.
    - intros r k Hr Hk. unfold free_entry. unfold n_el. rewrite N. rewrite fill_first by lia. cbn [fst snd]. rewrite C69_free_lowest by (try lia; apply R; exact Hk). change cpow with power.
      replace (flux + 1 - 1 - r)%nat with (flux - r)%nat by lia. cbn [Nat.add]. unfold a. apply f_equal. apply Cmult_comm. }
  unfold free. unfold n_el. rewrite N, DE. set (v := Cmult _ _).
  assert (V : v <> RtoC 0). { apply Cmult_neq_0; [intros X; apply RtoC_inj in X; contradiction|]. apply pair_product_nz. intros i j I J. apply pair_factor_nz, D; lia. }
  destruct (C67_complex_sum [v]) as [S _]; [exists v; split; [left; reflexivity|exact V]|]. rewrite S. cbn. f_equal. ring.
Qed.

(** ** Concrete cases *)
(** Two electrons of the same spin, one monopole harmonic each, flux_per_elec = 1: a nonzero finite value, unchanged by the exchange. *)
Definition example_mhpo : mhpo_params :=
  {| mh_backbone := {| psi_in := []; psi_layers := []; psi_mode := NoNorm; psi_hd := 0 |};
     mh_re := fun _ t j _ => ([], if Nat.eqb t j then 1 else 0); mh_im := fun _ _ _ _ => ([], 0); mh_par := 1; mh_anti := 1; mh_ndets := 1 |}.
Lemma example_orbital q2 e i j : (j <= q2)%nat ->
  monopole_orbital (2, 0)%nat q2 (mh_re example_mhpo) (mh_im example_mhpo) (psiformer (2, 0)%nat (mh_backbone example_mhpo) (fun i => to_list 3 (cartesian (e i)))) e 0 i j =
  monopole_envelope q2 j (e i).
Proof.
  intros J. unfold monopole_orbital. cbn [mh_re mh_im example_mhpo]. unfold affine, ldot. cbn [fst snd combine map rsum fold_right].
  rewrite (map_ext _ (fun t => if Nat.eqb t j then monopole_envelope q2 j (e i) else RtoC 0)).
  - assert (H : forall len lo, (lo <= j < lo + len)%nat -> csum (map (fun t => if Nat.eqb t j then monopole_envelope q2 j (e i) else RtoC 0) (seq lo len)) = monopole_envelope q2 j (e i)).
    { induction len as [|len IH]; intros lo L; [lia|]. cbn [seq map csum fold_right]. fold (csum (map (fun t => if Nat.eqb t j then monopole_envelope q2 j (e i) else RtoC 0) (seq (S lo) len))).
      destruct (Nat.eqb_spec lo j) as [->|NE].
      - assert (Z : csum (map (fun t => if Nat.eqb t j then monopole_envelope q2 j (e i) else RtoC 0) (seq (S j) len)) = RtoC 0).
        { assert (ZZ : forall len lo, (j < lo)%nat -> csum (map (fun t => if Nat.eqb t j then monopole_envelope q2 j (e i) else RtoC 0) (seq lo len)) = RtoC 0).
          { clear. induction len as [|len IH]; intros lo L; [reflexivity|]. cbn [seq map csum fold_right]. fold (csum (map (fun t => if Nat.eqb t j then monopole_envelope q2 j (e i) else RtoC 0) (seq (S lo) len))).
            rewrite IH by lia. destruct (Nat.eqb_spec lo j); [lia|]. ring. }
          apply ZZ. lia. }
        rewrite Z. ring.
      - rewrite IH by lia. ring. }
    apply H. lia.
  - intros t. destruct (Nat.eqb_spec t j) as [->|]; apply C_eq; cbn [Cmult fst snd RtoC]; ring.
Qed.
Theorem C69_example :
  distinct 2 poles /\ same_spin (2, 0)%nat 0 1 /\
  (exists z, mhpo (2, 0)%nat 2 1 example_mhpo poles = Some (CFin z) /\ mhpo (2, 0)%nat 2 1 example_mhpo (exchange 0 1 poles) = Some (CFin z)) /\
  (exists z, mhpo (2, 0)%nat 1 0 example_mhpo poles = Some (CFin z)) /\
  (exists o, laughlin (2, 0)%nat 3 1 poles = Some o) /\ laughlin (2, 0)%nat 4 1 poles = None.
Proof.
  assert (D : distinct 2 poles).
  { intros i j I J IJ. assert (S2 : sqrt 2 <> 0) by (apply Rgt_not_eq, sqrt_lt_R0; lra).
    destruct i as [|[|i]]; destruct j as [|[|j]]; try lia; [rewrite poles_distance; exact S2|].
    replace (distance (poles 1) (poles 0)) with (distance (poles 0) (poles 1)); [rewrite poles_distance; exact S2|]. unfold distance. f_equal. ring. }
  assert (SS : same_spin (2, 0)%nat 0 1) by (left; cbn; lia).
  assert (W : pair_factor poles 1 0 <> RtoC 0) by (apply pair_factor_nz, D; lia).
  assert (NZ : forall fpe, cdet 2 (mhpo_entry (2, 0)%nat 1 fpe example_mhpo poles 0) <> RtoC 0).
  { intros fpe. change (cdet 2) with (cdet (n_el (2, 0)%nat)). rewrite mhpo_det; [|cbn; lia|intros _; exact D]. apply Cmult_neq_0.
    - apply Cmult_neq_0; [intros X; apply RtoC_inj in X; pose proof (exp_pos (spherical_jastrow (2, 0)%nat (mh_par example_mhpo) (mh_anti example_mhpo) poles)); lra|]. apply power_nz. cbn. rewrite !Cmult_1_l. exact W.
    - change (n_el (2, 0)%nat) with 2%nat. rewrite (cdet_ext 2 _ (fun i k => Cmult (cpow (spinor_u (poles i)) k) (cpow (spinor_v (poles i)) (2 - 1 - k)))).
      + rewrite vander_pairs. cbn. rewrite !Cmult_1_l. exact W.
      + intros r c Hr Hc. rewrite example_orbital by lia. unfold monopole_envelope, monopole_norm. replace (Binomial.C 1 (1 - c)) with 1.
        * rewrite sqrt_1. cbn [Nat.sub]. ring.
        * destruct c as [|[|c]]; [| |lia]; unfold Binomial.C; cbn; field. }
  assert (FIN : forall d, d <> RtoC 0 -> exists z, logdet_complex [d] = CFin z).
  { intros d Hd. destruct (C67_complex_sum [d]) as [_ F]; [exists d; split; [left; reflexivity|exact Hd]|]. destruct F as (z & Z & _); [cbn; rewrite Cplus_0_r; exact Hd|]. exists z. exact Z. }
  split; [exact D|]. split; [exact SS|]. split; [|split; [|split]].
  - destruct (FIN _ (NZ 1%nat)) as [z Z]. exists z. assert (E : mhpo (2, 0)%nat 2 1 example_mhpo poles = Some (CFin z)) by (rewrite <- Z; reflexivity). split; [exact E|].
    rewrite <- E. apply (C69_mhpo_odd_refuted (2, 0)%nat 2 1 example_mhpo poles 0 1); auto.
  - destruct (FIN _ (NZ 0%nat)) as [z Z]. exists z. rewrite <- Z. reflexivity.
  - eexists. reflexivity.
  - reflexivity.
Qed.
