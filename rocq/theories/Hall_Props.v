(** C69: the wavefunctions on the Haldane sphere. *)
From Coq Require Import Reals List Arith Bool Lra Lia Permutation.
From Coquelicot Require Import Coquelicot.
From Verif Require Import Lin Geom_Model Det Wf_Model Wf_Spec Wf_Lemmas Wf_Logdet Wf_Props Hall_Model Hall_Spec Vandermonde Hall_Lemmas.
Import ListNotations.
Open Scope R_scope.
Local Notation vec := Lin.vec.

(** The straight-line distance behind the Jastrow factor is twice the modulus of the pair factor. *)
Theorem C69_pair_factor : forall e i j, i <> j -> chord e i j = distance (e i) (e j) /\ Cmod (pair_factor e i j) = distance (e i) (e j) / 2.
Proof. intros e i j N. split; [apply chord_distance; exact N|apply pair_factor_mod]. Qed.

(** ** Laughlin *)
Lemma fold_product n f : fold_right Cmult (RtoC 1) (map f (seq 0 n)) = product n f.
Proof.
  assert (H : forall n lo, fold_right Cmult (RtoC 1) (map f (seq lo n)) = product n (fun i => f (lo + i)%nat)).
  { clear n. induction n as [|n IH]; intros lo; [reflexivity|]. rewrite product_first. cbn [seq map fold_right]. rewrite IH, Nat.add_0_r. f_equal. apply product_ext. intros. f_equal. lia. }
  rewrite H. reflexivity.
Qed.
Lemma vander_pairs n e : cdet n (fun i k => Cmult (cpow (spinor_u (e i)) k) (cpow (spinor_v (e i)) (n - 1 - k))) = pair_product n (fun i j => pair_factor e j i).
Proof. rewrite vandermonde, vprod_eq. apply pair_product_ext. intros i j _ _. rewrite !spinor_u_eq, !spinor_v_eq. reflexivity. Qed.
Lemma laughlin_det n e : cdet n (laughlin_entry (n - 1) n e) = pair_product n (fun i j => power (pair_factor e i j) 3).
Proof.
  rewrite (cdet_ext n _ (fun i k => Cmult (laughlin_row n e i) (Cmult (cpow (spinor_u (e i)) k) (cpow (spinor_v (e i)) (n - 1 - k))))) by (intros; unfold laughlin_entry; ring).
  rewrite cdet_rows, vander_pairs, cprod_eq.
  rewrite (product_ext n (laughlin_row n e) (fun i => product n (fun j => Cplus (pair_factor e i j) (RtoC (delta i j))))).
  - rewrite (double_product n (fun i j => Cplus (pair_factor e i j) (RtoC (delta i j)))).
    + rewrite <- pair_product_mult. apply pair_product_ext. intros i j I _. unfold delta. destruct (Nat.eqb_spec i j); [lia|]. destruct (Nat.eqb_spec j i); [lia|].
      rewrite (pair_factor_anti e i j). cbn [power]. ring.
    + intros i. unfold delta. rewrite Nat.eqb_refl. unfold pair_factor. ring.
  - intros i _. unfold laughlin_row. rewrite fold_product. apply product_ext. intros j _. unfold pair_factor. rewrite !spinor_u_eq, !spinor_v_eq. reflexivity.
Qed.
(** The call succeeds exactly when flux = (2 cf + 1) (N - 1), and then gives the product of the CUBES of
    the pair factors, whatever cf is. *)
Theorem C69_laughlin_value : forall ns flux cf e, (0 < fst ns + snd ns)%nat ->
  let n := (fst ns + snd ns)%nat in
  ((exists o, laughlin ns flux cf e = Some o) <-> flux = ((2 * cf + 1) * (n - 1))%nat) /\
  (forall o, laughlin ns flux cf e = Some o -> distinct n e -> cpsi o = Some (pair_product n (fun i j => power (pair_factor e i j) 3))).
Proof.
  intros ns flux cf e P n. unfold laughlin, n_el. fold n.
  destruct (Nat.leb_spec (2 * cf * (n - 1)) flux) as [L|L]; cbn [andb].
  - destruct (Nat.eqb_spec (flux - 2 * cf * (n - 1) + 1) n) as [E|E].
    + split; [split; [intros _; lia|intros _; eexists; reflexivity]|]. intros o O D. assert (Q : (flux - 2 * cf * (n - 1))%nat = (n - 1)%nat) by lia. rewrite Q in O. inversion O as [O'].
      rewrite laughlin_det. set (v := pair_product n _). assert (V : v <> RtoC 0).
      { apply pair_product_nz. intros i j I J. apply power_nz, pair_factor_nz, D; lia. }
      destruct (C67_complex_sum [v]) as [S _]; [exists v; split; [left; reflexivity|exact V]|]. rewrite S. cbn. f_equal. ring.
    + split; [split; [intros [o O]; discriminate|intros; exfalso; lia]|]. intros o O. discriminate.
  - split; [split; [intros [o O]; discriminate|intros; exfalso; lia]|]. intros o O. discriminate.
Qed.
(** With the default cf_flux = 1 this is the Laughlin state at filling 1/3: each electron has degree flux. *)
Theorem C69_laughlin : forall ns e, (0 < fst ns + snd ns)%nat -> let n := (fst ns + snd ns)%nat in distinct n e ->
  exists o, laughlin ns (3 * (n - 1)) 1 e = Some o /\ cpsi o = Some (pair_product n (fun i j => power (pair_factor e i j) 3)).
Proof.
  intros ns e P n D. destruct (C69_laughlin_value ns (3 * (n - 1)) 1 e P) as [A B]. fold n in A, B. destruct A as [_ A]. destruct (A ltac:(lia)) as [o O]. exists o. split; [exact O|]. apply B; auto.
Qed.
(** For another cf_flux the value is not the Laughlin state of exponent 2 cf + 1. *)
Definition poles : nat -> R * R := fun i => if Nat.eqb i 0 then (0, 0) else (PI / 2, 0).
Lemma poles_distance : distance (poles 0) (poles 1) = sqrt 2.
Proof. unfold distance, poles, x_of, y_of, z_of. cbn [Nat.eqb fst snd]. rewrite cos_0, sin_0, cos_PI2, sin_PI2. f_equal. ring. Qed.
Theorem C69_laughlin_cf_refuted : forall cf, (cf <> 1)%nat -> exists ns e o v, let n := (fst ns + snd ns)%nat in
  distinct n e /\ laughlin ns ((2 * cf + 1) * (n - 1)) cf e = Some o /\ cpsi o = Some v /\ Cmod v <> Cmod (pair_product n (fun i j => power (pair_factor e i j) (2 * cf + 1))).
Proof.
  intros cf N. exists (2%nat, 0%nat), poles. cbn [fst snd Nat.add].
  assert (D : distinct 2 poles).
  { intros i j I J IJ. assert (S2 : sqrt 2 <> 0) by (apply Rgt_not_eq, sqrt_lt_R0; lra).
    destruct i as [|[|i]]; destruct j as [|[|j]]; try lia; [rewrite poles_distance; exact S2|].
    replace (distance (poles 1) (poles 0)) with (distance (poles 0) (poles 1)); [rewrite poles_distance; exact S2|]. unfold distance. f_equal. ring. }
  destruct (C69_laughlin_value (2, 0)%nat ((2 * cf + 1) * 1) cf poles ltac:(cbn; lia)) as [A B]. cbn [fst snd Nat.add Nat.sub] in A, B. destruct A as [_ A]. destruct (A ltac:(lia)) as [o O].
  exists o. eexists. split; [exact D|]. split; [exact O|]. split; [apply B; auto|].
  assert (PP : forall k, Cmod (pair_product 2 (fun i j => power (pair_factor poles i j) k)) = (sqrt 2 / 2) ^ k).
  { intros k. rewrite pair_product_power. assert (M : forall z, Cmod (power z k) = Cmod z ^ k) by (intros z; clear; induction k as [|k IH]; cbn [power pow]; [rewrite Cmod_R, Rabs_R1; reflexivity|rewrite Cmod_mult, IH; reflexivity]).
    rewrite M. f_equal. unfold pair_product. cbn [product]. rewrite !Cmult_1_l, pair_factor_mod, poles_distance. reflexivity. }
  rewrite !PP. set (s := sqrt 2 / 2).
  assert (S0 : 0 < s < 1). { unfold s. assert (0 < sqrt 2) by (apply sqrt_lt_R0; lra). assert (sqrt 2 < 2). { replace 2 with (sqrt (2 * 2)) at 2 by (apply sqrt_square; lra). apply sqrt_lt_1; lra. } lra. }
  assert (MON : forall a d, s ^ (a + S d) < s ^ a).
  { intros a d. rewrite pow_add. assert (0 < s ^ a) by (apply pow_lt; lra). assert (s ^ S d < 1). { cbn [pow]. assert (s ^ d <= 1) by (rewrite <- (pow1 d); apply pow_incr; lra). assert (0 < s ^ d) by (apply pow_lt; lra). nra. } nra. }
  destruct (Nat.lt_ge_cases cf 1) as [L|G].
  - assert (cf = 0)%nat by lia. subst cf. pose proof (MON 1%nat 1%nat) as H. change (1 + 2)%nat with 3%nat in H. change (2 * 0 + 1)%nat with 1%nat. lra.
  - pose proof (MON 3%nat (2 * cf + 1 - 4)%nat) as H. replace (3 + S (2 * cf + 1 - 4))%nat with (2 * cf + 1)%nat in H by lia. lra.
Qed.
Lemma swap_pairs n a b e : (a < n)%nat -> (b < n)%nat -> a <> b ->
  pair_product n (fun i j => pair_factor (exchange a b e) j i) = Copp (pair_product n (fun i j => pair_factor e j i)).
Proof.
  intros A B N. rewrite <- !vander_pairs. rewrite <- (det_swap_rows _ _ Cplus Cmult Cminus Copp C_rt n a b _ A B N : cdet n _ = _). apply cdet_ext. intros r c _ _. rewrite !exchange_swap. reflexivity.
Qed.
(** Antisymmetric in every pair of electrons, whatever their spins. *)
Theorem C69_laughlin_exchange : forall ns flux cf e a b o, (a < fst ns + snd ns)%nat -> (b < fst ns + snd ns)%nat -> a <> b ->
  laughlin ns flux cf e = Some o -> exists o', laughlin ns flux cf (exchange a b e) = Some o' /\ copposite o o'.
Proof.
  intros ns flux cf e a b o A B N. unfold laughlin, n_el. set (n := (fst ns + snd ns)%nat) in *.
  destruct (Nat.leb_spec (2 * cf * (n - 1)) flux); cbn [andb]; [|discriminate]. destruct (Nat.eqb_spec (flux - 2 * cf * (n - 1) + 1) n) as [E|]; [|discriminate].
  replace (flux - 2 * cf * (n - 1))%nat with (n - 1)%nat by lia. intros O. eexists. split; [reflexivity|]. inversion O as [O']. rewrite !laughlin_det.
  assert (S : pair_product n (fun i j => power (pair_factor (exchange a b e) i j) 3) = Copp (pair_product n (fun i j => power (pair_factor e i j) 3))).
  { assert (F : forall e', pair_product n (fun i j => power (pair_factor e' i j) 3) = Cmult (pair_product n (fun _ _ => RtoC (-1))) (power (pair_product n (fun i j => pair_factor e' j i)) 3)).
    { intros e'. rewrite <- pair_product_power, <- pair_product_mult. apply pair_product_ext. intros i j _ _. rewrite (pair_factor_anti e' i j), power_opp. cbn [sign_of Nat.even].
      replace (RtoC (-1)) with (Copp (RtoC 1)) by (apply C_eq; cbn; ring). ring. }
    rewrite !F, swap_pairs by auto. rewrite power_opp. cbn [sign_of Nat.even]. ring. }
  rewrite S. exact (logdet_complex_opp [_]).
Qed.

(** ** MHPO *)
Lemma cexp_plus a b : cexp (Cplus a b) = Cmult (cexp a) (cexp b).
Proof. unfold cexp. cbn [Cplus fst snd]. rewrite exp_plus, cos_plus, sin_plus. apply C_eq; cbn [Cmult RtoC fst snd]; ring. Qed.
Lemma cexp_0 : cexp (RtoC 0) = RtoC 1.
Proof. unfold cexp. cbn [RtoC fst snd]. rewrite exp_0, cos_0, sin_0. apply C_eq; cbn; ring. Qed.
Lemma cexp_power z k : power (cexp z) k = cexp (Cmult z (RtoC (INR k))).
Proof.
  induction k as [|k IH]; [cbn [power INR]; rewrite <- cexp_0; f_equal; ring|]. rewrite power_S, IH, <- cexp_plus, S_INR, RtoC_plus. f_equal. ring.
Qed.
Lemma cexp_RtoC x : cexp (RtoC x) = RtoC (exp x).
Proof. unfold cexp. cbn [RtoC fst snd]. rewrite cos_0, sin_0. apply C_eq; cbn; ring. Qed.
Lemma csum_scal {A} z (g : A -> C) l : csum (map (fun t => Cmult z (g t)) l) = Cmult z (csum (map g l)).
Proof. induction l as [|x l IH]; cbn; [ring|]. fold (csum (map (fun t => Cmult z (g t)) l)). fold (csum (map g l)). rewrite IH. ring. Qed.
Lemma cexp_csum l : cexp (csum l) = fold_right Cmult (RtoC 1) (map cexp l).
Proof. induction l as [|x l IH]; [apply cexp_0|]. cbn [csum fold_right map]. fold (csum l). rewrite cexp_plus, IH. reflexivity. Qed.
Lemma cexp_clog_eq z : z <> RtoC 0 -> cexp (clog z) = z.
Proof. apply cexp_clog. Qed.
Lemma product_const n z : product n (fun _ => z) = power z n.
Proof. induction n as [|n IH]; [reflexivity|]. cbn [product power]. rewrite IH. ring. Qed.
Lemma fold_app f g : fold_right Cmult (RtoC 1) (f ++ g) = Cmult (fold_right Cmult (RtoC 1) f) (fold_right Cmult (RtoC 1) g).
Proof. induction f as [|x f IH]; cbn; [ring|rewrite IH; ring]. Qed.
Lemma upper_product f : forall len lo, fold_right Cmult (RtoC 1) (map (fun p => f (fst p) (snd p)) (upper_pairs lo len)) = pair_product len (fun i j => f (lo + i)%nat (lo + j)%nat).
Proof.
  induction len as [|len IH]; intros lo; [reflexivity|].
  assert (U : upper_pairs lo (S len) = map (fun j => (lo, j)) (seq (S lo) len) ++ upper_pairs (S lo) len).
  { unfold upper_pairs. cbn [seq map concat]. replace (lo + S len - S lo)%nat with len by lia. f_equal. f_equal. apply map_ext. intros i. replace (lo + S len - S i)%nat with (S lo + len - S i)%nat by lia. reflexivity. }
  rewrite U, map_app, fold_app, IH, pair_product_first, map_map. f_equal.
  - cbn [fst snd]. rewrite <- fold_product. f_equal. rewrite <- seq_shift, map_map. assert (SH : seq lo len = map (fun i => (lo + i)%nat) (seq 0 len)).
    { clear. revert lo. induction len as [|len IH]; intros lo; [reflexivity|]. cbn [seq map]. rewrite IH, <- seq_shift, map_map, Nat.add_0_r. f_equal. apply map_ext. intros. lia. }
    rewrite SH, map_map. apply map_ext. intros i. f_equal; lia.
  - apply pair_product_ext. intros. f_equal; lia.
Qed.
Lemma mhpo_factor ns fpe p e : (0 < fpe -> distinct (n_el ns) e)%nat ->
  cexp (mhpo_jastrow ns fpe p e) = Cmult (RtoC (exp (spherical_jastrow ns (mh_par p) (mh_anti p) e))) (power (pair_product (n_el ns) (fun i j => pair_factor e j i)) fpe).
Proof.
  intros D. unfold mhpo_jastrow. destruct (Nat.ltb_spec 0 fpe) as [F|F].
  - rewrite cexp_plus, cexp_RtoC, <- cexp_power. f_equal. f_equal. unfold cf_log. rewrite cexp_csum, map_map.
    rewrite (upper_product (fun i j => cexp (clog (Cminus (Cmult (spinor_u (e j)) (spinor_v (e i))) (Cmult (spinor_u (e i)) (spinor_v (e j))))))).
    apply pair_product_ext. intros i j I J. cbn [Nat.add]. rewrite !spinor_u_eq, !spinor_v_eq. change (cexp (clog (pair_factor e j i)) = pair_factor e j i). apply cexp_clog_eq, pair_factor_nz, D; lia.
  - replace fpe with 0%nat by lia. cbn [power]. rewrite cexp_RtoC. ring.
Qed.
Lemma mhpo_det ns q2 fpe p e k : (0 < n_el ns)%nat -> (0 < fpe -> distinct (n_el ns) e)%nat ->
  cdet (n_el ns) (mhpo_entry ns q2 fpe p e k) =
  Cmult (Cmult (RtoC (exp (spherical_jastrow ns (mh_par p) (mh_anti p) e))) (power (pair_product (n_el ns) (fun i j => pair_factor e j i)) fpe))
        (cdet (n_el ns) (monopole_orbital ns q2 (mh_re p) (mh_im p) (psiformer ns (mh_backbone p) (fun i => to_list 3 (cartesian (e i)))) e k)).
Proof.
  intros P D. rewrite <- mhpo_factor by exact D. unfold mhpo_entry. rewrite cdet_rows. f_equal. rewrite cprod_eq, product_const, cexp_power. f_equal. field.
  intros H. apply RtoC_inj in H. apply (not_0_INR (n_el ns)); [lia|exact H].
Qed.
Lemma spherical_jastrow_t ns t a b e e' : spin_perm ns t -> (forall i, e' i = e (t i)) -> spherical_jastrow ns a b e' = spherical_jastrow ns a b e.
Proof.
  intros T E. apply (jastrow_t ns t); [exact T|apply chord_sym|]. intros i j. unfold chord. rewrite !E, (delta_t ns t T). reflexivity.
Qed.
Lemma monopole_orbital_t ns t q2 re im h h' e e' k i j : spin_perm ns t -> (forall i, h' i = h (t i)) -> (forall i, e' i = e (t i)) ->
  monopole_orbital ns q2 re im h' e' k i j = monopole_orbital ns q2 re im h e k (t i) j.
Proof. intros T H E. unfold monopole_orbital. rewrite H, E, (channel_t ns t T). reflexivity. Qed.
Lemma distinct_exchange n a b e : (a < n)%nat -> (b < n)%nat -> distinct n e -> distinct n (exchange a b e).
Proof.
  intros A B D i j I J N. rewrite !exchange_swap. apply D; try (apply swap_lt; auto). intros E. apply N. rewrite <- (swap_inv a b i), E. apply swap_inv.
Qed.
(** Exchange of two electrons of the same spin: antisymmetric when flux_per_elec is even ... *)
Theorem C69_mhpo_exchange : forall ns flux fpe p e a b o, same_spin ns a b -> a <> b -> Nat.even fpe = true ->
  (0 < fpe -> distinct (fst ns + snd ns) e)%nat -> mhpo ns flux fpe p e = Some o ->
  exists o', mhpo ns flux fpe p (exchange a b e) = Some o' /\ copposite o o'.
Proof.
  intros ns flux fpe p e a b o SS N EV D. pose proof (swap_spin_perm ns a b SS) as T. apply same_spin_lt in SS as [A B]. unfold mhpo.
  destruct (Nat.leb (fpe * (n_el ns - 1)) flux); [|discriminate]. intros O. eexists. split; [reflexivity|]. inversion O as [O']. clear O O' o.
  match goal with |- copposite (logdet_complex ?l) (logdet_complex ?l') => replace l' with (map Copp l); [apply logdet_complex_opp|] end.
  rewrite map_map. apply map_ext. intros k. rewrite !mhpo_det by (auto; try lia; intros F; apply distinct_exchange; auto).
  rewrite (spherical_jastrow_t ns (swap a b) _ _ e (exchange a b e) T (exchange_swap a b e)), swap_pairs by auto. rewrite power_opp. unfold sign_of. rewrite EV.
  match goal with |- Copp (Cmult _ ?x) = Cmult _ ?y => assert (X : y = Copp x); [|rewrite X; ring] end.
  rewrite <- (det_swap_rows _ _ Cplus Cmult Cminus Copp C_rt (n_el ns) a b _ A B N : cdet _ _ = _). apply cdet_ext. intros r c _ _.
  apply (monopole_orbital_t ns (swap a b)); [exact T| |apply exchange_swap]. intros i. apply (psiformer_t ns (swap a b) T). intros i'. rewrite exchange_swap. reflexivity.
Qed.
(** ... and symmetric, not antisymmetric, when it is odd. *)
Theorem C69_mhpo_odd_refuted : forall ns flux fpe p e a b, same_spin ns a b -> a <> b -> Nat.even fpe = false ->
  distinct (fst ns + snd ns) e -> mhpo ns flux fpe p (exchange a b e) = mhpo ns flux fpe p e.
Proof.
  intros ns flux fpe p e a b SS N EV D. pose proof (swap_spin_perm ns a b SS) as T. apply same_spin_lt in SS as [A B]. unfold mhpo.
  destruct (Nat.leb (fpe * (n_el ns - 1)) flux); [|reflexivity]. do 2 apply f_equal.
  apply map_ext. intros k. rewrite !mhpo_det by (auto; try lia; intros F; apply distinct_exchange; auto).
  rewrite (spherical_jastrow_t ns (swap a b) _ _ e (exchange a b e) T (exchange_swap a b e)), swap_pairs by auto. rewrite power_opp. unfold sign_of. rewrite EV.
  match goal with |- Cmult _ ?y = Cmult _ ?x => assert (X : y = Copp x); [|rewrite X; ring] end.
  rewrite <- (det_swap_rows _ _ Cplus Cmult Cminus Copp C_rt (n_el ns) a b _ A B N : cdet _ _ = _). apply cdet_ext. intros r c _ _.
  apply (monopole_orbital_t ns (swap a b)); [exact T| |apply exchange_swap]. intros i. apply (psiformer_t ns (swap a b) T). intros i'. rewrite exchange_swap. reflexivity.
Qed.

(** The value: the sum over determinants of projected monopole harmonics, times the Jastrow factor, times
    the flux attachment. *)
Theorem C69_mhpo_value : forall ns flux fpe p e o, (0 < fst ns + snd ns)%nat -> (0 < fpe -> distinct (fst ns + snd ns) e)%nat -> mhpo ns flux fpe p e = Some o ->
  let n := (fst ns + snd ns)%nat in
  let q2 := (flux - fpe * (n - 1))%nat in
  let h := psiformer ns (mh_backbone p) (fun i => [z_of (e i); x_of (e i); y_of (e i)]) in
  let up i := (negb (both ns) || Nat.ltb i (fst ns))%bool in
  let orbital k i j := csum (map (fun t => Cmult (Cmult (affine (mh_re p (up i) t j k) (h i), affine (mh_im p (up i) t j k) (h i)) (RtoC (sqrt (Binomial.C q2 (q2 - t)))))
                                                 (Cmult (power (u_of (e i)) t) (power (v_of (e i)) (q2 - t)))) (seq 0 (q2 + 1))) in
  let dets := map (fun k => cdet n (orbital k)) (seq 0 (mh_ndets p)) in
  (fpe * (n - 1) <= flux)%nat /\
  ((exists d, In d dets /\ d <> RtoC 0) ->
   cpsi o = Some (Cmult (Cmult (RtoC (exp (jastrow ns (mh_par p) (mh_anti p) (fun i j => if Nat.eqb i j then 0 else distance (e i) (e j)))))
                               (power (pair_product n (fun i j => pair_factor e j i)) fpe))
                        (csum dets))).
Proof.
  intros ns flux fpe p e o P D O n q2 h up orbital dets. unfold mhpo in O. fold n in D. change (n_el ns) with n in O. destruct (Nat.leb_spec (fpe * (n - 1)) flux) as [L|]; [|discriminate]. split; [exact L|].
  inversion O as [O']. clear O O' o. intros (d & I & NZ). fold q2.
  set (J := RtoC (exp (jastrow ns (mh_par p) (mh_anti p) (fun i j => if Nat.eqb i j then 0 else distance (e i) (e j))))). set (F := power (pair_product n (fun i j => pair_factor e j i)) fpe).
  assert (E : map (fun k => cdet n (mhpo_entry ns q2 fpe p e k)) (seq 0 (mh_ndets p)) = map (fun d => Cmult (Cmult J F) d) dets).
  { unfold dets. rewrite map_map. apply map_ext. intros k. change n with (n_el ns). rewrite mhpo_det by (auto; exact P). f_equal.
    - f_equal. unfold J, spherical_jastrow. do 2 f_equal. unfold jastrow. f_equal; apply rsum_ext; intros [i j] H; cbn [fst snd]; f_equal; destruct (Nat.eqb_spec i j) as [->|N]; try (apply chord_distance; exact N);
        unfold chord, delta; rewrite Nat.eqb_refl; ring.
    - apply cdet_ext. intros i j _ _. unfold monopole_orbital, orbital. f_equal. apply map_ext. intros t. unfold monopole_envelope, monopole_norm. rewrite spinor_u_eq, spinor_v_eq, (cpow_eq (u_of (e i))), (cpow_eq (v_of (e i))).
      assert (CH : channel_of ns true i = up i) by (unfold channel_of, up; destruct (both ns); cbn [andb orb negb]; reflexivity). rewrite CH.
      change (fun i => to_list 3 (cartesian (e i))) with (fun i => [z_of (e i); x_of (e i); y_of (e i)]). fold h.
      match goal with |- Cmult ?a (Cmult (Cmult ?b ?c) ?d) = _ => generalize a b c d end. intros. ring. }
  rewrite E.
  assert (JN : J <> RtoC 0) by (intros X; apply RtoC_inj in X; pose proof (exp_pos (jastrow ns (mh_par p) (mh_anti p) (fun i j => if Nat.eqb i j then 0 else distance (e i) (e j)))); lra).
  assert (FN : F <> RtoC 0). { unfold F. destruct fpe as [|fpe']; [cbn; intros X; apply RtoC_inj in X; lra|]. apply power_nz, pair_product_nz. intros i j I1 J1. apply pair_factor_nz. apply D; lia. }
  destruct (C67_complex_sum (map (fun d => Cmult (Cmult J F) d) dets)) as [S _].
  - exists (Cmult (Cmult J F) d). split; [apply (in_map (fun d => Cmult (Cmult J F) d)); exact I|]. apply Cmult_neq_0; auto. apply Cmult_neq_0; auto.
  - rewrite S. f_equal. clear. induction dets as [|x l IH]; cbn; [ring|]. fold (csum l). rewrite IH. ring.
Qed.

(** ** Once around the axis *)
Lemma turned_u i e j : u_of (turned i e j) = (if Nat.eqb j i then Copp (u_of (e j)) else u_of (e j)) /\ v_of (turned i e j) = (if Nat.eqb j i then Copp (v_of (e j)) else v_of (e j)).
Proof.
  unfold turned. destruct (Nat.eqb j i); [|split; reflexivity]. unfold u_of, v_of. cbn [fst snd]. replace ((snd (e j) + 2 * PI) / 2) with (snd (e j) / 2 + PI) by field. rewrite neg_cos, neg_sin.
  split; apply C_eq; cbn [Copp fst snd]; ring.
Qed.
Lemma turned_xyz i e j : cartesian (turned i e j) = cartesian (e j).
Proof.
  unfold turned. destruct (Nat.eqb j i); [|reflexivity]. unfold cartesian. cbn [fst snd]. replace (2 * PI) with (2 * INR 1 * PI) by (cbn; ring). rewrite cos_period, sin_period. reflexivity.
Qed.
Lemma turned_distinct n i e : distinct n e -> distinct n (turned i e).
Proof.
  intros D a b A B N. rewrite <- chord_distance by exact N. unfold chord. rewrite !turned_xyz. change (chord e a b <> 0). rewrite chord_distance by exact N. apply D; auto.
Qed.
Lemma sign_of_mult k z w : Cmult (sign_of k z) w = sign_of k (Cmult z w).
Proof. unfold sign_of. destruct (Nat.even k); ring. Qed.
Lemma sign_of_add a b z : sign_of (a + b) z = sign_of a (sign_of b z).
Proof. unfold sign_of. rewrite Nat.even_add. destruct (Nat.even a), (Nat.even b); cbn [eqb]; ring. Qed.
Lemma sign_of_sign a b z w : Cmult (sign_of a z) (sign_of b w) = sign_of (a + b) (Cmult z w).
Proof. unfold sign_of. rewrite Nat.even_add. destruct (Nat.even a), (Nat.even b); cbn [eqb]; ring. Qed.
Lemma power_sign a z k : power (sign_of a z) k = sign_of (k * a) (power z k).
Proof. induction k as [|k IH]; [reflexivity|]. cbn [power]. rewrite IH, sign_of_sign. reflexivity. Qed.
Lemma turned_powers i e j a b : Cmult (cpow (spinor_u (turned i e j)) a) (cpow (spinor_v (turned i e j)) b) =
  Cmult (if Nat.eqb j i then sign_of (a + b) (RtoC 1) else RtoC 1) (Cmult (cpow (spinor_u (e j)) a) (cpow (spinor_v (e j)) b)).
Proof.
  rewrite !spinor_u_eq, !spinor_v_eq, !cpow_eq. destruct (turned_u i e j) as [-> ->]. destruct (Nat.eqb j i); [|symmetry; apply Cmult_1_l]. rewrite !power_opp, sign_of_sign, sign_of_mult, Cmult_1_l. reflexivity.
Qed.
Lemma product_at n i z : (i < n)%nat -> product n (fun r => if Nat.eqb r i then z else RtoC 1) = z.
Proof. intros H. rewrite <- cprod_eq. apply (bigprod_const _ _ Cplus Cmult Cminus Copp C_rt n z (RtoC 1) i H eq_refl). Qed.
Lemma turned_pairs n i e : (i < n)%nat -> pair_product n (fun a b => pair_factor (turned i e) b a) = sign_of (n - 1) (pair_product n (fun a b => pair_factor e b a)).
Proof.
  intros H. rewrite <- !vander_pairs.
  rewrite (cdet_ext n _ (fun r k => Cmult ((fun r => if Nat.eqb r i then sign_of (n - 1) (RtoC 1) else RtoC 1) r) (Cmult (cpow (spinor_u (e r)) k) (cpow (spinor_v (e r)) (n - 1 - k))))).
  - rewrite cdet_rows, cprod_eq, product_at by exact H. rewrite sign_of_mult, Cmult_1_l. reflexivity.
  - intros r c _ C. rewrite turned_powers. replace (c + (n - 1 - c))%nat with (n - 1)%nat by lia. reflexivity.
Qed.
(** Taking one electron once around the axis multiplies psi by (-1)^flux, as for any wavefunction of a
    particle in the field of a monopole of strength flux/2 in this gauge. *)
Theorem C69_mhpo_turn : forall ns flux fpe p e i o, (i < fst ns + snd ns)%nat -> (0 < fpe -> distinct (fst ns + snd ns) e)%nat -> mhpo ns flux fpe p e = Some o ->
  exists o', mhpo ns flux fpe p (turned i e) = Some o' /\ if Nat.even flux then o' = o else copposite o o'.
Proof.
  intros ns flux fpe p e i o I D. unfold mhpo. change (fst ns + snd ns)%nat with (n_el ns) in *. destruct (Nat.leb_spec (fpe * (n_el ns - 1)) flux) as [L|]; [|discriminate].
  set (q2 := (flux - fpe * (n_el ns - 1))%nat). intros O. eexists. split; [reflexivity|]. inversion O as [O']. clear O O' o.
  assert (E : map (fun k => cdet (n_el ns) (mhpo_entry ns q2 fpe p (turned i e) k)) (seq 0 (mh_ndets p)) = map (sign_of flux) (map (fun k => cdet (n_el ns) (mhpo_entry ns q2 fpe p e k)) (seq 0 (mh_ndets p)))).
  { rewrite map_map. apply map_ext. intros k. rewrite !mhpo_det by (auto; try lia; intros F; apply turned_distinct; auto).
    assert (SJ : spherical_jastrow ns (mh_par p) (mh_anti p) (turned i e) = spherical_jastrow ns (mh_par p) (mh_anti p) e).
    { unfold spherical_jastrow, jastrow. f_equal; apply rsum_ext; intros [a b] _; cbn [fst snd]; unfold chord; rewrite !turned_xyz; reflexivity. }
    rewrite SJ, turned_pairs by exact I. rewrite power_sign.
    match goal with |- Cmult _ ?y = sign_of _ (Cmult _ ?x) => assert (X : y = sign_of q2 x) end.
    { rewrite (cdet_ext (n_el ns) _ (fun r c => Cmult ((fun r => if Nat.eqb r i then sign_of q2 (RtoC 1) else RtoC 1) r)
         (monopole_orbital ns q2 (mh_re p) (mh_im p) (psiformer ns (mh_backbone p) (fun i => to_list 3 (cartesian (e i)))) e k r c))).
      - rewrite cdet_rows, cprod_eq, product_at by exact I. rewrite sign_of_mult, Cmult_1_l. reflexivity.
      - intros r c _ _. unfold monopole_orbital.
        assert (H : forall r, psiformer ns (mh_backbone p) (fun j => to_list 3 (cartesian (turned i e j))) r = psiformer ns (mh_backbone p) (fun j => to_list 3 (cartesian (e j))) r).
        { intros r'. assert (T : spin_perm ns (fun i => i)).
          { split; try rewrite map_id; auto. }
          apply (psiformer_t ns (fun i => i) T). intros j. rewrite turned_xyz. reflexivity. }
        rewrite H. match goal with |- csum (map ?f ?l) = Cmult ?z (csum (map ?g ?l)) => transitivity (csum (map (fun t => Cmult z (g t)) l)) end.
        + f_equal. apply map_ext_in. intros t T. apply in_seq in T. unfold monopole_envelope. rewrite <- !Cmult_assoc, turned_powers. replace (t + (q2 - t))%nat with q2 by lia. ring.
        + apply csum_scal. }
    rewrite X. replace flux with (fpe * (n_el ns - 1) + q2)%nat by (unfold q2; lia). rewrite <- sign_of_sign. f_equal.
    unfold sign_of. destruct (Nat.even (fpe * (n_el ns - 1))); ring. }
  rewrite E. unfold sign_of. destruct (Nat.even flux); [rewrite map_id; reflexivity|]. apply logdet_complex_opp.
Qed.
