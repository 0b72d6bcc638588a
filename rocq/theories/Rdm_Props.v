(** C74: the one-body density matrix estimator on the Haldane sphere. *)
From Coq Require Import Reals List Arith Lra Lia Permutation Bool.
From Coquelicot Require Import Coquelicot.
From Verif Require Import Lin Geom_Model Det Wf_Model Wf_Spec Wf_Lemmas Wf_Logdet Wf_Props Hall_Model Hall_Spec Vandermonde Det_T Hall_Lemmas Hall_Props Hall_Free Sph_Spec Sphere_Spec Sphere_Model Rdm_Spec.
Import ListNotations.
Open Scope R_scope.

(** ** Cramer's rule *)
Definition insert_row (p : nat) (b : nat -> C) (m : nat -> nat -> C) : nat -> nat -> C :=
  fun r c => if Nat.ltb r p then m r c else if Nat.eqb r p then b c else m (r - 1)%nat c.
Lemma insert_row_swap p b m r c : insert_row (S p) b m r c = insert_row p b m (swap p (S p) r) c.
Proof.
  unfold insert_row, swap.
  destruct (Nat.eqb_spec r p) as [->|N1]; [|destruct (Nat.eqb_spec r (S p)) as [->|N2]].
  - destruct (Nat.ltb_spec p (S p)); [|lia]. destruct (Nat.ltb_spec (S p) p); [lia|]. destruct (Nat.eqb_spec (S p) p); [lia|]. f_equal. lia.
  - destruct (Nat.ltb_spec (S p) (S p)); [lia|]. destruct (Nat.ltb_spec p p); [lia|]. rewrite ?Nat.eqb_refl. reflexivity.
  - destruct (Nat.ltb_spec r (S p)), (Nat.ltb_spec r p); try lia; try reflexivity. destruct (Nat.eqb_spec r p); [lia|]. reflexivity.
Qed.
Lemma det_insert n b m p : (p < n)%nat -> cdet n (insert_row p b m) = alt Copp p (cdet n (insert_row 0 b m)).
Proof.
  induction p as [|p IH]; intros P; [reflexivity|]. rewrite (cdet_ext n _ (fun r c => insert_row p b m (swap p (S p) r) c)) by (intros; apply insert_row_swap).
  rewrite (det_swap_adjacent _ _ Cplus Cmult Cminus Copp C_rt n p (insert_row p b m) P : cdet n _ = _). fold cdet. rewrite IH by lia.
  unfold alt. rewrite Nat.even_succ, <- Nat.negb_even. destruct (Nat.even p); cbn [negb]; ring.
Qed.
Definition with_row (a : nat) (b : nat -> C) (m : nat -> nat -> C) : nat -> nat -> C := fun r c => if Nat.eqb r a then b c else m r c.
Lemma cbsum_opp n f : cbsum n (fun a => Copp (f a)) = Copp (cbsum n f).
Proof. induction n as [|n IH]; cbn; [ring|]. fold (cbsum n (fun a => Copp (f a))). fold (cbsum n f). rewrite IH. ring. Qed.
Lemma alt_alt i z : alt Copp i (alt Copp i z) = z.
Proof. unfold alt. destruct (Nat.even i); ring. Qed.
Lemma cramer n m b i : (i < n)%nat -> cbsum n (fun a => Cmult (cdet n (with_row a b m)) (m a i)) = Cmult (cdet n m) (b i).
Proof.
  intros I. set (M := fun r c => match r, c with O, O => b i | O, S c' => b c' | S r', O => m r' i | S r', S c' => m r' c' end).
  assert (Z : cdet (S n) M = RtoC 0). { apply (cdet_equal_columns (S n) 0 (S i)); try lia. intros [|r] _; reflexivity. }
  rewrite cdet_S, cbsum_first in Z. cbn [alt Nat.even M] in Z.
  rewrite (cdet_ext n (fun r c => M (skip 0 r) (S c)) m) in Z by reflexivity.
  rewrite (cbsum_ext n _ (fun a => Copp (Cmult (cdet n (with_row a b m)) (m a i)))) in Z.
  - assert (O : cbsum n (fun a => Copp (Cmult (cdet n (with_row a b m)) (m a i))) = Copp (cbsum n (fun a => Cmult (cdet n (with_row a b m)) (m a i)))).
    { apply cbsum_opp. }
    unfold alt in Z. cbn [Nat.even] in Z. rewrite O in Z.
    unfold Copp at 1 in Z. apply (f_equal (fun z => Cplus z (cbsum n (fun a => Cmult (cdet n (with_row a b m)) (m a i))))) in Z.
    symmetry. etransitivity; [|etransitivity; [exact Z|]]; [|ring]. fold (Copp (cbsum n (fun a => Cmult (cdet n (with_row a b m)) (m a i)))). ring.
  - intros a A. rewrite (cdet_ext n _ (insert_row 0 b (fun r c => m (skip a r) c))).
    + assert (E : cdet n (with_row a b m) = alt Copp a (cdet n (insert_row 0 b (fun r c => m (skip a r) c)))).
      { rewrite <- det_insert by exact A. apply cdet_ext. intros r c _ _. unfold with_row, insert_row, skip. destruct (Nat.eqb_spec r a) as [->|N].
        - destruct (Nat.ltb_spec a a); [lia|]. reflexivity.
        - destruct (Nat.ltb_spec r a); [reflexivity|]. destruct (Nat.ltb_spec (r - 1) a); [lia|]. f_equal. lia. }
      rewrite E. unfold alt. rewrite Nat.even_succ, <- Nat.negb_even. destruct (Nat.even a); cbn [negb]; ring.
    + intros r c _ _. unfold insert_row, M, skip. destruct r as [|r].
      * reflexivity.
      * replace (S r - 1)%nat with r by lia. destruct (Nat.ltb_spec (S r) 0); [lia|]. cbn [Nat.eqb]. destruct (Nat.ltb_spec (S r) (S a)), (Nat.ltb_spec r a); try lia; reflexivity.
Qed.

(** ** The orbitals *)
Lemma clip_in lo hi x : lo <= x <= hi -> clip lo hi x = x.
Proof. intros H. unfold clip. rewrite Rmax_left, Rmin_left by lra. reflexivity. Qed.
Lemma binom_sym q k : (k <= q)%nat -> Binomial.C q (q - k) = Binomial.C q k.
Proof. intros K. unfold Binomial.C. replace (q - (q - k))%nat with k by lia. rewrite (Rmult_comm (INR (fact (q - k)))). reflexivity. Qed.
(** The orbital is the lowest-level one; nearer the poles than the cutoff the latitude of the cutoff is used. *)
Theorem C74_orbital : forall q k p, (k <= q)%nat -> 
  rdm_orbital q k p = orbital q k (acos (clip (-1 + / 10000) (1 - / 10000) (cos (fst p))), snd p).
Proof.
  intros q k p K. set (x := clip (-1 + / 10000) (1 - / 10000) (cos (fst p))).
  assert (X : -1 + / 10000 <= x <= 1 - / 10000). { unfold x, clip. split; [apply Rmin_glb; [apply Rmax_r|lra]|apply Rmin_r]. }
  assert (CX : cos (acos x) = x) by (apply cos_acos; lra). pose proof (acos_bound x) as B.
  assert (B' : 0 < acos x < PI). { split; [destruct (Req_dec (acos x) 0) as [E|E]; [rewrite E, cos_0 in CX; lra|lra]|destruct (Req_dec (acos x) PI) as [E|E]; [rewrite E, cos_PI in CX; lra|lra]]. }
  assert (E : rdm_orbital q k p = harm q 0 (q - k) (acos x, snd p)).
  { unfold rdm_orbital, harm. fold x. cbn [fst snd]. rewrite CX. unfold harm_theta, harm_norm, half_flux, rdm_norm. change (INR 0) with 0.
    replace (q + 2 * 0 - (q - k))%nat with k by lia. replace (q + 0)%nat with q by lia. rewrite (minus_INR q k) by lia.
    replace (INR q + 2 * 0) with (INR q) by ring. replace (2 * (INR q / 2) + 1) with (INR q + 1) by field.
    replace (INR q / 2 - (INR q - INR k)) with (- (INR q / 2) + INR k) by field. apply f_equal2; [|reflexivity]. apply f_equal. apply f_equal.
    apply rsum_ext. intros s _. replace ((INR q + 0 - (INR q - INR k)) / 2) with (INR k / 2) by field. reflexivity. }
  rewrite E, C69_free_lowest by (cbn [fst]; lia || exact B'). unfold orbital. rewrite binom_sym by exact K. replace (q - (q - k))%nat with k by lia. reflexivity.
Qed.
Lemma orbital_off q k p : (k <= q)%nat -> off_poles p -> rdm_orbital q k p = orbital q k p.
Proof. intros K [T H]. rewrite C74_orbital by exact K. rewrite clip_in by exact H. rewrite acos_cos by lra. destruct p; reflexivity. Qed.
Lemma Cconj_mult a b : Cconj (Cmult a b) = Cmult (Cconj a) (Cconj b).
Proof. apply C_eq; cbn; ring. Qed.
Lemma sq_conj z : Cmult z (Cconj z) = RtoC (fst z * fst z + snd z * snd z).
Proof. apply C_eq; cbn; ring. Qed.
Lemma power_conj z k : Cmult (power z k) (Cconj (power z k)) = RtoC ((fst z * fst z + snd z * snd z) ^ k).
Proof.
  induction k as [|k IH]; [apply C_eq; cbn; ring|]. cbn [power pow]. rewrite Cconj_mult.
  replace (Cmult (Cmult z (power z k)) (Cmult (Cconj z) (Cconj (power z k)))) with (Cmult (Cmult z (Cconj z)) (Cmult (power z k) (Cconj (power z k)))) by ring.
  rewrite IH, sq_conj, <- RtoC_mult. reflexivity.
Qed.
Lemma uv_norm p : fst (u_of p) * fst (u_of p) + snd (u_of p) * snd (u_of p) + (fst (v_of p) * fst (v_of p) + snd (v_of p) * snd (v_of p)) = 1.
Proof.
  unfold u_of, v_of. cbn [fst snd]. pose proof (sin2_cos2 (fst p / 2)) as A. pose proof (sin2_cos2 (snd p / 2)) as B. unfold Rsqr in A, B. revert A B.
  generalize (sin (fst p / 2)) (cos (fst p / 2)) (sin (snd p / 2)) (cos (snd p / 2)). intros s c t d A B. assert (A' : s * s = 1 - c * c) by lra. assert (B' : t * t = 1 - d * d) by lra. ring [A' B'].
Qed.
Lemma orbital_sq q k p : (k <= q)%nat -> Cmult (orbital q k p) (Cconj (orbital q k p)) =
  RtoC ((INR q + 1) / (4 * PI) * (Binomial.C q k * (fst (u_of p) * fst (u_of p) + snd (u_of p) * snd (u_of p)) ^ k * (fst (v_of p) * fst (v_of p) + snd (v_of p) * snd (v_of p)) ^ (q - k))).
Proof.
  intros K. unfold orbital. set (w := (-1) ^ (q - k) * sqrt _). rewrite !Cconj_mult.
  assert (W : Cmult (RtoC w) (Cconj (RtoC w)) = RtoC ((INR q + 1) / (4 * PI) * Binomial.C q k)).
  { rewrite sq_conj. apply f_equal. cbn [fst snd RtoC]. unfold w. pose proof PI_RGT_0 as P. pose proof (binom_pos q k K) as BP. pose proof (pos_INR q) as Q.
    replace ((-1) ^ (q - k) * sqrt ((INR q + 1) / (4 * PI) * Binomial.C q k) * ((-1) ^ (q - k) * sqrt ((INR q + 1) / (4 * PI) * Binomial.C q k)) + 0 * 0)
      with (((-1) ^ (q - k) * (-1) ^ (q - k)) * (sqrt ((INR q + 1) / (4 * PI) * Binomial.C q k) * sqrt ((INR q + 1) / (4 * PI) * Binomial.C q k))) by ring.
    rewrite sqrt_sqrt. - rewrite <- Rpow_mult_distr. replace (-1 * -1) with 1 by ring. rewrite pow1. ring.
    - apply Rmult_le_pos; [|lra]. apply Rdiv_le_0_compat; lra. }
  replace (Cmult (Cmult (RtoC w) (Cmult (power (u_of p) k) (power (v_of p) (q - k)))) (Cmult (Cconj (RtoC w)) (Cmult (Cconj (power (u_of p) k)) (Cconj (power (v_of p) (q - k))))))
    with (Cmult (Cmult (RtoC w) (Cconj (RtoC w))) (Cmult (Cmult (power (u_of p) k) (Cconj (power (u_of p) k))) (Cmult (power (v_of p) (q - k)) (Cconj (power (v_of p) (q - k)))))) by ring.
  rewrite W, !power_conj, <- !RtoC_mult. apply f_equal. ring.
Qed.
Lemma cbsum_RtoC n f : cbsum n (fun i => RtoC (f i)) = RtoC (rsigma n f).
Proof. induction n as [|n IH]; [reflexivity|]. cbn [rsigma]. rewrite RtoC_plus, <- IH. reflexivity. Qed.
(** At every point the squares of the flux + 1 orbitals add up to the same density. *)
Lemma orbital_unity q p : cbsum (q + 1) (fun k => Cmult (orbital q k p) (Cconj (orbital q k p))) = RtoC ((INR q + 1) / (4 * PI)).
Proof.
  rewrite (cbsum_ext _ _ (fun k => RtoC ((INR q + 1) / (4 * PI) * (Binomial.C q k * (fst (u_of p) * fst (u_of p) + snd (u_of p) * snd (u_of p)) ^ k * (fst (v_of p) * fst (v_of p) + snd (v_of p) * snd (v_of p)) ^ (q - k))))) by (intros k K; apply orbital_sq; lia).
  rewrite cbsum_RtoC. apply f_equal. set (U := fst (u_of p) * _ + _). set (V := fst (v_of p) * _ + _). 
  assert (UV : U + V = 1) by apply uv_norm. 
  assert (S : forall n f, rsigma (n + 1) f = sum_f_R0 f n). { induction n as [|n IH]; intros f; [cbn; ring|]. change (S n + 1)%nat with (S (n + 1)). cbn [rsigma sum_f_R0]. rewrite IH, Nat.add_1_r. reflexivity. }
  rewrite S.
  rewrite (sum_eq _ (fun k => Binomial.C q k * U ^ k * V ^ (q - k) * ((INR q + 1) / (4 * PI)))) by (intros; ring). rewrite <- scal_sum, <- binomial, UV, pow1. ring.
Qed.
Theorem C74_orbitals_complete : forall q p, csigma (q + 1) (fun k => Cmult (rdm_orbital q k p) (Cconj (rdm_orbital q k p))) = RtoC ((INR q + 1) / (4 * PI)).
Proof. intros q p. change (csigma (q + 1)) with (cbsum (q + 1)). rewrite <- (orbital_unity q (acos (clip (-1 + / 10000) (1 - / 10000) (cos (fst p))), snd p)). apply cbsum_ext. intros k K. rewrite C74_orbital by lia. reflexivity. Qed.

(** ** The filled level *)
Lemma product_const_nz n f : (forall i, (i < n)%nat -> f i <> 0) -> exists c, c <> 0 /\ product n (fun r => RtoC (f r)) = RtoC c.
Proof.
  induction n as [|n IH]; intros H; [exists 1; split; [lra|reflexivity]|]. destruct IH as (c & C0 & E); [intros; apply H; lia|]. exists (c * f n). split; [apply Rmult_integral_contrapositive_currified; [exact C0|apply H; lia]|].
  rewrite product_S, E, RtoC_mult. reflexivity.
Qed.
Lemma slater_pairs q : exists K, K <> RtoC 0 /\ forall e : nat -> R * R, cdet (q + 1) (fun a k => orbital q k (e a)) = Cmult K (pair_product (q + 1) (pair_factor e)).
Proof.
  set (w := fun k => (-1) ^ (q - k) * sqrt ((INR q + 1) / (4 * PI) * Binomial.C q k)).
  destruct (product_const_nz (q + 1) w) as (c & C0 & E).
  { intros k K. unfold w. apply Rmult_integral_contrapositive_currified; [apply pow_nonzero; lra|]. apply Rgt_not_eq, sqrt_lt_R0. apply Rmult_lt_0_compat; [|apply binom_pos; lia].
    apply Rdiv_lt_0_compat; [pose proof (pos_INR q); lra|pose proof PI_RGT_0; lra]. }
  exists (Cmult (RtoC c) (pair_product (q + 1) (fun _ _ => RtoC (-1)))). split.
  - apply Cmult_neq_0; [intros X; apply RtoC_inj in X; contradiction|]. apply pair_product_nz. intros i j _ _ X. apply RtoC_inj in X. lra.
  - intros e. rewrite cdet_transpose. rewrite (cdet_ext _ _ (fun k a => Cmult ((fun k => RtoC (w k)) k) (Cmult (cpow (u_of (e a)) k) (cpow (v_of (e a)) (q + 1 - 1 - k))))).
    + rewrite cdet_rows, cprod_eq, E. rewrite cdet_transpose, (vandermonde (q + 1) (fun k => u_of (e k)) (fun k => v_of (e k))), vprod_eq, <- Cmult_assoc. f_equal.
      rewrite <- pair_product_mult. apply pair_product_ext. intros i j _ _. unfold pair_factor. replace (RtoC (-1)) with (Copp (RtoC 1)) by (apply C_eq; cbn; ring). ring.
    + intros k a K _. unfold orbital, w. change cpow with power. replace (q + 1 - 1 - k)%nat with (q - k)%nat by lia. reflexivity.
Qed.
Lemma ratio_value o o' z z' : cpsi o = Some z -> cpsi o' = Some z' -> z <> RtoC 0 -> wf_ratio o' o = Some (Cdiv z' z).
Proof.
  intros A B N. destruct o as [x| |]; cbn in A; try discriminate; injection A as A; [|contradiction N; symmetry; exact A].
  destruct o' as [y| |]; cbn in B; try discriminate; injection B as B; cbn [wf_ratio]; f_equal.
  - change (cexp y = z') in B. change (cexp x = z) in A. subst z z'.
    assert (P : Cmult (cexp (Cminus y x)) (cexp x) = cexp y) by (rewrite <- cexp_plus; f_equal; apply C_eq; cbn; ring).
    rewrite <- P. field. exact N.
  - rewrite <- B. unfold Cdiv. ring.
Qed.
Lemma cosum_some {T : Type} (l : list T) f : cosum (map (fun a => Some (f a)) l) = Some (csum (map f l)).
Proof. induction l as [|x l IH]; [reflexivity|]. cbn [map cosum]. rewrite IH. reflexivity. Qed.
Lemma csum_seq n f : csum (map f (seq 0 n)) = cbsum n f.
Proof.
  induction n as [|n IH]; [reflexivity|]. rewrite seq_S, map_app. cbn [map Nat.add]. change (cbsum (S n) f) with (Cplus (cbsum n f) (f n)). rewrite <- IH. clear.
  generalize (map f (seq 0 n)). intros l. induction l as [|x l IH]; cbn; [ring|]. unfold csum in IH. rewrite IH. ring.
Qed.
Lemma cosum_seq n f g : (forall a, (a < n)%nat -> f a = Some (g a)) -> cosum (map f (seq 0 n)) = Some (cbsum n g).
Proof.
  intros H. rewrite (map_ext_in _ (fun a => Some (g a))) by (intros a A; apply in_seq in A; apply H; lia). rewrite cosum_some, csum_seq. reflexivity.
Qed.
Theorem C74_filled : forall q logpsi c e r i j, let n := (q + 1)%nat in
  c <> RtoC 0 -> cpsi (logpsi e) = Some (Cmult c (pair_product n (pair_factor e))) ->
  (forall a, (a < n)%nat -> cpsi (logpsi (put e a r)) = Some (Cmult c (pair_product n (pair_factor (put e a r))))) ->
  distinct n e -> (forall a, (a < n)%nat -> off_poles (e a)) -> off_poles r -> (i <= q)%nat -> (j <= q)%nat ->
  one_rdm n q logpsi e r i j = Some (Cmult (RtoC (4 * PI)) (Cmult (orbital q i r) (Cconj (orbital q j r)))).
Proof.
  intros q logpsi c e r i j n C0 He Hp D OP OR I J. destruct (slater_pairs q) as (K & K0 & SL).
  set (P := pair_product n (pair_factor e)) in *. assert (P0 : P <> RtoC 0) by (apply pair_product_nz; intros a b A B; apply pair_factor_nz, D; lia).
  assert (Z : Cmult c P <> RtoC 0) by (apply Cmult_neq_0; assumption).
  unfold one_rdm. rewrite (cosum_seq n _ (fun a => Cmult (Cdiv (Cconj (orbital q j r)) (Cmult K P)) (Cmult (cdet n (with_row a (fun k => orbital q k r) (fun b k => orbital q k (e b)))) (orbital q i (e a))))).
  - cbn [option_map]. do 2 f_equal. rewrite cbsum_scal, (cramer n (fun b k => orbital q k (e b)) (fun k => orbital q k r)) by (unfold n; lia). unfold n at 1. rewrite SL. fold n. fold P. field. split; assumption.
  - intros a A. change (displaced e a r) with (put e a r). rewrite (ratio_value _ _ _ _ He (Hp a A) Z). cbn [option_map]. f_equal. rewrite !orbital_off by (auto; unfold n in *; lia).
    rewrite (cdet_ext n _ (fun b k => orbital q k (put e a r b))).
    + unfold n at 2. rewrite SL. fold n. field. repeat split; assumption.
    + intros b k _ _. unfold with_row, put. destruct (Nat.eqb b a); reflexivity.
Qed.
(** Its trace is the number of electrons, at every configuration and auxiliary point. *)
Theorem C74_filled_trace : forall q logpsi c e r, let n := (q + 1)%nat in
  c <> RtoC 0 -> cpsi (logpsi e) = Some (Cmult c (pair_product n (pair_factor e))) ->
  (forall a, (a < n)%nat -> cpsi (logpsi (put e a r)) = Some (Cmult c (pair_product n (pair_factor (put e a r))))) ->
  distinct n e -> (forall a, (a < n)%nat -> off_poles (e a)) -> off_poles r ->
  rdm_trace q (one_rdm n q logpsi e r) = Some (RtoC (INR n)).
Proof.
  intros q logpsi c e r n C0 He Hp D OP OR. unfold rdm_trace.
  rewrite (cosum_seq (q + 1) _ (fun i => Cmult (RtoC (4 * PI)) (Cmult (orbital q i r) (Cconj (orbital q i r))))) by (intros i I; apply (C74_filled q logpsi c); auto; lia).
  rewrite cbsum_scal, orbital_unity, <- RtoC_mult. do 2 f_equal. unfold n. rewrite plus_INR. cbn [INR]. field. apply PI_neq0.
Qed.
(** Both for the Free wavefunction with flux + 1 electrons. *)
Theorem C74_free : forall ns q e r, let n := (fst ns + snd ns)%nat in n = (q + 1)%nat ->
  distinct n e -> (forall a, (a < n)%nat -> off_poles (e a) /\ distance r (e a) <> 0) -> off_poles r ->
  (forall i j, (i <= q)%nat -> (j <= q)%nat -> one_rdm n q (free ns q) e r i j = Some (Cmult (RtoC (4 * PI)) (Cmult (orbital q i r) (Cconj (orbital q j r))))) /\
  rdm_trace q (one_rdm n q (free ns q) e r) = Some (RtoC (INR n)).
Proof.
  intros ns q e r n N D OP OR. destruct (C69_free_filled ns q N) as (c & C0 & F). fold n in F.
  assert (C1 : RtoC c <> RtoC 0) by (intros X; apply RtoC_inj in X; contradiction).
  assert (He : cpsi (free ns q e) = Some (Cmult (RtoC c) (pair_product n (pair_factor e)))) by (apply F; [intros a A; apply OP; exact A|exact D]).
  assert (Hp : forall a, (a < n)%nat -> cpsi (free ns q (put e a r)) = Some (Cmult (RtoC c) (pair_product n (pair_factor (put e a r))))).
  { intros a A. apply F.
    - intros b B. unfold put. destruct (Nat.eqb b a); [apply OR|apply OP; exact B].
    - intros b b' B B' NB. unfold put. destruct (Nat.eqb_spec b a) as [->|], (Nat.eqb_spec b' a) as [->|]; try lia; [apply OP; exact B'| |apply D; assumption].
      destruct (OP b B) as [_ X]. intros Y. apply X. rewrite <- Y. unfold distance. f_equal. ring. }
  rewrite N in *. split; [intros i j I J; apply (C74_filled q _ (RtoC c))|apply (C74_filled_trace q _ (RtoC c))]; auto; intros a A; apply OP; exact A.
Qed.

(** ** Symmetries *)
Lemma cexp_nz x : cexp x <> RtoC 0.
Proof.
  intros E. apply (f_equal (fun z => fst z * fst z + snd z * snd z)) in E. unfold cexp in E. cbn in E. pose proof (sin2_cos2 (snd x)) as H. unfold Rsqr in H. pose proof (exp_pos (fst x)) as P.
  assert (Q : exp (fst x) * exp (fst x) = 0); [|nra]. replace (exp (fst x) * exp (fst x)) with (exp (fst x) * exp (fst x) * (sin (snd x) * sin (snd x) + cos (snd x) * cos (snd x))) by (rewrite H; ring). lra.
Qed.
Lemma ratio_cpsi o' o : wf_ratio o' o = match cpsi o, cpsi o' with Some z, Some z' => if Ceqb z then None else Some (Cdiv z' z) | _, _ => None end.
Proof.
  destruct (cpsi o) as [z|] eqn:A; [|destruct o; try discriminate; reflexivity].
  pose proof (Ceqb_spec z) as Z. destruct (Ceqb z).
  - destruct o as [x| |]; cbn in A; try discriminate; [|destruct o'; cbn; reflexivity]. exfalso. injection A as A. change (cexp x = z) in A. apply (cexp_nz x). rewrite A. exact Z.
  - destruct (cpsi o') as [z'|] eqn:B; [apply ratio_value; assumption|]. destruct o'; try discriminate. destruct o; reflexivity.
Qed.
Lemma cosum_option_scal l k : cosum (map (option_map (Cmult k)) l) = option_map (Cmult k) (cosum l).
Proof. induction l as [|x l IH]; cbn [map cosum]; [cbn; f_equal; ring|]. rewrite IH. destruct x as [x|], (cosum l) as [y|]; cbn [option_map]; try reflexivity. f_equal. ring. Qed.
Lemma cosum_perm l l' : Permutation l l' -> cosum l = cosum l'.
Proof.
  induction 1 as [|x l l' P IH|x y l|l l' l'' P IH Q IH']; cbn [cosum]; [reflexivity|rewrite IH; reflexivity| |congruence].
  destruct x as [x|], y as [y|], (cosum l) as [z|]; try reflexivity. f_equal. ring.
Qed.
Lemma phase_plus x y : phase (x + y) = Cmult (phase x) (phase y).
Proof. unfold phase. rewrite cos_plus, sin_plus. apply C_eq; cbn; ring. Qed.
Lemma phase_conj x : Cconj (phase x) = phase (- x).
Proof. unfold phase. rewrite cos_neg, sin_neg. reflexivity. Qed.
Lemma phase_nz x : phase x <> RtoC 0.
Proof. intros E. apply (f_equal (fun z => fst z * fst z + snd z * snd z)) in E. cbn in E. pose proof (sin2_cos2 x) as H. unfold Rsqr in H. lra. Qed.
Lemma orbital_turn q k p alpha : rdm_orbital q k (turn alpha p) = Cmult (phase ((- (INR q / 2) + INR k) * alpha)) (rdm_orbital q k p).
Proof.
  unfold rdm_orbital, turn. cbn [fst snd]. set (w := RtoC _). replace (cexp (0, (- (INR q / 2) + INR k) * (snd p + alpha))) with (Cmult (phase ((- (INR q / 2) + INR k) * alpha)) (cexp (0, (- (INR q / 2) + INR k) * snd p))); [ring|].
  unfold cexp. cbn [fst snd]. rewrite exp_0. fold (phase ((- (INR q / 2) + INR k) * (snd p + alpha))). fold (phase ((- (INR q / 2) + INR k) * snd p)). rewrite Rmult_plus_distr_l, phase_plus. ring.
Qed.
(** For a state with a definite L_z, turning the electrons and the auxiliary point about the axis changes element (i, j) by
    the phase of the difference of the two orbitals, so the diagonal stays and the rest averages to zero over the turns. *)
Theorem C74_rotation : forall n q logpsi M alpha e r i j,
  (forall e1 e2, (forall a, e2 a = turn alpha (e1 a)) -> cpsi (logpsi e2) = option_map (Cmult (phase (M * alpha))) (cpsi (logpsi e1))) ->
  one_rdm n q logpsi (fun a => turn alpha (e a)) (turn alpha r) i j = option_map (Cmult (phase ((INR i - INR j) * alpha))) (one_rdm n q logpsi e r i j).
Proof.
  intros n q logpsi M alpha e r i j H. unfold one_rdm.
  rewrite (map_ext _ (fun a => option_map (Cmult (phase ((INR i - INR j) * alpha)))
    (option_map (fun w => Cmult (Cmult w (rdm_orbital q i (e a))) (Cconj (rdm_orbital q j r))) (wf_ratio (logpsi (displaced e a r)) (logpsi e))))).
  - rewrite <- (map_map _ (option_map (Cmult (phase ((INR i - INR j) * alpha))))), cosum_option_scal. destruct (cosum _) as [z|]; cbn [option_map]; [f_equal; ring|reflexivity].
  - intros a. rewrite !ratio_cpsi. rewrite (H e (fun a => turn alpha (e a))) by reflexivity.
    rewrite (H (displaced e a r) (displaced (fun a => turn alpha (e a)) a (turn alpha r))) by (intros b; unfold displaced; destruct (Nat.eqb b a); reflexivity).
    destruct (cpsi (logpsi e)) as [z|]; [|reflexivity]. destruct (cpsi (logpsi (displaced e a r))) as [z'|]; [|reflexivity]. cbn [option_map].
    pose proof (Ceqb_spec z) as Z. pose proof (Ceqb_spec (Cmult (phase (M * alpha)) z)) as Z'. pose proof (phase_nz (M * alpha)) as P.
    destruct (Ceqb z), (Ceqb (Cmult (phase (M * alpha)) z)); [reflexivity| | |].
    + exfalso. apply Z'. rewrite Z. ring.
    + exfalso. apply (Cmult_neq_0 _ _ P Z). exact Z'.
    + cbn [option_map]. f_equal. rewrite !orbital_turn, Cconj_mult, phase_conj.
      replace (phase ((INR i - INR j) * alpha)) with (Cmult (phase ((- (INR q / 2) + INR i) * alpha)) (phase (- ((- (INR q / 2) + INR j) * alpha)))) by (rewrite <- phase_plus; f_equal; ring).
      field. split; assumption.
Qed.
(** Exchanging two electrons of an antisymmetric (or symmetric) state changes nothing. *)
Theorem C74_exchange : forall n q logpsi (s : C) e r x y i j, (x < n)%nat -> (y < n)%nat -> s <> RtoC 0 ->
  (forall e1 e2, (forall a, e2 a = e1 (swap x y a)) -> cpsi (logpsi e2) = option_map (Cmult s) (cpsi (logpsi e1))) ->
  one_rdm n q logpsi (fun a => e (swap x y a)) r i j = one_rdm n q logpsi e r i j.
Proof.
  intros n q logpsi s e r x y i j X Y S H. unfold one_rdm. f_equal.
  set (F := fun a => option_map (fun w => Cmult (Cmult w (rdm_orbital q i (e a))) (Cconj (rdm_orbital q j r))) (wf_ratio (logpsi (displaced e a r)) (logpsi e))).
  rewrite (map_ext _ (fun a => F (swap x y a))).
  - rewrite <- (map_map (swap x y) F). apply cosum_perm, Permutation_map, swap_perm; lia.
  - intros a. unfold F. rewrite !ratio_cpsi. rewrite (H e (fun a => e (swap x y a))) by reflexivity.
    rewrite (H (displaced e (swap x y a) r) (displaced (fun a => e (swap x y a)) a r)).
    + destruct (cpsi (logpsi e)) as [z|]; [|reflexivity]. destruct (cpsi (logpsi (displaced e (swap x y a) r))) as [z'|]; [|reflexivity]. cbn [option_map].
      pose proof (Ceqb_spec z) as Z. pose proof (Ceqb_spec (Cmult s z)) as Z'. destruct (Ceqb z), (Ceqb (Cmult s z)); [reflexivity| | |].
      * exfalso. apply Z'. rewrite Z. ring.
      * exfalso. apply (Cmult_neq_0 _ _ S Z). exact Z'.
      * cbn [option_map]. f_equal. field. split; assumption.
    + intros b. unfold displaced. destruct (Nat.eqb_spec b a) as [->|N]; [rewrite Nat.eqb_refl; reflexivity|]. destruct (Nat.eqb_spec (swap x y b) (swap x y a)) as [E|]; [|reflexivity].
      exfalso. apply N. rewrite <- (swap_inv x y b), E, swap_inv. reflexivity.
Qed.

(** ** Free electrons, any number in any flux: the symmetries hold *)
Lemma cpsi_scaled dets u : Cmod u = 1 -> cpsi (logdet_complex (map (fun d => Cmult u d) dets)) = option_map (Cmult u) (cpsi (logdet_complex dets)).
Proof.
  intros U. pose proof (complex_scaled dets _ u U eq_refl) as H. destruct (logdet_complex dets) as [z| |], (logdet_complex (map (fun d => Cmult u d) dets)) as [z'| |]; try contradiction; cbn [cpsi option_map].
  - destruct H as [A B]. rewrite A, B. f_equal. ring.
  - f_equal. ring.
  - reflexivity.
Qed.
Lemma cmod_phase x : Cmod (phase x) = 1.
Proof. unfold Cmod, phase. cbn [fst snd]. rewrite <- sqrt_1. f_equal. pose proof (sin2_cos2 x) as H. unfold Rsqr in H. rewrite <- H. ring. Qed.
Lemma product_phase n f : product n (fun i => phase (f i)) = phase (rsigma n f).
Proof. induction n as [|n IH]; [unfold phase; cbn; rewrite cos_0, sin_0; reflexivity|]. rewrite product_S, IH. cbn [rsigma]. rewrite phase_plus. reflexivity. Qed.
Definition free_lz (ns : spins) (q : nat) : R := rsigma (fst ns + snd ns) (fun k => let o := nth k (fill q (fst ns + snd ns) 0 0) (0%nat, 0%nat) in half_flux q (fst o) - INR (snd o)).
Lemma rsigma_scal n f x : rsigma n (fun i => f i * x) = rsigma n f * x.
Proof. induction n as [|n IH]; cbn [rsigma]; [ring|]. rewrite IH. ring. Qed.
Theorem C74_free_symmetric : forall ns q alpha e r i j, let n := (fst ns + snd ns)%nat in
  one_rdm n q (free ns q) (fun a => turn alpha (e a)) (turn alpha r) i j = option_map (Cmult (phase ((INR i - INR j) * alpha))) (one_rdm n q (free ns q) e r i j) /\
  (forall x y, (x < n)%nat -> (y < n)%nat -> x <> y -> one_rdm n q (free ns q) (fun a => e (swap x y a)) r i j = one_rdm n q (free ns q) e r i j).
Proof.
  intros ns q alpha e r i j n. split.
  - apply (C74_rotation n q (free ns q) (free_lz ns q)). intros e1 e2 H. unfold free.
    rewrite (cdet_ext _ _ (fun k a => Cmult ((fun k => phase ((let o := nth k (fill q (n_el ns) 0 0) (0%nat, 0%nat) in half_flux q (fst o) - INR (snd o)) * alpha)) k) (free_entry ns q e1 k a))).
    + rewrite cdet_rows, cprod_eq, product_phase, rsigma_scal. fold n. apply (cpsi_scaled [cdet (n_el ns) (free_entry ns q e1)]). apply cmod_phase.
    + intros k a _ _. unfold free_entry. rewrite H. cbv zeta. destruct (nth k _ _) as [s t]. cbn [fst snd]. unfold harm, turn. cbn [fst snd]. set (w := RtoC _).
      replace (cexp (0, (half_flux q s - INR t) * (snd (e1 a) + alpha))) with (Cmult (phase ((half_flux q s - INR t) * alpha)) (cexp (0, (half_flux q s - INR t) * snd (e1 a)))); [ring|].
      unfold cexp. cbn [fst snd]. rewrite exp_0. fold (phase ((half_flux q s - INR t) * (snd (e1 a) + alpha))). fold (phase ((half_flux q s - INR t) * snd (e1 a))). rewrite Rmult_plus_distr_l, phase_plus. ring.
  - intros x y X Y N. apply (C74_exchange n q (free ns q) (Copp (RtoC 1))); auto.
    + intros E. apply (f_equal fst) in E. cbn in E. lra.
    + intros e1 e2 H. unfold free.
      rewrite (cdet_ext _ _ (fun k a => free_entry ns q e1 k (swap x y a))) by (intros k a _ _; unfold free_entry; rewrite H; reflexivity).
      rewrite (det_swap_columns _ _ Cplus Cmult Cminus Copp C_rt (n_el ns) x y _ X Y N : cdet _ _ = _). fold cdet.
      rewrite <- (cpsi_scaled [cdet (n_el ns) (free_entry ns q e1)]).
      * do 2 f_equal. cbn [map]. f_equal. ring.
      * rewrite Cmod_opp, Cmod_1. reflexivity.
Qed.
(** Two free electrons in one flux quantum at opposite points of the equator, the auxiliary point between them: the trace is 2. *)
Theorem C74_example : rdm_trace 1 (one_rdm 2 1 (free (2, 0)%nat 1) (fun a => if Nat.eqb a 0 then (PI / 2, 0) else (PI / 2, PI)) (PI / 2, PI / 2)) = Some (RtoC 2).
Proof.
  assert (P := PI_RGT_0). set (e := fun a : nat => if Nat.eqb a 0 then (PI / 2, 0) else (PI / 2, PI)).
  assert (OE : forall x, off_poles (PI / 2, x)) by (intros x; split; cbn [fst]; [lra|rewrite cos_PI2; lra]).
  destruct (C74_free (2, 0)%nat 1 e (PI / 2, PI / 2)) as [_ T]; auto.
  - intros a b A B N. cbn in A, B. unfold e. assert (H : (a = 0 /\ b = 1 \/ a = 1 /\ b = 0)%nat) by lia.
    destruct H as [[-> ->]|[-> ->]]; cbn [Nat.eqb]; unfold distance, x_of, y_of, z_of; cbn [fst snd]; rewrite ?sin_PI2, ?cos_PI2, ?cos_0, ?cos_PI, ?sin_0, ?sin_PI; apply Rgt_not_eq, sqrt_lt_R0; lra.
  - intros a A. split; [unfold e; destruct (Nat.eqb a 0); apply OE|]. unfold e. destruct (Nat.eqb a 0); unfold distance, x_of, y_of, z_of; cbn [fst snd]; rewrite ?sin_PI2, ?cos_PI2, ?cos_0, ?cos_PI, ?sin_0, ?sin_PI; apply Rgt_not_eq, sqrt_lt_R0; lra.
Qed.
