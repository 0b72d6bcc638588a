(** C82: the Hartree-Fock reference and the pretraining stage. *)
From Coq Require Import Reals List Arith Bool Lra Lia ZArith Permutation.
From Coquelicot Require Import Coquelicot.
From Verif Require Import Lin Geom_Spec Geom_Model Geom_Props Periodic_Props Det Wf_Model Wf_Spec Wf_Lemmas Wf_Logdet Wf_Props Bloch_Model Bloch_Props Gto_Model Hf_Model.
From Verif Require Supercell_Model Supercell_Spec Supercell_Props.
Import ListNotations.
Open Scope R_scope.
Local Notation vec := Lin.vec.
Local Notation mat := Lin.mat.

(** The number a (sign, log) pair stands for. *)
Definition value (o : R * ext) : R := match snd o with Fin l => fst o * exp l | _ => 0 end.
Definition cvalue (o : C * ext) : C := match snd o with Fin l => Cmult (fst o) (RtoC (exp l)) | _ => RtoC 0 end.

(** ** Molecules: the Slater determinant *)
Lemma rdet_0 m : rdet 0 m = 1. Proof. reflexivity. Qed.
Lemma block_value n m : value (slogdet_spin_block n m) = rdet n m /\ (snd (slogdet_spin_block n m) = if Req_EM_T (rdet n m) 0 then NegInf else Fin (ln (Rabs (rdet n m)))) /\
  (fst (slogdet_spin_block n m) = if Req_EM_T (rdet n m) 0 then 0 else rsign (rdet n m)).
Proof.
  unfold slogdet_spin_block. destruct (Nat.eqb_spec n 0) as [->|N].
  - rewrite rdet_0. destruct (Req_EM_T 1 0); [lra|]. unfold value. cbn [fst snd]. rewrite exp_0, Rabs_R1, ln_1. unfold rsign. destruct (Rlt_dec 1 0); [lra|]. destruct (Rlt_dec 0 1); [|lra]. repeat split; ring.
  - unfold slogdet, value. destruct (Req_EM_T (rdet n m) 0) as [E|E]; cbn [fst snd]; [auto|]. repeat split; auto. apply rsign_ln. exact E.
Qed.
Lemma rsign_mult x y : x <> 0 -> y <> 0 -> rsign (x * y) = rsign x * rsign y.
Proof.
  intros X Y. unfold rsign. repeat match goal with |- context [Rlt_dec ?a ?b] => destruct (Rlt_dec a b) end; try ring; try nra; exfalso; nra.
Qed.
Lemma slater_value ns a b : let p := rdet (fst ns) a * rdet (snd ns) b in
  value (slater_from_orbitals ns a b) = p /\ snd (slater_from_orbitals ns a b) = (if Req_EM_T p 0 then NegInf else Fin (ln (Rabs p))) /\
  fst (slater_from_orbitals ns a b) = (if Req_EM_T p 0 then 0 else rsign p).
Proof.
  cbv zeta. unfold slater_from_orbitals. destruct (block_value (fst ns) a) as (V1 & L1 & S1), (block_value (snd ns) b) as (V2 & L2 & S2).
  destruct (slogdet_spin_block (fst ns) a) as [sa la], (slogdet_spin_block (snd ns) b) as [sb lb]. cbn [fst snd] in *. unfold value in *. cbn [fst snd] in *.
  set (A := rdet (fst ns) a) in *. set (B := rdet (snd ns) b) in *.
  destruct (Req_EM_T A 0) as [EA|EA]; [|destruct (Req_EM_T B 0) as [EB|EB]].
  - rewrite L1, S1, EA. destruct (Req_EM_T (0 * B) 0) as [_|X]; [|exfalso; apply X; ring]. destruct lb; cbn; repeat split; try ring. destruct (Req_EM_T B 0); discriminate.
  - rewrite L2, S2, L1, EB. destruct (Req_EM_T (A * 0) 0) as [_|X]; [|exfalso; apply X; ring]. cbn. repeat split; ring.
  - destruct (Req_EM_T (A * B) 0) as [X|X]; [apply Rmult_integral in X; tauto|]. rewrite L1, L2 in *. cbn [eplus]. rewrite S1, S2, rsign_mult by auto. repeat split.
    + rewrite exp_plus. rewrite S1 in V1. rewrite S2 in V2. rewrite <- V1, <- V2 at 3. rewrite <- V2 at 1. rewrite V2 at 1. rewrite <- V1 at 1. rewrite V1 at 1. 
      replace (rsign A * rsign B * (exp (ln (Rabs A)) * exp (ln (Rabs B)))) with ((rsign A * exp (ln (Rabs A))) * (rsign B * exp (ln (Rabs B)))) by ring. reflexivity.
    + f_equal. rewrite Rabs_mult, ln_mult by (apply Rabs_pos_lt; auto). reflexivity.
Qed.
(** the orbitals of one spin: coefficient matrix of that spin *)
Definition alpha_coeff (mf : mo_coeff) : mat := match mf with Restricted c => c | Unrestricted c _ => c end.
Definition beta_coeff (mf : mo_coeff) : mat := match mf with Restricted c => c | Unrestricted _ c => c end.
(** the j-th molecular orbital with coefficients c at r *)
Definition orbital (atoms : list atom_t) (dict : nat -> list shell) (c : mat) (j : nat) (r : vec) : R :=
  let chi := eval_aos atoms dict r in sum (length chi) (fun mu => nth mu chi 0 * c mu j).
(** The spin-up electrons in the lowest spin-up orbitals times the spin-down electrons in the lowest spin-down ones. *)
Definition slater_product (atoms : list atom_t) (dict : nat -> list shell) (mf : mo_coeff) (ns : spins) (pos : nat -> vec) : R :=
  rdet (fst ns) (fun i j => orbital atoms dict (alpha_coeff mf) j (pos i)) *
  rdet (snd ns) (fun i j => orbital atoms dict (beta_coeff mf) j (pos (fst ns + i)%nat)).
Theorem C82_slater : forall atoms dict mf ns pos, let p := slater_product atoms dict mf ns pos in let o := eval_slater atoms dict mf ns pos in
  value o = p /\ snd o = (if Req_EM_T p 0 then NegInf else Fin (ln (Rabs p))) /\ fst o = (if Req_EM_T p 0 then 0 else rsign p).
Proof.
  intros atoms dict mf ns pos. cbv zeta. unfold eval_slater, eval_orbitals, eval_mos, extract_spin_blocks, slater_product, alpha_coeff, beta_coeff, orbital.
  destruct mf; apply slater_value.
Qed.
(** Exchanging two electrons of one spin keeps log|Phi| and flips the sign. *)
Lemma product_exchange {A} (ns : spins) (F G : A -> nat -> R) (e : nat -> A) a b : same_spin ns a b -> a <> b ->
  rdet (fst ns) (fun i j => F (exchange a b e i) j) * rdet (snd ns) (fun i j => G (exchange a b e (fst ns + i)%nat) j) =
  - (rdet (fst ns) (fun i j => F (e i) j) * rdet (snd ns) (fun i j => G (e (fst ns + i)%nat) j)).
Proof.
  assert (X : forall i, exchange a b e i = e (swap a b i)) by (intros i; unfold exchange, swap; destruct (Nat.eqb i a), (Nat.eqb i b); reflexivity).
  intros [[A1 B1]|[A1 B1]] N.
  - transitivity (rdet (fst ns) (fun i j => (fun r c => F (e r) c) (swap a b i) j) * rdet (snd ns) (fun i j => G (e (fst ns + i)%nat) j)).
    + f_equal; apply det_ext; intros i j I J; rewrite X; [reflexivity|]. rewrite swap_other by lia. reflexivity.
    + pose proof (det_swap_rows 0 1 Rplus Rmult Rminus Ropp RTheory (fst ns) a b (fun r c => F (e r) c) A1 B1 N) as D. unfold rdet. cbv beta in *. rewrite D. ring.
  - transitivity (rdet (fst ns) (fun i j => F (e i) j) * rdet (snd ns) (fun i j => (fun r c => G (e (fst ns + r)%nat) c) (swap (a - fst ns) (b - fst ns) i) j)).
    + f_equal; apply det_ext; intros i j I J; rewrite X; [rewrite swap_other by lia; reflexivity|]. f_equal. f_equal. unfold swap.
      destruct (Nat.eqb_spec (fst ns + i) a), (Nat.eqb_spec i (a - fst ns)); try lia; destruct (Nat.eqb_spec (fst ns + i) b), (Nat.eqb_spec i (b - fst ns)); try lia.
    + pose proof (det_swap_rows 0 1 Rplus Rmult Rminus Ropp RTheory (snd ns) (a - fst ns) (b - fst ns) (fun r c => G (e (fst ns + r)%nat) c) ltac:(lia) ltac:(lia) ltac:(lia)) as D. unfold rdet. cbv beta in *. rewrite D. ring.
Qed.
Theorem C82_antisymmetric : forall atoms dict mf ns pos a b, same_spin ns a b -> a <> b ->
  eval_slater atoms dict mf ns (exchange a b pos) = (- fst (eval_slater atoms dict mf ns pos), snd (eval_slater atoms dict mf ns pos)).
Proof.
  intros atoms dict mf ns pos a b S N. pose proof (C82_slater atoms dict mf ns pos) as P. pose proof (C82_slater atoms dict mf ns (exchange a b pos)) as Q. cbv zeta in P, Q.
  assert (E : slater_product atoms dict mf ns (exchange a b pos) = - slater_product atoms dict mf ns pos) by (apply (product_exchange ns (fun r j => orbital atoms dict (alpha_coeff mf) j r) (fun r j => orbital atoms dict (beta_coeff mf) j r)); auto).
  rewrite E in Q. set (p := slater_product atoms dict mf ns pos) in *. clearbody p. destruct P as (_ & P1 & P2), Q as (_ & Q1 & Q2).
  rewrite (surjective_pairing (eval_slater atoms dict mf ns (exchange a b pos))), P1, P2, Q1, Q2.
  destruct (Req_EM_T p 0) as [Z|Z], (Req_EM_T (- p) 0) as [W|W]; try lra; f_equal; try ring.
  - unfold rsign. repeat match goal with |- context [Rlt_dec ?a ?b] => destruct (Rlt_dec a b) end; lra.
  - rewrite Rabs_Ropp. reflexivity.
Qed.

(** ** The pretraining loss *)
Lemma cdet_ext n m m' : (forall r c, (r < n)%nat -> (c < n)%nat -> m r c = m' r c) -> cdet n m = cdet n m'.
Proof. apply det_ext. Qed.
Lemma bigsum_split (n m : nat) (f : nat -> C) : bigsum (RtoC 0) Cplus (n + m) f = Cplus (bigsum (RtoC 0) Cplus n f) (bigsum (RtoC 0) Cplus m (fun i => f (n + i)%nat)).
Proof. induction m as [|m IH]; [rewrite Nat.add_0_r; simpl; ring|]. rewrite <- plus_n_Sm. cbn [bigsum]. rewrite IH. ring. Qed.
Theorem C82_block_determinant : forall nb na a b, cdet (na + nb) (block_target na a b) = Cmult (cdet na a) (cdet nb b).
Proof.
  intros nb. induction na as [|na IH]; intros a b.
  - cbn [Nat.add]. change (cdet 0 a) with (RtoC 1). rewrite Cmult_1_l. apply cdet_ext. intros r c _ _. unfold block_target. cbn. rewrite !Nat.sub_0_r. reflexivity.
  - change (S na + nb)%nat with (S (na + nb)). unfold cdet at 1. cbn [det]. change (S (na + nb)) with (S na + nb)%nat at 1.
    rewrite bigsum_split. rewrite (bigsum_zero _ _ Cplus Cmult Cminus Copp C_rt nb).
    2:{ intros i Hi. unfold block_target at 1. destruct (Nat.ltb_spec (S na + i) (S na)); [lia|]. cbn [Nat.ltb Nat.leb]. rewrite Cmult_0_l. unfold alt. destruct (Nat.even (S na + i)); [reflexivity|]. ring. }
    rewrite Cplus_0_r. unfold cdet at 1. cbn [det]. rewrite (Cmult_comm _ (cdet nb b)). rewrite <- (bigsum_scal _ _ Cplus Cmult Cminus Copp C_rt). apply bigsum_ext. intros i Hi.
    rewrite <- (alt_scal _ _ Cplus Cmult Cminus Copp C_rt). f_equal. unfold block_target at 1. destruct (Nat.ltb_spec i (S na)); [|lia]. cbn [Nat.ltb Nat.leb].
    replace (det (RtoC 0) (RtoC 1) Cplus Cmult Copp (na + nb) (fun r c => block_target (S na) a b (skip i r) (S c)))
      with (cdet (na + nb) (block_target na (fun r c => a (skip i r) (S c)) b)).
    + rewrite IH. unfold cdet. ring.
    + apply cdet_ext. intros r c R C. unfold block_target. unfold skip.
      destruct (Nat.ltb_spec r i), (Nat.ltb_spec r na), (Nat.ltb_spec c na); try lia;
      repeat match goal with |- context [Nat.ltb ?x ?y] => destruct (Nat.ltb_spec x y); try lia end; try reflexivity. 
Qed.
Lemma cabs2_zero z : cabs2 z = 0 <-> z = RtoC 0.
Proof.
  unfold cabs2. split; intros H.
  - apply Cmod_eq_0. assert (P := Cmod_ge_0 z). simpl in H. nra.
  - rewrite H, Cmod_0. ring.
Qed.
Lemma cabs2_nonneg z : 0 <= cabs2 z. Proof. unfold cabs2. apply pow2_ge_0. Qed.
Lemma Cminus_eq u v : Cminus u v = RtoC 0 -> u = v.
Proof. intros H. replace u with (Cplus (Cminus u v) v) by ring. rewrite H. ring. Qed.
Theorem C82_loss_zero : forall ns ndets a b orb, (0 < n_el ns)%nat -> (0 < ndets)%nat ->
  0 <= loss_full ns ndets a b orb /\
  (loss_full ns ndets a b orb = 0 <-> forall k i j, (k < ndets)%nat -> (i < n_el ns)%nat -> (j < n_el ns)%nat -> orb k i j = block_target (fst ns) a b i j).
Proof.
  intros ns nd a b orb N D. unfold loss_full, mean3. set (f := fun k i j => cabs2 (Cminus (block_target (fst ns) a b i j) (orb k i j))).
  assert (P : 0 < INR (nd * n_el ns * n_el ns)) by (apply lt_0_INR; nia).
  assert (F : forall k i j, 0 <= f k i j) by (intros; apply cabs2_nonneg).
  assert (S2 : forall k i, 0 <= sum (n_el ns) (fun j => f k i j)) by (intros; apply sum_nonneg; intros; apply F).
  assert (S1 : forall k, 0 <= sum (n_el ns) (fun i => sum (n_el ns) (fun j => f k i j))) by (intros; apply sum_nonneg; intros; apply S2).
  assert (S0 : 0 <= sum nd (fun k => sum (n_el ns) (fun i => sum (n_el ns) (fun j => f k i j)))) by (apply sum_nonneg; intros; apply S1).
  split; [apply Rmult_le_pos; [exact S0|left; apply Rinv_0_lt_compat; exact P]|]. split; intros H.
  - assert (Z : sum nd (fun k => sum (n_el ns) (fun i => sum (n_el ns) (fun j => f k i j))) = 0).
    { apply Rmult_eq_reg_r with (/ INR (nd * n_el ns * n_el ns)); [rewrite Rmult_0_l; exact H|]. apply Rinv_neq_0_compat. lra. }
    intros k i j K I J. pose proof (sum_pos_zero nd _ (fun k _ => S1 k) Z k K) as Z1. pose proof (sum_pos_zero _ _ (fun i _ => S2 k i) Z1 i I) as Z2.
    pose proof (sum_pos_zero _ _ (fun j _ => F k i j) Z2 j J) as Z3. cbv beta in Z3. apply cabs2_zero in Z3. apply Cminus_eq in Z3. auto.
  - rewrite sum_0; [unfold Rdiv; ring|]. intros k K. apply sum_0. intros i I. apply sum_0. intros j J. unfold f. apply cabs2_zero. rewrite (H k i j K I J). ring.
Qed.
(** Spelled out: every determinant's matrix has the spin-up orbitals in the upper left block, the spin-down
    orbitals in the lower right one and zeros between electrons and orbitals of different spin. *)
Theorem C82_loss_zero_blocks : forall ns ndets a b orb, (0 < n_el ns)%nat -> (0 < ndets)%nat ->
  (loss_full ns ndets a b orb = 0 <-> forall k, (k < ndets)%nat ->
    (forall i j, (i < fst ns)%nat -> (j < fst ns)%nat -> orb k i j = a i j) /\
    (forall i j, (i < snd ns)%nat -> (j < snd ns)%nat -> orb k (fst ns + i)%nat (fst ns + j)%nat = b i j) /\
    (forall i j, (i < fst ns)%nat -> (j < snd ns)%nat -> orb k i (fst ns + j)%nat = RtoC 0) /\
    (forall i j, (i < snd ns)%nat -> (j < fst ns)%nat -> orb k (fst ns + i)%nat j = RtoC 0)).
Proof.
  intros ns nd a b orb N D. rewrite (proj2 (C82_loss_zero ns nd a b orb N D)). unfold n_el in *. unfold block_target. split; intros H.
  - intros k K. refine (conj _ (conj _ (conj _ _))); intros i j I J; rewrite H by lia; repeat match goal with |- context [Nat.ltb ?x ?y] => destruct (Nat.ltb_spec x y); try lia end; try reflexivity. f_equal; lia.
  - intros k i j K I J. destruct (H k K) as (UU & DD & UD & DU). destruct (Nat.ltb_spec i (fst ns)), (Nat.ltb_spec j (fst ns)); auto.
    + replace j with (fst ns + (j - fst ns))%nat by lia. apply UD; lia.
    + replace i with (fst ns + (i - fst ns))%nat by lia. apply DU; lia.
    + rewrite <- DD by lia. f_equal; lia.
Qed.
(** At zero loss every determinant of the network is the Slater determinant of the reference. *)
Theorem C82_pretrained_determinants : forall ns ndets a b orb, (0 < n_el ns)%nat -> (0 < ndets)%nat -> loss_full ns ndets a b orb = 0 ->
  forall k, (k < ndets)%nat -> cdet (n_el ns) (orb k) = Cmult (cdet (fst ns) a) (cdet (snd ns) b).
Proof.
  intros ns nd a b orb N D H k K. rewrite <- C82_block_determinant. apply cdet_ext. intros r c R C. apply (proj1 (proj2 (C82_loss_zero ns nd a b orb N D)) H); auto.
Qed.
Lemma bigsum_real n (f : nat -> C) (g : nat -> R) : (forall i, f i = RtoC (g i)) -> bigsum (RtoC 0) Cplus n f = RtoC (bigsum 0 Rplus n g).
Proof. intros H. induction n as [|n IH]; cbn [bigsum]; [reflexivity|]. rewrite IH, H, RtoC_plus. reflexivity. Qed.
Lemma cdet_real n : forall m, cdet n (fun i j => RtoC (m i j)) = RtoC (rdet n m).
Proof.
  induction n as [|n IH]; intros m; [reflexivity|]. unfold cdet, rdet. cbn [det]. apply bigsum_real. intros k.
  specialize (IH (fun r c => m (skip k r) (S c))). unfold cdet, rdet in IH. cbv beta in IH. rewrite IH. unfold alt. destruct (Nat.even k); rewrite ?RtoC_opp, RtoC_mult; reflexivity.
Qed.
(** Molecules: the wavefunction that reaches zero loss at a configuration equals ndets times the Slater
    determinant there, and with a Jastrow factor ndets times exp(J) times it. *)
Definition real_loss (ns : spins) (ndets : nat) (t : (nat -> nat -> R) * (nat -> nat -> R)) (orb : nat -> nat -> nat -> R) : R :=
  loss_full ns ndets (fun i j => RtoC (fst t i j)) (fun i j => RtoC (snd t i j)) (fun k i j => RtoC (orb k i j)).
Lemma total_const n (x : R) (f : nat -> R) : (forall k, (k < n)%nat -> f k = x) -> forall lo, (forall k, (lo <= k < lo + n)%nat -> f k = x) -> total (map f (seq lo n)) = INR n * x.
Proof.
  intros _. induction n as [|n IH]; intros lo H; [unfold total, rsum; simpl; ring|]. cbn [seq map]. unfold total, rsum in *. cbn [fold_right]. rewrite IH by (intros; apply H; lia). rewrite H by lia. rewrite S_INR. ring.
Qed.
Lemma real_pretrained ns nd atoms dict mf pos orb : (0 < n_el ns)%nat -> (0 < nd)%nat -> real_loss ns nd (eval_orbitals atoms dict mf ns pos) orb = 0 ->
  slater_product atoms dict mf ns pos <> 0 ->
  psi (logdet_real (orbital_matrices ns nd orb)) = Some (INR nd * slater_product atoms dict mf ns pos).
Proof.
  intros N D L NZ. assert (E : forall k, (k < nd)%nat -> rdet (n_el ns) (orb k) = slater_product atoms dict mf ns pos).
  { intros k K. apply RtoC_inj. rewrite <- cdet_real. rewrite (C82_pretrained_determinants ns nd _ _ _ N D L k K), !cdet_real, <- RtoC_mult. f_equal.
    unfold eval_orbitals, eval_mos, extract_spin_blocks, slater_product, alpha_coeff, beta_coeff, orbital, matmul_row. destruct mf; reflexivity. }
  unfold orbital_matrices. assert (T : total (map (fun k => rdet (n_el ns) (orb k)) (seq 0 nd)) = INR nd * slater_product atoms dict mf ns pos).
  { apply total_const; intros; apply E; lia. }
  rewrite <- T. apply C67_real_sum. exists (slater_product atoms dict mf ns pos). split; [|exact NZ]. apply in_map_iff. exists 0%nat. split; [apply E; lia|apply in_seq; lia].
Qed.
Theorem C82_pretrained_molecule : forall ns atoms dict mf na p q e at', (0 < n_el ns)%nat -> slater_product atoms dict mf ns e <> 0 ->
  let emb := molecule_features false 3 na e at' in
  ((0 < ndets (fn_common p))%nat -> real_loss ns (ndets (fn_common p)) (eval_orbitals atoms dict mf ns e) (molecule_entry ns (fn_common p) na emb (ferminet_h ns p emb)) = 0 ->
    psi (ferminet ns p 3 na e at') = Some (INR (ndets (fn_common p)) * slater_product atoms dict mf ns e)) /\
  let emb := molecule_features (rescale (pf_common q)) 3 na e at' in
  ((0 < ndets (pf_common q))%nat -> real_loss ns (ndets (pf_common q)) (eval_orbitals atoms dict mf ns e) (molecule_entry ns (pf_common q) na emb (psiformer ns (pf_backbone q) (ae_feat emb))) = 0 ->
    psi (psiformer_wf ns q 3 na e at') = Some (INR (ndets (pf_common q)) * slater_product atoms dict mf ns e * exp (match ee_jastrow ns (pf_jastrow q) 3 e with Some j => j | None => 0 end))).
Proof.
  intros ns atoms dict mf na p q e at' N NZ emb. split; [intros D L; apply real_pretrained; auto|]. intros emb' D L. unfold psiformer_wf.
  pose proof (real_pretrained ns (ndets (pf_common q)) atoms dict mf e _ N D L NZ) as P. fold emb'. set (o := logdet_real _) in *. clearbody o.
  destruct (ee_jastrow ns (pf_jastrow q) 3 e) as [j|]; cbn [plus_jastrow].
  - unfold psi in *. cbn [sign_logpsi logpsi]. destruct (sign_logpsi o) as [s|]; [|discriminate]. destruct (logpsi o) as [l| |]; try discriminate.
    + injection P. intros P'. rewrite <- P', exp_plus. f_equal. ring.
    + injection P. intros P'. rewrite <- P'. f_equal. ring.
  - rewrite exp_0, Rmult_1_r. exact P.
Qed.

(** ** The sampling amplitude *)
Definition amplitude (x : ext) : R := match x with Fin a => exp a | _ => 0 end.
Theorem C82_amplitude_range : forall D (lp ls : D -> ext) f, pretrain_log_amplitude lp ls f = None <-> f < 0 \/ 1 < f.
Proof.
  intros D lp ls f. unfold pretrain_log_amplitude, rltb, rleb. destruct (Rlt_dec 1 f), (Rlt_dec f 0); cbn [orb]; try (split; [tauto|auto]).
  destruct (Rle_dec f 0); [split; [discriminate|intros; exfalso; tauto]|]. destruct (Rle_dec 1 f); split; try discriminate; intros; exfalso; tauto.
Qed.
Theorem C82_amplitude : forall D (lp ls : D -> ext) f, 0 <= f <= 1 -> exists g, pretrain_log_amplitude lp ls f = Some g /\
  (f = 0 -> g = lp) /\ (f = 1 -> g = ls) /\
  (0 < f < 1 -> forall d, lp d <> NaN -> ls d <> NaN ->
    amplitude (g d) = (if Req_EM_T (amplitude (lp d) * amplitude (ls d)) 0 then 0 else Rpower (amplitude (lp d)) (1 - f) * Rpower (amplitude (ls d)) f)).
Proof.
  intros D lp ls f F. unfold pretrain_log_amplitude, rltb, rleb. destruct (Rlt_dec 1 f); [lra|]. destruct (Rlt_dec f 0); [lra|]. cbn [orb].
  destruct (Rle_dec f 0); [eexists; split; [reflexivity|]; repeat split; try lra; intros; reflexivity|].
  destruct (Rle_dec 1 f); [eexists; split; [reflexivity|]; repeat split; try lra; intros; reflexivity|].
  eexists. split; [reflexivity|]. repeat split; try lra. intros _ d N1 N2. destruct (lp d) as [x| |], (ls d) as [y| |]; try contradiction; cbn [escale eplus amplitude].
  - pose proof (exp_pos x). pose proof (exp_pos y). destruct (Req_EM_T (exp x * exp y) 0); [nra|]. unfold Rpower. rewrite !ln_exp, <- exp_plus. reflexivity.
  - destruct (Req_EM_T (exp x * 0) 0) as [|X]; [reflexivity|exfalso; apply X; ring].
  - destruct (Req_EM_T (0 * exp y) 0) as [|X]; [reflexivity|exfalso; apply X; ring].
  - destruct (Req_EM_T (0 * 0) 0) as [|X]; [reflexivity|exfalso; apply X; ring].
Qed.

(** ** full_det = False: accepted for solids, whose network ignores it and returns full matrices *)
(** With more than one electron of each spin the loss raises. *)
Theorem C82_split_raises_refuted : forall ns nd a b orb, (1 < fst ns)%nat -> (0 < snd ns)%nat -> (0 < nd)%nat -> pretrain_loss false ns nd a b orb = None.
Proof.
  intros [na nb] nd a b orb A B D. cbn [fst snd] in *. unfold pretrain_loss, loss_split, n_el. cbn [fst snd]. destruct nd as [|nd]; [lia|]. cbn [seq combine map opt_total].
  unfold pair_loss at 1, broadcast. destruct (Nat.eqb_spec na (na + nb)); [lia|]. destruct (Nat.eqb_spec na 1); [lia|]. destruct (Nat.eqb_spec (na + nb) 1); [lia|]. reflexivity.
Qed.
(** With one electron of each spin and one determinant it runs, the spin-down orbital is never compared, and at
    zero loss the network's determinant vanishes. *)
Theorem C82_split_refuted : forall a b b' orb, pretrain_loss false (1, 1)%nat 1 a b orb = pretrain_loss false (1, 1)%nat 1 a b' orb /\
  pretrain_loss false (1, 1)%nat 1 a b orb <> None /\ (pretrain_loss false (1, 1)%nat 1 a b orb = Some 0 -> cdet 2 (orb 0%nat) = RtoC 0).
Proof.
  intros a b b' orb. split; [reflexivity|]. split; [discriminate|]. unfold pretrain_loss, loss_split, pair_loss, broadcast, n_el, at_. cbn -[cdet cabs2 INR Cminus]. intros H. injection H. intros E. clear H.
  assert (F : forall i j, 0 <= cabs2 (Cminus (a 0%nat 0%nat) (orb 0%nat i j))) by (intros; apply cabs2_nonneg).
  pose proof (F 0 0)%nat. pose proof (F 0 1)%nat. pose proof (F 1 0)%nat. pose proof (F 1 1)%nat. replace (INR 4) with 4 in E by (simpl; lra).
  assert (Z : forall i j, (i < 2)%nat -> (j < 2)%nat -> orb 0%nat i j = a 0%nat 0%nat).
  { intros i j I J. symmetry. apply Cminus_eq, cabs2_zero. destruct i as [|[|i]], j as [|[|j]]; try lia; lra. }
  rewrite (cdet_ext 2 (orb 0%nat) (fun _ _ => a 0%nat 0%nat)) by exact Z. unfold cdet. cbn. ring.
Qed.
