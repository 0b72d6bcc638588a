(** C77: the pseudo-Hamiltonian energy. *)
From Coq Require Import Reals List Arith Lia Lra ClassicalDedekindReals Classical.
From Coquelicot Require Import Coquelicot.
From Verif Require Import Lin Lap_Spec Jet Attn_Props Ph_Spec Ph_Model Ph_Lemmas Ph_Chol.
Import ListNotations.
Open Scope R_scope.

Lemma pos_electron x e : pos x e = electron x e.
Proof. reflexivity. Qed.
Lemma rad_distance x e atoms a : rad (pos x e) atoms a = distance (electron x e) (atoms a).
Proof. reflexivity. Qed.

(** ** The divergence of the mass matrix with frozen radial values *)
Lemma derive_sum A (f : nat -> R -> R) (l : nat -> R) : (forall a, (a < A)%nat -> derivable_pt_lim (f a) 0 (l a)) ->
  derivable_pt_lim (fun t => sum A (fun a => f a t)) 0 (sum A l).
Proof. apply derivable_sum. Qed.

Lemma radius_move p atoms a j : (j < 3)%nat -> rad p atoms a <> 0 ->
  derivable_pt_lim (fun t => rad (move p j t) atoms a) 0 (rel p atoms a j / rad p atoms a).
Proof.
  intros Hj HR. pose proof (rad_pos p atoms a HR) as RP. pose proof (rad_sq p atoms a) as RS.
  assert (E : forall t, rad (move p j t) atoms a = sqrt (rad p atoms a * rad p atoms a + 2 * rel p atoms a j * t + t * t)).
  { intros t. unfold rad at 1, norm. f_equal. rewrite RS. unfold dot, rel, move. revert j Hj.
    refine (case3 _ _ _ _); cbn [sum Nat.eqb]; ring. }
  apply (derivable_ext (fun t => sqrt (rad p atoms a * rad p atoms a + 2 * rel p atoms a j * t + t * t))); [intros t; symmetry; apply E|].
  set (r := rad p atoms a) in *. set (d := rel p atoms a j). clearbody r d. apply is_derive_Reals. auto_derive.
  - rewrite !Rmult_0_r, !Rplus_0_r. nra.
  - rewrite !Rmult_0_r, !Rplus_0_r, sqrt_square by lra. field. lra.
Qed.
Lemma rel_move p atoms a j i : (i < 3)%nat -> derivable_pt_lim (fun t => rel (move p j t) atoms a i) 0 (delta i j).
Proof.
  intros Hi. unfold rel, move, delta. destruct (Nat.eqb_spec i j) as [->|E]; apply is_derive_Reals; auto_derive; auto; ring.
Qed.
Lemma inv_move p atoms a j : (j < 3)%nat -> rad p atoms a <> 0 ->
  derivable_pt_lim (fun t => inv_r (rad (move p j t) atoms a)) 0 (- rel p atoms a j / (rad p atoms a * rad p atoms a * rad p atoms a)).
Proof.
  intros Hj HR. pose proof (rad_pos p atoms a HR) as RP. pose proof (radius_move p atoms a j Hj HR) as D.
  assert (R0 : rad (move p j 0) atoms a = rad p atoms a).
  { unfold rad. apply norm_ext. intros i Hi. unfold rel, move. destruct (Nat.eqb i j); ring. }
  destruct (derivable_continuous_at _ _ _ D (rad p atoms a) RP) as (e & Pe & He).
  apply (derivable_local (fun t => / rad (move p j t) atoms a)).
  - apply (derivable_eq _ _ (- (rel p atoms a j / rad p atoms a) / (rad (move p j 0) atoms a)²)).
    + rewrite R0. unfold Rsqr. field. lra.
    + apply (derivable_ext (/ (fun t => rad (move p j t) atoms a))%F); [reflexivity|].
      apply is_derive_Reals. apply is_derive_Reals in D.
      pose proof (is_derive_inv (fun t => rad (move p j t) atoms a) 0 _ D) as X. cbv beta in X. rewrite R0 in X. specialize (X HR).
      rewrite R0. unfold Rsqr. replace (rad p atoms a * rad p atoms a) with (rad p atoms a ^ 2) by ring. exact X.
  - exists e. split; [exact Pe|]. intros t Ht. specialize (He t Ht). cbv beta in He. rewrite R0 in He. apply Rabs_lt_between in He.
    unfold inv_r. destruct (Rlt_dec 0 (rad (move p j t) atoms a)); [field; lra|lra].
Qed.

Lemma first_agree A p atoms l2 i : (i < 3)%nat -> (forall a, (a < A)%nat -> rad p atoms a <> 0) -> first_std A p atoms l2 i = first_fwd A p atoms l2 i.
Proof.
  intros Hi HR. unfold first_std, first_fwd.
  assert (R0 : forall a j, rad (move p j 0) atoms a = rad p atoms a).
  { intros a j. unfold rad. apply norm_ext. intros k Hk. unfold rel, move. destruct (Nat.eqb k j); ring. }
  assert (L0 : forall a j k, rel (move p j 0) atoms a k = rel p atoms a k).
  { intros a j k. unfold rel, move. destruct (Nat.eqb k j); ring. }
  assert (D : forall j, (j < 3)%nat -> Derive (fun t => full_std A (move p j t) atoms l2 j i - (1 / 2) * delta j i) 0
    = sum A (fun a => l2 a * (rel p atoms a j / rad p atoms a * delta j i
        - ((1 * rel p atoms a i + rel p atoms a j * delta i j) / rad p atoms a
           - rel p atoms a j * rel p atoms a i * rel p atoms a j / (rad p atoms a * rad p atoms a * rad p atoms a))))).
  { intros j Hj. apply is_derive_unique, is_derive_Reals.
    apply (derivable_ext (fun t => sum A (fun a => l2 a * (rad (move p j t) atoms a * delta j i - rel (move p j t) atoms a j * rel (move p j t) atoms a i * inv_r (rad (move p j t) atoms a))))).
    { intros t. unfold full_std. ring. }
    apply derivable_sum. intros a Ha.
    pose proof (radius_move p atoms a j Hj (HR a Ha)) as D1. pose proof (rel_move p atoms a j j Hj) as D2. pose proof (rel_move p atoms a j i Hi) as D3.
    pose proof (inv_move p atoms a j Hj (HR a Ha)) as D4. pose proof (rad_pos p atoms a (HR a Ha)) as RP.
    apply is_derive_Reals in D1, D2, D3, D4.
    pose proof (is_derive_mult _ _ 0 _ _ (is_derive_mult _ _ 0 _ _ D2 D3 Rmult_comm) D4 Rmult_comm) as DM.
    pose proof (is_derive_mult _ _ 0 _ _ D1 (is_derive_const (delta j i) 0) Rmult_comm) as DL.
    pose proof (is_derive_mult _ _ 0 _ _ (is_derive_const (l2 a) 0) (is_derive_minus _ _ 0 _ _ DL DM) Rmult_comm) as DT.
    apply is_derive_Reals in DT. refine (derivable_eq _ _ _ _ _ DT).
    unfold plus, mult, minus, plus, opp, zero. cbn. rewrite !L0, !R0. unfold inv_r. destruct (Rlt_dec 0 (rad p atoms a)); [|lra].
    replace (delta j j) with 1 by (unfold delta; rewrite Nat.eqb_refl; reflexivity). field. lra. }
  cbn [sum]. rewrite !D by lia. clear D. induction A as [|A IH]; [cbn [sum]; ring|].
  cbn [sum]. rewrite <- IH by (intros; apply HR; lia). clear IH.
  pose proof (rad_pos p atoms A (HR A (Nat.lt_succ_diag_r A))) as RP. pose proof (rad_sq p atoms A) as RS.
  unfold inv_r. destruct (Rlt_dec 0 (rad p atoms A)) as [_|]; [|lra].
  match goal with |- - (0 + (?s1 + ?t1) + (?s2 + ?t2) + (?s3 + ?t3)) = _ => assert (T : - (t1 + t2 + t3) = 2 * l2 A * (1 / rad p atoms A) * rel p atoms A i); [|rewrite <- T; ring] end.
  set (r := rad p atoms A) in *. set (d0 := rel p atoms A 0%nat) in *. set (d1 := rel p atoms A 1%nat) in *. set (d2 := rel p atoms A 2%nat) in *.
  assert (SP : forall z, (d0 * z * d0 + d1 * z * d1 + d2 * z * d2) / (r * r * r) = z / r).
  { intros z. replace (d0 * z * d0 + d1 * z * d1 + d2 * z * d2) with (z * (r * r)) by (rewrite RS; ring). field. lra. }
  pose proof (SP (rel p atoms A i)) as SPi. revert i Hi SPi.
  refine (case3 _ _ _ _); unfold delta; cbn [Nat.eqb]; fold d0 d1 d2; intros S;
    (match type of S with ?q = ?z / r => transitivity (- (l2 A * (z / r - 4 * z / r + q))); [field; lra|rewrite S; field; lra] end).
Qed.

(** ** Stacks, definedness *)
Lemma stack_some N f F : stack N f = Some F -> forall e, (e < N)%nat -> f e = Some (F e).
Proof.
  revert F. induction N as [|N IH]; intros F; [lia|]. cbn [stack]. destruct (stack N f) as [F'|]; [|discriminate]. destruct (f N) as [m|] eqn:E; [|discriminate].
  intros H. injection H as <-. intros e He. destruct (Nat.eqb_spec e N) as [->|Ne]; [exact E|]. apply IH; [reflexivity|lia].
Qed.
Lemma stack_none N f : stack N f = None <-> exists e, (e < N)%nat /\ f e = None.
Proof.
  induction N as [|N IH]; cbn [stack]; [split; [discriminate|intros (e & He & _); lia]|].
  destruct (stack N f) as [F|].
  - destruct (f N) as [m|] eqn:E.
    + split; [discriminate|]. intros (e & He & Hf). destruct (Nat.eq_dec e N) as [->|Ne]; [congruence|].
      assert (X : Some F = None) by (apply IH; exists e; split; [lia|exact Hf]). discriminate.
    + split; [intros _; exists N; split; [lia|exact E]|reflexivity].
  - split; [intros _|reflexivity]. destruct (proj1 IH eq_refl) as (e & He & Hf). exists e. split; [lia|exact Hf].
Qed.
Lemma mass_sym A p atoms l2 : symmetric (mass_fwd A p atoms l2).
Proof.
  intros i j. unfold mass_fwd, delta. rewrite (Nat.eqb_sym j i). f_equal. apply sum_ext. intros a Ha. ring.
Qed.
Lemma full_eq A p atoms l2 i j : full_std A p atoms l2 i j = mass_fwd A p atoms l2 i j.
Proof. unfold full_std, mass_fwd. ring. Qed.
Lemma full_sym A p atoms l2 : symmetric (full_std A p atoms l2).
Proof. intros i j. rewrite !full_eq. apply mass_sym. Qed.
Lemma quad_full A p atoms l2 v : quadratic (full_std A p atoms l2) v = quadratic (mass_fwd A p atoms l2) v.
Proof. unfold quadratic. apply sum_ext. intros i Hi. apply sum_ext. intros j Hj. rewrite full_eq. reflexivity. Qed.
Lemma pd_full A p atoms l2 : positive_definite (full_std A p atoms l2) <-> positive_definite (mass_fwd A p atoms l2).
Proof. unfold positive_definite. split; intros H v V; specialize (H v V); rewrite quad_full in *; exact H. Qed.
Lemma quad_symbol A p atoms l2 v : (forall a, (a < A)%nat -> rad p atoms a <> 0) ->
  quadratic (mass_fwd A p atoms l2) v = symbol A atoms (fun a => l2 a / rad p atoms a) p v.
Proof.
  intros HR. unfold symbol. induction A as [|A IH].
  - unfold quadratic, mass_fwd, delta. cbn [sum Nat.eqb]. ring.
  - assert (Q : quadratic (mass_fwd (S A) p atoms l2) v = quadratic (mass_fwd A p atoms l2) v + l2 A / rad p atoms A * cross_sq (rel p atoms A) v).
    { pose proof (rad_pos p atoms A (HR A (Nat.lt_succ_diag_r A))) as RP. pose proof (rad_sq p atoms A) as RS.
      assert (C : cross_sq (rel p atoms A) v = (rad p atoms A * rad p atoms A) * (v 0%nat * v 0%nat + v 1%nat * v 1%nat + v 2%nat * v 2%nat) - (rel p atoms A 0%nat * v 0%nat + rel p atoms A 1%nat * v 1%nat + rel p atoms A 2%nat * v 2%nat) ^ 2) by (rewrite RS; unfold cross_sq; ring).
      rewrite C. unfold quadratic, mass_fwd, delta. cbn [sum Nat.eqb]. unfold inv_r. destruct (Rlt_dec 0 (rad p atoms A)) as [_|]; [|lra]. field. lra. }
    rewrite Q, IH by (intros; apply HR; lia).
    match goal with |- _ = _ + sum (S A) ?F => change (sum (S A) F) with (sum A F + F A) end. unfold rel. ring.
Qed.
Lemma mass_std_pd A p atoms l2 : mass_std A p atoms l2 <> None <-> positive_definite (mass_fwd A p atoms l2).
Proof.
  unfold mass_std. rewrite <- pd_full, <- (eigen_pd _ (full_sym A p atoms l2)). destruct (sig_not_dec _) as [H|H].
  - split; [intros _; apply NNPP, H|discriminate].
  - split; [congruence|contradiction].
Qed.
Definition away (N A : nat) (x : vec) (atoms : nat -> vec) : Prop := forall e a, (e < N)%nat -> (a < A)%nat -> distance (electron x e) (atoms a) <> 0.

(** The estimator returns NaN exactly when the kinetic operator of some electron is not
    elliptic at its position, in either backend. *)
Theorem C77_nan_iff_not_elliptic N A x atoms l2 g h pass : away N A x atoms ->
  let bad := exists e, (e < N)%nat /\ ~ elliptic A atoms (fun a => l2 e a / distance (electron x e) (atoms a)) (electron x e) in
  (energy_fwd N A x atoms l2 g pass = None <-> bad) /\ (energy_std N A x atoms l2 g h = None <-> bad).
Proof.
  intros AW bad.
  assert (EL : forall e, (e < N)%nat -> elliptic A atoms (fun a => l2 e a / distance (electron x e) (atoms a)) (electron x e) <-> positive_definite (mass_fwd A (pos x e) atoms (l2 e))).
  { intros e He. unfold elliptic, positive_definite. split; intros H v V; specialize (H v V).
    - rewrite quad_symbol; [exact H|]. intros a Ha. apply (AW e a He Ha).
    - rewrite quad_symbol in H; [exact H|]. intros a Ha. apply (AW e a He Ha). }
  split.
  - unfold energy_fwd, chol_fwd.
    assert (X : stack N (fun e => cholesky (mass_fwd A (pos x e) atoms (l2 e))) = None <-> bad).
    { rewrite stack_none. split; intros (e & He & H); exists e; (split; [exact He|]).
      - intros E. apply EL in E; [|exact He]. apply (chol_pd _ (mass_sym A (pos x e) atoms (l2 e))) in E. contradiction.
      - destruct (cholesky _) eqn:C; [exfalso|reflexivity]. apply H, EL; [exact He|]. apply (chol_pd _ (mass_sym A (pos x e) atoms (l2 e))). rewrite C. discriminate. }
    rewrite <- X. destruct (stack N _); split; congruence.
  - unfold energy_std.
    assert (X : stack N (fun e => mass_std A (pos x e) atoms (l2 e)) = None <-> bad).
    { rewrite stack_none. split; intros (e & He & H); exists e; (split; [exact He|]).
      - intros E. apply EL in E; [|exact He]. apply mass_std_pd in E. contradiction.
      - destruct (mass_std _ _ _ _) eqn:C; [exfalso|reflexivity]. apply H, EL; [exact He|]. apply mass_std_pd. rewrite C. discriminate. }
    rewrite <- X. destruct (stack N _); split; congruence.
Qed.

(** It is a number whenever the radial values are not negative. *)
Theorem C77_defined N A x atoms l2 g h pass : away N A x atoms -> (forall e a, (e < N)%nat -> (a < A)%nat -> 0 <= l2 e a) ->
  energy_fwd N A x atoms l2 g pass <> None /\ energy_std N A x atoms l2 g h <> None.
Proof.
  intros AW P. destruct (C77_nan_iff_not_elliptic N A x atoms l2 g h pass AW) as [F S].
  assert (G : ~ exists e, (e < N)%nat /\ ~ elliptic A atoms (fun a => l2 e a / distance (electron x e) (atoms a)) (electron x e)).
  { intros (e & He & H). apply H. intros v V. unfold symbol.
    assert (0 < sum 3 (fun i => v i ^ 2)).
    { pose proof (sqn_pos v V) as Q. unfold sqn in Q. cbn [sum]. lra. }
    assert (0 <= sum A (fun a => l2 e a / distance (electron x e) (atoms a) * cross_sq (fun i => electron x e i - atoms a i) v)).
    { apply sum_nonneg. intros a Ha. pose proof (norm_nonneg 3 (fun i => electron x e i - atoms a i)) as Nn. pose proof (AW e a He Ha) as Nz. fold (distance (electron x e) (atoms a)) in Nn.
      apply Rmult_le_pos.
      - unfold Rdiv. apply Rmult_le_pos; [apply P; auto|]. apply Rlt_le, Rinv_0_lt_compat. lra.
      - unfold cross_sq. repeat apply Rplus_le_le_0_compat; apply pow2_ge_0. }
    lra. }
  rewrite F, S. auto.
Qed.

(** ** The value *)
Lemma some_inj (a b : R) : Some a = Some b -> a = b.
Proof. intros H. congruence. Qed.
Lemma jet_unique u a b c a' b' c' : jet u a b c -> jet u a' b' c' -> a = a' /\ b = b' /\ c = c'.
Proof.
  intros (A & d & N & B & C) (A' & d' & N' & B' & C'). split; [congruence|].
  assert (E : near (fun t => d t = d' t)).
  { pose proof (near_and _ _ N N') as X. revert X. apply near_imp. intros t [P Q]. exact (uniqueness_limite u t _ _ P Q). }
  split; [rewrite <- B, <- B'; apply (near_0 _ E)|].
  apply (uniqueness_limite d 0); [exact C|]. apply (derivable_local d'); [exact C'|]. destruct E as (e & Pe & He). exists e. split; [exact Pe|].
  intros y Hy. symmetry. apply He. now rewrite Rminus_0_r in Hy.
Qed.

Definition value (N A : nat) (x : vec) (atoms : nat -> vec) (l2 : nat -> nat -> R) (g : vec) (h : mat) : R :=
  sum N (fun e => one_electron (mass_fwd A (pos x e) atoms (l2 e)) (first_fwd A (pos x e) atoms (l2 e)) (fun i => g (3 * e + i)%nat) (fun i j => h (3 * e + i)%nat (3 * e + j)%nat)).

Lemma std_value N A x atoms l2 g h E : away N A x atoms -> energy_std N A x atoms l2 g h = Some E -> E = value N A x atoms l2 g h.
Proof.
  intros AW. unfold energy_std. destruct (stack N _) as [M|] eqn:SM; [|discriminate]. intros X. apply some_inj in X. rewrite <- X. clear X.
  unfold value. rewrite <- sum_plus, <- sum_opp, <- sum_plus. apply sum_ext. intros e He. unfold one_electron.
  pose proof (stack_some _ _ _ SM e He) as ME. cbv beta in ME. unfold mass_std in ME. destruct (sig_not_dec _); [|discriminate]. injection ME as ME.
  apply (f_equal2 Rplus); [apply (f_equal Ropp), (f_equal2 Rplus)|].
  - apply sum_ext. intros i Hi. apply sum_ext. intros j Hj. rewrite <- ME, full_eq. reflexivity.
  - apply sum_ext. intros i Hi. apply sum_ext. intros j Hj. rewrite <- ME, full_eq. reflexivity.
  - apply sum_ext. intros i Hi. rewrite first_agree; [ring|exact Hi|]. intros a Ha. apply (AW e a He Ha).
Qed.

Definition exact_pass (N A : nat) (f : vec -> R) (x : vec) (atoms : nat -> vec) (l2 : nat -> nat -> R) (pass : (nat -> mat) -> vec * R) : Prop :=
  forall L, chol_fwd N A x atoms l2 = Some L ->
    gradient_and_laplacian (3 * N) (fun _ => 1) (fun _ => 0) (shifted L f x) (shifted L f x (fun _ => 0)) (fst (pass L)) (snd (pass L)).

Lemma shifted_line L f x e j t : (j < 3)%nat ->
  shifted L f x (line (fun _ => 0) (fun _ => 1) (3 * e + j) t) = f (with_electron x e (fun i => x (3 * e + i)%nat + L e i j * t)).
Proof.
  intros Hj. unfold shifted. f_equal. apply FunctionalExtensionality.functional_extensionality. intros c. unfold with_electron, line.
  assert (C : c = (3 * (c / 3) + c mod 3)%nat) by (apply Nat.div_mod; lia).
  destruct (Nat.eqb_spec (c / 3) e) as [Ec|Ec].
  - rewrite Ec in *. rewrite <- C. f_equal. rewrite (sum_single 3 j); [|exact Hj|].
    + rewrite Nat.eqb_refl. ring.
    + intros i Hi Ne. replace (Nat.eqb (3 * e + i) (3 * e + j)) with false by (symmetry; apply Nat.eqb_neq; lia). ring.
  - rewrite (sum_0 3); [ring|]. intros i Hi. replace (Nat.eqb (3 * (c / 3) + i) (3 * e + j)) with false by (symmetry; apply Nat.eqb_neq; lia). ring.
Qed.

Lemma fwd_value N A f x atoms l2 g h pass E : away N A x atoms -> derivatives (3 * N) f x g h -> exact_pass N A f x atoms l2 pass ->
  energy_fwd N A x atoms l2 g pass = Some E -> E = value N A x atoms l2 g h.
Proof.
  intros AW Hd HP. unfold energy_fwd. destruct (chol_fwd N A x atoms l2) as [L|] eqn:CL; [|discriminate]. intros X. apply some_inj in X. rewrite <- X. clear X.
  destruct (HP L CL) as (_ & k & JK & LK). set (J := fst (pass L)) in *. rewrite LK.
  assert (JE : forall e j, (e < N)%nat -> (j < 3)%nat -> J (3 * e + j)%nat = sum 3 (fun i => g (3 * e + i)%nat * L e i j)
    /\ k (3 * e + j)%nat = sum 3 (fun i => sum 3 (fun i' => h (3 * e + i)%nat (3 * e + i')%nat * (L e i j * L e i' j)))).
  { intros e j He Hj. assert (Hk : (3 * e + j < 3 * N)%nat) by lia.
    pose proof (jet_electron N f x g h e (fun i t => x (3 * e + i)%nat + L e i j * t) (fun i => L e i j) (fun _ => 0) He Hd (fun i Hi => jet_line _ _)) as J1.
    assert (J2 : jet (fun t => f (with_electron x e (fun i => x (3 * e + i)%nat + L e i j * t))) (shifted L f x (fun _ => 0)) (J (3 * e + j)%nat) (k (3 * e + j)%nat)).
    { apply (jet_ext (fun s => shifted L f x (line (fun _ => 0) (fun _ => 1) (3 * e + j) s))); [|apply JK, Hk].
      intros t. apply shifted_line, Hj. }
    destruct (jet_unique _ _ _ _ _ _ _ J1 J2) as (_ & <- & <-). split; [reflexivity|]. cbn [sum]. ring. }
  unfold second_fwd, first_term_fwd. rewrite !sum_block, <- sum_plus, <- sum_opp, <- sum_plus. unfold value. apply sum_ext. intros e He. unfold one_electron. apply (f_equal2 Rplus); [apply (f_equal Ropp), (f_equal2 Rplus)|reflexivity].
  - pose proof (chol_exact _ _ (mass_sym A (pos x e) atoms (l2 e)) (stack_some _ _ _ CL e He)) as LL.
    transitivity (sum 3 (fun i => sum 3 (fun j => sum 3 (fun c => L e i c * L e j c) * h (3 * e + j)%nat (3 * e + i)%nat))).
    2:{ apply sum_ext. intros i Hi. apply sum_ext. intros j Hj. rewrite LL; auto. }
    rewrite (sum_ext 3 (fun i => k (3 * e + i)%nat) _ (fun j Hj => proj2 (JE e j He Hj))). cbn [sum]. ring.
  - pose proof (chol_exact _ _ (mass_sym A (pos x e) atoms (l2 e)) (stack_some _ _ _ CL e He)) as LL.
    transitivity (sum 3 (fun i => sum 3 (fun j => g (3 * e + i)%nat * sum 3 (fun c => L e i c * L e j c) * g (3 * e + j)%nat))).
    2:{ apply sum_ext. intros i Hi. apply sum_ext. intros j Hj. rewrite LL; auto. }
    transitivity (sum 3 (fun j => sum 3 (fun i => g (3 * e + i)%nat * L e i j) * sum 3 (fun i => g (3 * e + i)%nat * L e i j))).
    { apply sum_ext. intros j Hj. rewrite (proj1 (JE e j He Hj)). reflexivity. }
    cbn [sum]. ring.
Qed.

(** Both backends return the same number, or both NaN. *)
Theorem C77_backends_agree N A f x atoms l2 g h pass : away N A x atoms -> derivatives (3 * N) f x g h -> exact_pass N A f x atoms l2 pass ->
  energy_fwd N A x atoms l2 g pass = energy_std N A x atoms l2 g h.
Proof.
  intros AW Hd HP. destruct (C77_nan_iff_not_elliptic N A x atoms l2 g h pass AW) as [F S].
  destruct (energy_fwd N A x atoms l2 g pass) as [E|] eqn:EF.
  - destruct (energy_std N A x atoms l2 g h) as [E'|] eqn:ES.
    + f_equal. rewrite (fwd_value _ _ _ _ _ _ _ _ _ _ AW Hd HP EF), (std_value _ _ _ _ _ _ _ _ AW ES). reflexivity.
    + pose proof (proj2 F (proj1 S eq_refl)). discriminate.
  - symmetry. apply S, F. reflexivity.
Qed.

Lemma value_operator N A f x atoms l2 g h s : away N A x atoms -> derivatives (3 * N) f x g h ->
  pseudo_hamiltonian N A atoms (fun e a => l2 e a / distance (electron x e) (atoms a)) (fun w => s * exp (f w)) x (value N A x atoms l2 g h * (s * exp (f x))).
Proof.
  intros AW Hd. set (P := s * exp (f x)).
  set (gg := fun e i => g (3 * e + i)%nat). set (hh := fun e i j => h (3 * e + i)%nat (3 * e + j)%nat).
  exists (fun e i => P * (hh e i i + gg e i * gg e i)).
  exists (fun e a u => P * (sum 3 (fun i => gg e i * turn2 u (rel (pos x e) atoms a) i) + sum 3 (fun i => sum 3 (fun j => (hh e i j + gg e i * gg e j) * (turn1 u (rel (pos x e) atoms a) i * turn1 u (rel (pos x e) atoms a) j))))).
  split; [|split].
  - intros e i He Hi.
    pose proof (second_psi N f x g h s e (fun j t => x (3 * e + j)%nat + delta j i * t) (fun j => delta j i) (fun _ => 0) He Hd (fun j Hj => jet_line _ _)) as S2.
    destruct S2 as (a & b & S2). exists a, b. eapply jet_eq; [eapply jet_ext; [|exact S2]|reflexivity|reflexivity|].
    + intros t. cbv beta. do 3 f_equal. apply FunctionalExtensionality.functional_extensionality. intros c. unfold with_electron, electron, delta.
      destruct (Nat.eqb (c / 3) e); [|reflexivity]. destruct (Nat.eqb (c mod 3) i); ring.
    + fold P. unfold gg, hh. revert i Hi S2. refine (case3 _ _ _ _); intros _; unfold delta; cbn [sum Nat.eqb]; ring.
  - intros e a u He Ha Hu.
    apply (second_psi N f x g h s e (fun i th => turn u (atoms a) th (electron x e) i)); [exact He|exact Hd|].
    intros i Hi. apply (jet_turn u (atoms a) (electron x e) i Hu Hi).
  - unfold value. rewrite <- sum_scal_r. apply sum_ext. intros e He. rewrite one_electron_operator by (intros a Ha; apply (AW e a He Ha)).
    fold (gg e). fold (hh e). rewrite Rmult_plus_distr_r. f_equal.
    + cbn [sum]. unfold gg, hh. ring.
    + rewrite <- sum_scal_r. apply sum_ext. intros a Ha. rewrite rad_distance. cbn [sum]. unfold gg, hh. ring.
Qed.

(** The number is the local value of the pseudo-Hamiltonian: it is (H psi)(x) / psi(x) for
    psi = s exp(f), with vL2(e,a) = l2(e,a) / r(e,a). Nothing is said about the derivative of
    the radial function: the value at the walker decides. *)
Theorem C77_local_energy_forward N A f x atoms l2 g h pass s E : away N A x atoms -> derivatives (3 * N) f x g h -> exact_pass N A f x atoms l2 pass ->
  energy_fwd N A x atoms l2 g pass = Some E ->
  pseudo_hamiltonian N A atoms (fun e a => l2 e a / distance (electron x e) (atoms a)) (fun w => s * exp (f w)) x (E * (s * exp (f x))).
Proof. intros AW Hd HP EF. rewrite (fwd_value _ _ _ _ _ _ _ _ _ _ AW Hd HP EF). apply value_operator; assumption. Qed.
Theorem C77_local_energy_standard N A f x atoms l2 g h s E : away N A x atoms -> derivatives (3 * N) f x g h ->
  energy_std N A x atoms l2 g h = Some E ->
  pseudo_hamiltonian N A atoms (fun e a => l2 e a / distance (electron x e) (atoms a)) (fun w => s * exp (f w)) x (E * (s * exp (f x))).
Proof. intros AW Hd ES. rewrite (std_value _ _ _ _ _ _ _ _ AW ES). apply value_operator; assumption. Qed.
(** The local value is determined by the specification. *)
Theorem C77_operator_unique N A atoms v psi x a b : pseudo_hamiltonian N A atoms v psi x a -> pseudo_hamiltonian N A atoms v psi x b -> a = b.
Proof.
  intros (k & l & K & L & ->) (k' & l' & K' & L' & ->). apply sum_ext. intros e He.
  assert (U : forall u c c', second u c -> second u c' -> c = c') by (intros u c c' (a & b & J) (a' & b' & J'); apply (jet_unique _ _ _ _ _ _ _ J J')).
  f_equal; [f_equal|]; apply sum_ext.
  - intros i Hi. exact (U _ _ _ (K e i He Hi) (K' e i He Hi)).
  - intros a Ha. do 2 f_equal. apply sum_ext. intros u Hu. exact (U _ _ _ (L e a u He Ha Hu) (L' e a u He Ha Hu)).
Qed.

(** An exact pass exists whenever the log-wavefunction has second derivatives. *)
Theorem C77_exact_pass_exists N A f x atoms l2 g h : derivatives (3 * N) f x g h -> exists pass, exact_pass N A f x atoms l2 pass.
Proof.
  intros Hd.
  set (J := fun (L : nat -> mat) k => sum 3 (fun i => g (3 * (k / 3) + i)%nat * L (k / 3)%nat i (k mod 3)%nat)).
  set (K := fun (L : nat -> mat) k => sum 3 (fun i => sum 3 (fun i' => h (3 * (k / 3) + i)%nat (3 * (k / 3) + i')%nat * (L (k / 3)%nat i (k mod 3)%nat * L (k / 3)%nat i' (k mod 3)%nat)))).
  exists (fun L => (J L, sum (3 * N) (K L))). intros L _. split; [reflexivity|]. exists (K L). split; [|reflexivity]. intros k Hk.
  assert (C : k = (3 * (k / 3) + k mod 3)%nat) by (apply Nat.div_mod; lia). assert (M3 : (k mod 3 < 3)%nat) by (apply Nat.mod_upper_bound; lia).
  assert (He : (k / 3 < N)%nat) by (apply Nat.div_lt_upper_bound; lia).
  set (e := (k / 3)%nat) in *. set (j := (k mod 3)%nat) in *.
  pose proof (jet_electron N f x g h e (fun i t => x (3 * e + i)%nat + L e i j * t) (fun i => L e i j) (fun _ => 0) He Hd (fun i Hi => jet_line _ _)) as J1.
  eapply jet_eq; [eapply jet_ext; [|exact J1]| | |].
  - intros t. cbv beta. rewrite C. symmetry. apply shifted_line, M3.
  - unfold shifted. f_equal. apply FunctionalExtensionality.functional_extensionality. intros c. rewrite sum_0; [ring|]. intros; ring.
  - reflexivity.
  - change (K L k) with (sum 3 (fun i => sum 3 (fun i' => h (3 * e + i)%nat (3 * e + i')%nat * (L e i j * L e i' j)))). cbn [sum]. ring.
Qed.

(** ** Tables *)
Lemma grid_le last a b : (0 < last)%nat -> (a <= b)%nat -> grid last a <= grid last b.
Proof.
  intros L H. unfold grid, Rdiv. apply Rmult_le_compat_r; [apply Rlt_le, Rinv_0_lt_compat, lt_0_INR, L|]. apply Rmult_le_compat_l; [lra|]. apply le_INR, H.
Qed.
Lemma grid_lt last k : (0 < last)%nat -> grid last k < grid last (S k).
Proof.
  intros L. unfold grid, Rdiv. apply Rmult_lt_compat_r; [apply Rinv_0_lt_compat, lt_0_INR, L|]. apply Rmult_lt_compat_l; [lra|]. apply lt_INR. lia.
Qed.
Lemma count_spec last r k n : (0 < last)%nat -> grid last k <= r < grid last (S k) -> count_le last r n = Nat.min n (S k).
Proof.
  intros L [H1 H2]. induction n as [|n IH]; [reflexivity|]. cbn [count_le]. rewrite IH. destruct (Rle_dec (grid last n) r) as [H|H].
  - assert (n <= k)%nat; [|lia]. apply Nat.nlt_ge. intros Lt. pose proof (grid_le last (S k) n L Lt). lra.
  - assert (k < n)%nat; [|lia]. apply Nat.nle_gt. intros Le. pose proof (grid_le last n k L Le). lra.
Qed.
Lemma interp_cell last tab k r : (0 < last)%nat -> (k < last)%nat -> grid last k <= r < grid last (S k) ->
  interp last tab r = tab k + (r - grid last k) / (grid last (S k) - grid last k) * (tab (S k) - tab k).
Proof.
  intros L Hk H. unfold interp. rewrite (count_spec last r k (S last) L H).
  replace (Nat.min (Nat.max (Nat.min (S last) (S k)) 1) last) with (S k) by lia. replace (S k - 1)%nat with k by lia.
  destruct (Rlt_dec r (grid last 0)) as [X|_]; [pose proof (grid_le last 0 k L ltac:(lia)); lra|].
  destruct (Rlt_dec (grid last last) r) as [X|_]; [pose proof (grid_le last (S k) last L ltac:(lia)); lra|]. reflexivity.
Qed.
Lemma count_all last r n : (0 < last)%nat -> grid last last <= r -> (n <= S last)%nat -> count_le last r n = n.
Proof.
  intros L H. induction n as [|n IH]; intros Hn; [reflexivity|]. cbn [count_le]. rewrite IH by lia. destruct (Rle_dec (grid last n) r) as [_|X]; [lia|].
  pose proof (grid_le last n last L ltac:(lia)). lra.
Qed.
Lemma interp_end last tab r : (0 < last)%nat -> grid last last <= r -> interp last tab r = tab last.
Proof.
  intros L H. unfold interp. rewrite (count_all last r (S last) L H (le_n _)).
  replace (Nat.min (Nat.max (S last) 1) last) with last by lia.
  destruct (Rlt_dec r (grid last 0)) as [X|_]; [pose proof (grid_le last 0 last L ltac:(lia)); lra|].
  destruct (Rlt_dec (grid last last) r) as [_|X]; [reflexivity|].
  replace r with (grid last last) by lra. assert (G : grid last (last - 1) < grid last last) by (pose proof (grid_lt last (last - 1) L) as Q; replace (S (last - 1)) with last in Q by lia; exact Q). field. lra.
Qed.

(** The radial functions interpolate the tables linearly between the 10/last-spaced points
    of [0, 10] and keep their last value beyond. *)
Theorem C77_tables last tab : (0 < last)%nat ->
  linear_between (fun k => 10 * INR k / INR last) tab last (interp last tab) /\ (forall r, 10 <= r -> interp last tab r = tab last).
Proof.
  intros L. assert (LI : 0 < INR last) by (apply lt_0_INR, L). split.
  - intros k t Hk [T0 T1]. change (10 * INR k / INR last) with (grid last k). change (10 * INR (S k) / INR last) with (grid last (S k)).
    pose proof (grid_lt last k L) as G.
    assert (CELL : forall s, 0 <= s < 1 -> interp last tab ((1 - s) * grid last k + s * grid last (S k)) = (1 - s) * tab k + s * tab (S k)).
    { intros s [S0 S1]. rewrite (interp_cell last tab k); [field; lra|exact L|exact Hk|nra]. }
    destruct (Rle_lt_or_eq_dec t 1 T1) as [Lt| ->]; [apply CELL; lra|].
    replace ((1 - 1) * grid last k + 1 * grid last (S k)) with (grid last (S k)) by ring.
    destruct (Nat.eq_dec (S k) last) as [E|E].
    + rewrite interp_end; [rewrite <- E; ring|exact L|rewrite <- E; lra].
    + rewrite (interp_cell last tab (S k)); [field; pose proof (grid_lt last (S k) L); lra|exact L|lia|]. pose proof (grid_lt last (S k) L). lra.
  - intros r Hr. apply interp_end; [exact L|]. unfold grid. replace (10 * INR last / INR last) with 10 by (field; lra). exact Hr.
Qed.

(** If the semilocal channels are those of a pseudo-Hamiltonian with l <= M, i.e.
    V_l = v + l(l+1) w, the loader returns v and w (w = 0 when only the s channel exists). *)
Theorem C77_reconstruct_exact M (ch : nat -> R) v w : (0 < M)%nat -> (forall l, (l <= M)%nat -> ch l = v + INR (l * (l + 1)) * w) -> reconstruct M ch = (v, w).
Proof.
  intros HM H. destruct M as [|m]; [lia|]. unfold reconstruct. set (M := S m) in *.
  assert (E : sum M (fun l => (ch l - ch M) / (INR (l * (l + 1)) - INR (M * (M + 1)))) / INR M = w).
  { rewrite (sum_ext M _ (fun _ => w)).
    - assert (C : forall n, sum n (fun _ => w) = INR n * w) by (induction n as [|n IH]; [cbn; ring|]; rewrite S_INR; cbn [sum]; rewrite IH; ring).
      rewrite C. field. apply not_0_INR. lia.
    - intros l Hl. rewrite (H l), (H M) by lia. assert (INR (l * (l + 1)) < INR (M * (M + 1))) by (apply lt_INR; nia). field. lra. }
  rewrite E. f_equal. rewrite (H M) by lia. ring.
Qed.
Theorem C77_reconstruct_s (ch : nat -> R) : reconstruct 0 ch = (ch 0%nat, 0).
Proof. reflexivity. Qed.

(** ** The local part *)
Lemma interp_shift last tab z r : (0 < last)%nat -> interp last (fun k => tab k + z) r = interp last tab r + z.
Proof.
  intros L. unfold interp. cbv zeta. destruct (Rlt_dec r (grid last 0)); [ring|]. destruct (Rlt_dec (grid last last) r); [ring|]. unfold Rdiv. ring.
Qed.
Lemma sum_filter n (p : nat -> bool) F : sum (length (filter p (seq 0 n))) (fun a => F (nth a (filter p (seq 0 n)) 0%nat)) = sum n (fun a => if p a then F a else 0).
Proof.
  induction n as [|n IH]; [reflexivity|]. rewrite seq_S, filter_app. cbn [filter Nat.add]. destruct (p n) eqn:P.
  - rewrite app_length. cbn [length]. rewrite sum_split. cbn [sum]. rewrite P, <- IH. rewrite Nat.add_0_r, nth_middle.
    rewrite Rplus_0_l. apply (f_equal2 Rplus); [|reflexivity]. apply sum_ext. intros a Ha. rewrite app_nth1 by exact Ha. reflexivity.
  - rewrite app_nil_r. cbn [sum]. rewrite P, IH. ring.
Qed.
Lemma sum_below n j f : (j <= n)%nat -> sum n (fun i => if Nat.ltb i j then f i else 0) = sum j f.
Proof.
  intros H. replace n with (j + (n - j))%nat by lia. rewrite sum_split. rewrite (sum_ext j _ f).
  - rewrite (sum_0 (n - j)); [ring|]. intros i Hi. replace (Nat.ltb (j + i) j) with false by (symmetry; apply Nat.ltb_ge; lia). reflexivity.
  - intros i Hi. apply Nat.ltb_lt in Hi. rewrite Hi. reflexivity.
Qed.
Lemma triu_pairs n f : sum n (fun i => sum n (fun j => triu1 i j (f i j))) = pairs n f.
Proof.
  rewrite sum_swap. unfold pairs. apply sum_ext. intros j Hj. unfold triu1. apply (sum_below n j (fun i => f i j)). lia.
Qed.
Lemma pairs_ext n f g : (forall i j, (i < j)%nat -> f i j = g i j) -> pairs n f = pairs n g.
Proof. intros H. apply sum_ext. intros j Hj. apply sum_ext. intros i Hi. apply H, Hi. Qed.
Lemma within_distance d i j : i <> j -> within d i j = distance (d i) (d j).
Proof.
  intros H. unfold within, distance, delta. rewrite (proj2 (Nat.eqb_neq i j) H). rewrite Rminus_0_r, Rmult_1_r, Rplus_0_r.
  apply norm_ext. intros c Hc. ring.
Qed.

(** energy:potential alone is the Coulomb energy. *)
Theorem C77_potential N natom x atoms charges :
  potential N natom x atoms charges = coulomb N natom x atoms charges (fun e a => - charges a / distance (electron x e) (atoms a)).
Proof.
  unfold potential, coulomb. rewrite !triu_pairs. apply (f_equal2 Rplus); [apply (f_equal2 Rplus)|].
  - apply sum_ext. intros e He. apply sum_ext. intros a Ha. rewrite rad_distance. unfold Rdiv. ring.
  - apply pairs_ext. intros i j H. rewrite within_distance by lia. reflexivity.
  - apply pairs_ext. intros i j H. rewrite within_distance by lia. unfold Rdiv. ring.
Qed.

(** energy:potential + energy:ph is the Coulomb energy in which every PH atom's -Z/r is
    replaced by its tabulated local potential: r * v(r) is the interpolated table. The other
    atoms keep -Z/r. *)
Theorem C77_local_part N natom last x atoms charges in_ph (rv : nat -> nat -> R) : (0 < last)%nat -> away N natom x atoms ->
  let idx := ph_indices natom in_ph in
  let ph a := nth a idx 0%nat in
  potential N natom x atoms charges
  + zero_order N (length idx) x (fun a => atoms (ph a)) (radial last (fun a k => rv (ph a) k + charges (ph a)) x (fun a => atoms (ph a)))
  = coulomb N natom x atoms charges (fun e a =>
      if in_ph a then interp last (rv a) (distance (electron x e) (atoms a)) / distance (electron x e) (atoms a)
      else - charges a / distance (electron x e) (atoms a)).
Proof.
  intros L AW idx ph. rewrite C77_potential. unfold coulomb, zero_order.
  assert (Z : sum N (fun e => sum (length idx) (fun a => radial last (fun a k => rv (ph a) k + charges (ph a)) x (fun a => atoms (ph a)) e a / rad (pos x e) (fun a => atoms (ph a)) a))
    = sum N (fun e => sum natom (fun a => if in_ph a then (interp last (rv a) (distance (electron x e) (atoms a)) + charges a) / distance (electron x e) (atoms a) else 0))).
  { apply sum_ext. intros e He. unfold idx, ph_indices in *. rewrite <- (sum_filter natom in_ph (fun a => (interp last (rv a) (distance (electron x e) (atoms a)) + charges a) / distance (electron x e) (atoms a))).
    apply sum_ext. intros a Ha. unfold radial. rewrite interp_shift by exact L. reflexivity. }
  rewrite Z. match goal with |- ?a + ?b + ?c + ?d = _ => replace (a + b + c + d) with (a + d + b + c) by ring end.
  apply (f_equal2 Rplus); [apply (f_equal2 Rplus)|]; try reflexivity. rewrite <- sum_plus. apply sum_ext. intros e He. rewrite <- sum_plus. apply sum_ext. intros a Ha.
  pose proof (AW e a He Ha). destruct (in_ph a); [field; assumption|ring].
Qed.

(** The tables that are loaded: from channels r V_l = r v + l(l+1) r w, l <= M, M > 0, the
    loader returns the tables of r v + Z and of r w; with these tables the sum of
    energy:potential and energy:ph is as above. *)
Theorem C77_loaded z M (ch : nat -> nat -> R) (v w : nat -> R) : (0 < M)%nat -> (forall l k, (l <= M)%nat -> ch l k = v k + INR (l * (l + 1)) * w k) ->
  forall k, fst (load z M ch) k = v k + z /\ snd (load z M ch) k = w k.
Proof.
  intros HM H k. cbn [load fst snd]. rewrite (C77_reconstruct_exact M (fun l => ch l k) (v k) (w k) HM); [cbn [fst snd]; auto|]. intros l Hl. apply H, Hl.
Qed.
Lemma interp_ext last tab tab' r : (0 < last)%nat -> (forall k, tab k = tab' k) -> interp last tab r = interp last tab' r.
Proof. intros L H. unfold interp. rewrite !H. reflexivity. Qed.
Theorem C77_local_part_loaded N natom last x atoms charges in_ph (M : nat -> nat) (ch : nat -> nat -> nat -> R) (rv rw : nat -> nat -> R) : (0 < last)%nat -> away N natom x atoms ->
  (forall a, (0 < M a)%nat) -> (forall a l k, (l <= M a)%nat -> ch a l k = rv a k + INR (l * (l + 1)) * rw a k) ->
  let idx := ph_indices natom in_ph in
  let ph a := nth a idx 0%nat in
  potential N natom x atoms charges
  + zero_order N (length idx) x (fun a => atoms (ph a)) (radial last (fun a => fst (load (charges (ph a)) (M (ph a)) (ch (ph a)))) x (fun a => atoms (ph a)))
  = coulomb N natom x atoms charges (fun e a =>
      if in_ph a then interp last (rv a) (distance (electron x e) (atoms a)) / distance (electron x e) (atoms a)
      else - charges a / distance (electron x e) (atoms a)).
Proof.
  intros L AW HM HC idx ph. rewrite <- (C77_local_part N natom last x atoms charges in_ph rv L AW). fold idx. apply (f_equal2 Rplus); [reflexivity|].
  unfold zero_order. apply sum_ext. intros e He. apply sum_ext. intros a Ha. apply (f_equal2 Rdiv); [|reflexivity]. unfold radial. apply interp_ext; [exact L|].
  intros k. apply (C77_loaded _ _ _ (rv (ph a)) (rw (ph a)) (HM _) (HC (ph a))).
Qed.

(** An atom treated with PH always has the charge the table was shifted by. *)
Theorem C77_atom_charge number core custom c : (core <= number)%nat -> atom_charge number core true custom = Some c -> (c + core = number)%nat.
Proof.
  intros H. destruct custom as [z|]; cbn.
  - rewrite Bool.andb_true_r. destruct (Nat.eqb_spec (z + core) number) as [E|E]; cbn; [|discriminate]. intros X. injection X as <-. exact E.
  - intros X. injection X as <-. lia.
Qed.

(** ** Example: one electron at distance 1 from a PH atom, log psi = y^2. *)
Definition ex_x : vec := fun k => if Nat.eqb k 0 then 1 else 0.
Definition ex_f : vec -> R := fun w => w 1%nat * w 1%nat.
Definition ex_g : vec := fun _ => 0.
Definition ex_h : mat := fun i j => if andb (Nat.eqb i 1) (Nat.eqb j 1) then 2 else 0.
Lemma ex_derivatives : derivatives (3 * 1) ex_f ex_x ex_g ex_h.
Proof.
  exists (fun _ => True), (fun w k => if Nat.eqb k 1 then 2 * w 1%nat else 0). repeat split.
  - intros v _. exists 1. split; [lra|auto].
  - intros w _ eps He. exists eps. split; [exact He|]. intros w' H. cbn [Nat.mul Nat.add sum Nat.eqb]. unfold ex_f.
    specialize (H 1%nat ltac:(lia)). set (d := w' 1%nat - w 1%nat) in *.
    match goal with |- Rabs ?a <= _ => replace a with (d * d) by (unfold d; ring) end. rewrite Rabs_mult.
    pose proof (Rabs_pos d). pose proof (Rabs_pos (w' 0%nat - w 0%nat)). pose proof (Rabs_pos (w' 2%nat - w 2%nat)).
    assert (Rabs d * Rabs d <= eps * Rabs d) by (apply Rmult_le_compat_r; lra). nra.
  - intros a Ha eps He. exists 1. split; [lra|]. intros w' H. assert (Ha3 : (a < 3)%nat) by lia.
    match goal with |- Rabs ?z <= _ => replace z with 0 end.
    + rewrite Rabs_R0. apply Rmult_le_pos; [lra|]. apply sum_nonneg. intros i Hi. apply Rabs_pos.
    + revert a Ha Ha3. refine (fun a Ha => case3 (fun a => 0 = _) _ _ _ a); cbn [Nat.mul Nat.add sum Nat.eqb andb]; unfold ex_h; cbn [Nat.eqb andb]; ring.
  - intros a Ha. unfold ex_g, ex_x. cbn [Nat.eqb]. destruct (Nat.eqb a 1); ring.
Qed.
Theorem C77_example : exists pass,
  energy_std 1 1 ex_x (fun _ _ => 0) (fun _ _ => 1) ex_g ex_h = Some (-3)
  /\ energy_fwd 1 1 ex_x (fun _ _ => 0) (fun _ _ => 1) ex_g pass = Some (-3)
  /\ pseudo_hamiltonian 1 1 (fun _ _ => 0) (fun _ _ => 1) (fun w => exp (ex_f w)) ex_x (-3).
Proof.
  destruct (C77_exact_pass_exists 1 1 ex_f ex_x (fun _ _ => 0) (fun _ _ => 1) ex_g ex_h ex_derivatives) as [pass HP]. exists pass.
  assert (D1 : distance (electron ex_x 0) (fun _ => 0) = 1).
  { unfold distance, norm, dot, electron, ex_x. cbn [sum Nat.mul Nat.add Nat.eqb]. match goal with |- sqrt ?z = 1 => replace z with 1 by ring end. apply sqrt_1. }
  assert (AW : away 1 1 ex_x (fun _ _ => 0)) by (intros e a He Ha; replace e with 0%nat by lia; rewrite D1; lra).
  destruct (C77_defined 1 1 ex_x (fun _ _ => 0) (fun _ _ => 1) ex_g ex_h pass AW ltac:(intros; lra)) as [DF DS].
  assert (V : value 1 1 ex_x (fun _ _ => 0) (fun _ _ => 1) ex_g ex_h = -3).
  { unfold value. cbn [sum]. rewrite one_electron_operator.
    2:{ intros a Ha. rewrite rad_distance. rewrite D1. lra. }
    cbn [sum]. rewrite rad_distance, D1. unfold rel, pos, turn1, turn2, ex_g, ex_h, ex_x. cbn. field. }
  destruct (energy_std 1 1 ex_x (fun _ _ => 0) (fun _ _ => 1) ex_g ex_h) as [E|] eqn:ES; [|congruence].
  pose proof (std_value _ _ _ _ _ _ _ _ AW ES) as VE. rewrite V in VE. subst E. split; [reflexivity|]. split.
  - rewrite <- ES. exact (C77_backends_agree _ _ _ _ _ _ _ _ _ AW ex_derivatives HP).
  - pose proof (C77_local_energy_standard _ _ _ _ _ _ _ _ 1 _ AW ex_derivatives ES) as PH. destruct PH as (k & l & K & Lk & HE). exists k, l. split; [|split].
    + intros e i He Hi. destruct (K e i He Hi) as (a & b & J). exists a, b. revert J. apply jet_ext. intros; ring.
    + intros e a u He Ha Hu. destruct (Lk e a u He Ha Hu) as (a' & b & J). exists a', b. revert J. apply jet_ext. intros; ring.
    + unfold ex_f at 1, ex_x at 1 in HE. cbn [Nat.eqb] in HE. rewrite Rmult_0_l, exp_0 in HE. transitivity (-3 * (1 * 1)); [ring|]. rewrite HE.
      cbn [sum]. change ((fun (_ : nat) => (fun _ : nat => 0)) 0%nat) with (fun _ : nat => 0) in *. rewrite D1. field.
Qed.
