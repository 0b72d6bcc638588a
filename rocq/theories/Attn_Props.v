(** C70: the hand-written Laplacian rule of LapNet's attention. *)
From Coq Require Import Reals List Arith Bool Lra Lia.
From Verif Require Import Lin Shape Lap_Spec Jet Lap_Lang Lap_Model Sparse_Model Sparse_Spec Sparse_Program Attn_Model Attn_Spec.
Import ListNotations.
Open Scope R_scope.

(** ** The attention function *)
Lemma sum_pos n f : (0 < n)%nat -> (forall j, 0 < f j) -> 0 < sum n f.
Proof. intros N P. destruct n as [|n]; [lia|]. clear N. induction n as [|n IH]; cbn [sum] in *; pose proof (P 0%nat); [lra|]. pose proof (P (S n)). lra. Qed.
Lemma shift_out n m (f : nat -> R) (v : nat -> R) : (0 < n)%nat ->
  sum n (fun j => exp (f j - m) * v j) / sum n (fun j => exp (f j - m)) = sum n (fun j => exp (f j) * v j) / sum n (fun j => exp (f j)).
Proof.
  intros N. assert (E : forall j, exp (f j - m) = exp (f j) * exp (- m)) by (intros; rewrite <- exp_plus; f_equal; ring).
  rewrite (sum_ext n (fun j => exp (f j - m) * v j) (fun j => exp (f j) * v j * exp (- m))) by (intros; rewrite E; ring).
  rewrite (sum_ext n (fun j => exp (f j - m)) (fun j => exp (f j) * exp (- m))) by (intros; apply E). rewrite !sum_scal_r.
  assert (P : 0 < sum n (fun j => exp (f j))) by (apply sum_pos; [exact N|intros; apply exp_pos]). pose proof (exp_pos (- m)). field. lra.
Qed.
Lemma flat_lt n H D i h d : (i < n)%nat -> (h < H)%nat -> (d < D)%nat -> ((i * H + h) * D + d < size [n; H; D])%nat.
Proof.
  intros. replace (size [n; H; D]) with (n * H * D)%nat by (cbn; ring). assert (i * H + h + 1 <= n * H)%nat by nia.
  assert ((i * H + h + 1) * D <= n * H * D)%nat by (apply Nat.mul_le_mono_r; assumption). lia.
Qed.
Lemma el_at H D i h d : (h < H)%nat -> (d < D)%nat -> el H D ((i * H + h) * D + d) = i.
Proof.
  intros. unfold el. symmetry. apply (Nat.div_unique _ _ _ (h * D + d)); [nia|ring].
Qed.
Lemma hd_at H D i h d : (h < H)%nat -> (d < D)%nat -> hd H D ((i * H + h) * D + d) = h.
Proof.
  intros. unfold hd. replace (((i * H + h) * D + d) / D)%nat with (i * H + h)%nat by (apply (Nat.div_unique _ _ _ d); lia).
  symmetry. apply (Nat.mod_unique _ _ i); lia.
Qed.
Lemma ft_at H D i h d : (d < D)%nat -> ft D ((i * H + h) * D + d) = d.
Proof. intros. unfold ft. symmetry. apply (Nat.mod_unique _ _ (i * H + h)%nat); lia. Qed.
(** The function itself is softmax attention. *)
Theorem C70_value : forall n H D q k v i h d, (i < n)%nat -> (h < H)%nat -> (d < D)%nat ->
  entry H D (attention n H D q k v) i h d = attended n D (entry H D q) (entry H D k) (entry H D v) i h d.
Proof.
  intros n H D q k v i h d I Hh Hd. unfold entry at 1, attention. rewrite el_at, hd_at, ft_at by assumption.
  unfold softmax, attended. set (f := logits H D q k h i). set (m := row_max n f).
  change (fun j => exp (sum D (fun x => entry H D q i h x * entry H D k j h x) / sqrt (INR D))) with (fun j => exp (f j)).
  change (fun j => exp (sum D (fun x => entry H D q i h x * entry H D k j h x) / sqrt (INR D)) * entry H D v j h d) with (fun j => exp (f j) * at3 H D v j h d).
  rewrite <- (shift_out n m f (fun j => at3 H D v j h d)) by lia.
  rewrite (sum_ext n _ (fun j => exp (f j - m) * at3 H D v j h d * / sum n (fun j => exp (f j - m)))) by (intros; unfold Rdiv; ring).
  rewrite sum_scal_r. reflexivity.
Qed.

(** ** Jets *)
Lemma jet_sum n (f : nat -> R -> R) (a b c : nat -> R) : (forall j, (j < n)%nat -> jet (f j) (a j) (b j) (c j)) ->
  jet (fun s => sum n (fun j => f j s)) (sum n a) (sum n b) (sum n c).
Proof.
  induction n as [|n IH]; intros H; cbn [sum]; [apply jet_const|]. apply (jet_plus (fun s => sum n (fun j => f j s)) (f n)); [apply IH; auto|apply H; lia].
Qed.
Lemma jet_exp u a b c : jet u a b c -> jet (fun s => exp (u s)) (exp a) (exp a * b) (exp a * (c + b ^ 2)).
Proof.
  intros J. eapply jet_eq; [apply (jet_comp exp exp exp (fun _ => True) u a b c); auto| | |]; try ring.
  - intros x _. exists 1. split; [lra|auto].
  - intros x _. apply derivable_pt_lim_exp.
  - intros x _. apply derivable_pt_lim_exp.
Qed.
Lemma inv_derive x : x <> 0 -> derivable_pt_lim (fun y => / y) x (- / x ^ 2).
Proof.
  intros N. apply (derivable_ext (fun y => 1 / y)); [intros; unfold Rdiv; ring|].
  apply (derivable_eq _ _ ((0 * x - 1 * 1) / Rsqr x)); [unfold Rsqr; field; exact N|].
  apply (derivable_pt_lim_div (fun _ => 1) id x 0 1); [apply derivable_pt_lim_const|apply derivable_pt_lim_id|exact N].
Qed.
Lemma inv2_derive x : x <> 0 -> derivable_pt_lim (fun y => - / y ^ 2) x (2 * / x ^ 3).
Proof.
  intros N. assert (N2 : x ^ 2 <> 0) by (apply pow_nonzero; exact N).
  apply (derivable_eq _ _ (- (- / (x ^ 2) ^ 2 * (INR 2 * x ^ 1)))); [cbn [INR]; field; exact N|].
  apply (derivable_pt_lim_opp (fun y => / y ^ 2)). apply (derivable_pt_lim_comp (fun y => y ^ 2) (fun y => / y)); [apply (derivable_pt_lim_pow x 2)|apply inv_derive; exact N2].
Qed.
Lemma jet_div u v a b c a' b' c' : jet u a b c -> jet v a' b' c' -> a' <> 0 ->
  jet (fun s => u s / v s) (a / a') (b / a' - a * b' / a' ^ 2) (c / a' - 2 * (b * b') / a' ^ 2 - a * c' / a' ^ 2 + 2 * a * b' ^ 2 / a' ^ 3).
Proof.
  intros J K N. eapply jet_eq; [eapply (jet_mult u (fun s => / v s)); [exact J|]| | |].
  - apply (jet_comp (fun y => / y) (fun y => - / y ^ 2) (fun y => 2 * / y ^ 3) (fun y => y <> 0) v a' b' c'); auto.
    + intros x X. exists (Rabs x). split; [apply Rabs_pos_lt; exact X|]. intros y Y E. subst y. rewrite Rminus_0_l, Rabs_Ropp in Y. lra.
    + intros x X. apply inv_derive. exact X.
    + intros x X. apply inv2_derive. exact X.
  - reflexivity.
  - field. exact N.
  - field. exact N.
Qed.
(** one output element along one coordinate line; [m] is the subtracted maximum *)
Lemma attn_line n (l v : nat -> R -> R) (lx0 lb lc vx vb vc : nat -> R) m : (0 < n)%nat ->
  (forall j, (j < n)%nat -> jet (l j) (lx0 j) (lb j) (lc j)) -> (forall j, (j < n)%nat -> jet (v j) (vx j) (vb j) (vc j)) ->
  let wx j := exp (lx0 j - m) in
  let dx := sum n wx in
  let dj := sum n (fun j => wx j * lb j) in
  let dl := sum n (fun j => wx j * (lc j + lb j ^ 2)) in
  let nx := sum n (fun j => wx j * vx j) in
  let nj := sum n (fun j => wx j * lb j * vx j + wx j * vb j) in
  let nl := sum n (fun j => wx j * (lc j + lb j ^ 2) * vx j + wx j * vc j + 2 * (wx j * lb j * vb j)) in
  jet (fun s => sum n (fun j => exp (l j s) * v j s) / sum n (fun j => exp (l j s))) (nx / dx) (nj / dx - nx * dj / dx ^ 2)
      (nl / dx - 2 * (nj * dj) / dx ^ 2 - nx * dl / dx ^ 2 + 2 * nx * dj ^ 2 / dx ^ 3).
Proof.
  intros N L V wx dx dj dl nx nj nl. apply (jet_ext (fun s => sum n (fun j => exp (l j s - m) * v j s) / sum n (fun j => exp (l j s - m)))).
  - intros s. apply (shift_out n m (fun j => l j s) (fun j => v j s) N).
  - assert (W : forall j, (j < n)%nat -> jet (fun s => exp (l j s - m)) (wx j) (wx j * lb j) (wx j * (lc j + lb j ^ 2))).
    { intros j Hj. eapply jet_eq; [apply (jet_exp (fun s => l j s - m)); apply (jet_minus (l j) (fun _ => m) _ _ _ m 0 0 (L j Hj)); apply jet_const| | |]; unfold wx; ring. }
    apply (jet_div (fun s => sum n (fun j => exp (l j s - m) * v j s)) (fun s => sum n (fun j => exp (l j s - m)))).
    + apply (jet_sum n (fun j s => exp (l j s - m) * v j s) (fun j => wx j * vx j)). intros j Hj. apply (jet_mult (fun s => exp (l j s - m)) (v j)); auto.
    + apply (jet_sum n (fun j s => exp (l j s - m)) wx). exact W.
    + apply Rgt_not_eq. apply sum_pos; [exact N|]. intros. unfold wx. apply exp_pos.
Qed.

(** ** The tracked input with the electrons on its first axis *)
Section Rule.
Variables (n H D : nat) (post : list nat).
Let Cd := size post.
Let b := basis_of [] n post.
Let sh := [n; H; D].
Let N := (n * Cd)%nat.
Lemma b_n_is : b_n b = N.
Proof. unfold b, N, Cd, basis_of. cbn. lia. Qed.
Lemma b_C_is : b_C b = Cd.
Proof. unfold b, Cd, basis_of. cbn. lia. Qed.
Lemma own_is t : (t < N)%nat -> own b t = (t / Cd)%nat.
Proof.
  intros T. unfold b, basis_of. cbn [own]. fold Cd. apply Nat.mod_small. apply Nat.div_lt_upper_bound; unfold N in T; [nia|lia].
Qed.
Lemma crd_is t : (t < N)%nat -> crd b t = (t mod Cd)%nat.
Proof. intros T. unfold b, basis_of. cbn [crd]. fold Cd. fold N. rewrite Nat.div_small by exact T. reflexivity. Qed.
Lemma sum_flat g : sum N (fun t => g (t / Cd)%nat (t mod Cd)%nat) = sum n (fun p => sum Cd (fun c => g p c)).
Proof.
  pose proof (basis_of_wf [] n post g) as W. fold b in W. rewrite b_n_is, b_C_is in W. change (b_N b) with n in W. rewrite <- W.
  apply sum_ext. intros t T. rewrite own_is, crd_is by exact T. reflexivity.
Qed.
Lemma index_lt t : (t < N)%nat -> (t / Cd < n)%nat /\ (t = t / Cd * Cd + t mod Cd)%nat.
Proof.
  intros T. assert (Cd <> 0)%nat by (unfold N in T; lia). split; [apply Nat.div_lt_upper_bound; unfold N in T; lia|].
  rewrite Nat.mul_comm. apply Nat.div_mod. assumption.
Qed.
Lemma nats_eqb_eq l : forall m, nats_eqb l m = true -> l = m.
Proof.
  induction l as [|x l IH]; intros [|y m] E; cbn in E; try discriminate; [reflexivity|]. apply andb_prop in E as [X Y].
  apply Nat.eqb_eq in X. subst. f_equal. auto.
Qed.
Lemma dense_entry t o q i h d : slots q = 1%nat -> owner_matches n (owner q 0) = true -> (t < N)%nat -> (i < n)%nat -> (h < H)%nat -> (d < D)%nat ->
  o = ((i * H + h) * D + d)%nat -> to_dense b sh q t o = delta (t / Cd) i * at3 H D (blk q 0 (t mod Cd)%nat) i h d.
Proof.
  intros S M T I Hh Hd ->. unfold to_dense. rewrite S. cbn [sum]. rewrite Rplus_0_l. rewrite own_is, crd_is by exact T. unfold at3. f_equal.
  unfold selector, owner_id. unfold owner_matches in M. apply andb_prop in M as [M1 M2]. destruct (ax (owner q 0)) as [a|]; [|discriminate].
  apply Nat.eqb_eq in M1. subst a. rewrite (nats_eqb_eq _ _ M2). unfold sh. cbn [unravel nth]. replace (size [H; D]) with (H * D)%nat by (cbn; lia).
  fold (el H D ((i * H + h) * D + d)). rewrite el_at by assumption. rewrite seq_nth by exact I. cbn [Nat.add]. unfold delta. rewrite Nat.eqb_sym. reflexivity.
Qed.
(** the hypothesis [exact], index by index, with the second derivatives in hand *)
Lemma exact_jets w p F v : exact b w p sh F v -> exists g : nat -> nat -> R, forall o, (o < size sh)%nat ->
  (forall t, (t < N)%nat -> jet (fun s => F (line p w t s) o) (value_of v o) (jacobian_of b sh v t o) (g o t)) /\ laplacian_of v o = sum N (g o).
Proof.
  intros E. destruct (finite_choice (fun _ : nat => 0) (size sh) (fun o g => (forall t, (t < N)%nat -> jet (fun s => F (line p w t s) o) (value_of v o) (jacobian_of b sh v t o) (g t)) /\ laplacian_of v o = sum N g)) as [G HG].
  - intros o O. destruct (E o O) as (_ & g & J & L). rewrite b_n_is in J, L. exists g. split; auto.
  - exists G. exact HG.
Qed.
Lemma exact_value w p F v o : exact b w p sh F v -> (o < size sh)%nat -> F p o = value_of v o.
Proof. intros E O. destruct (E o O) as (X & _). symmetry. exact X. Qed.

Lemma delta_sum g i : (i < n)%nat -> sum n (fun p => delta p i * g p) = g i.
Proof. intros I. rewrite (sum_ext n _ (fun p => g p * delta p i)) by (intros; ring). apply sum_delta_r. exact I. Qed.
Lemma delta_sq p i : delta p i * delta p i = delta p i.
Proof. unfold delta. destruct (Nat.eqb p i); ring. Qed.

Lemma rule_exact w p Q K V q k v i h d : (i < n)%nat -> (h < H)%nat -> (d < D)%nat ->
  slots q = 1%nat -> slots k = 1%nat -> owner_matches n (owner q 0) = true -> owner_matches n (owner k 0) = true ->
  exact b w p sh Q (SSparse q) -> exact b w p sh K (SSparse k) -> exact b w p sh V v ->
  let out := local1_rule b n H D q k v in
  gradient_and_laplacian N w p (fun r => attended n D (entry H D (Q r)) (entry H D (K r)) (entry H D (V r)) i h d)
    (entry H D (lx out) i h d) (fun t => entry H D (jac out t) i h d) (entry H D (lapl out) i h d).
Proof.
  intros I Hh Hd SQ SK MQ MK EQ EK EV out.
  destruct (exact_jets w p Q _ EQ) as [gq JQ]. destruct (exact_jets w p K _ EK) as [gk JK]. destruct (exact_jets w p V _ EV) as [gv JV].
  cbn [value_of jacobian_of laplacian_of] in JQ, JK.
  set (scale := sqrt (INR D)).
  (* the pieces of the rule *)
  set (qx := at3 H D (sx q) i h). set (kx := fun j => at3 H D (sx k) j h).
  set (qb := fun c => at3 H D (blk q 0 c) i h). set (kb := fun c j => at3 H D (blk k 0 c) j h).
  set (vx := fun j => at3 H D (value_of v) j h d). set (vl := fun j => at3 H D (laplacian_of v) j h d).
  set (vj := fun t j => jacobian_of b sh v t ((j * H + h) * D + d)).
  set (hq := fun t x => gq ((i * H + h) * D + x)%nat t). set (hk := fun t j x => gk ((j * H + h) * D + x)%nat t). set (hv := fun t j => gv ((j * H + h) * D + d)%nat t).
  set (l0 := fun j => sum D (fun x => qx x * kx j x) / scale).
  set (gi := fun c j => sum D (fun x => qb c x * kx j x) / scale).
  set (gj := fun c j => sum D (fun x => qx x * kb c j x) / scale).
  set (m := row_max n l0).
  set (wx := fun j => exp (l0 j - m)).
  set (cross := 2 * sum Cd (fun c => sum D (fun x => qb c x * kb c i x)) / scale).
  set (ll := fun j => (sum D (fun x => at3 H D (sl q) i h x * kx j x) + sum D (fun x => qx x * at3 H D (sl k) j h x)) / scale + cross * delta i j).
  set (tr := fun j => sum Cd (fun c => gi c j ^ 2) + sum Cd (fun c => gj c j ^ 2) + 2 * sum Cd (fun c => gi c j * gj c j) * delta i j).
  set (wl := fun j => wx j * (ll j + tr j)).
  set (dx := sum n wx). set (nx := sum n (fun j => wx j * vx j)). set (dl := sum n wl).
  set (dj := fun t => delta (t / Cd) i * sum n (fun j => wx j * gi (t mod Cd)%nat j) + wx (t / Cd)%nat * gj (t mod Cd)%nat (t / Cd)%nat).
  set (nj := fun t => delta (t / Cd) i * sum n (fun j => wx j * gi (t mod Cd)%nat j * vx j) + wx (t / Cd)%nat * gj (t mod Cd)%nat (t / Cd)%nat * vx (t / Cd)%nat
                      + sum n (fun j => wx j * vj (t / Cd * Cd + t mod Cd)%nat j)).
  set (nl := sum n (fun j => wl j * vx j) + sum n (fun j => wx j * vl j) + 2 * sum Cd (fun c => sum n (fun j => wx j * gi c j * vj (i * Cd + c)%nat j))
             + 2 * sum Cd (fun c => sum n (fun j => wx j * gj c j * vj (j * Cd + c)%nat j))).
  assert (DX : dx <> 0). { apply Rgt_not_eq. apply sum_pos; [lia|]. intros. apply exp_pos. }
  (* what the rule returns *)
  assert (OX : entry H D (lx out) i h d = nx * (1 / dx)).
  { unfold out, local1_rule, quotient, entry. cbn [lx]. rewrite el_at, hd_at, ft_at by assumption. destruct v; reflexivity. }
  assert (OJ : forall t, entry H D (jac out t) i h d = nj t * (1 / dx) - nx * dj t * (1 / dx) ^ 2).
  { intros t. unfold out, local1_rule, quotient, entry. cbn [jac]. rewrite el_at, hd_at, ft_at by assumption. rewrite b_C_is. destruct v; reflexivity. }
  assert (OL : entry H D (lapl out) i h d = nl * (1 / dx) - 2 * sum N (fun t => nj t * dj t) * (1 / dx) ^ 2 - nx * dl * (1 / dx) ^ 2 + 2 * nx * sum N (fun t => dj t ^ 2) * (1 / dx) ^ 3).
  { unfold out, local1_rule, quotient, entry. cbn [lapl]. rewrite el_at, hd_at, ft_at by assumption. rewrite b_C_is. change (b_N b) with n. fold N. destruct v; reflexivity. }
  clearbody out.
  (* derivatives of the logits of row i along coordinate t *)
  set (lb := fun t j => delta (t / Cd) i * gi (t mod Cd)%nat j + delta (t / Cd) j * gj (t mod Cd)%nat j).
  set (lc := fun t j => sum D (fun x => hq t x * kx j x + qx x * hk t j x + 2 * (delta (t / Cd) i * qb (t mod Cd)%nat x * (delta (t / Cd) j * kb (t mod Cd)%nat j x))) / scale).
  assert (JL : forall t j, (t < N)%nat -> (j < n)%nat ->
    jet (fun s => sum D (fun x => entry H D (Q (line p w t s)) i h x * entry H D (K (line p w t s)) j h x) / scale) (l0 j) (lb t j) (lc t j)).
  { intros t j T Jn. apply (jet_eq _ (/ scale * sum D (fun x => qx x * kx j x))
      (/ scale * sum D (fun x => delta (t / Cd) i * qb (t mod Cd)%nat x * kx j x + qx x * (delta (t / Cd) j * kb (t mod Cd)%nat j x)))
      (/ scale * sum D (fun x => hq t x * kx j x + qx x * hk t j x + 2 * (delta (t / Cd) i * qb (t mod Cd)%nat x * (delta (t / Cd) j * kb (t mod Cd)%nat j x))))).
    - apply (jet_ext (fun s => / scale * sum D (fun x => entry H D (Q (line p w t s)) i h x * entry H D (K (line p w t s)) j h x))); [intros; unfold Rdiv; ring|].
      apply jet_scal. apply (jet_sum D (fun x s => entry H D (Q (line p w t s)) i h x * entry H D (K (line p w t s)) j h x)). intros x X.
      apply (jet_mult (fun s => entry H D (Q (line p w t s)) i h x) (fun s => entry H D (K (line p w t s)) j h x)).
      + destruct (JQ ((i * H + h) * D + x)%nat (flat_lt n H D i h x I Hh X)) as [A _]. specialize (A t T). rewrite (dense_entry t _ q i h x SQ MQ T I Hh X eq_refl) in A. exact A.
      + destruct (JK ((j * H + h) * D + x)%nat (flat_lt n H D j h x Jn Hh X)) as [A _]. specialize (A t T). rewrite (dense_entry t _ k j h x SK MK T Jn Hh X eq_refl) in A. exact A.
    - unfold l0, Rdiv. ring.
    - unfold lb, gi, gj. rewrite (sum_ext D _ (fun x => delta (t / Cd) i * (qb (t mod Cd)%nat x * kx j x) + delta (t / Cd) j * (qx x * kb (t mod Cd)%nat j x))) by (intros; ring).
      rewrite sum_plus, !sum_scal_l. unfold Rdiv. ring.
    - unfold lc, Rdiv. ring. }
  assert (JVt : forall t j, (t < N)%nat -> (j < n)%nat -> jet (fun s => entry H D (V (line p w t s)) j h d) (vx j) (vj t j) (hv t j)).
  { intros t j T Jn. destruct (JV ((j * H + h) * D + d)%nat (flat_lt n H D j h d Jn Hh Hd)) as [A _]. exact (A t T). }
  assert (PN : (0 < n)%nat) by lia.
  set (dlt := fun t => sum n (fun j => wx j * (lc t j + lb t j ^ 2))).
  set (nlt := fun t => sum n (fun j => wx j * (lc t j + lb t j ^ 2) * vx j + wx j * hv t j + 2 * (wx j * lb t j * vj t j))).
  (* the first derivatives of numerator and denominator *)
  assert (DJ : forall t, (t < N)%nat -> sum n (fun j => wx j * lb t j) = dj t).
  { intros t T. destruct (index_lt t T) as [P _]. unfold lb, dj.
    rewrite (sum_ext n _ (fun j => delta (t / Cd) i * (wx j * gi (t mod Cd)%nat j) + (wx j * gj (t mod Cd)%nat j) * delta j (t / Cd))).
    - rewrite sum_plus, sum_scal_l, sum_delta_r by exact P. reflexivity.
    - intros j _. replace (delta j (t / Cd)) with (delta (t / Cd) j) by (unfold delta; rewrite Nat.eqb_sym; reflexivity). ring. }
  assert (NJ : forall t, (t < N)%nat -> sum n (fun j => wx j * lb t j * vx j + wx j * vj t j) = nj t).
  { intros t T. destruct (index_lt t T) as [P TT]. unfold lb, nj. rewrite <- TT.
    rewrite (sum_ext n _ (fun j => delta (t / Cd) i * (wx j * gi (t mod Cd)%nat j * vx j) + (wx j * gj (t mod Cd)%nat j * vx j) * delta j (t / Cd) + wx j * vj t j)).
    - rewrite !sum_plus, sum_scal_l, sum_delta_r by exact P. reflexivity.
    - intros j _. replace (delta j (t / Cd)) with (delta (t / Cd) j) by (unfold delta; rewrite Nat.eqb_sym; reflexivity). ring. }
  assert (DD : forall j g, (j < n)%nat -> sum N (fun t => delta (t / Cd) j * g (t / Cd)%nat (t mod Cd)%nat) = sum Cd (fun c => g j c)).
  { intros j g Jn. rewrite (sum_flat (fun a c => delta a j * g a c)). rewrite (sum_ext n _ (fun a => delta a j * sum Cd (fun c => g a c))) by (intros; rewrite sum_scal_l; reflexivity).
    apply (delta_sum (fun a => sum Cd (fun c => g a c))). exact Jn. }
  (* Laplacian and squared gradient of the logits *)
  assert (LL : forall j, (j < n)%nat -> sum N (fun t => lc t j) = ll j).
  { intros j Jn. unfold lc, ll, Rdiv. rewrite sum_scal_r.
    replace (cross * delta i j) with (2 * sum Cd (fun c => sum D (fun x => qb c x * kb c i x)) * delta i j * / scale) by (unfold cross, Rdiv; ring).
    rewrite <- Rmult_plus_distr_r. f_equal.
    rewrite (sum_ext N _ (fun t => sum D (fun x => hq t x * kx j x) + sum D (fun x => qx x * hk t j x) + 2 * delta i j * (delta (t / Cd) i * sum D (fun x => qb (t mod Cd)%nat x * kb (t mod Cd)%nat i x)))).
    - rewrite !sum_plus, sum_scal_l, (DD i (fun _ c => sum D (fun x => qb c x * kb c i x)) I). rewrite (sum_swap N D). rewrite (sum_swap N D (fun t x => qx x * hk t j x)).
      rewrite (sum_ext D (fun x => sum N (fun t => hq t x * kx j x)) (fun x => at3 H D (sl q) i h x * kx j x)).
      + rewrite (sum_ext D (fun x => sum N (fun t => qx x * hk t j x)) (fun x => qx x * at3 H D (sl k) j h x)); [ring|].
        intros x X. rewrite sum_scal_l. f_equal. destruct (JK ((j * H + h) * D + x)%nat (flat_lt n H D j h x Jn Hh X)) as [_ A]. symmetry. exact A.
      + intros x X. rewrite sum_scal_r. f_equal. destruct (JQ ((i * H + h) * D + x)%nat (flat_lt n H D i h x I Hh X)) as [_ A]. symmetry. exact A.
    - intros t _. rewrite !sum_plus. f_equal. rewrite <- sum_scal_l, <- sum_scal_l. apply sum_ext. intros x _.
      unfold delta. destruct (Nat.eqb_spec (t / Cd) i) as [->|N1]; [|ring]. destruct (Nat.eqb_spec i j) as [->|N2]; ring. }
  assert (TR : forall j, (j < n)%nat -> sum N (fun t => lb t j ^ 2) = tr j).
  { intros j Jn. unfold lb, tr.
    rewrite (sum_ext N _ (fun t => delta (t / Cd) i * gi (t mod Cd)%nat j ^ 2 + delta (t / Cd) j * gj (t mod Cd)%nat j ^ 2 + delta (t / Cd) i * (2 * (gi (t mod Cd)%nat j * gj (t mod Cd)%nat j) * delta i j))).
    - rewrite !sum_plus, (DD i (fun _ c => gi c j ^ 2) I), (DD j (fun _ c => gj c j ^ 2) Jn), (DD i (fun _ c => 2 * (gi c j * gj c j) * delta i j) I).
      rewrite (sum_scal_r Cd), sum_scal_l. reflexivity.
    - intros t _. unfold delta. destruct (Nat.eqb_spec (t / Cd) i) as [->|N1]; [destruct (Nat.eqb_spec i j); ring|destruct (Nat.eqb_spec (t / Cd) j); ring]. }
  assert (LT : forall j, (j < n)%nat -> sum N (fun t => lc t j + lb t j ^ 2) = ll j + tr j) by (intros j Jn; rewrite sum_plus, LL, TR by exact Jn; reflexivity).
  assert (DL : sum N dlt = dl).
  { unfold dlt, dl. rewrite sum_swap. apply sum_ext. intros j Jn. rewrite sum_scal_l, LT by exact Jn. reflexivity. }
  assert (NL : sum N nlt = nl).
  { unfold nlt, nl. rewrite sum_swap.
    rewrite (sum_ext n _ (fun j => wl j * vx j + wx j * vl j + 2 * sum Cd (fun c => wx j * gi c j * vj (i * Cd + c)%nat j) + 2 * sum Cd (fun c => wx j * gj c j * vj (j * Cd + c)%nat j))).
    - rewrite !sum_plus, !sum_scal_l. rewrite (sum_swap n Cd), (sum_swap n Cd (fun j c => wx j * gj c j * vj (j * Cd + c)%nat j)). reflexivity.
    - intros j Jn. rewrite !sum_plus, !sum_scal_r, !sum_scal_l, LT by exact Jn.
      assert (VL : sum N (fun t => hv t j) = vl j). { destruct (JV ((j * H + h) * D + d)%nat (flat_lt n H D j h d Jn Hh Hd)) as [_ A]. symmetry. exact A. }
      rewrite VL. fold (wl j). rewrite !Rplus_assoc. f_equal. f_equal. rewrite <- Rmult_plus_distr_l. f_equal.
      rewrite <- (DD i (fun a c => wx j * gi c j * vj (a * Cd + c)%nat j) I), <- (DD j (fun a c => wx j * gj c j * vj (a * Cd + c)%nat j) Jn), <- sum_plus.
      apply sum_ext. intros t T. destruct (index_lt t T) as [_ TT]. rewrite <- TT. unfold lb. ring. }
  (* together *)
  split.
  - rewrite OX. unfold attended, nx, dx, wx.
    replace (sum n (fun j => exp (l0 j - m) * vx j) * (1 / sum n (fun j => exp (l0 j - m)))) with (sum n (fun j => exp (l0 j - m) * vx j) / sum n (fun j => exp (l0 j - m))) by (unfold Rdiv; ring).
    rewrite shift_out by exact PN.
    assert (LE : forall j, (j < n)%nat -> l0 j = sum D (fun x => entry H D (Q p) i h x * entry H D (K p) j h x) / sqrt (INR D)).
    { intros j Jn. unfold l0. unfold Rdiv. f_equal. apply sum_ext. intros x X. unfold entry.
      rewrite (exact_value w p Q _ _ EQ (flat_lt n H D i h x I Hh X)), (exact_value w p K _ _ EK (flat_lt n H D j h x Jn Hh X)). reflexivity. }
    f_equal; apply sum_ext; intros j Jn; rewrite (LE j Jn); [|reflexivity]. f_equal.
    unfold entry. rewrite (exact_value w p V _ _ EV (flat_lt n H D j h d Jn Hh Hd)). reflexivity.
  - exists (fun t => nlt t / dx - 2 * (nj t * dj t) / dx ^ 2 - nx * dlt t / dx ^ 2 + 2 * nx * dj t ^ 2 / dx ^ 3). split.
    + intros t T. cbv beta. rewrite OX, OJ. rewrite <- (DJ t T), <- (NJ t T).
      eapply jet_eq; [apply (attn_line n (fun j s => sum D (fun x => entry H D (Q (line p w t s)) i h x * entry H D (K (line p w t s)) j h x) / scale)
        (fun j s => entry H D (V (line p w t s)) j h d) l0 (lb t) (lc t) vx (vj t) (hv t) m PN (fun j Jn => JL t j T Jn) (fun j Jn => JVt t j T Jn))| | |].
      * fold wx dx nx. field. exact DX.
      * fold wx dx nx. field. exact DX.
      * fold wx dx nx. reflexivity.
    + rewrite OL, <- DL, <- NL. unfold Rdiv. rewrite sum_plus, !sum_minus, !sum_scal_r, !sum_scal_l. field. exact DX.
Qed.
End Rule.

(** Whenever the rule applies, and the tracked input has the electrons on its first axis, it returns the exact value, Jacobian
    and Laplacian of attention: for every number of electrons, heads, features and coordinates, and whether the values are
    untracked, dense or sparse. *)
Theorem C70_rule : forall n H D post shk w p Q K V query key value out, let b := basis_of [] n post in let sh := [n; H; D] in
  exact b w p sh Q query -> exact b w p sh K key -> exact b w p sh V value ->
  attention_rule b sh shk query key value = Some out ->
  shk = sh /\ forall i h d, (i < n)%nat -> (h < H)%nat -> (d < D)%nat ->
  gradient_and_laplacian (b_n b) w p (fun r => attended n D (entry H D (Q r)) (entry H D (K r)) (entry H D (V r)) i h d)
    (entry H D (lx out) i h d) (fun t => entry H D (jac out t) i h d) (entry H D (lapl out) i h d).
Proof.
  intros n H D post shk w p Q K V query key value out b sh EQ EK EV R. unfold attention_rule, sh in R.
  destruct query as [|t|q]; try discriminate. destruct key as [|t|k]; try discriminate. fold sh in R.
  destruct (Nat.eqb_spec (slots q) 1) as [SQ|]; [|discriminate]. destruct (Nat.eqb_spec (slots k) 1) as [SK|]; [|discriminate]. cbn [andb] in R.
  destruct (supports b sh shk q k) eqn:S; [|discriminate]. injection R as <-. unfold supports in S. change (nth 0 sh 0%nat) with n in S.
  apply andb_prop in S as [S MK]. apply andb_prop in S as [S MQ]. apply andb_prop in S as [S _]. apply andb_prop in S as [S _].
  split; [symmetry; apply nats_eqb_eq; exact S|]. intros i h d I Hh Hd. unfold b. rewrite b_n_is. apply rule_exact; assumption.
Qed.
(** An untracked or dense query or key, or one electron, is left to the ordinary rules. *)
Theorem C70_declines : forall b sh shk query key value, (is_sparse query = false \/ is_sparse key = false \/ hd_error sh = Some 1%nat) ->
  (forall q, query = SSparse q -> slots q = 1%nat -> wf_role (b_N b) sh (owner q 0)) -> attention_rule b sh shk query key value = None.
Proof.
  intros b sh shk query key value C W. unfold attention_rule. destruct query as [|t|q]; try reflexivity. destruct key as [|t|k]; try reflexivity.
  destruct C as [C|[C|C]]; try discriminate. destruct sh as [|n [|H [|D [|]]]]; try reflexivity. cbn in C. injection C as ->.
  destruct (Nat.eqb_spec (slots q) 1) as [SQ|]; [|reflexivity]. destruct (Nat.eqb (slots k) 1); [|reflexivity]. cbn [andb].
  destruct (supports _ _ _ _ _) eqn:S; [|reflexivity]. exfalso. unfold supports in S. apply andb_prop in S as [S _]. apply andb_prop in S as [_ M].
  unfold owner_matches in M. destruct (W q eq_refl SQ) as [X _]. destruct (ax (owner q 0)) as [a|]; [|discriminate]. apply andb_prop in M as [M1 M2].
  apply Nat.eqb_eq in M1. subst a. destruct X as (_ & L & NL). cbn in L. contradiction.
Qed.

(** ** Two electrons with two coordinates: the first is the query, the second the key; values 0 and 1 *)
Definition roles2 : list role := [{| ax := Some 0%nat; vals := [0%nat; 1%nat] |}].
Definition ex_q : sparse := {| sx := fun _ => 1; owners := roles2; blk := fun _ c _ => delta c 0; sl := fun _ => 0 |}.
Definition ex_k : sparse := {| sx := fun _ => 0; owners := roles2; blk := fun _ c _ => delta c 1; sl := fun _ => 0 |}.
Definition ex_v : sval := SPlain INR.
Definition ones : vec := fun _ => 1.
Lemma jet_coordinate (p : vec) t o : jet (fun s => line p ones t s o) (p o) (delta o t) 0.
Proof.
  unfold line, delta, ones. destruct (Nat.eqb o t).
  - eapply jet_eq; [apply (jet_line (p o) 1)| | |]; ring.
  - apply (jet_ext (fun _ => p o)); [intros; ring|]. apply jet_const.
Qed.
Lemma coordinate_exact (p : vec) n (m : nat) J x : x = p m -> (forall t, (t < n)%nat -> J t = delta m t) -> gradient_and_laplacian n ones p (fun r => r m) x J 0.
Proof.
  intros -> E. split; [reflexivity|]. exists (fun _ => 0). split; [|symmetry; apply sum_0; auto]. intros t T. rewrite (E t T). apply jet_coordinate.
Qed.
Lemma const_exact (p : vec) n x J : (forall t, J t = 0) -> gradient_and_laplacian n ones p (fun _ => x) x J 0.
Proof.
  intros E. split; [reflexivity|]. exists (fun _ => 0). split; [|symmetry; apply sum_0; auto]. intros t _. rewrite E. apply jet_const.
Qed.
Lemma supports_ex b : b_N b = 2%nat -> attention_rule b [2; 1; 1]%nat [2; 1; 1]%nat (SSparse ex_q) (SSparse ex_k) ex_v = Some (local1_rule b 2 1 1 ex_q ex_k ex_v).
Proof. intros E. unfold attention_rule, supports. cbn. rewrite E. reflexivity. Qed.
Lemma ex_jac b : b_N b = 2%nat -> b_C b = 2%nat -> entry 1 1 (jac (local1_rule b 2 1 1 ex_q ex_k ex_v) 1) 0 0 0 = - / 4.
Proof.
  intros _ Ec. unfold local1_rule, quotient, entry. cbn [jac]. rewrite Ec. unfold row_max, at3, el, hd, ft, as_dense, ex_v, ex_q, ex_k.
  cbn. unfold delta. cbn. rewrite sqrt_1. replace ((0 + 1 * 0) / 1) with 0 by field. replace (Rmax 0 (Rmax 0 0)) with 0 by (rewrite !Rmax_left by (rewrite ?Rmax_left; lra); reflexivity). rewrite Rminus_0_r, exp_0. field.
Qed.
(** The same arrays tracked with the electrons on the second axis of an input of shape (2, 2), which make_laplacian_input
    allows (sparse_axis=1): the rule still applies but fills the rows of the Jacobian electron by electron, which is not the order of that
    input: the derivative with respect to the query of the other electron comes out as -1/4 instead of 0. *)
Theorem C70_owner_axis_refuted : let b := basis_of [2%nat] 2 [] in let sh := [2; 1; 1]%nat in
  exists p Q K V query key value out,
  exact b ones p sh Q query /\ exact b ones p sh K key /\ exact b ones p sh V value /\
  attention_rule b sh sh query key value = Some out /\
  ~ gradient_and_laplacian (b_n b) ones p (fun r => attended 2 1 (entry 1 1 (Q r)) (entry 1 1 (K r)) (entry 1 1 (V r)) 0 0 0)
      (entry 1 1 (lx out) 0 0 0) (fun t => entry 1 1 (jac out t) 0 0 0) (entry 1 1 (lapl out) 0 0 0).
Proof.
  intros b sh. exists (fun m => if Nat.ltb m 2 then 1 else 0), (fun r o => r o), (fun r o => r (2 + o)%nat), (fun _ => INR), (SSparse ex_q), (SSparse ex_k), ex_v, (local1_rule b 2 1 1 ex_q ex_k ex_v).
  split; [|split; [|split; [|split]]].
  - intros o O. cbn [value_of jacobian_of laplacian_of ex_q sx sl]. cbn in O.
    apply coordinate_exact; [destruct o as [|[|o]]; [reflexivity|reflexivity|lia]|].
    intros t T. cbn in T. destruct o as [|[|o]]; [| |lia]; destruct t as [|[|[|[|t]]]]; try lia; unfold to_dense, selector, owner_id, delta; cbn; ring.
  - intros o O. cbn [value_of jacobian_of laplacian_of ex_k sx sl]. cbn in O.
    apply (coordinate_exact _ _ (2 + o)%nat); [reflexivity|].
    intros t T. cbn in T. destruct o as [|[|o]]; [| |lia]; destruct t as [|[|[|[|t]]]]; try lia; unfold to_dense, selector, owner_id, delta; cbn; ring.
  - intros o O. apply const_exact. reflexivity.
  - apply supports_ex. reflexivity.
  - intros (_ & g & J & _). specialize (J 1%nat ltac:(cbn; lia)). apply jet_derivable in J. cbv beta in J. rewrite ex_jac in J by reflexivity.
    assert (Z : derivable_pt_lim (fun s => attended 2 1 (entry 1 1 (fun o => line (fun m => if Nat.ltb m 2 then 1 else 0) ones 1 s o))
      (entry 1 1 (fun o => line (fun m => if Nat.ltb m 2 then 1 else 0) ones 1 s (2 + o)%nat)) (entry 1 1 INR) 0 0 0) 0 0).
    { eapply derivable_ext; [|apply (derivable_pt_lim_const (/ 2))]. intros s. unfold attended, entry, line, fct_cte. cbn. rewrite sqrt_1.
      replace ((0 + (1 + 0) * (0 + 0)) / 1) with 0 by field. rewrite exp_0. field. }
    pose proof (uniqueness_limite _ _ _ _ J Z). lra.
Qed.
(** With the electrons on the first axis the hypotheses of C70_rule hold for these arrays, and the derivative with respect to the
    key of the first electron is -1/4. *)
Example C70_example : let b := basis_of [] 2 [2%nat] in let sh := [2; 1; 1]%nat in let p := fun m => if Nat.even m then 1 else 0 in
  exact b ones p sh (fun r o => r (2 * o)%nat) (SSparse ex_q) /\ exact b ones p sh (fun r o => r (2 * o + 1)%nat) (SSparse ex_k) /\ exact b ones p sh (fun _ => INR) ex_v /\
  exists out, attention_rule b sh sh (SSparse ex_q) (SSparse ex_k) ex_v = Some out /\ entry 1 1 (jac out 1) 0 0 0 = - / 4.
Proof.
  intros b sh p. split; [|split; [|split]].
  - intros o O. cbn [value_of jacobian_of laplacian_of ex_q sx sl]. cbn in O.
    apply (coordinate_exact _ _ (2 * o)%nat); [destruct o as [|[|o]]; [reflexivity|reflexivity|lia]|].
    intros t T. cbn in T. destruct o as [|[|o]]; [| |lia]; destruct t as [|[|[|[|t]]]]; try lia; unfold to_dense, selector, owner_id, delta; cbn; ring.
  - intros o O. cbn [value_of jacobian_of laplacian_of ex_k sx sl]. cbn in O.
    apply (coordinate_exact _ _ (2 * o + 1)%nat); [destruct o as [|[|o]]; [reflexivity|reflexivity|lia]|].
    intros t T. cbn in T. destruct o as [|[|o]]; [| |lia]; destruct t as [|[|[|[|t]]]]; try lia; unfold to_dense, selector, owner_id, delta; cbn; ring.
  - intros o O. apply const_exact. reflexivity.
  - exists (local1_rule b 2 1 1 ex_q ex_k ex_v). split; [apply supports_ex; reflexivity|apply ex_jac; reflexivity].
Qed.
