(** Lemmas for C41 and C42: positive-definite systems, the Gram matrix, lifting its null space. *)
From Coq Require Import Reals List Arith Bool Lra Lia.
From Verif Require Import Lin Shape Sr_Model.
Import ListNotations.
Open Scope R_scope.
Local Notation "a =? b" := (Nat.eqb a b).

(** ** Elimination solves every symmetric positive-definite system *)
Definition symmetric (n : nat) (f : mat) : Prop := forall i j, (i < n)%nat -> (j < n)%nat -> f i j = f j i.
Definition quad (n : nat) (f : mat) (v : vec) : R := sum n (fun i => v i * mv n f v i).
Definition posdef (n : nat) (f : mat) : Prop := symmetric n f /\ forall v, (exists i, (i < n)%nat /\ v i <> 0) -> 0 < quad n f v.

Lemma mv_ext n f g u v i : (forall j, (j < n)%nat -> f i j = g i j) -> (forall j, (j < n)%nat -> u j = v j) -> mv n f u i = mv n g v i.
Proof. intros H K. apply sum_ext. intros j J. rewrite H, K by auto. reflexivity. Qed.
Lemma mv_plus n f u v i : mv n f (fun j => u j + v j) i = mv n f u i + mv n f v i.
Proof. unfold mv. rewrite <- sum_plus. apply sum_ext. intros. ring. Qed.
Lemma mv_scal n f c u i : mv n f (fun j => c * u j) i = c * mv n f u i.
Proof. unfold mv. rewrite <- sum_scal_l. apply sum_ext. intros. ring. Qed.
Lemma mv_minus n f u v i : mv n f (fun j => u j - v j) i = mv n f u i - mv n f v i.
Proof. unfold mv. rewrite <- sum_minus. apply sum_ext. intros. ring. Qed.
Lemma posdef_diag k f : posdef (S k) f -> 0 < f k k.
Proof.
  intros [_ P]. specialize (P (fun i => if i =? k then 1 else 0)). unfold quad, mv in P. cbn [sum] in P. rewrite Nat.eqb_refl in P.
  rewrite !sum_0 in P.
  - rewrite Rplus_0_l in P. rewrite (Rplus_0_l (f k k * 1)) in P. rewrite Rmult_1_l, Rmult_1_r in P. apply P. exists k. rewrite Nat.eqb_refl. split; [lia|lra].
  - intros i I. destruct (Nat.eqb_spec i k); [lia|ring].
  - intros i I. destruct (Nat.eqb_spec i k); [lia|ring].
Qed.
Lemma schur_posdef k f : posdef (S k) f -> posdef k (fun i j => f i j - f i k * f k j / f k k).
Proof.
  intros PD. pose proof (posdef_diag k f PD) as D. destruct PD as [SY P]. split.
  - intros i j I J. rewrite (SY i j), (SY i k), (SY k j) by lia. field. lra.
  - intros v [i [I V]].
    set (t := sum k (fun j => f k j * v j)).
    specialize (P (fun i => if i =? k then - t / f k k else v i)). assert (Q : 0 < quad (S k) f (fun i => if i =? k then - t / f k k else v i)).
    { apply P. exists i. split; [lia|]. destruct (Nat.eqb_spec i k); [lia|auto]. }
    replace (quad k (fun i j => f i j - f i k * f k j / f k k) v) with (quad (S k) f (fun i => if i =? k then - t / f k k else v i)); auto.
    unfold quad, mv. cbn [sum]. rewrite Nat.eqb_refl.
    assert (E : forall a, sum k (fun j => f a j * (if j =? k then - t / f k k else v j)) = sum k (fun j => f a j * v j)).
    { intros a. apply sum_ext. intros j J. destruct (Nat.eqb_spec j k); [lia|ring]. }
    rewrite E. fold t. replace (t + f k k * (- t / f k k)) with 0 by (field; lra). rewrite Rmult_0_r, Rplus_0_r.
    apply sum_ext. intros a A. destruct (Nat.eqb_spec a k); [lia|]. f_equal. rewrite E.
    replace (sum k (fun j => (f a j - f a k * f k j / f k k) * v j)) with (sum k (fun j => f a j * v j) - f a k / f k k * t); [field; lra|].
    unfold t. rewrite <- sum_scal_l, <- sum_minus. apply sum_ext. intros. field. lra.
Qed.
Lemma cho_solve_correct : forall n f b, posdef n f -> forall i, (i < n)%nat -> mv n f (cho_solve n f b) i = b i.
Proof.
  induction n as [|k IH]; intros f b PD i I; [lia|].
  pose proof (posdef_diag k f PD) as D. pose proof (schur_posdef k f PD) as SP. specialize (IH _ (fun i => b i - f i k * b k / f k k) SP).
  cbn [cho_solve]. set (x := cho_solve k _ _) in *. unfold mv in *. cbn [sum]. rewrite Nat.eqb_refl.
  assert (E : forall a, sum k (fun j => f a j * (if j =? k then (b k - sum k (fun m => f k m * x m)) / f k k else x j)) = sum k (fun j => f a j * x j)).
  { intros a. apply sum_ext. intros j J. destruct (Nat.eqb_spec j k); [lia|ring]. }
  rewrite E. set (t := sum k (fun m => f k m * x m)) in *.
  destruct (Nat.eq_dec i k) as [->|N].
  - fold t. field. lra.
  - specialize (IH i ltac:(lia)).
    rewrite (sum_ext k _ (fun j => f i j * x j - f i k / f k k * (f k j * x j))) in IH by (intros; field; lra).
    rewrite sum_minus, sum_scal_l in IH. fold t in IH.
    replace (sum k (fun j => f i j * x j)) with (b i - f i k * b k / f k k + f i k / f k k * t) by lra. field. lra.
Qed.
Lemma posdef_unique n f u v : posdef n f -> (forall i, (i < n)%nat -> mv n f u i = mv n f v i) -> forall i, (i < n)%nat -> u i = v i.
Proof.
  intros [_ P] H i I. destruct (Req_dec (u i) (v i)) as [|N]; auto. exfalso.
  assert (Q : 0 < quad n f (fun j => u j - v j)) by (apply P; exists i; split; auto; lra).
  unfold quad in Q. rewrite sum_0 in Q; [lra|]. intros a A. rewrite mv_minus, H by auto. ring.
Qed.
Lemma quad_sym n f u v : symmetric n f -> sum n (fun i => u i * mv n f v i) = sum n (fun i => v i * mv n f u i).
Proof.
  intros S. unfold mv. rewrite (sum_ext n _ (fun i => sum n (fun j => u i * f i j * v j))) by (intros; rewrite <- sum_scal_l; apply sum_ext; intros; ring).
  rewrite sum_swap. apply sum_ext. intros j J. rewrite <- sum_scal_l. apply sum_ext. intros i I. rewrite (S i j) by auto. ring.
Qed.

(** ** Gram matrix *)
Definition flat (rows : nat) (score : nat -> nat -> nat -> R) : mat := fun r j => score (r / rows)%nat (r mod rows)%nat j.
(** score diag(scale) score^T *)
Definition gram_spec (params : nat) (o : mat) (scale : vec) : mat := fun r q => sum params (fun j => o r j * scale j * o q j).
Lemma rmax_ge n f i : (i < n)%nat -> f i <= rmax n f.
Proof. induction n as [|n IH]; [lia|]. intros I. cbn. destruct (Nat.eq_dec i n) as [->|]; [apply Rmax_r|]. eapply Rle_trans; [apply IH; lia|apply Rmax_l]. Qed.
Lemma row_factor_pos params score scale d l : 0 < row_factor params score scale d l.
Proof. unfold row_factor. eapply Rlt_le_trans; [|apply Rmax_r]. lra. Qed.
Lemma padded_multiple D w : (1 <= D)%nat -> (padded D w / D * D = padded D w)%nat.
Proof.
  intros H. unfold padded. pose proof (Nat.mod_upper_bound w D ltac:(lia)) as U. pose proof (Nat.div_mod w D ltac:(lia)) as E.
  set (q := (w / D)%nat) in *. set (m := (w mod D)%nat) in *. clearbody q m. destruct (Nat.eq_dec m 0) as [->|N].
  - rewrite Nat.sub_0_r, Nat.mod_same by lia. replace (w + 0)%nat with (q * D)%nat by lia. rewrite Nat.div_mul by lia. reflexivity.
  - rewrite (Nat.mod_small (D - m)) by lia. replace (w + (D - m))%nat with (S q * D)%nat by (cbn; lia). rewrite Nat.div_mul by lia. reflexivity.
Qed.
Lemma padded_ge D w : (w <= padded D w)%nat.
Proof. unfold padded. lia. Qed.
Lemma sum_extend n m f : (n <= m)%nat -> (forall i, (n <= i < m)%nat -> f i = 0) -> sum m f = sum n f.
Proof. intros L Z. replace m with (n + (m - n))%nat by lia. rewrite sum_app. rewrite (sum_0 (m - n)); [ring|]. intros i I. apply Z. lia. Qed.
Lemma gram_of_block_eq D L w block r q : (1 <= D)%nat -> gram_of_block D L w block r q = sum w (fun j => flat L block r j * flat L block q j).
Proof.
  intros H. unfold gram_of_block. rewrite <- (sum_prod D (padded D w / D) (fun j => (if (j <? w)%nat then block (r / L)%nat (r mod L)%nat j else 0) * (if (j <? w)%nat then block (q / L)%nat (q mod L)%nat j else 0))).
  rewrite (Nat.mul_comm D), padded_multiple by auto. rewrite (sum_extend w).
  - apply sum_ext. intros j J. apply Nat.ltb_lt in J. rewrite J. reflexivity.
  - apply padded_ge.
  - intros i [I _]. apply Nat.ltb_ge in I. rewrite I. ring.
Qed.
Lemma finish_eq L P score scale g r q : (forall r q, g r q * (row_factor P score scale (r / L) (r mod L) * row_factor P score scale (q / L) (q mod L)) = gram_spec P (flat L score) scale r q) ->
  finish L P score scale g r q = gram_spec P (flat L score) scale r q.
Proof.
  intros H. unfold finish. rewrite !H. unfold gram_spec. rewrite (sum_ext P (fun j => flat L score q j * scale j * flat L score r j) (fun j => flat L score r j * scale j * flat L score q j)) by (intros; ring). field.
Qed.
Lemma gram_full_eq D L P score scale r q : (1 <= D)%nat -> (forall j, (j < P)%nat -> 0 <= scale j) -> gram_full D L P score scale r q = gram_spec P (flat L score) scale r q.
Proof.
  intros H N. apply finish_eq. intros r' q'. rewrite gram_of_block_eq by auto. unfold flat, gram_spec. rewrite <- sum_scal_r. apply sum_ext. intros j J.
  pose proof (row_factor_pos P score scale (r' / L) (r' mod L)). pose proof (row_factor_pos P score scale (q' / L) (q' mod L)).
  set (u := row_factor _ _ _ _ _) in *. set (v := row_factor _ _ _ (q' / L) _) in *.
  replace (scale j) with (sqrt (scale j) * sqrt (scale j)) at 3 by (apply sqrt_sqrt; auto). field. lra.
Qed.
(** the chunks cover every column exactly once *)
Lemma chunk_cover : forall k cs P f, (1 <= cs)%nat -> (cs <= P)%nat -> 
  sum k (fun id => sum cs (fun c => let start := Nat.min (id * cs) (P - cs) in if ((id * cs <=? start + c) && (start + c <? P))%nat then f (start + c)%nat else 0)) = sum (Nat.min (k * cs) P) f.
Proof.
  induction k as [|k IH]; intros cs P f H1 H2; [reflexivity|]. cbn [sum]. rewrite IH by auto. clear IH.
  destruct (Nat.le_gt_cases (k * cs) (P - cs)) as [A|A].
  - rewrite (Nat.min_l (k * cs) (P - cs)) by auto. rewrite (Nat.min_l (k * cs) P) by lia. rewrite (Nat.min_l (S k * cs) P) by (cbn; lia).
    replace (S k * cs)%nat with (k * cs + cs)%nat by (cbn; lia). rewrite sum_app. f_equal. apply sum_ext. intros c C.
    replace ((k * cs <=? k * cs + c)%nat) with true by (symmetry; apply Nat.leb_le; lia). replace ((k * cs + c <? P)%nat) with true by (symmetry; apply Nat.ltb_lt; lia). reflexivity.
  - rewrite (Nat.min_r (k * cs) (P - cs)) by lia. rewrite (Nat.min_r (S k * cs) P) by (cbn; lia).
    set (t := Nat.min (k * cs) P). assert (T : (P - cs < t <= P)%nat) by (unfold t; lia).
    assert (K : (t = P /\ P <= k * cs)%nat \/ (t = k * cs)%nat) by (unfold t; lia).
    rewrite (sum_ext cs _ (fun c => (if (t <=? P - cs + c)%nat then f (P - cs + c)%nat else 0))).
    2: { intros c C. replace ((P - cs + c <? P)%nat) with true by (symmetry; apply Nat.ltb_lt; lia). rewrite andb_true_r.
         destruct K as [[-> K]| ->]; [|reflexivity]. destruct (Nat.leb_spec (k * cs) (P - cs + c)); [lia|]. destruct (Nat.leb_spec P (P - cs + c)); [lia|reflexivity]. }
    set (h := fun c => if (t <=? P - cs + c)%nat then f (P - cs + c)%nat else 0).
    assert (E : sum cs h = sum (P - t) (fun i => f (t + i)%nat)).
    { transitivity (sum ((t - (P - cs)) + (P - t)) h); [f_equal; lia|]. rewrite sum_app. rewrite (sum_0 (t - (P - cs))).
      - rewrite Rplus_0_l. apply sum_ext. intros i I. unfold h. destruct (Nat.leb_spec t (P - cs + (t - (P - cs) + i))); [|lia]. f_equal. lia.
      - intros i I. unfold h. destruct (Nat.leb_spec t (P - cs + i)); [lia|reflexivity]. }
    rewrite E, <- sum_app. f_equal. lia.
Qed.
Lemma chunk_size_bounds P num : (1 <= num)%nat -> (1 <= P)%nat -> (1 <= (P + num - 1) / num <= P)%nat /\ (P <= num * ((P + num - 1) / num))%nat.
Proof.
  intros A B. pose proof (Nat.div_mod (P + num - 1) num ltac:(lia)) as E. pose proof (Nat.mod_upper_bound (P + num - 1) num ltac:(lia)) as U.
  set (q := ((P + num - 1) / num)%nat) in *. clearbody q. set (m := ((P + num - 1) mod num)%nat) in *. clearbody m. split; [split|lia].
  - destruct q; lia.
  - destruct (Nat.le_gt_cases q P) as [|G]; auto. assert (num * S P <= num * q)%nat by (apply Nat.mul_le_mono_l; lia). nia.
Qed.
Lemma gram_chunked_eq D L P score scale num r q : (1 <= D)%nat -> (1 <= num)%nat -> (forall j, (j < P)%nat -> 0 <= scale j) -> gram_chunked D L P score scale num r q = gram_spec P (flat L score) scale r q.
Proof.
  intros H HN N. destruct (Nat.eq_dec P 0) as [->|PN].
  { unfold gram_chunked. apply finish_eq. intros r' q'. rewrite sum_0; [cbn; ring|]. intros id ID. rewrite gram_of_block_eq by auto.
    replace ((0 + num - 1) / num)%nat with 0%nat by (symmetry; apply Nat.div_small; lia). reflexivity. }
  pose proof (chunk_size_bounds P num HN ltac:(lia)) as [[C1 C2] C3]. unfold gram_chunked. apply finish_eq. intros r' q'. set (cs := ((P + num - 1) / num)%nat) in *.
  pose proof (row_factor_pos P score scale (r' / L) (r' mod L)). pose proof (row_factor_pos P score scale (q' / L) (q' mod L)).
  set (u := row_factor _ _ _ (r' / L) _) in *. set (v := row_factor _ _ _ (q' / L) _) in *.
  rewrite <- sum_scal_r. rewrite (sum_ext num _ (fun id => sum cs (fun c => let start := Nat.min (id * cs) (P - cs) in if ((id * cs <=? start + c) && (start + c <? P))%nat then flat L score r' (start + c)%nat * scale (start + c)%nat * flat L score q' (start + c)%nat else 0))).
  - rewrite (chunk_cover num cs P (fun j => flat L score r' j * scale j * flat L score q' j)) by lia. rewrite Nat.min_r by lia. reflexivity.
  - intros id ID. rewrite gram_of_block_eq by auto. rewrite <- sum_scal_r. apply sum_ext. intros c C. unfold flat. fold u v. cbv zeta.
    destruct ((id * cs <=? Nat.min (id * cs) (P - cs) + c)%nat && (Nat.min (id * cs) (P - cs) + c <? P)%nat) eqn:B; [|field; lra].
    apply andb_true_iff in B as [_ B]. apply Nat.ltb_lt in B. set (j := (Nat.min (id * cs) (P - cs) + c)%nat) in *.
    replace (scale j) with (sqrt (scale j) * sqrt (scale j)) at 3 by (apply sqrt_sqrt; auto). field. lra.
Qed.
Lemma calc_gram_eq D L P score scale ch r q : (1 <= D)%nat -> (match ch with Some k => (1 <= k)%nat | None => True end) -> (forall j, (j < P)%nat -> 0 <= scale j) ->
  calc_gram D L P score scale ch r q = gram_spec P (flat L score) scale r q.
Proof. intros. destruct ch as [k|]; cbn; [apply gram_chunked_eq|apply gram_full_eq]; auto. Qed.
