(** C41: the kernel form against the parameter-space equations. *)
From Coq Require Import Reals List Arith Bool Lra Lia FunctionalExtensionality.
From Verif Require Import Lin Shape Sr_Model Sr_Spec Sr_Lemmas.
Import ListNotations.
Open Scope R_scope.
Local Notation "a =? b" := (Nat.eqb a b).

Lemma mv_diag n (f : mat) (c : R) (m : vec) v i : (i < n)%nat -> mv n (fun a b => f a b + c * (m a * delta a b)) v i = mv n f v i + c * (m i * v i).
Proof.
  intros I. unfold mv. rewrite (sum_ext n _ (fun j => f i j * v j + (c * m i) * (v j * delta j i))).
  - rewrite sum_plus, sum_scal_l, sum_delta_r by auto. ring.
  - intros j J. unfold delta. rewrite (Nat.eqb_sym j i). ring.
Qed.
(** O^T v *)
Definition tmv (N : nat) (o : mat) (v : vec) : vec := fun a => sum N (fun r => o r a * v r).
Lemma tmv_plus N o u v a : tmv N o (fun r => u r + v r) a = tmv N o u a + tmv N o v a.
Proof. unfold tmv. rewrite <- sum_plus. apply sum_ext. intros. ring. Qed.
Lemma tmv_minus N o u v a : tmv N o (fun r => u r - v r) a = tmv N o u a - tmv N o v a.
Proof. unfold tmv. rewrite <- sum_minus. apply sum_ext. intros. ring. Qed.
Lemma tmv_scal N o c u a : tmv N o (fun r => c * u r) a = c * tmv N o u a.
Proof. unfold tmv. rewrite <- sum_scal_l. apply sum_ext. intros. ring. Qed.
Lemma tmv_ext N o u v a : (forall r, (r < N)%nat -> u r = v r) -> tmv N o u a = tmv N o v a.
Proof. intros H. apply sum_ext. intros r R. rewrite H by auto. reflexivity. Qed.
Definition cov (N : nat) (o : mat) : mat := fun a c => sum N (fun r => o r a * o r c).
Lemma cov_mv N P o v a : mv P (cov N o) v a = tmv N o (mv P o v) a.
Proof.
  unfold mv, cov, tmv. rewrite (sum_ext P _ (fun j => sum N (fun r => o r a * o r j * v j))) by (intros; rewrite <- sum_scal_r; reflexivity).
  rewrite sum_swap. apply sum_ext. intros r _. rewrite <- sum_scal_l. apply sum_ext. intros. ring.
Qed.
Lemma cov_sym N P o : symmetric P (cov N o).
Proof. intros i j _ _. apply sum_ext. intros. ring. Qed.
Lemma gram_mv N P o s v r : mv N (gram_spec P o s) v r = mv P o (fun j => s j * tmv N o v j) r.
Proof.
  unfold mv, gram_spec, tmv. rewrite (sum_ext N _ (fun q => sum P (fun j => o r j * s j * o q j * v q))) by (intros; rewrite <- sum_scal_r; reflexivity).
  rewrite sum_swap. apply sum_ext. intros j _. rewrite <- !sum_scal_l. apply sum_ext. intros. ring.
Qed.
Lemma gram_sym N P o s : symmetric N (gram_spec P o s).
Proof. intros i j _ _. apply sum_ext. intros. ring. Qed.
Lemma gram_quad N P o s v : quad N (gram_spec P o s) v = sum P (fun j => s j * (tmv N o v j * tmv N o v j)).
Proof.
  unfold quad. rewrite (sum_ext N _ (fun i => sum P (fun j => s j * tmv N o v j * (o i j * v i)))).
  - rewrite sum_swap. apply sum_ext. intros j _. rewrite sum_scal_l. unfold tmv. ring.
  - intros i I. rewrite gram_mv. unfold mv. rewrite <- sum_scal_l. apply sum_ext. intros. ring.
Qed.
Lemma sum_sq_zero n v : sum n (fun i => v i * v i) = 0 -> forall i, (i < n)%nat -> v i = 0.
Proof. intros H i I. assert (E : v i * v i = 0) by (apply (sum_pos_zero n (fun i => v i * v i)); auto; intros; nra). nra. Qed.
Lemma sum_sq_pos n v : (exists i, (i < n)%nat /\ v i <> 0) -> 0 < sum n (fun i => v i * v i).
Proof.
  intros [i [I V]]. assert (H : 0 <= sum n (fun i => v i * v i)) by (apply sum_nonneg; intros; nra).
  destruct (Req_dec (sum n (fun i => v i * v i)) 0) as [E|N]; [|lra]. exfalso. apply V. apply (sum_sq_zero n v E i I).
Qed.

Lemma damped_posdef P N o m lam : (forall a, (a < P)%nat -> 0 < m a) -> 0 < lam -> posdef P (damped (cov N o) m lam).
Proof.
  intros HM L. split.
  - intros i j I J. unfold damped. rewrite (cov_sym N P o i j) by auto. unfold delta. rewrite (Nat.eqb_sym j i). destruct (Nat.eqb_spec i j) as [->|]; ring.
  - intros v V. unfold quad, damped.
    rewrite (sum_ext P _ (fun i => v i * mv P (cov N o) v i + lam * (m i * (v i * v i)))) by (intros i I; rewrite mv_diag by auto; ring).
    rewrite sum_plus, sum_scal_l.
    assert (A : 0 <= sum P (fun i => v i * mv P (cov N o) v i)).
    { rewrite (sum_ext P _ (fun i => sum N (fun r => mv P o v r * (o r i * v i)))).
      - rewrite sum_swap. apply sum_nonneg. intros r _. rewrite sum_scal_l. change (sum P (fun i => o r i * v i)) with (mv P o v r). nra.
      - intros i _. rewrite cov_mv. unfold tmv. rewrite <- sum_scal_l. apply sum_ext. intros. ring. }
    assert (B : 0 < sum P (fun i => m i * (v i * v i))).
    { destruct V as [i [I V]]. assert (NN : forall k, (k < P)%nat -> 0 <= m k * (v k * v k)) by (intros k K; pose proof (HM k K); apply Rmult_le_pos; nra).
      assert (0 <= sum P (fun i => m i * (v i * v i))) by (apply sum_nonneg; auto).
      destruct (Req_dec (sum P (fun i => m i * (v i * v i))) 0) as [E|]; [|lra]. pose proof (sum_pos_zero P _ NN E i I) as Z. pose proof (HM i I). exfalso. apply V. cbn in Z. apply Rmult_integral in Z as [Z|Z]; [lra|]. apply Rmult_integral in Z as [Z|Z]; exact Z. }
    nra.
Qed.

Section Kernel.
Variables (N P : nat) (o : mat) (s : vec) (lam gam : R) (g p w z : vec).
Hypothesis S : forall a, (a < P)%nat -> 0 < s a.
Hypothesis L : 0 < lam.
Let F := fun i j => gram_spec P o s i j + lam * delta i j.
Hypothesis W : forall r, (r < N)%nat -> mv N F w r = mv P o (fun a => s a * g a) r.
Hypothesis Z : forall r, (r < N)%nat -> mv N F z r = gam * mv P o (fun a => s a * g a) r + mv P o p r - (1 - gam * lam) * w r.
Definition kernel_delta : vec := fun a => gam * (s a * g a) + p a - s a * tmv N o z a.
Let m : vec := fun a => / s a.
Let B := damped (cov N o) m lam.
Lemma F_mv v r : (r < N)%nat -> mv N F v r = mv P o (fun j => s j * tmv N o v j) r + lam * v r.
Proof.
  intros R. unfold F. rewrite <- gram_mv. unfold mv. rewrite (sum_ext N _ (fun j => gram_spec P o s r j * v j + lam * (v j * delta j r))).
  - rewrite sum_plus, sum_scal_l, sum_delta_r by auto. reflexivity.
  - intros j J. unfold delta. rewrite (Nat.eqb_sym j r). ring.
Qed.
(** push-through identity *)
Lemma push v a : (a < P)%nat -> mv P B (fun a => s a * tmv N o v a) a = tmv N o (mv N F v) a.
Proof.
  intros A. unfold B, damped. rewrite mv_diag by auto. rewrite cov_mv. rewrite (tmv_ext N o (mv N F v) (fun r => mv P o (fun j => s j * tmv N o v j) r + lam * v r)) by (intros; apply F_mv; auto).
  rewrite tmv_plus, tmv_scal. unfold m. field. specialize (S a A). lra.
Qed.
Lemma B_sv v a : (a < P)%nat -> mv P B (fun a => s a * v a) a = mv P (cov N o) (fun a => s a * v a) a + lam * v a.
Proof. intros A. unfold B, damped. rewrite mv_diag by auto. unfold m. field. specialize (S a A). lra. Qed.
Lemma B_w a : (a < P)%nat -> mv P B (fun a => s a * tmv N o w a) a = mv P (cov N o) (fun a => s a * g a) a.
Proof. intros A. rewrite push by auto. rewrite (tmv_ext N o _ _ a W). rewrite cov_mv. reflexivity. Qed.
Lemma B_delta a : (a < P)%nat -> mv P B kernel_delta a = gam * lam * g a + lam * (m a * p a) + (1 - gam * lam) * tmv N o w a.
Proof.
  intros A. unfold kernel_delta. rewrite mv_minus, mv_plus, mv_scal, push, B_sv by auto. rewrite (tmv_ext N o _ _ a Z).
  rewrite tmv_minus, tmv_plus, !tmv_scal. rewrite <- !cov_mv. unfold B, damped. rewrite mv_diag by auto. ring.
Qed.
Lemma kernel_robust x y y' :
  solves P B x (fun a => g a + lam * (m a * p a)) -> solves P B y g -> solves P B y' (fun a => m a * y a) ->
  forall a, (a < P)%nat -> kernel_delta a = x a - lam * (1 - gam * lam) * y' a.
Proof.
  intros X Y Y'. change (solves P B) with (fun x rhs => forall i, (i < P)%nat -> mv P B x i = rhs i) in *. cbv beta in *.
  assert (HM : forall a, (a < P)%nat -> 0 < m a) by (intros; apply Rinv_0_lt_compat; auto).
  pose proof (damped_posdef P N o m lam HM L) as PD. fold B in PD.
  assert (K : forall a, (a < P)%nat -> s a * tmv N o w a = s a * g a - lam * y a).
  { apply (posdef_unique P B _ _ PD). intros i I. rewrite B_w, mv_minus, mv_scal, B_sv, Y by auto. ring. }
  apply (posdef_unique P B _ _ PD). intros i I. rewrite B_delta, mv_minus, mv_scal, X, Y' by auto.
  specialize (K i I). assert (E : tmv N o w i = g i - lam * (m i * y i)).
  { apply (Rmult_eq_reg_l (s i)); [|specialize (S i I); lra]. rewrite K. unfold m. field. specialize (S i I). lra. }
  rewrite E. ring.
Qed.
Lemma solutions_exist rhs : exists x, solves P B x rhs.
Proof.
  assert (HM : forall a, (a < P)%nat -> 0 < m a) by (intros; apply Rinv_0_lt_compat; auto).
  exists (cho_solve P B rhs). intros i I. apply (cho_solve_correct P B rhs); auto. apply (damped_posdef P N o m lam HM L).
Qed.
Lemma kernel_solution : robust_solution P (cov N o) m lam gam g p kernel_delta.
Proof.
  destruct (solutions_exist (fun a => g a + lam * (m a * p a))) as [x X]. destruct (solutions_exist g) as [y Y]. destruct (solutions_exist (fun a => m a * y a)) as [y' Y'].
  exists x, y, y'. repeat (split; [assumption|]). apply (kernel_robust x y y' X Y Y').
Qed.
End Kernel.

(** ** Lifting the null space *)
Section Lift.
Variables (N P n_batch n_device : nat) (o : mat) (s : vec) (lam : R).
Hypothesis S : forall a, (a < P)%nat -> 0 <= s a.
Hypothesis L : 0 < lam.
Hypothesis NB : (1 <= n_batch)%nat.
Definition basis_row (r i : nat) : R := 1 - INR ((r + i / (n_batch / n_device)) mod (N / n_batch)).
Let K := (N / n_batch)%nat.
Hypothesis C : forall r a, (r < K)%nat -> (a < P)%nat -> sum N (fun i => basis_row r i * o i a) = 0.
Let G := gram_spec P o s.
Definition shift_of (i j : nat) : R := sum K (fun r => basis_row r i * basis_row r j) / INR n_batch.
Lemma NBR : 0 < INR n_batch. Proof. apply lt_0_INR. lia. Qed.
Lemma lift_eq i j : lift_null_space G N n_batch n_device i j = G i j + shift_of i j.
Proof.
  unfold lift_null_space. fold K.
  set (mv_ := fun r i => (1 - INR ((r + i / (n_batch / n_device)) mod K)) / sqrt (INR n_batch)).
  assert (E : forall i r, (r < K)%nat -> sum N (fun k => G i k * mv_ r k) = 0).
  { intros i0 r R. unfold G, gram_spec. rewrite (sum_ext N _ (fun k => sum P (fun a => o i0 a * s a * / sqrt (INR n_batch) * (basis_row r k * o k a)))).
    - rewrite sum_swap. apply sum_0. intros a A. rewrite sum_scal_l, C by auto. ring.
    - intros k _. rewrite <- sum_scal_r. apply sum_ext. intros a _. unfold mv_, basis_row, Rdiv. fold K. ring. }
  assert (E2 : forall i j, sum K (fun r => sum N (fun k => G i k * mv_ r k) * mv_ r j) = 0) by (intros; apply sum_0; intros; rewrite E by auto; ring).
  unfold mv_ in E2. cbv beta in E2. rewrite !E2. rewrite (sum_0 K (fun r => _ * sum N _)).
  - unfold shift_of, basis_row. fold K. ring.
  - intros r R. rewrite sum_0; [ring|]. intros k _. rewrite E2. ring.
Qed.
Definition lifted_system : mat := fun i j => G i j + shift_of i j + lam * delta i j.
Definition proj (r : nat) (v : vec) : R := sum N (fun i => basis_row r i * v i).
Lemma shift_mv v i : mv N shift_of v i = sum K (fun r => basis_row r i * proj r v) / INR n_batch.
Proof.
  unfold mv, shift_of, proj. pose proof NBR. rewrite (sum_ext N _ (fun j => sum K (fun r => basis_row r i * (basis_row r j * v j)) / INR n_batch)).
  - unfold Rdiv. rewrite sum_scal_r. f_equal. rewrite sum_swap. apply sum_ext. intros r _. rewrite sum_scal_l. reflexivity.
  - intros j _. unfold Rdiv. rewrite (Rmult_comm _ (v j)), <- Rmult_assoc. f_equal. rewrite <- sum_scal_l. apply sum_ext. intros. ring.
Qed.
Lemma shift_quad v : quad N shift_of v = sum K (fun r => proj r v * proj r v) / INR n_batch.
Proof.
  unfold quad. rewrite (sum_ext N _ (fun i => sum K (fun r => proj r v * (basis_row r i * v i)) / INR n_batch)).
  - unfold Rdiv. rewrite sum_scal_r. f_equal. rewrite sum_swap. apply sum_ext. intros r _. rewrite sum_scal_l. reflexivity.
  - intros i _. rewrite shift_mv. unfold Rdiv. rewrite <- Rmult_assoc. f_equal. rewrite <- sum_scal_l. apply sum_ext. intros. ring.
Qed.
Lemma system_mv v i : (i < N)%nat -> mv N lifted_system v i = mv N G v i + mv N shift_of v i + lam * v i.
Proof.
  intros I. unfold lifted_system. transitivity (mv N (fun a b => (G a b + shift_of a b) + lam * (1 * delta a b)) v i); [apply mv_ext; auto; intros; ring|].
  rewrite mv_diag by auto. unfold mv. rewrite <- sum_plus. rewrite Rmult_1_l. f_equal. apply sum_ext. intros. ring.
Qed.
Lemma system_quad v : quad N lifted_system v = quad N G v + quad N shift_of v + lam * sum N (fun i => v i * v i).
Proof. unfold quad. rewrite <- sum_scal_l, <- !sum_plus. apply sum_ext. intros i I. rewrite system_mv by auto. ring. Qed.
Lemma G_nonneg v : 0 <= quad N G v.
Proof. unfold G. rewrite gram_quad. apply sum_nonneg. intros j J. apply Rmult_le_pos; [auto|nra]. Qed.
Lemma shift_nonneg v : 0 <= quad N shift_of v.
Proof. rewrite shift_quad. apply Rmult_le_pos; [apply sum_nonneg; intros; nra|]. left. apply Rinv_0_lt_compat, NBR. Qed.
Lemma system_posdef : posdef N lifted_system.
Proof.
  split.
  - intros i j I J. unfold lifted_system. rewrite (gram_sym N P o s i j I J : G i j = G j i). unfold shift_of. rewrite (sum_ext K (fun r => basis_row r i * basis_row r j) (fun r => basis_row r j * basis_row r i)) by (intros; ring).
    unfold delta. rewrite (Nat.eqb_sym j i). reflexivity.
  - intros v V. rewrite system_quad. pose proof (G_nonneg v). pose proof (shift_nonneg v). pose proof (sum_sq_pos N v V). nra.
Qed.
Lemma G_orth r v : (r < K)%nat -> proj r (mv N G v) = 0.
Proof.
  intros R. unfold proj. rewrite (sum_ext N _ (fun i => sum P (fun a => s a * tmv N o v a * (basis_row r i * o i a)))).
  - rewrite sum_swap. apply sum_0. intros a A. rewrite sum_scal_l, C by auto. ring.
  - intros i _. unfold G. rewrite gram_mv. unfold mv. rewrite <- sum_scal_l. apply sum_ext. intros. ring.
Qed.
Lemma range_orth r v : (r < K)%nat -> proj r (mv P o v) = 0.
Proof.
  intros R. unfold proj. rewrite (sum_ext N _ (fun i => sum P (fun a => v a * (basis_row r i * o i a)))).
  - rewrite sum_swap. apply sum_0. intros a A. rewrite sum_scal_l, C by auto. ring.
  - intros i _. unfold mv. rewrite <- sum_scal_l. apply sum_ext. intros. ring.
Qed.
(** For a right-hand side orthogonal to the null directions, the lifted system has the same
    solution as the original one. *)
Lemma lift_solve w u : (forall r, (r < K)%nat -> proj r u = 0) -> (forall i, (i < N)%nat -> mv N lifted_system w i = u i) ->
  (forall r, (r < K)%nat -> proj r w = 0) /\ forall i, (i < N)%nat -> mv N (fun i j => G i j + lam * delta i j) w i = u i.
Proof.
  intros U H. set (y := fun i => mv N shift_of w i).
  assert (YC : forall v, (forall r, (r < K)%nat -> proj r v = 0) -> sum N (fun i => y i * v i) = 0).
  { intros v V. unfold y. rewrite (sum_ext N _ (fun i => sum K (fun r => proj r w / INR n_batch * (basis_row r i * v i)))).
    - rewrite sum_swap. apply sum_0. intros r R. rewrite sum_scal_l. change (sum N (fun i => basis_row r i * v i)) with (proj r v). rewrite V by auto. ring.
    - intros i _. rewrite shift_mv. unfold Rdiv. rewrite !Rmult_assoc, (Rmult_comm (/ INR n_batch)), <- Rmult_assoc. rewrite <- !sum_scal_r. apply sum_ext. intros. ring. }
  assert (E : sum N (fun i => y i * y i) + lam * quad N shift_of w = 0).
  { assert (E0 : sum N (fun i => y i * u i) = 0) by (apply YC; auto). assert (E1 : sum N (fun i => y i * mv N G w i) = 0) by (apply YC; intros; apply G_orth; auto).
    rewrite (sum_ext N _ (fun i => y i * mv N G w i + (y i * y i + lam * (w i * y i)))) in E0.
    - rewrite !sum_plus, sum_scal_l, E1 in E0. unfold quad. change (sum N (fun i => w i * mv N shift_of w i)) with (sum N (fun i => w i * y i)). lra.
    - intros i I. rewrite <- (H i I), system_mv by auto. unfold y. ring. }
  assert (A : 0 <= sum N (fun i => y i * y i)) by (apply sum_nonneg; intros; nra). pose proof (shift_nonneg w) as B.
  assert (Q0 : quad N shift_of w = 0) by nra. assert (Y0 : sum N (fun i => y i * y i) = 0) by nra.
  split.
  - rewrite shift_quad in Q0. apply Rmult_integral in Q0 as [Q0|Q0]; [|pose proof (Rinv_0_lt_compat _ NBR); lra]. apply (sum_sq_zero K (fun r => proj r w) Q0).
  - intros i I. pose proof (sum_sq_zero N y Y0 i I) as Yi. unfold y in Yi. pose proof (system_mv w i I) as SM. rewrite H, Yi in SM by auto.
    transitivity (mv N (fun a b => G a b + lam * (1 * delta a b)) w i); [apply mv_ext; auto; intros; ring|]. rewrite mv_diag by auto. lra.
Qed.
End Lift.
