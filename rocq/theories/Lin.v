(** Finite sums, vectors and matrices over R of any dimension (indices below n), and the
    floor-based remainder of numpy. *)
From Coq Require Import Reals List Arith Lra Lia ZArith.
Import ListNotations.
Open Scope R_scope.

Fixpoint sum (n : nat) (f : nat -> R) : R := match n with O => 0 | S k => sum k f + f k end.
Definition vec := nat -> R.
Definition mat := nat -> nat -> R.
Definition dot (n : nat) (u v : vec) : R := sum n (fun i => u i * v i).
(** row vector times matrix *)
Definition vecmat (n : nat) (v : vec) (m : mat) : vec := fun j => sum n (fun i => v i * m i j).
Definition norm (n : nat) (v : vec) : R := sqrt (dot n v v).
Definition delta (i j : nat) : R := if Nat.eqb i j then 1 else 0.
(** [jnp.linalg.inv]: the two-sided inverse. *)
Definition inverse (n : nat) (l i : mat) : Prop :=
  (forall a b, (a < n)%nat -> (b < n)%nat -> sum n (fun k => l a k * i k b) = delta a b) /\
  (forall a b, (a < n)%nat -> (b < n)%nat -> sum n (fun k => i a k * l k b) = delta a b).

(** floor *)
Definition floor (x : R) : Z := Int_part x.
(** [x % m] of numpy *)
Definition rmod (x m : R) : R := x - m * IZR (floor (x / m)).

Lemma sum_ext n f g : (forall i, (i < n)%nat -> f i = g i) -> sum n f = sum n g.
Proof. induction n as [|n IH]; simpl; intros H; auto. rewrite IH by (intros; apply H; lia). rewrite H by lia. reflexivity. Qed.
Lemma sum_0 n f : (forall i, (i < n)%nat -> f i = 0) -> sum n f = 0.
Proof. intros H. rewrite (sum_ext n f (fun _ => 0)) by auto. clear. induction n; simpl; lra. Qed.
Lemma sum_plus n f g : sum n (fun i => f i + g i) = sum n f + sum n g.
Proof. induction n; simpl; lra. Qed.
Lemma sum_minus n f g : sum n (fun i => f i - g i) = sum n f - sum n g.
Proof. induction n; simpl; lra. Qed.
Lemma sum_scal_l n c f : sum n (fun i => c * f i) = c * sum n f.
Proof. induction n; simpl; lra. Qed.
Lemma sum_scal_r n c f : sum n (fun i => f i * c) = sum n f * c.
Proof. induction n; simpl; lra. Qed.
Lemma sum_opp n f : sum n (fun i => - f i) = - sum n f.
Proof. induction n; simpl; lra. Qed.
Lemma sum_swap n m f : sum n (fun i => sum m (fun j => f i j)) = sum m (fun j => sum n (fun i => f i j)).
Proof. induction n; simpl; [symmetry; apply sum_0; auto|]. rewrite IHn, <- sum_plus. reflexivity. Qed.
Lemma sum_delta_r n f j : (j < n)%nat -> sum n (fun i => f i * delta i j) = f j.
Proof.
  induction n as [|n IH]; intros H; [lia|]. simpl. unfold delta at 2. destruct (Nat.eqb_spec n j) as [->|N].
  - rewrite sum_0; [lra|]. intros i Hi. unfold delta. destruct (Nat.eqb_spec i j); [lia|lra].
  - rewrite IH by lia. lra.
Qed.
Lemma sum_nonneg n f : (forall i, (i < n)%nat -> 0 <= f i) -> 0 <= sum n f.
Proof. induction n as [|n IH]; simpl; intros H; [lra|]. pose proof (H n ltac:(lia)). assert (0 <= sum n f) by (apply IH; intros; apply H; lia). lra. Qed.
Lemma sum_le n f g : (forall i, (i < n)%nat -> f i <= g i) -> sum n f <= sum n g.
Proof. induction n as [|n IH]; simpl; intros H; [lra|]. pose proof (H n ltac:(lia)). assert (sum n f <= sum n g) by (apply IH; intros; apply H; lia). lra. Qed.
Lemma sum_pos_zero n f : (forall i, (i < n)%nat -> 0 <= f i) -> sum n f = 0 -> forall i, (i < n)%nat -> f i = 0.
Proof.
  induction n as [|n IH]; simpl; intros H E i Hi; [lia|]. pose proof (H n ltac:(lia)).
  assert (0 <= sum n f) by (apply sum_nonneg; intros; apply H; lia).
  destruct (Nat.eq_dec i n) as [->|N]; [lra|]. apply IH; [intros; apply H; lia|lra|lia].
Qed.

Lemma vecmat_ext n u v m j : (forall i, (i < n)%nat -> u i = v i) -> vecmat n u m j = vecmat n v m j.
Proof. intros H. unfold vecmat. apply sum_ext. intros i Hi. rewrite H by auto. reflexivity. Qed.
Lemma vecmat_plus n u v m j : vecmat n (fun i => u i + v i) m j = vecmat n u m j + vecmat n v m j.
Proof. unfold vecmat. rewrite <- sum_plus. apply sum_ext. intros. ring. Qed.
Lemma vecmat_minus n u v m j : vecmat n (fun i => u i - v i) m j = vecmat n u m j - vecmat n v m j.
Proof. unfold vecmat. rewrite <- sum_minus. apply sum_ext. intros. ring. Qed.
Lemma vecmat_assoc n v a b j :
  vecmat n (vecmat n v a) b j = sum n (fun i => v i * sum n (fun k => a i k * b k j)).
Proof.
  unfold vecmat. rewrite (sum_ext n _ (fun k => sum n (fun i => v i * a i k * b k j))).
  - rewrite sum_swap. apply sum_ext. intros i _. rewrite <- sum_scal_l. apply sum_ext. intros. ring.
  - intros k _. rewrite <- sum_scal_r. reflexivity.
Qed.
Lemma inverse_l n l i v j : inverse n l i -> (j < n)%nat -> vecmat n (vecmat n v l) i j = v j.
Proof.
  intros [H _] J. rewrite vecmat_assoc. rewrite (sum_ext n _ (fun k => v k * delta k j)).
  - apply sum_delta_r. auto.
  - intros k Hk. rewrite H by auto. reflexivity.
Qed.
Lemma inverse_r n l i v j : inverse n l i -> (j < n)%nat -> vecmat n (vecmat n v i) l j = v j.
Proof.
  intros [_ H] J. rewrite vecmat_assoc. rewrite (sum_ext n _ (fun k => v k * delta k j)).
  - apply sum_delta_r. auto.
  - intros k Hk. rewrite H by auto. reflexivity.
Qed.
Lemma inverse_unique n l i i' a b : inverse n l i -> inverse n l i' -> (a < n)%nat -> (b < n)%nat -> i a b = i' a b.
Proof.
  intros [H1 H2] [H3 H4] A B.
  rewrite <- (sum_delta_r n (fun k => i a k) b B).
  rewrite (sum_ext n _ (fun k => i a k * sum n (fun p => l k p * i' p b))) by (intros; rewrite H3; auto).
  rewrite (sum_ext n _ (fun k => sum n (fun p => i a k * l k p * i' p b))) by (intros; rewrite <- sum_scal_l; apply sum_ext; intros; ring).
  rewrite sum_swap. rewrite (sum_ext n _ (fun p => delta a p * i' p b)) by (intros; rewrite sum_scal_r, H2; auto).
  rewrite (sum_ext n _ (fun p => i' p b * delta p a)).
  - apply (sum_delta_r n (fun p => i' p b) a A).
  - intros p _. unfold delta. rewrite Nat.eqb_sym. ring.
Qed.

Lemma dot_comm n u v : dot n u v = dot n v u.
Proof. apply sum_ext. intros. ring. Qed.
Lemma dot_self_nonneg n v : 0 <= dot n v v.
Proof. apply sum_nonneg. intros. nra. Qed.
Lemma norm_nonneg n v : 0 <= norm n v.
Proof. apply sqrt_pos. Qed.
Lemma norm_sq n v : norm n v * norm n v = dot n v v.
Proof. apply sqrt_sqrt. apply dot_self_nonneg. Qed.
Lemma norm_ext n u v : (forall i, (i < n)%nat -> u i = v i) -> norm n u = norm n v.
Proof. intros H. unfold norm, dot. f_equal. apply sum_ext. intros i Hi. rewrite H by auto. reflexivity. Qed.
Lemma norm_le n u v : (forall i, (i < n)%nat -> u i * u i <= v i * v i) -> norm n u <= norm n v.
Proof. intros H. apply sqrt_le_1_alt. apply sum_le. auto. Qed.
Lemma cauchy_sq n u v : dot n u v * dot n u v <= dot n u u * dot n v v.
Proof.
  induction n as [|n IH]; unfold dot in *; simpl; [lra|].
  set (s := sum n (fun i => u i * v i)) in *. set (a := sum n (fun i => u i * u i)) in *. set (b := sum n (fun i => v i * v i)) in *.
  assert (A : 0 <= a) by apply dot_self_nonneg. assert (B : 0 <= b) by apply dot_self_nonneg.
  assert (K : 2 * s * (u n * v n) <= a * (v n * v n) + b * (u n * u n)).
  { set (p := a * (v n * v n)). set (q := b * (u n * u n)). set (m := s * (u n * v n)).
    assert (P : 0 <= p) by (unfold p; apply Rmult_le_pos; [auto|nra]). assert (Q : 0 <= q) by (unfold q; apply Rmult_le_pos; [auto|nra]).
    assert (M : m * m <= p * q).
    { replace (m * m) with (s * s * ((u n * v n) * (u n * v n))) by (unfold m; ring).
      replace (p * q) with (a * b * ((u n * v n) * (u n * v n))) by (unfold p, q; ring).
      apply Rmult_le_compat_r; [nra|auto]. }
    destruct (Rle_dec m 0) as [N|N]; [unfold m in *; nra|].
    assert (2 * m <= p + q); [|unfold m in *; nra]. pose proof (Rle_0_sqr (p - q)) as D; apply Rsqr_incr_0; unfold Rsqr in *; [clearbody m p q; nra|lra|lra]. }
  nra.
Qed.
Lemma cauchy n u v : Rabs (dot n u v) <= norm n u * norm n v.
Proof.
  apply Rsqr_incr_0; [|apply Rabs_pos|apply Rmult_le_pos; apply norm_nonneg].
  rewrite <- Rsqr_abs. unfold Rsqr.
  replace (norm n u * norm n v * (norm n u * norm n v)) with ((norm n u * norm n u) * (norm n v * norm n v)) by ring.
  rewrite !norm_sq. apply cauchy_sq.
Qed.

Lemma floor_bounds x : IZR (floor x) <= x < IZR (floor x) + 1.
Proof. unfold floor. pose proof (base_Int_part x) as [A B]. lra. Qed.
Lemma floor_unique x z : IZR z <= x < IZR z + 1 -> floor x = z.
Proof.
  intros H. pose proof (floor_bounds x) as B.
  assert (A : (floor x < z + 1)%Z) by (apply lt_IZR; rewrite plus_IZR; lra).
  assert (C : (z < floor x + 1)%Z) by (apply lt_IZR; rewrite plus_IZR; lra). lia.
Qed.
Lemma floor_plus x z : floor (x + IZR z) = (floor x + z)%Z.
Proof. apply floor_unique. pose proof (floor_bounds x). rewrite plus_IZR. lra. Qed.
Lemma rmod1_range x : 0 <= rmod x 1 < 1.
Proof. unfold rmod. replace (x / 1) with x by field. pose proof (floor_bounds x). lra. Qed.
Lemma rmod1_eq x : rmod x 1 = x - IZR (floor x).
Proof. unfold rmod. replace (x / 1) with x by field. ring. Qed.
Lemma rmod1_shift x z : rmod (x + IZR z) 1 = rmod x 1.
Proof. rewrite !rmod1_eq, floor_plus, plus_IZR. ring. Qed.
Lemma rmod1_id x : 0 <= x < 1 -> rmod x 1 = x.
Proof. intros H. rewrite rmod1_eq. replace (floor x) with 0%Z; [ring|]. symmetry. apply floor_unique. lra. Qed.
Lemma rmod_exists x m : exists z, rmod x m = x + IZR z * m.
Proof. exists (- floor (x / m))%Z. unfold rmod. rewrite opp_IZR. ring. Qed.
