(** C34 (wrapping) and C35 (minimum image). *)
From Coq Require Import Reals List Arith Bool ZArith Lra Lia.
From Verif Require Import Lin Geom_Model Geom_Spec.
Import ListNotations.
Open Scope R_scope.

Lemma lattice_vector_vecmat n l k j : lattice_vector n l k j = vecmat n (fun i => IZR (k i)) l j.
Proof. reflexivity. Qed.

Section Wrap.
Variable n : nat.
Variables l inv : mat.
Hypothesis INV : inverse n l inv.

Lemma coordinates_unique r f : has_coordinates n l r f -> forall i, (i < n)%nat -> vecmat n r inv i = f i.
Proof.
  intros H i Hi. rewrite <- (inverse_l n l inv f i INV Hi). apply vecmat_ext. intros j Hj. apply H. auto.
Qed.
Lemma coordinates_exist r : has_coordinates n l r (vecmat n r inv).
Proof. intros j Hj. symmetry. apply (inverse_r n l inv r j INV Hj). Qed.

(** ** C34 *)
Theorem C34_moves_by_lattice_vector : forall r, is_image n l r (wrap_positions n inv l r).
Proof.
  intros r. exists (fun i => (- floor (vecmat n r inv i))%Z). intros j Hj. unfold wrap_positions, lattice_vector.
  rewrite (coordinates_exist r j Hj). fold (vecmat n (vecmat n r inv) l j).
  unfold vecmat at 1 3. rewrite <- sum_plus. apply sum_ext. intros i Hi. rewrite rmod1_eq, opp_IZR. ring.
Qed.
Theorem C34_lands_in_cell : forall r, in_cell n l (wrap_positions n inv l r).
Proof.
  intros r. exists (fun i => rmod (vecmat n r inv i) 1). split; [intros j Hj; reflexivity|]. intros i Hi. apply rmod1_range.
Qed.
(** A position has only one image in the cell. *)
Theorem C34_cell_unique : forall r r1 r2, is_image n l r r1 -> is_image n l r r2 -> in_cell n l r1 -> in_cell n l r2 -> same n r1 r2.
Proof.
  intros r r1 r2 [k1 K1] [k2 K2] (f1 & F1 & B1) (f2 & F2 & B2).
  assert (E : forall i, (i < n)%nat -> f1 i = f2 i).
  { intros i Hi.
    assert (A1 : f1 i = vecmat n r inv i + IZR (k1 i)).
    { rewrite <- (coordinates_unique r1 f1 F1 i Hi).
      rewrite (vecmat_ext n r1 (fun j => r j + vecmat n (fun i => IZR (k1 i)) l j)) by (intros; apply K1; auto).
      rewrite vecmat_plus, (inverse_l n l inv _ i INV Hi). reflexivity. }
    assert (A2 : f2 i = vecmat n r inv i + IZR (k2 i)).
    { rewrite <- (coordinates_unique r2 f2 F2 i Hi).
      rewrite (vecmat_ext n r2 (fun j => r j + vecmat n (fun i => IZR (k2 i)) l j)) by (intros; apply K2; auto).
      rewrite vecmat_plus, (inverse_l n l inv _ i INV Hi). reflexivity. }
    specialize (B1 i Hi). specialize (B2 i Hi).
    rewrite <- (rmod1_id (f1 i) B1), <- (rmod1_id (f2 i) B2), A1, A2, !rmod1_shift. reflexivity. }
  intros j Hj. rewrite (F1 j Hj), (F2 j Hj). apply sum_ext. intros i Hi. rewrite E by auto. reflexivity.
Qed.
Lemma wrap_ext r r' : same n r r' -> same n (wrap_positions n inv l r) (wrap_positions n inv l r').
Proof.
  intros H j Hj. unfold wrap_positions. apply vecmat_ext. intros i Hi. f_equal. apply vecmat_ext. intros; apply H; auto.
Qed.
Lemma image_refl r : is_image n l r r.
Proof. exists (fun _ => 0%Z). intros j Hj. unfold lattice_vector. rewrite sum_0; [lra|]. intros. ring. Qed.
Lemma image_sym r r' : is_image n l r r' -> is_image n l r' r.
Proof.
  intros [k K]. exists (fun i => (- k i)%Z). intros j Hj. rewrite (K j Hj). unfold lattice_vector.
  rewrite (sum_ext n (fun i => IZR (- k i) * l i j) (fun i => - (IZR (k i) * l i j))) by (intros; rewrite opp_IZR; ring).
  rewrite sum_opp. ring.
Qed.
Lemma image_trans r r' r'' : is_image n l r r' -> is_image n l r' r'' -> is_image n l r r''.
Proof.
  intros [k K] [m M]. exists (fun i => (k i + m i)%Z). intros j Hj. rewrite (M j Hj), (K j Hj). unfold lattice_vector.
  rewrite (sum_ext n (fun i => IZR (k i + m i) * l i j) (fun i => IZR (k i) * l i j + IZR (m i) * l i j)) by (intros; rewrite plus_IZR; ring).
  rewrite sum_plus. ring.
Qed.
Lemma image_add r r' d : is_image n l r r' -> is_image n l (add r d) (add r' d).
Proof. intros [k K]. exists k. intros j Hj. unfold add. rewrite (K j Hj). ring. Qed.
Lemma image_same r r' : same n r r' -> is_image n l r r'.
Proof. intros S. exists (fun _ => 0%Z). intros j Hj. unfold lattice_vector. rewrite sum_0; [rewrite (S j Hj); lra|]. intros. ring. Qed.

Theorem C34_translation_invariant : forall r r', is_image n l r r' -> same n (wrap_positions n inv l r') (wrap_positions n inv l r).
Proof.
  intros r r' I. apply (C34_cell_unique r); try apply C34_lands_in_cell.
  - eapply image_trans; [exact I|apply C34_moves_by_lattice_vector].
  - apply C34_moves_by_lattice_vector.
Qed.
Theorem C34_fixes_cell : forall r, in_cell n l r -> same n (wrap_positions n inv l r) r.
Proof.
  intros r H. apply (C34_cell_unique r); auto using C34_lands_in_cell, C34_moves_by_lattice_vector, image_refl.
Qed.
Theorem C34_idempotent : forall r, same n (wrap_positions n inv l (wrap_positions n inv l r)) (wrap_positions n inv l r).
Proof. intros r. apply C34_fixes_cell. apply C34_lands_in_cell. Qed.
(** The wrapped proposal is reversible: the opposite step leads back. *)
Theorem C34_proposal_reversible : forall x d, in_cell n l x ->
  same n (pbc_proposal n inv l (neg d) (pbc_proposal n inv l d x)) x.
Proof.
  intros x d H. unfold pbc_proposal. apply (C34_cell_unique x); auto using C34_lands_in_cell, image_refl.
  eapply image_trans; [|apply C34_moves_by_lattice_vector].
  eapply image_trans; [|apply image_add; apply C34_moves_by_lattice_vector].
  apply image_same. intros j Hj. unfold add, neg. ring.
Qed.
End Wrap.

(** ** C35: the diagonal branch *)
Lemma rmod_half_min x m z : m <> 0 -> (rmod (x + m / 2) m - m / 2) * (rmod (x + m / 2) m - m / 2) <= (x + IZR z * m) * (x + IZR z * m).
Proof.
  intros M. unfold rmod. set (q := floor ((x + m / 2) / m)). pose proof (floor_bounds ((x + m / 2) / m)) as B. fold q in B.
  set (t := x / m). assert (X : x = t * m) by (unfold t; field; auto).
  assert (E : (x + m / 2) / m = t + 1 / 2) by (unfold t; field; auto). rewrite E in B. rewrite X.
  replace (t * m + m / 2 - m * IZR q - m / 2) with ((t - IZR q) * m) by ring.
  replace (t * m + IZR z * m) with ((t + IZR z) * m) by ring.
  assert (K : (t - IZR q) * (t - IZR q) <= (t + IZR z) * (t + IZR z)).
  { assert (D : (- q <= z - 1 \/ z = - q \/ z + 1 <= - q)%Z) by lia. destruct D as [D|[D|D]].
    - apply IZR_le in D. rewrite opp_IZR, minus_IZR in D. nra.
    - subst z. rewrite opp_IZR. apply Req_le. ring.
    - apply IZR_le in D. rewrite opp_IZR, plus_IZR in D. nra. }
  replace ((t - IZR q) * m * ((t - IZR q) * m)) with ((t - IZR q) * (t - IZR q) * (m * m)) by ring.
  replace ((t + IZR z) * m * ((t + IZR z) * m)) with ((t + IZR z) * (t + IZR z) * (m * m)) by ring.
  apply Rmult_le_compat_r; [nra|auto].
Qed.

Definition diagonal (n : nat) (l : mat) : Prop := forall i j, (i < n)%nat -> (j < n)%nat -> i <> j -> l i j = 0.
Lemma forall_below_true n p : forall_below n p = true <-> forall i, (i < n)%nat -> p i = true.
Proof. unfold forall_below. rewrite forallb_forall. split; intros H i Hi; apply H; [apply in_seq; lia|apply in_seq in Hi; lia]. Qed.
Lemma ortho_tol_pos : 0 < ortho_tol.
Proof. unfold ortho_tol. lra. Qed.
Lemma diagonal_test n l : diagonal n l -> is_diagonal n l = true.
Proof.
  intros D. apply forall_below_true. intros i Hi. apply forall_below_true. intros j Hj. unfold rltb.
  destruct (Rlt_dec _ _) as [|N]; auto. exfalso. apply N. destruct (Nat.eqb_spec i j) as [->|E].
  - replace (l j j - l j j) with 0 by ring. rewrite Rabs_R0. apply ortho_tol_pos.
  - rewrite (D i j Hi Hj E). replace (0 - 0) with 0 by ring. rewrite Rabs_R0. apply ortho_tol_pos.
Qed.
Lemma diagonal_lattice_vector n l k j : diagonal n l -> (j < n)%nat -> lattice_vector n l k j = IZR (k j) * l j j.
Proof.
  intros D Hj. unfold lattice_vector. rewrite (sum_ext n _ (fun i => IZR (k i) * l j j * delta i j)).
  - apply (sum_delta_r n (fun i => IZR (k i) * l j j)). auto.
  - intros i Hi. unfold delta. destruct (Nat.eqb_spec i j) as [->|E]; [ring|]. rewrite (D i j Hi Hj E). ring.
Qed.

Theorem C35_diagonal : forall n inv l diff, diagonal n l -> (forall i, (i < n)%nat -> l i i <> 0) ->
  nearest_image n l diff (fst (distance n inv l diff)) /\
  snd (distance n inv l diff) = norm n (fst (distance n inv l diff)).
Proof.
  intros n inv l diff D NZ. unfold distance. rewrite (diagonal_test n l D). cbn [fst snd]. split; [|reflexivity]. split.
  - exists (fun i => (- floor ((diff i + l i i / 2) / l i i))%Z). intros j Hj. rewrite diagonal_lattice_vector by auto.
    unfold rmod. rewrite opp_IZR. ring.
  - intros r'' [k K]. apply norm_le. intros j Hj. rewrite (K j Hj), diagonal_lattice_vector by auto. apply rmod_half_min. auto.
Qed.

(** *** The general branch *)
Lemma points_complete n : forall f : nat -> Z, (forall i, (i < n)%nat -> (-1 <= f i <= 1)%Z) ->
  exists p, In p (points n) /\ forall i, (i < n)%nat -> p i = f i.
Proof.
  induction n as [|n IH]; intros f H; [exists (fun _ => 0%Z); split; [left; reflexivity|intros; lia]|].
  destruct (IH f) as (p & P1 & P2); [intros; apply H; lia|].
  exists (fun i => if Nat.eqb i n then f n else p i). split.
  - cbn [points]. apply in_flat_map. exists p. split; auto. apply in_map_iff. exists (f n). split; auto.
    pose proof (H n ltac:(lia)). assert (E : (f n = -1 \/ f n = 0 \/ f n = 1)%Z) by lia. simpl. intuition.
  - intros i Hi. destruct (Nat.eqb_spec i n) as [->|N]; auto. apply P2. lia.
Qed.
Lemma points_nonempty n : points n <> [].
Proof. destruct (points_complete n (fun _ => 0%Z)) as (p & H & _); [intros; lia|]. intros E. rewrite E in H. inversion H. Qed.
Lemma argmin_spec {A} (f : A -> R) : forall l best, (In (argmin_by f best l) (best :: l)) /\ forall x, In x (best :: l) -> f (argmin_by f best l) <= f x.
Proof.
  induction l as [|y l IH]; intros best; simpl.
  - split; auto. intros x [->|[]]. lra.
  - destruct (Rlt_dec (f y) (f best)) as [L|L].
    + destruct (IH y) as [A1 A2]. split; [destruct A1 as [A1|A1]; auto|]. intros x [->|H]; [|apply A2; auto].
      pose proof (A2 y (or_introl eq_refl)). lra.
    + destruct (IH best) as [A1 A2]. split; [destruct A1 as [A1|A1]; auto|]. intros x [->|[->|H]].
      * apply A2. left. auto.
      * pose proof (A2 best (or_introl eq_refl)). lra.
      * apply A2. right. auto.
Qed.

Lemma points_sound n : forall p, In p (points n) -> forall i, (i < n)%nat -> (-1 <= p i <= 1)%Z.
Proof.
  induction n as [|n IH]; intros p H i Hi; [lia|]. cbn [points] in H. apply in_flat_map in H as (q & Q & H).
  apply in_map_iff in H as (z & <- & Z). destruct (Nat.eqb_spec i n) as [->|N].
  - simpl in Z. destruct Z as [<-|[<-|[<-|[]]]]; lia.
  - apply IH; auto. lia.
Qed.
Lemma general_branch_shift n inv l diff : is_diagonal n l = false -> is_orthogonal n l = false ->
  exists k, (forall i, (i < n)%nat -> (-1 <= k i <= 1)%Z) /\
    same n (fst (distance n inv l diff)) (fun j => diff j + lattice_vector n l k j).
Proof.
  intros H1 H2. unfold distance. rewrite H1, H2. cbn [fst].
  set (image := fun (p : nat -> Z) j => diff j + vecmat n (fun i => IZR (p i)) l j).
  destruct (map image (points n)) as [|x rest] eqn:E.
  { exfalso. apply map_eq_nil in E. apply (points_nonempty n E). }
  destruct (argmin_spec (A := nat -> R) (norm n) rest x) as [A1 _]. rewrite <- E in A1.
  apply in_map_iff in A1 as (p & P & I). exists p. split; [apply points_sound; auto|]. intros j Hj.
  change (argmin_by (A := nat -> R) (norm n) x rest j = diff j + lattice_vector n l p j). rewrite <- P. reflexivity.
Qed.

(** What the general branch computes: the shortest among the images with shifts -1, 0, 1. *)
Lemma general_branch n inv l diff : is_diagonal n l = false -> is_orthogonal n l = false ->
  let d := fst (distance n inv l diff) in
  is_image n l diff d /\
  forall k, (forall i, (i < n)%nat -> (-1 <= k i <= 1)%Z) -> norm n d <= norm n (fun j => diff j + lattice_vector n l k j).
Proof.
  intros H1 H2. unfold distance. rewrite H1, H2. cbn [fst].
  set (image := fun (p : nat -> Z) j => diff j + vecmat n (fun i => IZR (p i)) l j).
  destruct (map image (points n)) as [|x rest] eqn:E.
  { exfalso. apply map_eq_nil in E. apply (points_nonempty n E). }
  destruct (argmin_spec (A := nat -> R) (norm n) rest x) as [A1 A2]. rewrite <- E in A1, A2. split.
  - apply in_map_iff in A1 as (p & P & _). exists p. intros j Hj. change (argmin_by (A := nat -> R) (norm n) x rest j = diff j + lattice_vector n l p j). rewrite <- P. reflexivity.
  - intros k K. destruct (points_complete n k K) as (p & P1 & P2).
    eapply Rle_trans; [apply A2; apply in_map; exact P1|]. apply Req_le. apply norm_ext. intros j Hj. unfold image. f_equal.
    unfold lattice_vector, vecmat. apply sum_ext. intros i Hi. rewrite P2 by auto. reflexivity.
Qed.

(** The branch for orthogonal lattices is never taken for a lattice of any physical size:
    line 138 requires the squared lengths of the vectors themselves to vanish. *)
Theorem C35_orthogonal_branch_dead : forall n l i, (i < n)%nat -> dot n (l i) (l i) > ortho_tol -> is_orthogonal n l = false.
Proof.
  intros n l i Hi H. destruct (is_orthogonal n l) eqn:E; auto. exfalso.
  apply (proj1 (forall_below_true _ _)) with (i := i) in E; auto. apply (proj1 (forall_below_true _ _)) with (i := i) in E; auto.
  rewrite Nat.leb_refl in E. unfold rleb in E. destruct (Rle_dec _ _) as [L|]; [|discriminate].
  pose proof (Rle_abs (sum n (fun k => l i k * l i k))). unfold dot in H. lra.
Qed.

Section General.
Variable n : nat.
Variables l inv : mat.
Hypothesis INV : inverse n l inv.
Hypothesis ND : is_diagonal n l = false.
Hypothesis BIG : exists i, (i < n)%nat /\ dot n (l i) (l i) > ortho_tol.
Lemma not_orth : is_orthogonal n l = false.
Proof. destruct BIG as (i & Hi & H). eapply C35_orthogonal_branch_dead; eauto. Qed.

(** Distance between the planes spanned by all lattice vectors but the i-th. *)
Definition spacing (i : nat) : R := / norm n (fun k => inv k i).

Lemma coordinate_bound r f i : has_coordinates n l r f -> (i < n)%nat -> Rabs (f i) <= norm n r * norm n (fun k => inv k i).
Proof.
  intros H Hi. rewrite <- (coordinates_unique n l inv INV r f H i Hi). apply (cauchy n r (fun k => inv k i)).
Qed.
Lemma column_norm_pos i : (i < n)%nat -> 0 < norm n (fun k => inv k i).
Proof.
  intros Hi. destruct (Rle_lt_or_eq_dec _ _ (norm_nonneg n (fun k => inv k i))) as [H|H]; auto. exfalso.
  assert (Z : dot n (fun k => inv k i) (fun k => inv k i) = 0) by (rewrite <- norm_sq, <- H; ring).
  destruct INV as [I1 _]. specialize (I1 i i Hi Hi). unfold delta in I1. rewrite Nat.eqb_refl in I1.
  rewrite sum_0 in I1; [lra|]. intros k Hk. assert (S0 : inv k i * inv k i = 0) by (apply (sum_pos_zero n (fun k => inv k i * inv k i)); auto; intros; nra).
  assert (inv k i = 0) by nra. rewrite H0. ring.
Qed.

(** If the separation has coordinates between -1 and 1 (both particles in the primary cell)
    and its nearest image is closer than every plane spacing, the result is the nearest
    image. *)
Theorem C35_nearby_partial : forall diff f near,
  has_coordinates n l diff f -> (forall i, (i < n)%nat -> -1 <= f i <= 1) ->
  nearest_image n l diff near -> (forall i, (i < n)%nat -> norm n near < spacing i) ->
  nearest_image n l diff (fst (distance n inv l diff)) /\ snd (distance n inv l diff) = norm n near.
Proof.
  intros diff f near F B [[k K] NI] SP. destruct (general_branch n inv l diff ND not_orth) as [G1 G2].
  set (d := fst (distance n inv l diff)) in *.
  assert (LE : norm n d <= norm n near).
  { eapply Rle_trans; [apply (G2 k)|].
    - intros i Hi.
      assert (C : has_coordinates n l near (fun i => f i + IZR (k i))).
      { intros j Hj. rewrite (K j Hj), (F j Hj). unfold lattice_vector. rewrite <- sum_plus. apply sum_ext. intros; ring. }
      pose proof (coordinate_bound near _ i C Hi) as CB. cbv beta in CB.
      pose proof (column_norm_pos i Hi) as P. pose proof (SP i Hi) as SPi. unfold spacing in SPi.
      assert (Rabs (f i + IZR (k i)) < 1).
      { eapply Rle_lt_trans; [exact CB|]. apply Rmult_lt_reg_r with (r := / norm n (fun k => inv k i)); [apply Rinv_0_lt_compat; auto|].
        rewrite Rmult_assoc, Rinv_r by lra. lra. }
      specialize (B i Hi). assert (L1 : IZR (k i) < 2) by (unfold Rabs in H; destruct (Rcase_abs _); lra).
      assert (L2 : -2 < IZR (k i)) by (unfold Rabs in H; destruct (Rcase_abs _); lra). apply lt_IZR in L1, L2. lia.
    - apply Req_le. apply norm_ext. intros j Hj. symmetry. apply K. auto. }
  split.
  - split; auto. intros r'' I. eapply Rle_trans; [exact LE|]. apply NI. auto.
  - assert (norm n near <= norm n d) by (apply NI; auto). unfold distance. cbn [snd]. unfold d, distance in *. cbn [fst snd] in *. lra.
Qed.

(** Mutually orthogonal vectors in any orientation: right for particles in the primary
    cell. *)
Definition orthogonal : Prop := forall i j, (i < n)%nat -> (j < n)%nat -> i <> j -> dot n (l i) (l j) = 0.
Lemma orth_norm f r : orthogonal -> has_coordinates n l r f -> dot n r r = sum n (fun i => f i * f i * dot n (l i) (l i)).
Proof.
  intros O H. unfold dot at 1. rewrite (sum_ext n _ (fun j => sum n (fun i => sum n (fun i' => f i * f i' * (l i j * l i' j))))).
  - rewrite sum_swap. apply sum_ext. intros i Hi. rewrite sum_swap.
    rewrite (sum_ext n _ (fun i' => f i * f i' * dot n (l i) (l i') )).
    + rewrite (sum_ext n _ (fun i' => f i * f i' * dot n (l i) (l i') * delta i' i)).
      * apply (sum_delta_r n (fun i' => f i * f i' * dot n (l i) (l i')) i Hi).
      * intros i' Hi'. unfold delta. destruct (Nat.eqb_spec i' i) as [->|N]; [ring|]. rewrite (O i i' Hi Hi') by auto. ring.
    + intros i' _. unfold dot. rewrite <- sum_scal_l. reflexivity.
  - intros j Hj. rewrite (H j Hj). rewrite <- sum_scal_r. apply sum_ext. intros i _. rewrite <- sum_scal_l. apply sum_ext. intros; ring.
Qed.
Theorem C35_orthogonal_partial : forall diff f, orthogonal -> has_coordinates n l diff f -> (forall i, (i < n)%nat -> -1 <= f i <= 1) ->
  nearest_image n l diff (fst (distance n inv l diff)).
Proof.
  intros diff f O F B. destruct (general_branch n inv l diff ND not_orth) as [G1 G2]. split; auto.
  intros r'' [k K].
  set (k' := fun i => if Rlt_dec (f i) (-1/2) then 1%Z else if Rlt_dec (1/2) (f i) then (-1)%Z else 0%Z).
  eapply Rle_trans; [apply (G2 k')|].
  - intros i Hi. unfold k'. destruct (Rlt_dec _ _); [lia|]. destruct (Rlt_dec _ _); lia.
  - apply sqrt_le_1_alt.
    assert (H1 : has_coordinates n l (fun j => diff j + lattice_vector n l k' j) (fun i => f i + IZR (k' i))).
    { intros j Hj. rewrite (F j Hj). unfold lattice_vector. rewrite <- sum_plus. apply sum_ext. intros; ring. }
    assert (H2 : has_coordinates n l r'' (fun i => f i + IZR (k i))).
    { intros j Hj. rewrite (K j Hj), (F j Hj). unfold lattice_vector. rewrite <- sum_plus. apply sum_ext. intros; ring. }
    rewrite (orth_norm _ _ O H1), (orth_norm _ _ O H2). apply sum_le. intros i Hi. apply Rmult_le_compat_r; [apply dot_self_nonneg|].
    specialize (B i Hi). generalize (k i). intros z. unfold k'.
    assert (D : (z <= -2 \/ z = -1 \/ z = 0 \/ z = 1 \/ 2 <= z)%Z) by lia.
    destruct (Rlt_dec _ _) as [a|a]; [|destruct (Rlt_dec _ _) as [b|b]];
      destruct D as [D|[->|[->|[->|D]]]]; try (apply IZR_le in D); nra.
Qed.
End General.

(** *** What fails *)
Definition of_list3 (a b c : R) : vec := fun i => match i with 0%nat => a | 1%nat => b | 2%nat => c | _ => 0 end.
Definition of_rows3 (a b c : vec) : mat := fun i => match i with 0%nat => a | 1%nat => b | 2%nat => c | _ => fun _ => 0 end.
Lemma norm3 v : norm 3 v = sqrt (v 0%nat * v 0%nat + v 1%nat * v 1%nat + v 2%nat * v 2%nat).
Proof. unfold norm, dot. simpl. f_equal. ring. Qed.
Lemma lv3 l k j : lattice_vector 3 l k j = IZR (k 0%nat) * l 0%nat j + IZR (k 1%nat) * l 1%nat j + IZR (k 2%nat) * l 2%nat j.
Proof. unfold lattice_vector. simpl. ring. Qed.
Lemma not_diagonal3 l i j : (i < 3)%nat -> (j < 3)%nat -> i <> j -> Rabs (l i j) >= 1 -> is_diagonal 3 l = false.
Proof.
  intros Hi Hj N H. destruct (is_diagonal 3 l) eqn:E; auto. exfalso.
  apply (proj1 (forall_below_true _ _)) with (i := i) in E; auto. apply (proj1 (forall_below_true _ _)) with (i := j) in E; auto.
  destruct (Nat.eqb_spec i j); [auto|]. unfold rltb in E. destruct (Rlt_dec _ _) as [L|]; [|discriminate].
  rewrite Rminus_0_r in L. unfold ortho_tol in L. lra.
Qed.

(** (a) A rotated square lattice, separation of ten lattice vectors: the particles coincide
    up to translation, the reported distance is at least 9. *)
Definition rotated := of_rows3 (of_list3 1 1 0) (of_list3 (-1) 1 0) (of_list3 0 0 1).
Definition rotated_inv := of_rows3 (of_list3 (1/2) (-1/2) 0) (of_list3 (1/2) (1/2) 0) (of_list3 0 0 1).
Ltac cases3 i := destruct i as [|[|[|i]]]; [| | |lia].
Lemma rotated_ok : inverse 3 rotated rotated_inv.
Proof. split; intros a b A B; cases3 a; cases3 b; unfold delta, rotated, rotated_inv, of_rows3, of_list3; simpl; field. Qed.
Theorem C35_far_refuted :
  inverse 3 rotated rotated_inv /\ is_image 3 rotated (of_list3 0 0 10) (of_list3 0 0 0) /\
  norm 3 (of_list3 0 0 0) = 0 /\ 9 <= snd (distance 3 rotated_inv rotated (of_list3 0 0 10)).
Proof.
  split; [exact rotated_ok|]. split; [|split].
  - exists (fun i => match i with 2%nat => (-10)%Z | _ => 0%Z end). intros j Hj. rewrite lv3. unfold rotated. cases3 j; simpl; ring.
  - rewrite norm3. simpl. replace (0 * 0 + 0 * 0 + 0 * 0) with 0 by ring. apply sqrt_0.
  - assert (N : is_diagonal 3 rotated = false).
    { apply (not_diagonal3 _ 0 1); try lia. unfold rotated. simpl. rewrite Rabs_R1. lra. }
    assert (O : is_orthogonal 3 rotated = false).
    { apply (C35_orthogonal_branch_dead 3 rotated 0); [lia|]. unfold dot, rotated, ortho_tol. simpl. lra. }
    destruct (general_branch_shift 3 rotated_inv rotated (of_list3 0 0 10) N O) as (k & K & S).
    change (snd (distance 3 rotated_inv rotated (of_list3 0 0 10))) with (norm 3 (fst (distance 3 rotated_inv rotated (of_list3 0 0 10)))).
    rewrite (norm_ext 3 _ _ S), norm3. rewrite !lv3. unfold rotated. simpl.
    pose proof (K 2%nat ltac:(lia)) as [K1 _]. apply IZR_le in K1.
    rewrite <- (sqrt_square 9) by lra. apply sqrt_le_1_alt.
    match goal with |- _ <= ?a * ?a + ?b * ?b + ?c * ?c => assert (9 <= c) by lra; pose proof (Rle_0_sqr a); pose proof (Rle_0_sqr b); unfold Rsqr in * end. nra.
Qed.

(** (b) Both particles in the primary cell of a skewed lattice: a nearer image is missed. *)
Definition skewed := of_rows3 (of_list3 1 0 0) (of_list3 (9/2) 1 0) (of_list3 0 0 1).
Definition skewed_inv := of_rows3 (of_list3 1 0 0) (of_list3 (-9/2) 1 0) (of_list3 0 0 1).
Theorem C35_skewed_refuted :
  inverse 3 skewed skewed_inv /\
  in_cell 3 skewed (of_list3 (9/4) (1/2) 0) /\ in_cell 3 skewed (of_list3 0 0 0) /\
  is_image 3 skewed (of_list3 (9/4) (1/2) 0) (of_list3 (1/4) (1/2) 0) /\
  norm 3 (of_list3 (1/4) (1/2) 0) < snd (distance 3 skewed_inv skewed (of_list3 (9/4) (1/2) 0)).
Proof.
  split; [split; intros a b A B; cases3 a; cases3 b; unfold delta, skewed, skewed_inv, of_rows3, of_list3; simpl; field|].
  split; [|split; [|split]].
  - exists (of_list3 0 (1/2) 0). split.
    + intros j Hj. unfold skewed. cases3 j; simpl; field.
    + intros i Hi. cases3 i; simpl; lra.
  - exists (of_list3 0 0 0). split.
    + intros j Hj. unfold skewed. cases3 j; simpl; field.
    + intros i Hi. cases3 i; simpl; lra.
  - exists (fun i => match i with 0%nat => (-2)%Z | _ => 0%Z end). intros j Hj. rewrite lv3. unfold skewed. cases3 j; simpl; field.
  - assert (N : is_diagonal 3 skewed = false).
    { apply (not_diagonal3 _ 1 0); try lia. unfold skewed. simpl. rewrite Rabs_right; lra. }
    assert (O : is_orthogonal 3 skewed = false).
    { apply (C35_orthogonal_branch_dead 3 skewed 0); [lia|]. unfold dot, skewed, ortho_tol. simpl. lra. }
    destruct (general_branch_shift 3 skewed_inv skewed (of_list3 (9/4) (1/2) 0) N O) as (k & K & S).
    change (snd (distance 3 skewed_inv skewed (of_list3 (9/4) (1/2) 0))) with (norm 3 (fst (distance 3 skewed_inv skewed (of_list3 (9/4) (1/2) 0)))).
    rewrite (norm_ext 3 _ _ S), !norm3. rewrite !lv3. unfold skewed. simpl.
    pose proof (K 0%nat ltac:(lia)) as K0. pose proof (K 1%nat ltac:(lia)) as K1.
    assert (D0 : (k 0%nat = -1 \/ k 0%nat = 0 \/ k 0%nat = 1)%Z) by lia. assert (D1 : (k 1%nat = -1 \/ k 1%nat = 0 \/ k 1%nat = 1)%Z) by lia.
    apply sqrt_lt_1_alt. split; [nra|]. destruct D0 as [->|[->| ->]]; destruct D1 as [->|[->| ->]]; nra.
Qed.

(** Concrete cases. *)
Example C34_example : inverse 3 rotated rotated_inv /\ in_cell 3 rotated (of_list3 0 1 (1/2)) /\
  same 3 (wrap_positions 3 rotated_inv rotated (of_list3 5 2 (-3/2))) (of_list3 0 1 (1/2)).
Proof.
  assert (C : in_cell 3 rotated (of_list3 0 1 (1/2))).
  { exists (of_list3 (1/2) (1/2) (1/2)). split; [intros j Hj; unfold rotated; cases3 j; simpl; field|intros i Hi; cases3 i; simpl; lra]. }
  split; [exact rotated_ok|]. split; [exact C|].
  apply (C34_cell_unique 3 rotated rotated_inv rotated_ok (of_list3 5 2 (-3/2))); auto.
  - apply C34_moves_by_lattice_vector. exact rotated_ok.
  - exists (fun i => match i with 0%nat => (-3)%Z | 1%nat => 2%Z | _ => 2%Z end). intros j Hj. rewrite lv3. unfold rotated. cases3 j; simpl; field.
  - apply C34_lands_in_cell.
Qed.
Example C35_example : diagonal 3 (of_rows3 (of_list3 2 0 0) (of_list3 0 3 0) (of_list3 0 0 (-4))) /\
  orthogonal 3 rotated /\ has_coordinates 3 rotated (of_list3 0 1 (1/2)) (of_list3 (1/2) (1/2) (1/2)).
Proof.
  split; [|split].
  - intros i j Hi Hj N. cases3 i; cases3 j; simpl; try reflexivity; exfalso; auto.
  - intros i j Hi Hj N. cases3 i; cases3 j; unfold dot, rotated; simpl; try ring; exfalso; auto.
  - intros j Hj. unfold rotated. cases3 j; simpl; field.
Qed.
Print Assumptions C34_proposal_reversible.
Print Assumptions C35_nearby_partial.
Print Assumptions C35_skewed_refuted.
