(** Determinants over any commutative ring, by expansion along the first column, and the
    facts used about them: exchange of two rows or of two columns changes the sign; scaling
    the rows scales the determinant.  This is the value behind [jnp.linalg.slogdet]. *)
From Coq Require Import Arith List Lia Ring Permutation.
Import ListNotations.

(** The (n)-element list of row numbers without [i]. *)
Definition skip (i r : nat) : nat := if Nat.ltb r i then r else S r.
(** Exchange of [a] and [b]. *)
Definition swap (a b r : nat) : nat := if Nat.eqb r a then b else if Nat.eqb r b then a else r.

Lemma swap_same a r : swap a a r = r.
Proof. unfold swap. destruct (Nat.eqb_spec r a); auto. Qed.
Lemma swap_sym a b r : swap a b r = swap b a r.
Proof. unfold swap. destruct (Nat.eqb_spec r a), (Nat.eqb_spec r b); subst; auto. Qed.
Lemma swap_inv a b r : swap a b (swap a b r) = r.
Proof.
  unfold swap. destruct (Nat.eqb_spec r a) as [->|N].
  - destruct (Nat.eqb_spec b a) as [->|M]; auto. rewrite Nat.eqb_refl. reflexivity.
  - destruct (Nat.eqb_spec r b) as [->|M]; [rewrite Nat.eqb_refl; reflexivity|].
    destruct (Nat.eqb_spec r a), (Nat.eqb_spec r b); congruence.
Qed.
Lemma swap_lt a b n r : a < n -> b < n -> r < n -> swap a b r < n.
Proof. intros. unfold swap. destruct (Nat.eqb r a); auto. destruct (Nat.eqb r b); auto. Qed.
Lemma swap_other a b r : r <> a -> r <> b -> swap a b r = r.
Proof. intros A B. unfold swap. destruct (Nat.eqb_spec r a); [congruence|]. destruct (Nat.eqb_spec r b); congruence. Qed.
Lemma swap_l a b : swap a b a = b. Proof. unfold swap. rewrite Nat.eqb_refl. reflexivity. Qed.
Lemma swap_r a b : swap a b b = a. Proof. rewrite swap_sym. apply swap_l. Qed.
Lemma swap_perm a b lo len : lo <= a < lo + len -> lo <= b < lo + len -> Permutation (map (swap a b) (seq lo len)) (seq lo len).
Proof.
  intros A B. apply NoDup_Permutation.
  - apply FinFun.Injective_map_NoDup; [|apply seq_NoDup]. intros x y E. rewrite <- (swap_inv a b x), E. apply swap_inv.
  - apply seq_NoDup.
  - intros x. rewrite in_map_iff. split.
    + intros (y & <- & H). rewrite in_seq in *. unfold swap. destruct (Nat.eqb y a); [lia|]. destruct (Nat.eqb y b); lia.
    + intros H. exists (swap a b x). split; [apply swap_inv|]. rewrite in_seq in *. unfold swap. destruct (Nat.eqb x a); [lia|]. destruct (Nat.eqb x b); lia.
Qed.

Section Det.
  Context {A : Type} (zero one : A) (add mul sub : A -> A -> A) (opp : A -> A).
  Hypothesis RT : ring_theory zero one add mul sub opp (@eq A).
  Add Ring detring : RT.
  Notation "x + y" := (add x y).
  Notation "x * y" := (mul x y).
  Notation "- x" := (opp x).

  Fixpoint bigsum (n : nat) (f : nat -> A) : A := match n with O => zero | S k => bigsum k f + f k end.
  Fixpoint bigprod (n : nat) (f : nat -> A) : A := match n with O => one | S k => bigprod k f * f k end.
  Definition alt (i : nat) (x : A) : A := if Nat.even i then x else - x.
  Fixpoint det (n : nat) (m : nat -> nat -> A) : A :=
    match n with
    | O => one
    | S k => bigsum n (fun i => alt i (m i 0 * det k (fun r c => m (skip i r) (S c))))
    end.

  Lemma bigsum_ext n f g : (forall i, i < n -> f i = g i) -> bigsum n f = bigsum n g.
  Proof. induction n as [|n IH]; simpl; intros H; auto. rewrite IH by (intros; apply H; lia). rewrite (H n) by lia. reflexivity. Qed.
  Lemma bigprod_ext n f g : (forall i, i < n -> f i = g i) -> bigprod n f = bigprod n g.
  Proof. induction n as [|n IH]; simpl; intros H; auto. rewrite IH by (intros; apply H; lia). rewrite (H n) by lia. reflexivity. Qed.
  Lemma bigsum_opp n f : bigsum n (fun i => - f i) = - bigsum n f.
  Proof. induction n as [|n IH]; simpl; [ring|]. rewrite IH. ring. Qed.
  Lemma bigsum_scal n c f : bigsum n (fun i => c * f i) = c * bigsum n f.
  Proof. induction n as [|n IH]; simpl; [ring|]. rewrite IH. ring. Qed.
  Lemma bigsum_add n f g : bigsum n (fun i => f i + g i) = bigsum n f + bigsum n g.
  Proof. induction n as [|n IH]; simpl; [ring|]. rewrite IH. ring. Qed.
  Lemma bigsum_zero n f : (forall i, i < n -> f i = zero) -> bigsum n f = zero.
  Proof. induction n as [|n IH]; simpl; intros H; auto. rewrite IH by (intros; apply H; lia). rewrite (H n) by lia. ring. Qed.
  Lemma bigsum_exch n m f : bigsum n (fun i => bigsum m (fun j => f i j)) = bigsum m (fun j => bigsum n (fun i => f i j)).
  Proof.
    induction n as [|n IH]; simpl; [symmetry; apply bigsum_zero; auto|]. rewrite IH, <- bigsum_add. reflexivity.
  Qed.
  Lemma alt_opp i x : alt i (- x) = - alt i x. Proof. unfold alt. destruct (Nat.even i); auto. Qed.
  Lemma alt_S i x : alt (S i) x = - alt i x.
  Proof. unfold alt. rewrite Nat.even_succ, <- Nat.negb_even. destruct (Nat.even i); simpl; ring. Qed.
  Lemma alt_scal i c x : alt i (c * x) = c * alt i x. Proof. unfold alt. destruct (Nat.even i); ring. Qed.
  Lemma alt_scal_r i c x : alt i (x * c) = alt i x * c. Proof. unfold alt. destruct (Nat.even i); ring. Qed.
  Lemma alt_sum i n f : alt i (bigsum n f) = bigsum n (fun j => alt i (f j)).
  Proof. unfold alt. destruct (Nat.even i); [reflexivity|]. rewrite <- bigsum_opp. reflexivity. Qed.

  Lemma det_ext n : forall m m', (forall r c, r < n -> c < n -> m r c = m' r c) -> det n m = det n m'.
  Proof.
    induction n as [|n IH]; intros m m' H; [reflexivity|]. cbn [det]. apply bigsum_ext. intros i Hi. f_equal. f_equal; [apply H; lia|].
    apply IH. intros r c Hr Hc. apply H; [unfold skip; destruct (Nat.ltb_spec r i); lia|lia].
  Qed.

  (** ** Rows scaled by [d] *)
  Lemma bigprod_skip n d : forall i, i <= n -> bigprod (S n) d = d i * bigprod n (fun r => d (skip i r)).
  Proof.
    induction n as [|n IH]; intros i Hi.
    - assert (i = 0) by lia. subst. simpl. ring.
    - destruct (Nat.eq_dec i (S n)) as [->|N].
      + cbn [bigprod]. rewrite (bigprod_ext n (fun r => d (skip (S n) r)) d).
        * unfold skip at 1. destruct (Nat.ltb_spec n (S n)); [|lia]. ring.
        * intros r Hr. unfold skip. destruct (Nat.ltb_spec r (S n)); [reflexivity|lia].
      + change (bigprod (S (S n)) d) with (bigprod (S n) d * d (S n)). rewrite (IH i) by lia.
        change (bigprod (S n) (fun r => d (skip i r))) with (bigprod n (fun r => d (skip i r)) * d (skip i n)).
        unfold skip at 3. destruct (Nat.ltb_spec n i); [lia|]. ring.
  Qed.
  Lemma det_scale n : forall d m, det n (fun r c => d r * m r c) = bigprod n d * det n m.
  Proof.
    induction n as [|n IH]; intros d m; [simpl; ring|].
    transitivity (bigsum (S n) (fun i => bigprod (S n) d * alt i (m i 0 * det n (fun r c => m (skip i r) (S c))))); [|rewrite bigsum_scal; reflexivity].
    cbn [det]. apply bigsum_ext. intros i Hi. rewrite (IH (fun r => d (skip i r)) (fun r c => m (skip i r) (S c))).
    rewrite <- alt_scal. f_equal. rewrite (bigprod_skip n d i) by lia. ring.
  Qed.
  Lemma bigprod_const n (x y : A) i : i < n -> y = one -> bigprod n (fun r => if Nat.eqb r i then x else y) = x.
  Proof.
    intros H ->. destruct n as [|n]; [lia|]. rewrite (bigprod_skip n _ i) by lia. rewrite Nat.eqb_refl.
    rewrite (bigprod_ext n _ (fun _ => one)).
    - assert (E : forall k, bigprod k (fun _ => one) = one) by (induction k as [|k IHk]; simpl; [reflexivity|rewrite IHk; ring]). rewrite E. ring.
    - intros r Hr. unfold skip. destruct (Nat.ltb_spec r i); destruct (Nat.eqb_spec r i); destruct (Nat.eqb_spec (S r) i); try lia; reflexivity.
  Qed.
  Lemma det_scale_row n i x m : i < n -> det n (fun r c => (if Nat.eqb r i then x else one) * m r c) = x * det n m.
  Proof. intros H. rewrite (det_scale n (fun r => if Nat.eqb r i then x else one)), bigprod_const by auto. reflexivity. Qed.

  (** ** Exchange of rows *)
  Lemma bigsum_two n f g k : S k < n -> f k = - g (S k) -> f (S k) = - g k -> (forall i, i < n -> i <> k -> i <> S k -> f i = - g i) ->
    bigsum n f = - bigsum n g.
  Proof.
    induction n as [|n IH]; intros K A1 A2 H; [lia|]. cbn [bigsum]. destruct (Nat.eq_dec n (S k)) as [->|N].
    - cbn [bigsum]. rewrite A1, A2, (bigsum_ext k f (fun i => - g i)) by (intros; apply H; lia). rewrite bigsum_opp. ring.
    - rewrite IH by (try lia; auto; intros; apply H; lia). rewrite (H n) by lia. ring.
  Qed.
  Lemma det_swap_adjacent n : forall k m, S k < n -> det n (fun r c => m (swap k (S k) r) c) = - det n m.
  Proof.
    induction n as [|n IH]; intros k m H; [lia|]. cbn [det]. apply bigsum_two with (k := k); auto.
    - rewrite swap_l, alt_S. rewrite (det_ext n (fun r c => m (swap k (S k) (skip k r)) (S c)) (fun r c => m (skip (S k) r) (S c))).
      + ring.
      + intros r c _ _. f_equal. unfold skip, swap. destruct (Nat.ltb_spec r k), (Nat.ltb_spec r (S k)); try lia.
        * destruct (Nat.eqb_spec r k), (Nat.eqb_spec r (S k)); lia.
        * assert (r = k) by lia. subst. destruct (Nat.eqb_spec (S k) k); [lia|]. rewrite Nat.eqb_refl. reflexivity.
        * destruct (Nat.eqb_spec (S r) k), (Nat.eqb_spec (S r) (S k)); lia.
    - rewrite swap_r, alt_S. rewrite (det_ext n (fun r c => m (swap k (S k) (skip (S k) r)) (S c)) (fun r c => m (skip k r) (S c))).
      + ring.
      + intros r c _ _. f_equal. unfold skip, swap. destruct (Nat.ltb_spec r k), (Nat.ltb_spec r (S k)); try lia.
        * destruct (Nat.eqb_spec r k), (Nat.eqb_spec r (S k)); lia.
        * assert (r = k) by lia. subst. rewrite Nat.eqb_refl. reflexivity.
        * destruct (Nat.eqb_spec (S r) k), (Nat.eqb_spec (S r) (S k)); lia.
    - intros i Hi N1 N2. rewrite swap_other by auto. rewrite <- alt_opp. f_equal.
      destruct (Nat.lt_ge_cases i k) as [L|G].
      + rewrite (det_ext n _ (fun r c => m (skip i (swap (k - 1) (S (k - 1)) r)) (S c))).
        * rewrite (IH (k - 1) (fun r c => m (skip i r) (S c))) by lia. ring.
        * intros r c _ _. f_equal. unfold skip, swap.
          destruct (Nat.ltb_spec r i); destruct (Nat.eqb_spec r (k - 1)); destruct (Nat.eqb_spec r (S (k - 1))); try lia;
          repeat match goal with |- context [Nat.eqb ?x ?y] => destruct (Nat.eqb_spec x y); try lia | |- context [Nat.ltb ?x ?y] => destruct (Nat.ltb_spec x y); try lia end.
      + rewrite (det_ext n _ (fun r c => m (skip i (swap k (S k) r)) (S c))).
        * rewrite (IH k (fun r c => m (skip i r) (S c))) by lia. ring.
        * intros r c _ _. f_equal. unfold skip, swap.
          destruct (Nat.ltb_spec r i); destruct (Nat.eqb_spec r k); destruct (Nat.eqb_spec r (S k)); try lia;
          repeat match goal with |- context [Nat.eqb ?x ?y] => destruct (Nat.eqb_spec x y); try lia | |- context [Nat.ltb ?x ?y] => destruct (Nat.ltb_spec x y); try lia end.
  Qed.
  Lemma swap_step a b r : a < b -> swap a (S b) r = swap b (S b) (swap a b (swap b (S b) r)).
  Proof.
    intros H. destruct (Nat.eq_dec r a) as [->|N1]; [rewrite swap_l, (swap_other b (S b) a), swap_l, swap_l by lia; reflexivity|].
    destruct (Nat.eq_dec r (S b)) as [->|N2]; [rewrite !swap_r, swap_other by lia; reflexivity|].
    rewrite (swap_other a (S b)) by lia. destruct (Nat.eq_dec r b) as [->|N3]; [rewrite swap_l, (swap_other a b), swap_r by lia; reflexivity|].
    rewrite (swap_other b (S b) r), (swap_other a b), (swap_other b (S b)) by lia. reflexivity.
  Qed.
  Lemma det_swap_lt n d : forall a m, S (a + d) < n -> det n (fun r c => m (swap a (S (a + d)) r) c) = - det n m.
  Proof.
    induction d as [|d IH]; intros a m H.
    - rewrite Nat.add_0_r in *. apply det_swap_adjacent. auto.
    - set (b := S (a + d)). replace (S (a + S d)) with (S b) in * by (unfold b; lia).
      rewrite (det_ext n _ (fun r c => m (swap b (S b) (swap a b (swap b (S b) r))) c)) by (intros; rewrite swap_step by (unfold b; lia); reflexivity).
      rewrite (det_swap_adjacent n b (fun r c => m (swap b (S b) (swap a b r)) c)) by lia.
      assert (E := IH a (fun r c => m (swap b (S b) r) c) ltac:(lia)). fold b in E. rewrite E.
      rewrite (det_swap_adjacent n b m) by lia. ring.
  Qed.
  Theorem det_swap_rows n a b m : a < n -> b < n -> a <> b -> det n (fun r c => m (swap a b r) c) = - det n m.
  Proof.
    intros Ha Hb N. destruct (Nat.lt_ge_cases a b) as [L|G].
    - replace b with (S (a + (b - a - 1))) in * by lia. apply det_swap_lt. lia.
    - rewrite (det_ext n _ (fun r c => m (swap b a r) c)) by (intros; rewrite swap_sym; reflexivity).
      replace a with (S (b + (a - b - 1))) in * by lia. apply det_swap_lt. lia.
  Qed.

  (** ** Exchange of columns *)
  Definition below (q p : nat) (x : A) : A := if Nat.leb q p then x else zero.
  Lemma bigsum_S n f : bigsum (S n) f = f 0 + bigsum n (fun i => f (S i)).
  Proof. induction n as [|n IH]; [simpl; ring|]. change (bigsum (S (S n)) f) with (bigsum (S n) f + f (S n)). rewrite IH. simpl. ring. Qed.
  Lemma bigsum_pairs n f : bigsum (S n) (fun i => bigsum n (fun j => f i j)) = bigsum n (fun p => bigsum n (fun q => below q p (f (S p) q + f q p))).
  Proof.
    transitivity (bigsum n (fun p => bigsum n (fun q => below q p (f (S p) q))) + bigsum n (fun p => bigsum n (fun q => below q p (f q p)))).
    2: { rewrite <- bigsum_add. apply bigsum_ext. intros p _. rewrite <- bigsum_add. apply bigsum_ext. intros q _. unfold below. destruct (Nat.leb q p); ring. }
    transitivity (bigsum (S n) (fun i => bigsum n (fun j => below (S j) i (f i j))) + bigsum (S n) (fun i => bigsum n (fun j => below i j (f i j)))).
    { rewrite <- bigsum_add. apply bigsum_ext. intros i _. rewrite <- bigsum_add. apply bigsum_ext. intros j _. unfold below.
      destruct (Nat.leb_spec (S j) i), (Nat.leb_spec i j); try lia; ring. }
    f_equal.
    - rewrite bigsum_S. rewrite (bigsum_zero n (fun j => below (S j) 0 (f 0 j))) by (intros; reflexivity).
      rewrite (bigsum_ext n (fun i => bigsum n (fun j => below (S j) (S i) (f (S i) j))) (fun p => bigsum n (fun q => below q p (f (S p) q)))); [ring|reflexivity].
    - change (bigsum n (fun i => bigsum n (fun j => below i j (f i j))) + bigsum n (fun j => below n j (f n j)) = bigsum n (fun p => bigsum n (fun q => below q p (f q p)))).
      rewrite (bigsum_zero n (fun j => below n j (f n j))) by (intros j Hj; unfold below; destruct (Nat.leb_spec n j); [lia|reflexivity]).
      rewrite bigsum_exch. ring.
  Qed.
  Definition minor2 (n : nat) (m : nat -> nat -> A) (i j : nat) : A := det n (fun r c => m (skip i (skip j r)) (S (S c))).
  Lemma det_expand2 n m : det (S (S n)) m =
    bigsum (S n) (fun p => bigsum (S n) (fun q => below q p (alt (p + q)%nat ((m q 0 * m (S p) 1 + - (m (S p) 0 * m q 1)) * minor2 n m q p)))).
  Proof.
    transitivity (bigsum (S (S n)) (fun i => bigsum (S n) (fun j => alt i (alt j (m i 0 * m (skip i j) 1 * minor2 n m i j))))).
    { change (det (S (S n)) m) with (bigsum (S (S n)) (fun i => alt i (m i 0 * det (S n) (fun r c => m (skip i r) (S c))))).
      apply bigsum_ext. intros i _. rewrite <- alt_sum. f_equal. cbn [det].
      rewrite <- bigsum_scal. apply bigsum_ext. intros j _. rewrite <- alt_scal. f_equal. unfold minor2. ring. }
    rewrite bigsum_pairs. apply bigsum_ext. intros p Hp. apply bigsum_ext. intros q Hq. unfold below. destruct (Nat.leb_spec q p) as [L|]; [|reflexivity].
    rewrite alt_S. assert (E : minor2 n m (S p) q = minor2 n m q p).
    { unfold minor2. apply det_ext. intros r c _ _. f_equal. unfold skip.
      repeat match goal with |- context [Nat.ltb ?x ?y] => destruct (Nat.ltb_spec x y); try lia end. }
    rewrite E. replace (skip (S p) q) with q by (unfold skip; destruct (Nat.ltb_spec q (S p)); lia).
    replace (skip q p) with (S p) by (unfold skip; destruct (Nat.ltb_spec p q); lia).
    assert (AA : forall a b x, alt (a + b)%nat x = alt a (alt b x)).
    { intros a b x. unfold alt. rewrite Nat.even_add. destruct (Nat.even a), (Nat.even b); simpl; ring. }
    assert (AC : forall a b x, alt a (alt b x) = alt b (alt a x)) by (intros; rewrite <- !AA; f_equal; lia).
    rewrite (AC q p), !AA. unfold alt. destruct (Nat.even p), (Nat.even q); ring.
  Qed.
  Lemma det_swap_columns_adjacent n : forall k m, S k < n -> det n (fun r c => m r (swap k (S k) c)) = - det n m.
  Proof.
    induction n as [|n IH]; intros k m H; [lia|]. destruct k as [|k].
    - destruct n as [|n]; [lia|]. rewrite !det_expand2, <- bigsum_opp. apply bigsum_ext. intros p _. rewrite <- bigsum_opp. apply bigsum_ext. intros q _.
      unfold below. destruct (Nat.leb q p); [|ring]. rewrite swap_l, swap_r, <- alt_opp. f_equal. unfold minor2.
      rewrite (det_ext n (fun r c => m (skip q (skip p r)) (swap 0 1 (S (S c)))) (fun r c => m (skip q (skip p r)) (S (S c)))) by (intros; reflexivity). ring.
    - cbn [det]. rewrite <- bigsum_opp. apply bigsum_ext. intros i _. rewrite <- alt_opp. f_equal. rewrite swap_other by lia.
      rewrite (det_ext n _ (fun r c => m (skip i r) (S (swap k (S k) c)))).
      + rewrite (IH k (fun r c => m (skip i r) (S c))) by lia. ring.
      + intros r c _ _. f_equal. unfold swap. simpl. destruct (Nat.eqb c k); auto. destruct (Nat.eqb c (S k)); auto.
  Qed.
  Lemma det_swap_columns_lt n d : forall a m, S (a + d) < n -> det n (fun r c => m r (swap a (S (a + d)) c)) = - det n m.
  Proof.
    induction d as [|d IH]; intros a m H.
    - rewrite Nat.add_0_r in *. apply det_swap_columns_adjacent. auto.
    - set (b := S (a + d)). replace (S (a + S d)) with (S b) in * by (unfold b; lia).
      rewrite (det_ext n _ (fun r c => m r (swap b (S b) (swap a b (swap b (S b) c))))) by (intros; rewrite swap_step by (unfold b; lia); reflexivity).
      rewrite (det_swap_columns_adjacent n b (fun r c => m r (swap b (S b) (swap a b c)))) by lia.
      assert (E := IH a (fun r c => m r (swap b (S b) c)) ltac:(lia)). fold b in E. rewrite E.
      rewrite (det_swap_columns_adjacent n b m) by lia. ring.
  Qed.
  Theorem det_swap_columns n a b m : a < n -> b < n -> a <> b -> det n (fun r c => m r (swap a b c)) = - det n m.
  Proof.
    intros Ha Hb N. destruct (Nat.lt_ge_cases a b) as [L|G].
    - replace b with (S (a + (b - a - 1))) in * by lia. apply det_swap_columns_lt. lia.
    - rewrite (det_ext n _ (fun r c => m r (swap b a c))) by (intros; rewrite swap_sym; reflexivity).
      replace a with (S (b + (a - b - 1))) in * by lia. apply det_swap_columns_lt. lia.
  Qed.
End Det.
