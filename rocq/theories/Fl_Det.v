(** Derivatives of determinants (complex matrices). *)
From Coq Require Import Reals Arith Lra Lia List.
From Coquelicot Require Import Complex.
From Verif Require Import Lin Lap_Spec Jet Det Wf_Model Wf_Props Vandermonde Fl_Spec.
Open Scope C_scope.

Definition cder (f : R -> C) (t : R) (l : C) : Prop :=
  derivable_pt_lim (fun s => fst (f s)) t (fst l) /\ derivable_pt_lim (fun s => snd (f s)) t (snd l).
Definition cjet (u : R -> C) (a b c : C) : Prop :=
  jet (fun s => fst (u s)) (fst a) (fst b) (fst c) /\ jet (fun s => snd (u s)) (snd a) (snd b) (snd c).

Lemma cder_const a t : cder (fun _ => a) t (RtoC 0).
Proof. split; cbn; apply derivable_pt_lim_const. Qed.
Lemma cder_plus f g t a b : cder f t a -> cder g t b -> cder (fun s => f s + g s) t (a + b).
Proof. intros [H1 H2] [H3 H4]. split; cbn; [apply (derivable_pt_lim_plus (fun s => fst (f s)) (fun s => fst (g s)))|apply (derivable_pt_lim_plus (fun s => snd (f s)) (fun s => snd (g s)))]; auto. Qed.
Lemma cder_opp f t a : cder f t a -> cder (fun s => - f s) t (- a).
Proof. intros [H1 H2]. split; cbn; [apply (derivable_pt_lim_opp (fun s => fst (f s)))|apply (derivable_pt_lim_opp (fun s => snd (f s)))]; auto. Qed.
Lemma cder_mult f g t a b : cder f t a -> cder g t b -> cder (fun s => f s * g s) t (a * g t + f t * b).
Proof.
  intros [H1 H2] [H3 H4]. split; cbn.
  - apply (derivable_eq _ _ ((fst a * fst (g t) + fst (f t) * fst b) - (snd a * snd (g t) + snd (f t) * snd b))%R); [ring|].
    apply (derivable_pt_lim_minus (fun s => (fst (f s) * fst (g s))%R) (fun s => (snd (f s) * snd (g s))%R)).
    + apply (derivable_pt_lim_mult (fun s => fst (f s)) (fun s => fst (g s))); auto.
    + apply (derivable_pt_lim_mult (fun s => snd (f s)) (fun s => snd (g s))); auto.
  - apply (derivable_eq _ _ ((fst a * snd (g t) + fst (f t) * snd b) + (snd a * fst (g t) + snd (f t) * fst b))%R); [ring|].
    apply (derivable_pt_lim_plus (fun s => (fst (f s) * snd (g s))%R) (fun s => (snd (f s) * fst (g s))%R)).
    + apply (derivable_pt_lim_mult (fun s => fst (f s)) (fun s => snd (g s))); auto.
    + apply (derivable_pt_lim_mult (fun s => snd (f s)) (fun s => fst (g s))); auto.
Qed.
Lemma cder_eq f t a b : a = b -> cder f t a -> cder f t b.
Proof. intros <-. auto. Qed.
Lemma cder_ext f g t a : (forall s, f s = g s) -> cder f t a -> cder g t a.
Proof. intros E [H1 H2]. split; [apply (derivable_ext (fun s => fst (f s)))|apply (derivable_ext (fun s => snd (f s)))]; auto; intros; rewrite E; auto. Qed.
Lemma cder_sum n (f : nat -> R -> C) l t : (forall i, (i < n)%nat -> cder (f i) t (l i)) -> cder (fun s => cbsum n (fun i => f i s)) t (cbsum n l).
Proof.
  induction n as [|n IH]; intros H; [exact (cder_const (RtoC 0) t)|]. apply (cder_plus (fun s => cbsum n (fun i => f i s)) (f n)); [apply IH; intros; apply H; lia|apply H; lia].
Qed.
Lemma cder_alt i f t a : cder f t a -> cder (fun s => alt Copp i (f s)) t (alt Copp i a).
Proof. unfold alt. destruct (Nat.even i); auto. apply cder_opp. Qed.

Lemma alt_plus i x y : alt Copp i (x + y) = alt Copp i x + alt Copp i y.
Proof. unfold alt. destruct (Nat.even i); ring. Qed.
Lemma alt_csum i n f : alt Copp i (cbsum n f) = cbsum n (fun j => alt Copp i (f j)).
Proof. induction n as [|n IH]; [unfold alt; cbn; destruct (Nat.even i); ring|]. change (cbsum (S n) f) with (cbsum n f + f n). rewrite alt_plus, IH. reflexivity. Qed.
Lemma csum_exch n m f : cbsum n (fun i => cbsum m (fun j => f i j)) = cbsum m (fun j => cbsum n (fun i => f i j)).
Proof. apply (bigsum_exch _ _ Cplus Cmult Cminus Copp C_rt). Qed.

(** The derivative of a determinant: one column at a time. *)
Lemma det_der n : forall (a : R -> nat -> nat -> C) (a' : nat -> nat -> C) t,
  (forall r c, (r < n)%nat -> (c < n)%nat -> cder (fun s => a s r c) t (a' r c)) ->
  cder (fun s => cdet n (a s)) t (cbsum n (fun k => cdet n (with_col k (fun r => a' r k) (a t)))).
Proof.
  induction n as [|n IH]; intros a a' t H; [exact (cder_const (RtoC 1) t)|].
  apply (cder_ext (fun s => cbsum (S n) (fun i => alt Copp i (a s i 0%nat * cdet n (fun r c => a s (skip i r) (S c)))))); [intros; reflexivity|].
  refine (cder_eq _ _ _ _ _ (cder_sum (S n) (fun i s => alt Copp i (a s i 0%nat * cdet n (fun r c => a s (skip i r) (S c))))
    (fun i => alt Copp i (a' i 0%nat * cdet n (fun r c => a t (skip i r) (S c)) + a t i 0%nat * cbsum n (fun k => cdet n (with_col k (fun r => a' (skip i r) (S k)) (fun r c => a t (skip i r) (S c)))))) t _)).
  - rewrite (cbsum_first n (fun k => cdet (S n) (with_col k (fun r => a' r k) (a t)))).
    transitivity (cbsum (S n) (fun i => alt Copp i (a' i 0%nat * cdet n (fun r c => a t (skip i r) (S c)))) +
       cbsum (S n) (fun i => cbsum n (fun k => alt Copp i (a t i 0%nat * cdet n (with_col k (fun r => a' (skip i r) (S k)) (fun r c => a t (skip i r) (S c))))))).
    + rewrite <- cbsum_plus. apply cbsum_ext. intros i _. rewrite alt_plus. f_equal. rewrite <- cbsum_scal, alt_csum. reflexivity.
    + f_equal. rewrite csum_exch. apply cbsum_ext. intros k _. rewrite cdet_S. reflexivity.
  - intros i I. apply cder_alt. apply (cder_mult (fun s => a s i 0%nat) (fun s => cdet n (fun r c => a s (skip i r) (S c)))); [apply H; lia|].
    apply (IH (fun s r c => a s (skip i r) (S c)) (fun r c => a' (skip i r) (S c))).
    intros r c R' C'. apply H; [unfold skip; destruct (Nat.ltb r i); lia|lia].
Qed.

(** A column that is a combination of the columns. *)
Lemma det_combination n k (m : nat -> nat -> C) (w : nat -> C) : forall j, (k < n)%nat -> (j <= n)%nat ->
  forall m0, (forall c r, (c < n)%nat -> c <> k -> m0 r c = m r c) ->
  cdet n (with_col k (fun r => cbsum j (fun b => w b * m r b)) m0) = if Nat.ltb k j then w k * cdet n (with_col k (fun r => m r k) m0) else RtoC 0.
Proof.
  induction j as [|j IH]; intros K J m0 E.
  - replace (Nat.ltb k 0) with false by (symmetry; apply Nat.ltb_ge; lia).
    rewrite (cdet_ext n _ (with_col k (fun r => RtoC 0 * RtoC 0 + RtoC 0 * RtoC 0) m0)); [rewrite cdet_col_linear by auto; ring|].
    intros r c _ _. unfold with_col. destruct (Nat.eqb c k); [cbn; unfold bigsum; ring|reflexivity].
  - rewrite (cdet_ext n _ (with_col k (fun r => RtoC 1 * cbsum j (fun b => w b * m r b) + w j * m r j) m0)).
    2:{ intros r c _ _. unfold with_col. destruct (Nat.eqb c k); [|reflexivity]. change (cbsum (S j) (fun b => w b * m r b)) with (cbsum j (fun b => w b * m r b) + w j * m r j). ring. }
    rewrite cdet_col_linear, IH by (auto; lia). destruct (Nat.eq_dec k j) as [<-|N].
    + replace (Nat.ltb k k) with false by (symmetry; apply Nat.ltb_ge; lia). replace (Nat.ltb k (S k)) with true by (symmetry; apply Nat.ltb_lt; lia). ring.
    + assert (Z : cdet n (with_col k (fun r => m r j) m0) = RtoC 0).
      { apply (cdet_equal_columns n k j); auto; try lia. intros r _. unfold with_col. rewrite Nat.eqb_refl. destruct (Nat.eqb_spec j k) as [X|X]; [congruence|]. symmetry. apply E; auto; lia. }
      rewrite Z. destruct (Nat.ltb_spec k j), (Nat.ltb_spec k (S j)); try lia; ring.
Qed.
Lemma with_col_same n k (m : nat -> nat -> C) : cdet n (with_col k (fun r => m r k) m) = cdet n m.
Proof. apply cdet_ext. intros r c _ _. unfold with_col. destruct (Nat.eqb_spec c k) as [->|]; reflexivity. Qed.
Definition mm (n : nat) (a b : nat -> nat -> C) (r c : nat) : C := cbsum n (fun j => a r j * b j c).
(** One column replaced by a combination of the columns. *)
Lemma det_one n k (a x : nat -> nat -> C) : (k < n)%nat -> cdet n (with_col k (fun r => mm n a x r k) a) = x k k * cdet n a.
Proof.
  intros K. rewrite (cdet_ext n _ (with_col k (fun r => cbsum n (fun b => x b k * a r b)) a)).
  - rewrite (det_combination n k a (fun b => x b k) n K (le_n n) a) by auto. replace (Nat.ltb k n) with true by (symmetry; apply Nat.ltb_lt; lia). rewrite with_col_same. reflexivity.
  - intros r c _ _. unfold with_col. destruct (Nat.eqb c k); [|reflexivity]. unfold mm. apply cbsum_ext. intros. ring.
Qed.
(** Two columns. *)
Lemma det_two n k j (a x : nat -> nat -> C) : (k < n)%nat -> (j < n)%nat -> k <> j ->
  cdet n (with_col j (fun r => mm n a x r j) (with_col k (fun r => mm n a x r k) a)) = (x k k * x j j - x k j * x j k) * cdet n a.
Proof.
  intros K J N. set (b := with_col k (fun r => mm n a x r k) a).
  assert (Tj : Nat.ltb j n = true) by (apply Nat.ltb_lt; lia).
  (* column j of the product, in the columns of b except k *)
  assert (S : forall i, (i <= n)%nat -> cdet n (with_col j (fun r => cbsum i (fun c => x c j * a r c)) b) =
     (if Nat.ltb j i then x j j * (x k k * cdet n a) else RtoC 0) + (if Nat.ltb k i then x k j * cdet n (with_col j (fun r => a r k) b) else RtoC 0)).
  { induction i as [|i IH]; intros I.
    - replace (Nat.ltb j 0) with false by (symmetry; apply Nat.ltb_ge; lia). replace (Nat.ltb k 0) with false by (symmetry; apply Nat.ltb_ge; lia).
      rewrite (cdet_ext n _ (with_col j (fun r => RtoC 0 * RtoC 0 + RtoC 0 * RtoC 0) b)); [rewrite cdet_col_linear by auto; ring|].
      intros r c _ _. unfold with_col at 1 2. destruct (Nat.eqb c j); [cbn; unfold bigsum; ring|reflexivity].
    - rewrite (cdet_ext n _ (with_col j (fun r => RtoC 1 * cbsum i (fun c => x c j * a r c) + x i j * a r i) b)).
      2:{ intros r c _ _. unfold with_col at 1 2. destruct (Nat.eqb c j); [|reflexivity]. change (cbsum (S i) (fun c0 => x c0 j * a r c0)) with (cbsum i (fun c0 => x c0 j * a r c0) + x i j * a r i). ring. }
      rewrite cdet_col_linear, IH by (auto; lia).
      destruct (Nat.eq_dec i j) as [->|Nj]; [|destruct (Nat.eq_dec i k) as [->|Nk]].
      + assert (E : cdet n (with_col j (fun r => a r j) b) = x k k * cdet n a).
        { rewrite (cdet_ext n _ b); [apply det_one; auto|]. intros r c _ _. unfold with_col, b, with_col. destruct (Nat.eqb_spec c j) as [->|]; [|reflexivity]. destruct (Nat.eqb_spec j k); [congruence|reflexivity]. }
        rewrite E. destruct (Nat.ltb_spec j j), (Nat.ltb_spec j (S j)), (Nat.ltb_spec k j), (Nat.ltb_spec k (S j)); try lia; ring.
      + destruct (Nat.ltb_spec k k), (Nat.ltb_spec k (S k)), (Nat.ltb_spec j k), (Nat.ltb_spec j (S k)); try lia; ring.
      + assert (Z : cdet n (with_col j (fun r => a r i) b) = RtoC 0).
        { apply (cdet_equal_columns n i j); auto; try lia. intros r _. unfold with_col, b, with_col. rewrite Nat.eqb_refl. destruct (Nat.eqb_spec i j); [congruence|]. destruct (Nat.eqb_spec i k); [congruence|reflexivity]. }
        rewrite Z. destruct (Nat.ltb_spec j i), (Nat.ltb_spec j (S i)), (Nat.ltb_spec k i), (Nat.ltb_spec k (S i)); try lia; ring. }
  rewrite (cdet_ext n _ (with_col j (fun r => cbsum n (fun c => x c j * a r c)) b)).
  2:{ intros r c _ _. unfold with_col at 1 2. destruct (Nat.eqb c j); [|reflexivity]. unfold mm. apply cbsum_ext. intros. ring. }
  rewrite S, Tj by lia. replace (Nat.ltb k n) with true by (symmetry; apply Nat.ltb_lt; lia).
  (* the remaining determinant: col j = a_k, col k = sum x_ck a_c *)
  assert (E : cdet n (with_col j (fun r => a r k) b) = - (x j k * cdet n a)).
  { set (b' := with_col j (fun r => a r k) a).
    rewrite (cdet_ext n _ (with_col k (fun r => cbsum n (fun c => x c k * a r c)) b')).
    2:{ intros r c _ _. unfold with_col, b, b', with_col. destruct (Nat.eqb_spec c j) as [->|].
        - destruct (Nat.eqb_spec j k); [congruence|reflexivity].
        - destruct (Nat.eqb_spec c k) as [->|]; [|reflexivity]. unfold mm. apply cbsum_ext. intros. ring. }
    (* combination of columns of a: only c = j survives *)
    assert (T : forall i, (i <= n)%nat -> cdet n (with_col k (fun r => cbsum i (fun c => x c k * a r c)) b') =
       if Nat.ltb j i then x j k * cdet n (with_col k (fun r => a r j) b') else RtoC 0).
    { induction i as [|i IH]; intros I.
      - replace (Nat.ltb j 0) with false by (symmetry; apply Nat.ltb_ge; lia).
        rewrite (cdet_ext n _ (with_col k (fun r => RtoC 0 * RtoC 0 + RtoC 0 * RtoC 0) b')); [rewrite cdet_col_linear by auto; ring|].
        intros r c _ _. unfold with_col at 1 2. destruct (Nat.eqb c k); [cbn; unfold bigsum; ring|reflexivity].
      - rewrite (cdet_ext n _ (with_col k (fun r => RtoC 1 * cbsum i (fun c => x c k * a r c) + x i k * a r i) b')).
        2:{ intros r c _ _. unfold with_col at 1 2. destruct (Nat.eqb c k); [|reflexivity]. change (cbsum (Datatypes.S i) (fun c0 => x c0 k * a r c0)) with (cbsum i (fun c0 => x c0 k * a r c0) + x i k * a r i). ring. }
        rewrite cdet_col_linear, IH by (auto; lia). destruct (Nat.eq_dec i j) as [->|Nj].
        + destruct (Nat.ltb_spec j j), (Nat.ltb_spec j (Datatypes.S j)); try lia; ring.
        + assert (Z : cdet n (with_col k (fun r => a r i) b') = RtoC 0).
          { destruct (Nat.eq_dec i k) as [->|Nk].
            - apply (cdet_equal_columns n k j); auto. intros r _. unfold with_col, b', with_col. rewrite !Nat.eqb_refl. destruct (Nat.eqb_spec j k); [congruence|]. reflexivity.
            - apply (cdet_equal_columns n k i); auto; try lia. intros r _. unfold with_col, b', with_col. rewrite !Nat.eqb_refl. destruct (Nat.eqb_spec i k); [congruence|]. destruct (Nat.eqb_spec i j); [congruence|reflexivity]. }
          rewrite Z. destruct (Nat.ltb_spec j i), (Nat.ltb_spec j (Datatypes.S i)); try lia; ring. }
    rewrite T, Tj by lia.
    assert (W : cdet n (with_col k (fun r => a r j) b') = - cdet n a).
    { transitivity (cdet n (fun r c => a r (swap k j c))); [|exact (det_swap_columns _ _ Cplus Cmult Cminus Copp C_rt n k j a K J N)]. apply cdet_ext. intros r c _ _. unfold with_col, b', with_col, swap.
      destruct (Nat.eqb_spec c k) as [->|]; [reflexivity|]. destruct (Nat.eqb_spec c j); reflexivity. }
    rewrite W. ring. }
  rewrite E. ring.
Qed.
