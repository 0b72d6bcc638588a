(** Homogeneous Vandermonde determinants over C: det (u_i^k v_i^(n-1-k)) is the product of u_j v_i - u_i v_j over
    the pairs i < j. *)
From Coq Require Import Reals Arith Lra Lia.
From Coquelicot Require Import Coquelicot.
From Verif Require Import Det Wf_Model Wf_Props Hall_Model.
Open Scope C_scope.

Definition cprod := bigprod (RtoC 1) Cmult.
Definition cbsum := bigsum (RtoC 0) Cplus.
Lemma cdet_S n m : cdet (S n) m = cbsum (S n) (fun i => alt Copp i (m i 0%nat * cdet n (fun r c => m (skip i r) (S c)))).
Proof. reflexivity. Qed.
Lemma cdet_ext n m m' : (forall r c, (r < n)%nat -> (c < n)%nat -> m r c = m' r c) -> cdet n m = cdet n m'.
Proof. apply det_ext. Qed.
Lemma cbsum_ext n f g : (forall i, (i < n)%nat -> f i = g i) -> cbsum n f = cbsum n g.
Proof. apply bigsum_ext. Qed.
Lemma cprod_ext n f g : (forall i, (i < n)%nat -> f i = g i) -> cprod n f = cprod n g.
Proof. apply bigprod_ext. Qed.
Lemma cbsum_first n f : cbsum (S n) f = f 0%nat + cbsum n (fun i => f (S i)).
Proof. apply (bigsum_S _ _ Cplus Cmult Cminus Copp C_rt). Qed.
Lemma cbsum_zero n f : (forall i, (i < n)%nat -> f i = RtoC 0) -> cbsum n f = RtoC 0.
Proof. induction n as [|n IH]; intros H; [reflexivity|]. cbn. fold (cbsum n f). rewrite IH, (H n) by (auto; intros; apply H; lia). ring. Qed.
Lemma cbsum_scal n x f : cbsum n (fun i => x * f i) = x * cbsum n f.
Proof. induction n as [|n IH]; cbn; [ring|]. fold (cbsum n (fun i => x * f i)). fold (cbsum n f). rewrite IH. ring. Qed.
Lemma cbsum_plus n f g : cbsum n (fun i => f i + g i) = cbsum n f + cbsum n g.
Proof. induction n as [|n IH]; cbn; [ring|]. fold (cbsum n (fun i => f i + g i)). fold (cbsum n f). fold (cbsum n g). rewrite IH. ring. Qed.
Lemma cprod_S n f : cprod (S n) f = cprod n f * f n.
Proof. reflexivity. Qed.
Lemma cprod_first n f : cprod (S n) f = f 0%nat * cprod n (fun i => f (S i)).
Proof. induction n as [|n IH]; [cbn; ring|]. rewrite (cprod_S (S n)), IH, cprod_S. ring. Qed.
Lemma cprod_mult n f g : cprod n (fun i => f i * g i) = cprod n f * cprod n g.
Proof. induction n as [|n IH]; [cbn; ring|]. rewrite !cprod_S, IH. ring. Qed.
Lemma cprod_zero n f i : (i < n)%nat -> f i = RtoC 0 -> cprod n f = RtoC 0.
Proof. induction n as [|n IH]; intros H E; [lia|]. rewrite cprod_S. destruct (Nat.eq_dec i n) as [->|N]; [rewrite E; ring|rewrite IH by (auto; lia); ring]. Qed.
Lemma cprod_one n f : (forall i, (i < n)%nat -> f i = RtoC 1) -> cprod n f = RtoC 1.
Proof. induction n as [|n IH]; intros H; [reflexivity|]. rewrite cprod_S, IH, (H n) by (auto; intros; apply H; lia). ring. Qed.
Lemma cdet_rows n d m : cdet n (fun r c => d r * m r c) = cprod n d * cdet n m.
Proof. apply (det_scale _ _ Cplus Cmult Cminus Copp C_rt). Qed.
Lemma cdet_zero_row n m r0 : (r0 < n)%nat -> (forall c, (c < n)%nat -> m r0 c = RtoC 0) -> cdet n m = RtoC 0.
Proof.
  intros R H. rewrite (cdet_ext n m (fun r c => (if Nat.eqb r r0 then RtoC 0 else RtoC 1) * m r c)).
  - rewrite cdet_rows, (cprod_zero n _ r0 R); [ring|]. rewrite Nat.eqb_refl. reflexivity.
  - intros r c _ Hc. destruct (Nat.eqb_spec r r0) as [->|]; [rewrite (H c Hc); ring|ring].
Qed.

(** ** Linear in a column; equal columns *)
Definition with_col (k : nat) (w : nat -> C) (m : nat -> nat -> C) : nat -> nat -> C := fun r c => if Nat.eqb c k then w r else m r c.
Lemma cdet_col_linear n : forall k m x y (w w' : nat -> C), (k < n)%nat ->
  cdet n (with_col k (fun r => x * w r + y * w' r) m) = x * cdet n (with_col k w m) + y * cdet n (with_col k w' m).
Proof.
  induction n as [|n IH]; intros k m x y w w' K; [lia|]. rewrite !cdet_S, <- !cbsum_scal, <- cbsum_plus. apply cbsum_ext. intros i _.
  destruct k as [|k].
  - unfold with_col. cbn [Nat.eqb]. unfold alt. destruct (Nat.even i); ring.
  - assert (E : forall v, cdet n (fun r c => with_col (S k) v m (skip i r) (S c)) = cdet n (with_col k (fun r => v (skip i r)) (fun r c => m (skip i r) (S c)))) by (intros; reflexivity).
    rewrite !E, (IH k _ x y (fun r => w (skip i r)) (fun r => w' (skip i r))) by lia.
    assert (F : forall v, with_col (S k) v m i 0%nat = m i 0%nat) by reflexivity. rewrite !F. unfold alt. destruct (Nat.even i); ring.
Qed.
Lemma cdet_equal_columns n a b m : (a < n)%nat -> (b < n)%nat -> a <> b -> (forall r, (r < n)%nat -> m r a = m r b) -> cdet n m = RtoC 0.
Proof.
  intros A B N H. pose proof (det_swap_columns _ _ Cplus Cmult Cminus Copp C_rt n a b m A B N) as E. fold cdet in E.
  assert (X : cdet n m = - cdet n m).
  { rewrite <- E at 1. apply cdet_ext. intros r c R _. unfold swap. destruct (Nat.eqb_spec c a) as [->|]; [apply H; auto|]. destruct (Nat.eqb_spec c b) as [->|]; [symmetry; apply H; auto|reflexivity]. }
  destruct (cdet n m) as [p q]. unfold Copp in X. cbn [fst snd] in X. injection X. intros. unfold RtoC. f_equal; lra.
Qed.
(** column k replaced by x col_k + y col_j *)
Lemma cdet_col_op n k j m x y : (k < n)%nat -> (j < n)%nat -> j <> k ->
  cdet n (with_col k (fun r => x * m r k + y * m r j) m) = x * cdet n m.
Proof.
  intros K J N. rewrite cdet_col_linear by auto.
  assert (Z : cdet n (with_col k (fun r => m r j) m) = RtoC 0).
  { apply (cdet_equal_columns n j k); auto. intros r _. unfold with_col. rewrite Nat.eqb_refl. destruct (Nat.eqb_spec j k) as [E|E]; [congruence|reflexivity]. }
  rewrite Z.
  rewrite (cdet_ext n (with_col k (fun r => m r k) m) m); [ring|]. intros r c _ _. unfold with_col. destruct (Nat.eqb_spec c k) as [->|]; reflexivity.
Qed.
(** all columns k >= s (counted from the right) replaced by x col_k + y col_(k-1) *)
Lemma cdet_shift_ops n m x y : forall d, (d <= n - 1)%nat ->
  cdet n (fun r c => if Nat.leb (n - d) c then x * m r c + y * m r (c - 1)%nat else m r c) = cpow x d * cdet n m.
Proof.
  induction d as [|d IH]; intros D.
  - cbn [cpow]. rewrite Cmult_1_l. apply cdet_ext. intros r c _ C. destruct (Nat.leb_spec (n - 0) c); [lia|reflexivity].
  - cbn [cpow]. rewrite <- Cmult_assoc, <- (IH ltac:(lia)).
    set (M := fun r c => if Nat.leb (n - d) c then x * m r c + y * m r (c - 1)%nat else m r c). set (k := (n - S d)%nat).
    rewrite <- (cdet_col_op n k (k - 1) M x y) by (unfold k; lia). apply cdet_ext. intros r c _ C. unfold with_col, M.
    destruct (Nat.eqb_spec c k) as [->|N].
    + rewrite Nat.leb_refl. destruct (Nat.leb_spec (n - d) k); [unfold k in *; lia|]. destruct (Nat.leb_spec (n - d) (k - 1)); [unfold k in *; lia|]. reflexivity.
    + destruct (Nat.leb_spec k c), (Nat.leb_spec (n - d) c); unfold k in *; try lia; reflexivity.
Qed.
(** first row zero except in the last column *)
Lemma cdet_last_entry n : forall m, (forall c, (c < n)%nat -> m 0%nat c = RtoC 0) ->
  cdet (S n) m = alt Copp n (m 0%nat n * cdet n (fun r c => m (S r) c)).
Proof.
  induction n as [|n IH]; intros m Z.
  - cbn. unfold alt, Det.alt. cbn. ring.
  - rewrite cdet_S, cbsum_first, (Z 0%nat) by lia. rewrite (cdet_S n (fun r c => m (S r) c)).
    transitivity (cbsum (S n) (fun i => alt Copp (S n) (m 0%nat (S n)) * alt Copp i (m (S i) 0%nat * cdet n (fun r c => m (S (skip i r)) (S c))))).
    + assert (E0 : alt Copp 0 (RtoC 0 * cdet (S n) (fun r c => m (skip 0 r) (S c))) = RtoC 0) by (unfold alt; cbn; ring). rewrite E0, Cplus_0_l.
      apply cbsum_ext. intros i Hi.
      rewrite (IH (fun r c => m (skip (S i) r) (S c))).
      * assert (Sk : forall r, skip (S i) (S r) = S (skip i r)) by (intros; unfold skip; change (Nat.ltb (S r) (S i)) with (Nat.ltb r i); destruct (Nat.ltb r i); reflexivity).
        rewrite (cdet_ext n (fun r c => m (skip (S i) (S r)) (S c)) (fun r c => m (S (skip i r)) (S c))) by (intros; rewrite Sk; reflexivity).
        unfold skip at 1. cbn [Nat.ltb Nat.leb]. unfold alt. rewrite !Nat.even_succ, <- !Nat.negb_even. destruct (Nat.even i), (Nat.even n); cbn [negb]; ring.
      * intros c Hc. unfold skip. cbn [Nat.ltb Nat.leb]. apply Z. lia.
    + rewrite cbsum_scal. unfold alt. destruct (Nat.even (S n)); ring.
Qed.

Fixpoint vprod (n : nat) (u v : nat -> C) : C :=
  match n with O => RtoC 1 | S k => cprod k (fun j => u (S j) * v 0%nat - u 0%nat * v (S j)) * vprod k (fun i => u (S i)) (fun i => v (S i)) end.
Lemma cpow_S (x : C) k : cpow x (S k) = x * cpow x k. Proof. reflexivity. Qed.
Lemma cpow_0l k : (0 < k)%nat -> cpow (RtoC 0) k = RtoC 0.
Proof. destruct k; [lia|]. intros _. cbn. ring. Qed.
Lemma cpow_nz (x : C) k : x <> RtoC 0 -> cpow x k <> RtoC 0.
Proof. intros N. induction k as [|k IH]; [cbn; intros H; apply (f_equal fst) in H; cbn in H; lra|]. cbn. apply Cmult_neq_0; auto. Qed.
Theorem vandermonde n : forall u v, cdet n (fun i k => cpow (u i) k * cpow (v i) (n - 1 - k)) = vprod n u v.
Proof.
  induction n as [|n IH]; intros u v; [reflexivity|]. set (M := fun i k => cpow (u i) k * cpow (v i) (S n - 1 - k)). cbn [vprod].
  destruct (Ceq_dec (v 0%nat) (RtoC 0)) as [V0|V0].
  - rewrite cdet_last_entry.
    + assert (L : M 0%nat n = cpow (u 0%nat) n) by (unfold M; replace (S n - 1 - n)%nat with 0%nat by lia; cbn [cpow]; ring). rewrite L.
      rewrite (cdet_ext n (fun r c => M (S r) c) (fun r c => v (S r) * (cpow (u (S r)) c * cpow (v (S r)) (n - 1 - c)))).
      * rewrite cdet_rows, (IH (fun i => u (S i)) (fun i => v (S i))).
        assert (P : cprod n (fun j => u (S j) * v 0%nat - u 0%nat * v (S j)) = alt Copp n (cpow (u 0%nat) n * cprod n (fun r => v (S r)))).
        { rewrite V0. clear. induction n as [|n IH]; [unfold alt; cbn; ring|]. rewrite !cprod_S, IH, cpow_S. unfold alt. rewrite Nat.even_succ, <- Nat.negb_even. destruct (Nat.even n); cbn [negb]; ring. }
        rewrite P. unfold alt. destruct (Nat.even n); ring.
      * intros r c _ C. unfold M. replace (S n - 1 - c)%nat with (S (n - 1 - c)) by lia. rewrite cpow_S. ring.
    + intros c C. unfold M. rewrite V0, (cpow_0l (S n - 1 - c)) by lia. ring.
  - assert (X : cpow (v 0%nat) n * cdet (S n) M = cpow (v 0%nat) n * (cprod n (fun j => u (S j) * v 0%nat - u 0%nat * v (S j)) * vprod n (fun i => u (S i)) (fun i => v (S i)))).
    { rewrite <- (cdet_shift_ops (S n) M (v 0%nat) (- u 0%nat) n) by lia. rewrite cdet_S, cbsum_first.
      rewrite (cbsum_zero n).
      - unfold alt. cbn [Nat.even Nat.leb]. replace (S n - n)%nat with 1%nat by lia. cbn [Nat.leb].
        assert (L : M 0%nat 0%nat = cpow (v 0%nat) n) by (unfold M; replace (S n - 1 - 0)%nat with n by lia; cbn [cpow]; ring). rewrite L, Cplus_0_r. f_equal.
        rewrite (cdet_ext n _ (fun r c => (u (S r) * v 0%nat - u 0%nat * v (S r)) * (cpow (u (S r)) c * cpow (v (S r)) (n - 1 - c)))).
        + rewrite cdet_rows, (IH (fun i => u (S i)) (fun i => v (S i))). reflexivity.
        + intros r c _ C. unfold skip. cbn [Nat.ltb Nat.leb]. unfold M. replace (S c - 1)%nat with c by lia.
          replace (S n - 1 - S c)%nat with (n - 1 - c)%nat by lia. replace (S n - 1 - c)%nat with (S (n - 1 - c)) by lia. rewrite !cpow_S. ring.
      - intros i Hi. rewrite (cdet_zero_row n _ 0) by (lia || (intros c C; unfold skip; cbn [Nat.ltb Nat.leb]; replace (S n - n)%nat with 1%nat by lia; cbn [Nat.leb];
          unfold M; replace (S c - 1)%nat with c by lia; replace (S n - 1 - c)%nat with (S (S n - 1 - S c)) by lia; rewrite !cpow_S; ring)).
        unfold alt. destruct (Nat.even (S i)); ring. }
    assert (PN := cpow_nz (v 0%nat) n V0). apply (f_equal (Cmult (/ cpow (v 0%nat) n))) in X. rewrite !Cmult_assoc, Cinv_l, !Cmult_1_l in X by exact PN. exact X.
Qed.
