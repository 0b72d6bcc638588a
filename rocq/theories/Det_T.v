(** The determinant of the transposed matrix (complex matrices). *)
From Coq Require Import Reals Arith Lra Lia.
From Coquelicot Require Import Coquelicot.
From Verif Require Import Det Wf_Model Wf_Props Vandermonde.
Open Scope C_scope.

Lemma cbsum_exch n m f : cbsum n (fun i => cbsum m (fun j => f i j)) = cbsum m (fun j => cbsum n (fun i => f i j)).
Proof. apply (bigsum_exch _ _ Cplus Cmult Cminus Copp C_rt). Qed.
Lemma skip_SS i r : skip (S i) (S r) = S (skip i r).
Proof. unfold skip. change (Nat.ltb (S r) (S i)) with (Nat.ltb r i). destruct (Nat.ltb r i); reflexivity. Qed.
Lemma alt_mult i x y : alt Copp i (x * y) = x * alt Copp i y.
Proof. unfold alt. destruct (Nat.even i); ring. Qed.
Definition corner (n : nat) (m : nat -> nat -> C) : C :=
  m 0%nat 0%nat * cdet (S n) (fun r c => m (S r) (S c)) +
  cbsum (S n) (fun i => cbsum (S n) (fun j => - (alt Copp i (alt Copp j (m (S i) 0%nat * m 0%nat (S j) * cdet n (fun r c => m (S (skip i r)) (S (skip j c)))))))).
Lemma cdet_transpose_step n (m : nat -> nat -> C) :
  (forall a, cdet n a = cdet n (fun r c => a c r)) -> (forall a, cdet (S n) a = cdet (S n) (fun r c => a c r)) -> cdet (S (S n)) m = corner n m.
Proof.
  intros H0 H1. rewrite cdet_S, cbsum_first. unfold corner. apply f_equal2.
  - unfold alt. cbn [Nat.even]. f_equal.
  - apply cbsum_ext. intros i _. rewrite (H1 (fun r c => m (skip (S i) r) (S c))), cdet_S.
    rewrite <- (cbsum_scal _ (m (S i) 0%nat)).
    transitivity (cbsum (S n) (fun j => RtoC (-1) * (alt Copp i (alt Copp j (m (S i) 0%nat * m 0%nat (S j) * cdet n (fun r c => m (S (skip i r)) (S (skip j c)))))))).
    + assert (AS : forall f, alt Copp (S i) (cbsum (S n) f) = cbsum (S n) (fun j => alt Copp (S i) (f j))).
      { intros f. unfold alt. destruct (Nat.even (S i)); [reflexivity|]. rewrite <- (bigsum_opp _ _ Cplus Cmult Cminus Copp C_rt). reflexivity. }
      rewrite AS. apply cbsum_ext. intros j _. rewrite (H0 (fun r c => m (skip (S i) (S c)) (S (skip j r)))).
      rewrite (cdet_ext n (fun r c => m (skip (S i) (S r)) (S (skip j c))) (fun r c => m (S (skip i r)) (S (skip j c)))) by (intros; rewrite skip_SS; reflexivity).
      unfold skip at 1. cbn [Nat.ltb Nat.leb]. unfold alt. rewrite Nat.even_succ, <- Nat.negb_even.
      replace (RtoC (-1)) with (- RtoC 1) by (unfold RtoC, Copp; cbn; f_equal; ring).
      destruct (Nat.even i), (Nat.even j); cbn [negb]; ring.
    + apply cbsum_ext. intros j _. replace (RtoC (-1)) with (- RtoC 1) by (unfold RtoC, Copp; cbn; f_equal; ring). ring.
Qed.
Theorem cdet_transpose n : forall m, cdet n m = cdet n (fun r c => m c r).
Proof.
  enough (forall n, (forall m, cdet n m = cdet n (fun r c => m c r)) /\ (forall m, cdet (S n) m = cdet (S n) (fun r c => m c r))) by (apply H).
  clear n. induction n as [|n [H0 H1]].
  - split; [reflexivity|]. intros m. rewrite !cdet_S. reflexivity.
  - split; [exact H1|]. intros m. rewrite !(cdet_transpose_step n) by assumption. unfold corner. apply f_equal2; [apply f_equal; apply H1|].
    rewrite cbsum_exch. apply cbsum_ext. intros i _. apply cbsum_ext. intros j _. rewrite (H0 (fun r c => m (S (skip j r)) (S (skip i c)))). unfold alt. destruct (Nat.even i), (Nat.even j); ring.
Qed.
