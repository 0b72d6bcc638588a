(** Lemmas for C77. *)
From Coq Require Import Reals List Arith Lia Lra ClassicalDedekindReals Classical.
From Coquelicot Require Import Coquelicot.
From Verif Require Import Lin Lap_Spec Jet Attn_Props Ph_Spec Ph_Model.
Import ListNotations.
Open Scope R_scope.

Lemma sum_split n m f : sum (n + m) f = sum n f + sum m (fun i => f (n + i)%nat).
Proof. induction m as [|m IH]. - rewrite Nat.add_0_r; cbn; ring. - rewrite Nat.add_succ_r; cbn [sum]; rewrite IH; ring. Qed.
Lemma sum_block N f : sum (3 * N) f = sum N (fun e => sum 3 (fun i => f (3 * e + i)%nat)).
Proof.
  induction N as [|N IH]; [reflexivity|]. replace (3 * S N)%nat with (3 * N + 3)%nat by lia. rewrite sum_split, IH. reflexivity.
Qed.
Lemma div3 e i : (i < 3)%nat -> ((3 * e + i) / 3 = e)%nat /\ ((3 * e + i) mod 3 = i)%nat.
Proof.
  intros H. split.
  - symmetry. apply (Nat.div_unique _ 3 e i); lia.
  - symmetry. apply (Nat.mod_unique _ 3 e i); lia.
Qed.
Lemma sum_single N e f : (e < N)%nat -> (forall i, (i < N)%nat -> i <> e -> f i = 0) -> sum N f = f e.
Proof.
  induction N as [|N IH]; [lia|]. intros H Z. cbn [sum]. destruct (Nat.eq_dec e N) as [->|E].
  - rewrite sum_0; [ring|]. intros i Hi. apply Z; lia.
  - rewrite IH; [rewrite (Z N); [ring|lia|lia]|lia|]. intros i Hi. apply Z; lia.
Qed.
Lemma case3 (P : nat -> Prop) : P 0%nat -> P 1%nat -> P 2%nat -> forall i, (i < 3)%nat -> P i.
Proof. intros A B C [|[|[|i]]] H; auto; lia. Qed.
Lemma with_electron_at x e q i : (i < 3)%nat -> with_electron x e q (3 * e + i)%nat = q i.
Proof. intros H. unfold with_electron. destruct (div3 e i H) as [-> ->]. now rewrite Nat.eqb_refl. Qed.

(** A function of all coordinates along a curve of one electron. *)
Lemma jet_electron N f x g h e (u : nat -> R -> R) (b c : vec) : (e < N)%nat -> derivatives (3 * N) f x g h ->
  (forall i, (i < 3)%nat -> jet (u i) (x (3 * e + i)%nat) (b i) (c i)) ->
  jet (fun t => f (with_electron x e (fun i => u i t))) (f x) (sum 3 (fun i => g (3 * e + i)%nat * b i))
    (sum 3 (fun i => g (3 * e + i)%nat * c i) + sum 3 (fun i => sum 3 (fun j => h (3 * e + i)%nat (3 * e + j)%nat * (b i * b j)))).
Proof.
  intros He (D & G & O & DX & T & T2 & GE) J.
  set (U := fun k t => if Nat.eqb (k / 3) e then u (k mod 3)%nat t else x k).
  set (B := fun k => if Nat.eqb (k / 3) e then b (k mod 3)%nat else 0).
  set (C := fun k => if Nat.eqb (k / 3) e then c (k mod 3)%nat else 0).
  assert (JJ : forall k, (k < 3 * N)%nat -> jet (U k) (x k) (B k) (C k)).
  { intros k Hk. unfold U, B, C. destruct (Nat.eqb_spec (k / 3) e) as [E|E].
    - assert (K : k = (3 * e + k mod 3)%nat) by (rewrite <- E; apply Nat.div_mod; lia).
      assert (M3 : (k mod 3 < 3)%nat) by (apply Nat.mod_upper_bound; lia).
      pose proof (J _ M3) as J'. rewrite <- K in J'. exact J'.
    - apply jet_const. }
  pose proof (jet_general (3 * N) f G h D U x B C O T DX T2 JJ) as JG.
  assert (Z : forall F : nat -> R, (forall e' i, (e' < N)%nat -> (i < 3)%nat -> e' <> e -> F (3 * e' + i)%nat = 0) ->
    sum (3 * N) F = sum 3 (fun i => F (3 * e + i)%nat)).
  { intros F HF. rewrite sum_block. apply (sum_single N e (fun e0 => sum 3 (fun i => F (3 * e0 + i)%nat))); auto.
    intros i Hi Ne. apply sum_0. intros j Hj. auto. }
  assert (BZ : forall e' i, (i < 3)%nat -> e' <> e -> B (3 * e' + i)%nat = 0 /\ C (3 * e' + i)%nat = 0).
  { intros e' i Hi Ne. unfold B, C. destruct (div3 e' i Hi) as [-> _]. rewrite (proj2 (Nat.eqb_neq _ _) Ne). auto. }
  assert (BE : forall i, (i < 3)%nat -> B (3 * e + i)%nat = b i /\ C (3 * e + i)%nat = c i).
  { intros i Hi. unfold B, C. destruct (div3 e i Hi) as [-> ->]. rewrite Nat.eqb_refl. auto. }
  eapply jet_eq; [exact JG|reflexivity| |].
  - rewrite Z. 2:{ intros. destruct (BZ e' i) as [-> _]; auto; ring. }
    apply sum_ext. intros i Hi. destruct (BE i Hi) as [-> _]. rewrite GE; [reflexivity|lia].
  - f_equal.
    + rewrite Z. 2:{ intros. destruct (BZ e' i) as [_ ->]; auto; ring. }
      apply sum_ext. intros i Hi. destruct (BE i Hi) as [_ ->]. rewrite GE; [reflexivity|lia].
    + rewrite Z. 2:{ intros. destruct (BZ e' i) as [-> _]; auto. apply sum_0. intros; ring. }
      apply sum_ext. intros i Hi. rewrite Z. 2:{ intros. destruct (BZ e' i0) as [-> _]; auto; ring. }
      apply sum_ext. intros j Hj. destruct (BE i Hi) as [-> _]. destruct (BE j Hj) as [-> _]. reflexivity.
Qed.

Lemma second_psi N f x g h s e (u : nat -> R -> R) (b c : vec) : (e < N)%nat -> derivatives (3 * N) f x g h ->
  (forall i, (i < 3)%nat -> jet (u i) (x (3 * e + i)%nat) (b i) (c i)) ->
  second (fun t => s * exp (f (with_electron x e (fun i => u i t))))
    (s * exp (f x) * (sum 3 (fun i => g (3 * e + i)%nat * c i) + sum 3 (fun i => sum 3 (fun j => (h (3 * e + i)%nat (3 * e + j)%nat + g (3 * e + i)%nat * g (3 * e + j)%nat) * (b i * b j))))).
Proof.
  intros He Hd J. pose proof (jet_electron N f x g h e u b c He Hd J) as JE.
  pose proof (jet_scal s _ _ _ _ (jet_exp _ _ _ _ JE)) as JS. do 2 eexists. eapply jet_eq; [exact JS|reflexivity|reflexivity|].
  cbn [sum]. ring.
Qed.

Lemma jet_cos : jet cos 1 0 (-1).
Proof.
  split; [apply cos_0|]. exists (fun t => - sin t). split; [|split].
  - apply near_all. intros t. apply derivable_pt_lim_cos.
  - rewrite sin_0. ring.
  - apply (derivable_eq _ _ (- cos 0)); [rewrite cos_0; ring|]. apply derivable_pt_lim_opp, derivable_pt_lim_sin.
Qed.
Lemma jet_sin : jet sin 0 1 0.
Proof.
  split; [apply sin_0|]. exists cos. split; [|split].
  - apply near_all. intros t. apply derivable_pt_lim_sin.
  - apply cos_0.
  - apply (derivable_eq _ _ (- sin 0)); [rewrite sin_0; ring|]. apply derivable_pt_lim_cos.
Qed.

(** First and second derivatives of a rotation about the axis [u] through [c]. *)
Definition turn1 (u : nat) (d : vec) : vec := fun i =>
  if Nat.eqb i u then 0 else if Nat.eqb i ((u + 1) mod 3) then - d ((u + 2) mod 3)%nat else d ((u + 1) mod 3)%nat.
Definition turn2 (u : nat) (d : vec) : vec := fun i => if Nat.eqb i u then 0 else - d i.
Lemma jet_turn u c q i : (u < 3)%nat -> (i < 3)%nat ->
  jet (fun th => turn u c th q i) (q i) (turn1 u (fun j => q j - c j) i) (turn2 u (fun j => q j - c j) i).
Proof.
  intros Hu Hi. unfold turn, turn1, turn2. destruct (Nat.eqb_spec i u) as [E|E]; [apply jet_const|].
  destruct (Nat.eqb_spec i ((u + 1) mod 3)) as [E1|E1].
  - set (a := q i - c i). set (b := q ((u + 2) mod 3)%nat - c ((u + 2) mod 3)%nat).
    eapply jet_eq; [apply (jet_plus _ _ _ _ _ _ _ _ (jet_const (c i)) (jet_minus _ _ _ _ _ _ _ _ (jet_mult _ _ _ _ _ _ _ _ jet_cos (jet_const a)) (jet_mult _ _ _ _ _ _ _ _ jet_sin (jet_const b))))| | |]; unfold a; ring.
  - set (a := q i - c i). set (b := q ((u + 1) mod 3)%nat - c ((u + 1) mod 3)%nat).
    eapply jet_eq; [apply (jet_plus _ _ _ _ _ _ _ _ (jet_const (c i)) (jet_plus _ _ _ _ _ _ _ _ (jet_mult _ _ _ _ _ _ _ _ jet_sin (jet_const b)) (jet_mult _ _ _ _ _ _ _ _ jet_cos (jet_const a))))| | |]; unfold a; ring.
Qed.

(** The value of the derivative term of one electron with the matrix M and the vector b. *)
Definition one_electron (M : mat) (b g : vec) (h : mat) : R :=
  - (sum 3 (fun i => sum 3 (fun j => M i j * h j i)) + sum 3 (fun i => sum 3 (fun j => g i * M i j * g j))) + sum 3 (fun i => b i * g i).
Lemma rad_sq p atoms a : rad p atoms a * rad p atoms a = rel p atoms a 0%nat * rel p atoms a 0%nat + rel p atoms a 1%nat * rel p atoms a 1%nat + rel p atoms a 2%nat * rel p atoms a 2%nat.
Proof. unfold rad. rewrite norm_sq. unfold dot. cbn [sum]. ring. Qed.
Lemma rad_pos p atoms a : rad p atoms a <> 0 -> 0 < rad p atoms a.
Proof. pose proof (norm_nonneg 3 (rel p atoms a)). unfold rad. lra. Qed.

Lemma one_electron_operator A p atoms l2 g (h : mat) : (forall a, (a < A)%nat -> rad p atoms a <> 0) ->
  one_electron (mass_fwd A p atoms l2) (first_fwd A p atoms l2) g h
  = - (1 / 2) * sum 3 (fun i => h i i + g i * g i)
    + sum A (fun a => l2 a / rad p atoms a * - sum 3 (fun u => sum 3 (fun i => g i * turn2 u (rel p atoms a) i)
        + sum 3 (fun i => sum 3 (fun j => (h i j + g i * g j) * (turn1 u (rel p atoms a) i * turn1 u (rel p atoms a) j))))).
Proof.
  induction A as [|A IH]; intros HR.
  - unfold one_electron, mass_fwd, first_fwd, delta. cbn [sum Nat.eqb]. field.
  - assert (HA : one_electron (mass_fwd (S A) p atoms l2) (first_fwd (S A) p atoms l2) g h
      = one_electron (mass_fwd A p atoms l2) (first_fwd A p atoms l2) g h
        + (l2 A / rad p atoms A * - sum 3 (fun u => sum 3 (fun i => g i * turn2 u (rel p atoms A) i)
        + sum 3 (fun i => sum 3 (fun j => (h i j + g i * g j) * (turn1 u (rel p atoms A) i * turn1 u (rel p atoms A) j)))))).
    { pose proof (rad_pos p atoms A (HR A (Nat.lt_succ_diag_r A))) as RP.
      unfold one_electron, mass_fwd, first_fwd, delta, turn1, turn2. cbn [sum Nat.eqb Nat.modulo Nat.divmod fst snd Nat.sub Nat.add].
      unfold inv_r. destruct (Rlt_dec 0 (rad p atoms A)) as [_|N]; [|lra].
      pose proof (rad_sq p atoms A) as RS. set (r := rad p atoms A) in *.
      set (d0 := rel p atoms A 0%nat) in *. set (d1 := rel p atoms A 1%nat) in *. set (d2 := rel p atoms A 2%nat) in *.
      set (lam := l2 A).
      set (D := rel p atoms A) in *.
      repeat match goal with |- context [sum A ?F] => let z := fresh "z" in set (z := sum A F); clearbody z end.
      assert (LR : lam = (lam / r) * r) by (field; lra). set (v := lam / r) in *.
      replace (2 * lam * (1 / r)) with (2 * v) by (unfold v; field; lra).
      assert (I1 : forall c d e, lam * (r * c - d * e * (1 / r)) = v * ((d0 * d0 + d1 * d1 + d2 * d2) * c - d * e)).
      { intros c d e. rewrite <- RS. unfold v. field. lra. }
      rewrite !I1. clearbody v. clear - v. ring. }
    rewrite HA, IH. 1: match goal with |- _ = _ + sum (S A) ?F => change (sum (S A) F) with (sum A F + F A) end; cbv beta; ring.
    intros a Ha. apply HR. lia.
Qed.
