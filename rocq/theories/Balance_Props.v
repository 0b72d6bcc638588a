(** C22: the acceptance rule is in detailed balance with the sampled density, and the
    density is stationary.  Instantiates the abstract [accept] of Sampler_Model with
    IEEE-like extended real numbers (mcmc.py lines 129-135). *)
From Coq Require Import Reals Lra List Bool Lia.
From Verif Require Import Sampler_Model.
Import ListNotations.
Open Scope R_scope.

(** Extended reals: finite, -inf, +inf, NaN. *)
Inductive xr := Fin (r : R) | NInf | PInf | NaN.

(** [a - b] *)
Definition xsub (a b : xr) : xr :=
  match a, b with
  | NaN, _ | _, NaN => NaN
  | Fin x, Fin y => Fin (x - y)
  | Fin _, NInf => PInf
  | Fin _, PInf => NInf
  | NInf, NInf => NaN
  | NInf, _ => NInf
  | PInf, PInf => NaN
  | PInf, _ => PInf
  end.
(** [a > b]; false when NaN is involved. *)
Definition xgt (a b : xr) : bool :=
  match a, b with
  | NaN, _ | _, NaN => false
  | Fin x, Fin y => if Rlt_dec y x then true else false
  | Fin _, NInf => true
  | PInf, PInf => false
  | PInf, _ => true
  | _, _ => false
  end.
(** [jnp.log(u)] for a uniform draw 0 <= u < 1. *)
Definition xlog (u : R) : xr := if Req_EM_T u 0 then NInf else Fin (ln u).

(** lines 132-135: [ratio > rnd]. *)
Definition accept (lp2 lp1 : xr) (u : R) : bool := xgt (xsub lp2 lp1) (xlog u).

(** The density that a log-probability stands for; [NaN] and [+inf] stand for none. *)
Definition weight (lp : xr) : R := match lp with Fin r => exp r | _ => 0 end.
Definition proper (lp : xr) : Prop := match lp with Fin _ | NInf => True | _ => False end.

(** *** Specification: [a] is the probability that the test succeeds for a uniform draw
    from [0,1): the draws that succeed are those of the interval [0,a). *)
Definition acceptance_probability (lp2 lp1 : xr) (a : R) : Prop :=
  0 <= a <= 1 /\ forall u, 0 <= u < 1 -> (accept lp2 lp1 u = true <-> u < a).

Lemma acceptance_unique lp2 lp1 a b : acceptance_probability lp2 lp1 a -> acceptance_probability lp2 lp1 b -> a = b.
Proof.
  intros [A1 A2] [B1 B2]. destruct (Rtotal_order a b) as [H|[H|H]]; auto; exfalso.
  - assert (X : 0 <= a < 1) by lra. pose proof (A2 a X). pose proof (B2 a X). intuition lra.
  - assert (X : 0 <= b < 1) by lra. pose proof (A2 b X). pose proof (B2 b X). intuition lra.
Qed.

(** Density ratio capped at one. *)
Theorem C22_acceptance_is_metropolis : forall lp2 lp1, proper lp2 -> proper lp1 -> 0 < weight lp1 ->
  acceptance_probability lp2 lp1 (Rmin 1 (weight lp2 / weight lp1)).
Proof.
  intros lp2 lp1 P2 P1 W. destruct lp1 as [y| | |]; simpl in W; try lra.
  split.
  - unfold Rmin. destruct lp2 as [x| | |]; simpl; try contradiction.
    + pose proof (exp_pos x). pose proof (exp_pos y).
      assert (0 < exp x / exp y) by (apply Rdiv_lt_0_compat; auto).
      destruct (Rle_dec 1 (exp x / exp y)); lra.
    + unfold Rdiv. rewrite Rmult_0_l. destruct (Rle_dec 1 0); lra.
  - intros u Hu. unfold accept, xlog. destruct lp2 as [x| | |]; simpl; try contradiction.
    + destruct (Req_EM_T u 0).
      * subst. simpl. split; auto. intros _. unfold Rmin.
        pose proof (exp_pos x). pose proof (exp_pos y).
        assert (0 < exp x / exp y) by (apply Rdiv_lt_0_compat; auto).
        destruct (Rle_dec 1 (exp x / exp y)); lra.
      * assert (U : 0 < u) by lra. simpl.
        assert (E : exp x / exp y = exp (x - y)).
        { unfold Rminus. rewrite exp_plus, exp_Ropp. reflexivity. }
        rewrite E.
        assert (I : ln u < x - y <-> u < exp (x - y)).
        { split; intros H.
          - rewrite <- (exp_ln u U). apply exp_increasing. auto.
          - rewrite <- (ln_exp (x - y)). apply ln_increasing; auto. }
        unfold Rmin. destruct (Rlt_dec (ln u) (x - y)) as [H|H].
        -- assert (u < exp (x - y)) by (apply I; auto). destruct (Rle_dec 1 (exp (x - y))); split; intros; auto; lra.
        -- assert (~ u < exp (x - y)) by (intros X; apply H, I; auto).
           destruct (Rle_dec 1 (exp (x - y))); split; intros; try discriminate; lra.
    + unfold Rdiv. rewrite Rmult_0_l. unfold Rmin. destruct (Rle_dec 1 0); [lra|].
      destruct (Req_EM_T u 0); simpl; split; intros; try discriminate; lra.
Qed.

(** *** Detailed balance, for all densities and all (symmetric) proposals. *)
Theorem C22_detailed_balance : forall lpx lpy a b, proper lpx -> proper lpy ->
  acceptance_probability lpy lpx a -> acceptance_probability lpx lpy b ->
  weight lpx * a = weight lpy * b.
Proof.
  intros lpx lpy a b Px Py A B.
  assert (Zero : forall l1 l2 c, l2 = NInf -> proper l1 -> 0 < weight l1 -> acceptance_probability l2 l1 c -> c = 0).
  { intros l1 l2 c -> P W H. apply (acceptance_unique NInf l1); auto.
    replace 0 with (Rmin 1 (weight NInf / weight l1)); [apply C22_acceptance_is_metropolis; simpl; auto|].
    simpl. unfold Rdiv. rewrite Rmult_0_l. unfold Rmin. destruct (Rle_dec 1 0); lra. }
  destruct lpx as [x| | |], lpy as [y| | |]; try contradiction; simpl.
  - pose proof (exp_pos x) as Ex. pose proof (exp_pos y) as Ey.
    assert (Wx : 0 < weight (Fin x)) by exact Ex. assert (Wy : 0 < weight (Fin y)) by exact Ey.
    rewrite (acceptance_unique _ _ _ _ A (C22_acceptance_is_metropolis (Fin y) (Fin x) I I Wx)).
    rewrite (acceptance_unique _ _ _ _ B (C22_acceptance_is_metropolis (Fin x) (Fin y) I I Wy)). simpl.
    unfold Rmin. destruct (Rle_dec 1 (exp y / exp x)) as [H|H]; destruct (Rle_dec 1 (exp x / exp y)) as [H'|H'].
    + assert (exp x <= exp y). { apply (Rmult_le_compat_r (exp x)) in H; [|lra]. unfold Rdiv in H. rewrite Rmult_assoc, Rinv_l in H; lra. }
      assert (exp y <= exp x). { apply (Rmult_le_compat_r (exp y)) in H'; [|lra]. unfold Rdiv in H'. rewrite Rmult_assoc, Rinv_l in H'; lra. }
      lra.
    + field. lra.
    + field. lra.
    + exfalso. apply Rnot_le_lt in H. apply Rnot_le_lt in H'.
      apply (Rmult_lt_compat_r (exp x)) in H; [|lra]. unfold Rdiv in H. rewrite Rmult_assoc, Rinv_l in H; [|lra].
      apply (Rmult_lt_compat_r (exp y)) in H'; [|lra]. unfold Rdiv in H'. rewrite Rmult_assoc, Rinv_l in H'; lra.
  - rewrite (Zero (Fin x) NInf a); auto; simpl; [ring|apply exp_pos].
  - rewrite (Zero (Fin y) NInf b); auto; simpl; [ring|apply exp_pos].
  - lra.
Qed.

(** *** Stationarity of the sampled density for the whole update, on any finite state
    space: [q] the proposal matrix (symmetric, rows sum to one), the move [x -> y] is
    accepted with probability [A x y], otherwise the walker stays. *)
Section Chain.
  Variable n : nat.
  Variable lp : nat -> xr.
  Variable q A : nat -> nat -> R.
  Hypothesis lp_proper : forall x, (x < n)%nat -> proper (lp x).
  Hypothesis q_sym : forall x y, (x < n)%nat -> (y < n)%nat -> q x y = q y x.
  Hypothesis A_prob : forall x y, (x < n)%nat -> (y < n)%nat -> acceptance_probability (lp y) (lp x) (A x y).

  Definition sum (f : nat -> R) : R := fold_right Rplus 0 (map f (seq 0 n)).

  (** One update: probability of going from [x] to [y]. *)
  Definition P (x y : nat) : R :=
    q x y * A x y + (if Nat.eqb x y then sum (fun z => q x z * (1 - A x z)) else 0).
  (** The distribution after [t] updates. *)
  Fixpoint evolve (t : nat) (pi : nat -> R) : nat -> R :=
    match t with O => pi | S t' => fun y => sum (fun x => evolve t' pi x * P x y) end.

  Lemma sum_ext f g : (forall x, (x < n)%nat -> f x = g x) -> sum f = sum g.
  Proof. intros H. unfold sum. f_equal. apply map_ext_in. intros a Ha. apply H. apply in_seq in Ha. lia. Qed.
  Lemma sum_plus f g : sum (fun x => f x + g x) = sum f + sum g.
  Proof. unfold sum. induction (seq 0 n); simpl; lra. Qed.
  Lemma sum_scal c f : sum (fun x => c * f x) = c * sum f.
  Proof. unfold sum. induction (seq 0 n); simpl; lra. Qed.
  Lemma sum_pick y f : (y < n)%nat -> sum (fun x => if Nat.eqb x y then f x else 0) = f y.
  Proof.
    intros H. unfold sum.
    assert (G : forall l, NoDup l -> fold_right Rplus 0 (map (fun x => if Nat.eqb x y then f x else 0) l) = if in_dec Nat.eq_dec y l then f y else 0).
    { induction 1 as [|x l Nx ND IH]; [reflexivity|]. cbn [map fold_right]. rewrite IH.
      destruct (Nat.eqb_spec x y).
      - subst. destruct (in_dec Nat.eq_dec y l); [contradiction|]. destruct (in_dec Nat.eq_dec y (y :: l)) as [|K]; [lra|].
        exfalso; apply K; left; auto.
      - destruct (in_dec Nat.eq_dec y l), (in_dec Nat.eq_dec y (x :: l)) as [K|K]; try lra.
        + exfalso; apply K; right; auto.
        + destruct K; [congruence|contradiction]. }
    rewrite G by apply seq_NoDup. destruct (in_dec Nat.eq_dec y (seq 0 n)) as [|K]; auto.
    exfalso; apply K. apply in_seq. lia.
  Qed.

  Theorem C22_detailed_balance_chain : forall x y, (x < n)%nat -> (y < n)%nat ->
    weight (lp x) * P x y = weight (lp y) * P y x.
  Proof.
    intros x y Hx Hy. unfold P. rewrite (Nat.eqb_sym y x). destruct (Nat.eqb_spec x y); [subst; auto|].
    rewrite (q_sym y x) by auto.
    pose proof (C22_detailed_balance (lp x) (lp y) (A x y) (A y x) (lp_proper x Hx) (lp_proper y Hy)
       (A_prob x y Hx Hy) (A_prob y x Hy Hx)) as H.
    rewrite !Rplus_0_r.
    replace (weight (lp x) * (q x y * A x y)) with (q x y * (weight (lp x) * A x y)) by ring.
    replace (weight (lp y) * (q x y * A y x)) with (q x y * (weight (lp y) * A y x)) by ring. rewrite H. reflexivity.
  Qed.

  Hypothesis q_rows : forall x, (x < n)%nat -> sum (q x) = 1.

  Lemma P_rows x : (x < n)%nat -> sum (P x) = 1.
  Proof.
    intros Hx. unfold P. rewrite sum_plus.
    rewrite (sum_ext (fun y => if Nat.eqb x y then sum (fun z => q x z * (1 - A x z)) else 0)
                     (fun y => if Nat.eqb y x then (fun _ => sum (fun z => q x z * (1 - A x z))) y else 0))
      by (intros; rewrite Nat.eqb_sym; auto).
    rewrite sum_pick by auto. rewrite <- sum_plus.
    transitivity (sum (q x)); [|apply q_rows; auto]. apply sum_ext. intros; ring.
  Qed.

  (** The squared wavefunction is invariant under any number of updates. *)
  Theorem C22_density_stationary : forall t y, (y < n)%nat ->
    evolve t (fun x => weight (lp x)) y = weight (lp y).
  Proof.
    induction t as [|t IH]; intros y Hy; [reflexivity|]. cbn [evolve].
    rewrite (sum_ext _ (fun x => weight (lp y) * P y x)).
    - rewrite sum_scal, P_rows by auto. ring.
    - intros x Hx. rewrite IH by auto. apply C22_detailed_balance_chain; auto.
  Qed.
End Chain.

(** The log-probability of the code is [2 log|psi|] (base.py line 181): its weight is
    the squared modulus of the wavefunction, also at nodes. *)
Theorem C22_weight_is_psi_squared : forall psi : R,
  weight (if Req_EM_T psi 0 then NInf else Fin (2 * ln (Rabs psi))) = psi * psi.
Proof.
  intros psi. destruct (Req_EM_T psi 0); simpl; [subst; ring|].
  replace (2 * ln (Rabs psi)) with (ln (Rabs psi) + ln (Rabs psi)) by ring.
  rewrite exp_plus, exp_ln by (apply Rabs_pos_lt; auto).
  rewrite <- Rabs_mult. apply Rabs_right. pose proof (Rle_0_sqr psi). unfold Rsqr in *. lra.
Qed.

(** A walker whose log-probability is NaN rejects every proposal: it never moves again;
    a proposal whose log-probability is NaN is never accepted. *)
Theorem C22_nan_walker_stuck : forall lp u, accept lp NaN u = false /\ accept NaN lp u = false.
Proof. intros [x| | |] u; split; reflexivity. Qed.

(** The hypotheses can be met: two states, one of them with twice the density. *)
Example C22_example :
  acceptance_probability (Fin 0) (Fin (ln 2)) (1 / 2) /\ acceptance_probability (Fin (ln 2)) (Fin 0) 1 /\
  weight (Fin (ln 2)) = 2.
Proof.
  assert (E : weight (Fin (ln 2)) = 2) by (simpl; apply exp_ln; lra).
  assert (E0 : weight (Fin 0) = 1) by (simpl; apply exp_0).
  split; [|split; auto].
  - replace (1/2) with (Rmin 1 (weight (Fin 0) / weight (Fin (ln 2)))).
    + apply C22_acceptance_is_metropolis; simpl; auto. rewrite exp_ln; lra.
    + rewrite E, E0. unfold Rmin. destruct (Rle_dec 1 (1 / 2)); lra.
  - assert (M : Rmin 1 (weight (Fin (ln 2)) / weight (Fin 0)) = 1).
    { rewrite E, E0. unfold Rmin. destruct (Rle_dec 1 (2 / 1)); lra. }
    pose proof (C22_acceptance_is_metropolis (Fin (ln 2)) (Fin 0) I I) as H. rewrite M in H. apply H.
    simpl. rewrite exp_0; lra.
Qed.

Print Assumptions C22_detailed_balance.
Print Assumptions C22_density_stationary.
