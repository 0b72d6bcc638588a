(** Lemmas for C77: the 3x3 Cholesky factorization, positive definiteness and eigenvalues,
    and the divergence of the mass matrix. *)
From Coq Require Import Reals List Arith Lia Lra ClassicalDedekindReals Classical.
From Coquelicot Require Import Coquelicot.
From Verif Require Import Lin Lap_Spec Jet Attn_Props Ph_Spec Ph_Model Ph_Lemmas.
Import ListNotations.
Open Scope R_scope.

Definition symmetric (m : mat) : Prop := forall i j, m i j = m j i.
Lemma sym_id m : symmetric m -> forall i j, sym m i j = m i j.
Proof. intros S i j. unfold sym. rewrite (S j i). field. Qed.

(** The three leading minors. *)
Definition minor2 (m : mat) : R := m 0%nat 0%nat * m 1%nat 1%nat - m 1%nat 0%nat * m 1%nat 0%nat.
Definition minor3 (m : mat) : R :=
  m 0%nat 0%nat * (m 1%nat 1%nat * m 2%nat 2%nat - m 2%nat 1%nat * m 2%nat 1%nat)
  - m 1%nat 0%nat * (m 1%nat 0%nat * m 2%nat 2%nat - m 2%nat 1%nat * m 2%nat 0%nat)
  + m 2%nat 0%nat * (m 1%nat 0%nat * m 2%nat 1%nat - m 1%nat 1%nat * m 2%nat 0%nat).
Definition minors (m : mat) : Prop := 0 < m 0%nat 0%nat /\ 0 < minor2 m /\ 0 < minor3 m.

Lemma chol_some m L : symmetric m -> cholesky m = Some L -> exists l00 l10 l20 l11 l21 l22, L = chol_entry l00 l10 l20 l11 l21 l22 /\
  0 < l00 /\ 0 < l11 /\ 0 < l22 /\ m 0%nat 0%nat = l00 * l00 /\ m 1%nat 0%nat = l10 * l00 /\ m 2%nat 0%nat = l20 * l00 /\
  m 1%nat 1%nat = l10 * l10 + l11 * l11 /\ m 2%nat 1%nat = l20 * l10 + l21 * l11 /\ m 2%nat 2%nat = l20 * l20 + l21 * l21 + l22 * l22.
Proof.
  intros S. unfold cholesky. rewrite !(sym_id m S).
  destruct (Rlt_dec 0 (m 0 0)%nat) as [D0|]; [|discriminate].
  set (l00 := sqrt (m 0 0)%nat). assert (Q0 : l00 * l00 = m 0%nat 0%nat) by (apply sqrt_sqrt; lra). assert (P0 : 0 < l00) by (apply sqrt_lt_R0; auto).
  match goal with |- context [Rlt_dec 0 ?d] => destruct (Rlt_dec 0 d) as [D1|]; [|discriminate] end.
  match type of D1 with 0 < ?d => set (l11 := sqrt d); assert (Q1 : l11 * l11 = d) by (apply sqrt_sqrt; lra); assert (P1 : 0 < l11) by (apply sqrt_lt_R0; auto) end.
  match goal with |- context [Rlt_dec 0 ?d] => destruct (Rlt_dec 0 d) as [D2|]; [|discriminate] end.
  match type of D2 with 0 < ?d => set (l22 := sqrt d); assert (Q2 : l22 * l22 = d) by (apply sqrt_sqrt; lra); assert (P2 : 0 < l22) by (apply sqrt_lt_R0; auto) end.
  intros E. injection E as <-. do 6 eexists. split; [reflexivity|]. clearbody l00 l11 l22.
  repeat split; auto; try rewrite Q2; try rewrite Q1; try rewrite Q0; try reflexivity; try (field; lra).
Qed.
Lemma chol_minors m L : symmetric m -> cholesky m = Some L -> minors m.
Proof.
  intros S H. destruct (chol_some m L S H) as (a & b & c & d & e & f & _ & A & D & F & E0 & E1 & E2 & E3 & E4 & E5).
  unfold minors, minor2, minor3. rewrite E0, E1, E2, E3, E4, E5. repeat split.
  - nra.
  - replace (a * a * (b * b + d * d) - b * a * (b * a)) with ((a * d) * (a * d)) by ring. assert (0 < a * d) by (apply Rmult_lt_0_compat; auto). apply Rmult_lt_0_compat; auto.
  - match goal with |- 0 < ?x => replace x with ((a * d * f) * (a * d * f)) by ring end.
    assert (0 < a * d * f) by (repeat apply Rmult_lt_0_compat; auto). apply Rmult_lt_0_compat; auto.
Qed.
Lemma minors_chol m : symmetric m -> minors m -> cholesky m <> None.
Proof.
  intros S (M1 & M2 & M3). unfold cholesky. rewrite !(sym_id m S).
  destruct (Rlt_dec 0 (m 0 0)%nat) as [D0|]; [|contradiction].
  set (l00 := sqrt (m 0 0)%nat). assert (Q0 : l00 * l00 = m 0%nat 0%nat) by (apply sqrt_sqrt; lra). assert (P0 : 0 < l00) by (apply sqrt_lt_R0; auto).
  match goal with |- context [Rlt_dec 0 ?d] => set (d1 := d) end.
  assert (E1 : d1 * m 0%nat 0%nat = minor2 m) by (unfold d1, minor2; rewrite <- Q0; field; lra).
  assert (H1 : 0 < d1) by (apply (Rmult_lt_reg_r (m 0 0)%nat); [auto|]; rewrite E1, Rmult_0_l; auto).
  destruct (Rlt_dec 0 d1) as [_|]; [|contradiction].
  set (l11 := sqrt d1). assert (Q1 : l11 * l11 = d1) by (apply sqrt_sqrt; lra). assert (P1 : 0 < l11) by (apply sqrt_lt_R0; auto).
  match goal with |- context [Rlt_dec 0 ?d] => set (d2 := d) end.
  assert (E2 : d2 * minor2 m = minor3 m).
  { assert (X : d2 = m 2%nat 2%nat - m 2%nat 0%nat * m 2%nat 0%nat / m 0%nat 0%nat - (m 2%nat 1%nat - m 2%nat 0%nat * m 1%nat 0%nat / m 0%nat 0%nat) * (m 2%nat 1%nat - m 2%nat 0%nat * m 1%nat 0%nat / m 0%nat 0%nat) / d1).
    { unfold d2. rewrite <- Q1, <- Q0. field. split; lra. }
    rewrite X. unfold Rdiv. replace (/ d1) with (m 0%nat 0%nat / minor2 m) by (rewrite <- E1; field; split; lra).
    unfold minor3. unfold minor2 in *. field. split; lra. }
  assert (H2 : 0 < d2) by (apply (Rmult_lt_reg_r (minor2 m)); [auto|]; rewrite E2, Rmult_0_l; auto).
  destruct (Rlt_dec 0 d2) as [_|]; [discriminate|contradiction].
Qed.

Lemma chol_exact m L : symmetric m -> cholesky m = Some L -> forall i j, (i < 3)%nat -> (j < 3)%nat -> sum 3 (fun k => L i k * L j k) = m i j.
Proof.
  intros S H. destruct (chol_some m L S H) as (a & b & c & d & e & f & -> & A & D & F & E0 & E1 & E2 & E3 & E4 & E5).
  intros i j Hi Hj. revert i Hi. refine (case3 _ _ _ _); revert j Hj; refine (case3 _ _ _ _); unfold chol_entry; cbn [sum]; rewrite ?(S 0%nat 1%nat), ?(S 0%nat 2%nat), ?(S 1%nat 2%nat), ?E0, ?E1, ?E2, ?E3, ?E4, ?E5; ring.
Qed.

(** Minors and the quadratic form. *)
Lemma quad_expand m v : symmetric m -> quadratic m v =
  m 0%nat 0%nat * v 0%nat * v 0%nat + m 1%nat 1%nat * v 1%nat * v 1%nat + m 2%nat 2%nat * v 2%nat * v 2%nat
  + 2 * (m 1%nat 0%nat * v 0%nat * v 1%nat + m 2%nat 0%nat * v 0%nat * v 2%nat + m 2%nat 1%nat * v 1%nat * v 2%nat).
Proof. intros S. unfold quadratic. cbn [sum]. rewrite (S 0%nat 1%nat), (S 0%nat 2%nat), (S 1%nat 2%nat). ring. Qed.
Lemma minors_pd m : symmetric m -> minors m <-> positive_definite m.
Proof.
  intros S. split.
  - intros M. destruct (cholesky m) as [L|] eqn:C; [|exfalso; apply (minors_chol m S M C)].
    destruct (chol_some m L S C) as (a & b & c & d & e & f & _ & A & D & F & E0 & E1 & E2 & E3 & E4 & E5).
    intros v (i & Hi & V). rewrite (quad_expand m v S), E0, E1, E2, E3, E4, E5.
    set (p := v 0%nat) in *. set (q := v 1%nat) in *. set (r := v 2%nat) in *.
    match goal with |- 0 < ?x => replace x with ((a * p + b * q + c * r) ^ 2 + (d * q + e * r) ^ 2 + (f * r) ^ 2) by ring end.
    pose proof (pow2_ge_0 (a * p + b * q + c * r)). pose proof (pow2_ge_0 (d * q + e * r)). pose proof (pow2_ge_0 (f * r)).
    destruct (Rle_lt_or_eq_dec 0 ((a * p + b * q + c * r) ^ 2 + (d * q + e * r) ^ 2 + (f * r) ^ 2) ltac:(lra)) as [G|G]; [exact G|exfalso].
    assert (Z : forall z w, 0 < z -> z * w = 0 -> w = 0) by (intros z w Hz Hw; destruct (Rmult_integral _ _ Hw); lra).
    assert (SQ : forall z, z ^ 2 = 0 -> z = 0) by (intros z Hz; apply Rsqr_0_uniq; unfold Rsqr; lra).
    assert (r = 0) by (apply (Z f); [auto|]; apply SQ; lra). assert (d * q + e * r = 0) by (apply SQ; lra). assert (a * p + b * q + c * r = 0) by (apply SQ; lra).
    assert (q = 0) by (apply (Z d); [auto|]; nra). assert (p = 0) by (apply (Z a); [auto|]; nra).
    apply V. revert i Hi V. apply (case3 (fun i => v i <> 0 -> v i = 0)); intros _; assumption.
  - intros P.
    assert (P1 : 0 < m 0%nat 0%nat).
    { pose proof (P (fun i => match i with 0%nat => 1 | _ => 0 end)) as Q. rewrite (quad_expand _ _ S) in Q. cbn beta iota in Q.
      assert (0 < m 0%nat 0%nat * 1 * 1 + m 1%nat 1%nat * 0 * 0 + m 2%nat 2%nat * 0 * 0 + 2 * (m 1%nat 0%nat * 1 * 0 + m 2%nat 0%nat * 1 * 0 + m 2%nat 1%nat * 0 * 0)) by (apply Q; exists 0%nat; split; [lia|lra]). lra. }
    assert (P2 : 0 < minor2 m).
    { pose proof (P (fun i => match i with 0%nat => - m 1%nat 0%nat | 1%nat => m 0%nat 0%nat | _ => 0 end)) as Q. rewrite (quad_expand _ _ S) in Q. cbn beta iota in Q.
      apply (Rmult_lt_reg_l (m 0 0)%nat); [exact P1|]. rewrite Rmult_0_r. eapply Rlt_le_trans; [apply Q; exists 1%nat; split; [lia|lra]|]. right. unfold minor2. ring. }
    assert (P3 : 0 < minor3 m).
    { pose proof (P (fun i => match i with 0%nat => m 1%nat 0%nat * m 2%nat 1%nat - m 2%nat 0%nat * m 1%nat 1%nat | 1%nat => m 2%nat 0%nat * m 1%nat 0%nat - m 0%nat 0%nat * m 2%nat 1%nat | _ => minor2 m end)) as Q.
      rewrite (quad_expand _ _ S) in Q. cbn beta iota in Q.
      apply (Rmult_lt_reg_l (minor2 m)); [exact P2|]. rewrite Rmult_0_r. eapply Rlt_le_trans; [apply Q; exists 2%nat; split; [lia|lra]|]. right. unfold minor3, minor2. ring. }
    repeat split; assumption.
Qed.
Lemma chol_pd m : symmetric m -> cholesky m <> None <-> positive_definite m.
Proof.
  intros S. rewrite <- (minors_pd m S). split.
  - destruct (cholesky m) as [L|] eqn:C; [|congruence]. intros _. apply (chol_minors m L S C).
  - apply minors_chol, S.
Qed.

(** All eigenvalues positive iff the quadratic form is positive definite. *)
Definition shift (m : mat) (t : R) : mat := fun i j => m i j + t * delta i j.
Definition sqn (v : vec) : R := v 0%nat * v 0%nat + v 1%nat * v 1%nat + v 2%nat * v 2%nat.
Lemma sqn_pos v : nonzero v -> 0 < sqn v.
Proof.
  intros (i & Hi & V). unfold sqn. assert (X : forall z, z <> 0 -> 0 < z * z) by (intros z Hz; destruct (Rdichotomy _ _ Hz); nra).
  revert i Hi V. refine (case3 _ _ _ _); intros V; apply X in V;
    pose proof (Rle_0_sqr (v 0%nat)); pose proof (Rle_0_sqr (v 1%nat)); pose proof (Rle_0_sqr (v 2%nat)); unfold Rsqr in *; lra.
Qed.
Lemma quad_shift m t v : quadratic (shift m t) v = quadratic m v + t * sqn v.
Proof. unfold quadratic, shift, delta, sqn. cbn [sum Nat.eqb]. ring. Qed.
Lemma shift_sym m t : symmetric m -> symmetric (shift m t).
Proof. intros S i j. unfold shift, delta. rewrite (S i j), (Nat.eqb_sym i j). reflexivity. Qed.
Lemma quad_bound m : exists K, forall v, quadratic m v >= - K * sqn v.
Proof.
  exists (sum 3 (fun i => sum 3 (fun j => Rabs (m i j)))). intros v.
  assert (B : forall i j, (i < 3)%nat -> (j < 3)%nat -> - (Rabs (m i j) * sqn v) <= v i * m i j * v j).
  { intros i j Hi Hj. assert (AB : Rabs (v i * v j) <= sqn v).
    { assert (X : forall a b, Rabs (a * b) <= (a * a + b * b) / 2) by (intros a b; apply Rabs_le; pose proof (Rle_0_sqr (a + b)); pose proof (Rle_0_sqr (a - b)); unfold Rsqr in *; lra).
      assert (Y : forall i, (i < 3)%nat -> v i * v i <= sqn v).
      { refine (case3 _ _ _ _); cbv beta; unfold sqn; pose proof (Rle_0_sqr (v 0%nat)); pose proof (Rle_0_sqr (v 1%nat)); pose proof (Rle_0_sqr (v 2%nat)); unfold Rsqr in *; lra. }
      pose proof (X (v i) (v j)). pose proof (Y i Hi). pose proof (Y j Hj). lra. }
    replace (v i * m i j * v j) with (m i j * (v i * v j)) by ring.
    assert (Rabs (m i j * (v i * v j)) <= Rabs (m i j) * sqn v) by (rewrite Rabs_mult; apply Rmult_le_compat_l; [apply Rabs_pos|exact AB]).
    apply Rabs_le_between in H. lra. }
  apply Rle_ge. unfold quadratic. rewrite <- sum_opp, <- sum_scal_r. apply sum_le. intros i Hi.
  rewrite <- sum_opp, <- sum_scal_r. apply sum_le. intros j Hj. pose proof (B i j Hi Hj). lra.
Qed.
Lemma minors_open m t : minors (shift m t) -> exists e, 0 < e /\ forall s, Rabs (s - t) < e -> minors (shift m s).
Proof.
  intros (A & B & C).
  assert (K : forall (f : R -> R) d, derivable_pt_lim f t d -> 0 < f t -> exists e, 0 < e /\ forall s, Rabs (s - t) < e -> 0 < f s).
  { intros f d D P. destruct (derivable_continuous_at f t d D (f t) P) as (e & E & H). exists e. split; [exact E|]. intros s Hs.
    specialize (H s Hs). apply Rabs_lt_between in H. lra. }
  destruct (K (fun s => shift m s 0%nat 0%nat) 1) as (e1 & E1 & H1).
  { apply is_derive_Reals. unfold shift, delta. cbn [Nat.eqb]. auto_derive; [auto|ring]. } { exact A. }
  assert (D2 : exists d, derivable_pt_lim (fun s => minor2 (shift m s)) t d).
  { eexists. apply is_derive_Reals. unfold minor2, shift, delta. cbn [Nat.eqb]. auto_derive; [auto|reflexivity]. }
  assert (D3 : exists d, derivable_pt_lim (fun s => minor3 (shift m s)) t d).
  { eexists. apply is_derive_Reals. unfold minor3, shift, delta. cbn [Nat.eqb]. auto_derive; [auto|reflexivity]. }
  destruct D2 as [d2 D2]. destruct D3 as [d3 D3].
  destruct (K _ d2 D2 B) as (e2 & E2 & H2). destruct (K _ d3 D3 C) as (e3 & E3 & H3).
  exists (Rmin e1 (Rmin e2 e3)). split; [repeat apply Rmin_glb_lt; assumption|]. intros s Hs.
  pose proof (Rmin_l e1 (Rmin e2 e3)). pose proof (Rmin_r e1 (Rmin e2 e3)). pose proof (Rmin_l e2 e3). pose proof (Rmin_r e2 e3).
  repeat split; [apply H1|apply H2|apply H3]; lra.
Qed.
Lemma kernel_of_psd b v : symmetric b -> (forall w, 0 <= quadratic b w) -> quadratic b v <= 0 -> forall i, (i < 3)%nat -> sum 3 (fun j => b i j * v j) = 0.
Proof.
  intros S P Q. set (w := fun i => sum 3 (fun j => b i j * v j)).
  assert (E : forall s, quadratic b (fun i => v i + s * w i) = quadratic b v + 2 * s * sqn w + s * s * quadratic b w).
  { intros s. rewrite !(quad_expand b _ S). unfold sqn, w. cbn [sum]. rewrite (S 0%nat 1%nat), (S 0%nat 2%nat), (S 1%nat 2%nat). ring. }
  assert (Z : sqn w = 0).
  { assert (0 <= sqn w) by (unfold sqn; pose proof (Rle_0_sqr (w 0%nat)); pose proof (Rle_0_sqr (w 1%nat)); pose proof (Rle_0_sqr (w 2%nat)); unfold Rsqr in *; lra).
    destruct H as [H|H]; [exfalso|auto]. set (k := quadratic b w) in *. assert (0 <= k) by apply P.
    set (s := - sqn w / (k + 1)). pose proof (P (fun i => v i + s * w i)) as PP. rewrite E in PP. fold k in PP.
    assert (X : 2 * s * sqn w + s * s * k < 0).
    { unfold s. replace (2 * (- sqn w / (k + 1)) * sqn w + - sqn w / (k + 1) * (- sqn w / (k + 1)) * k) with (- (sqn w * sqn w * (k + 2)) / ((k + 1) * (k + 1))) by (field; lra).
      apply Ropp_lt_cancel. rewrite Ropp_0. unfold Rdiv. rewrite Ropp_mult_distr_l, Ropp_involutive. apply Rmult_lt_0_compat; [|apply Rinv_0_lt_compat; nra]. apply Rmult_lt_0_compat; nra. }
    lra. }
  intros i Hi. change (w i = 0). destruct (Req_dec (w i) 0) as [e|e]; [exact e|exfalso]. assert (0 < sqn w) by (apply sqn_pos; exists i; auto). lra.
Qed.
Lemma eigen_pd m : symmetric m -> all_positive m <-> positive_definite m.
Proof.
  intros S. split.
  - intros AP. apply NNPP. intros NP.
    destruct (quad_bound m) as [K HK].
    set (E := fun t => 0 <= t /\ ~ minors (shift m t)).
    assert (BD : bound E).
    { exists (Rmax 0 K + 1). intros t [T N]. apply Rnot_lt_le. intros Lt. apply N. apply (minors_pd _ (shift_sym m t S)).
      intros v V. rewrite quad_shift. pose proof (sqn_pos v V). pose proof (HK v). pose proof (Rmax_r 0 K). nra. }
    assert (E0 : E 0).
    { split; [lra|]. intros M. apply NP. apply (minors_pd _ (shift_sym m 0 S)) in M. intros v V. pose proof (M v V) as Q. rewrite quad_shift in Q. lra. }
    destruct (completeness E BD (ex_intro _ 0 E0)) as [t [UB LB]].
    assert (T0 : 0 <= t) by (apply UB, E0).
    assert (NM : ~ minors (shift m t)).
    { intros M. destruct (minors_open m t M) as (e & Pe & He). assert (t <= t - e / 2); [|lra]. apply LB. intros s Hs. apply Rnot_lt_le. intros Lt.
      apply (proj2 Hs), He. pose proof (UB s Hs). apply Rabs_lt_between. lra. }
    assert (PSD : forall v, 0 <= quadratic (shift m t) v).
    { intros v. rewrite quad_shift. apply Rnot_lt_le. intros Neg.
      destruct (classic (nonzero v)) as [V|V].
      - pose proof (sqn_pos v V) as PV. set (d := - (quadratic m v + t * sqn v) / sqn v).
        assert (Dp : 0 < d) by (unfold d, Rdiv; apply Rmult_lt_0_compat; [lra|apply Rinv_0_lt_compat; auto]).
        assert (Et : E (t + d)).
        { split; [lra|]. intros M. apply (minors_pd _ (shift_sym m _ S)) in M. pose proof (M v V) as Q. rewrite quad_shift in Q.
          assert (DS : d * sqn v = - (quadratic m v + t * sqn v)) by (unfold d; field; lra). lra. }
        pose proof (UB _ Et). lra.
      - assert (Zv : forall i, (i < 3)%nat -> v i = 0) by (intros i Hi; apply NNPP; intros C; apply V; exists i; auto).
        assert (sqn v = 0) by (unfold sqn; rewrite !Zv by lia; ring). assert (quadratic m v = 0) by (rewrite (quad_expand m v S), !Zv by lia; ring). nra. }
    assert (exists v, nonzero v /\ quadratic (shift m t) v <= 0) as (v & V & Q).
    { apply NNPP. intros C. apply NM. apply (minors_pd _ (shift_sym m t S)). intros v V. apply Rnot_le_lt. intros Le. apply C. exists v. auto. }
    pose proof (kernel_of_psd (shift m t) v (shift_sym m t S) PSD Q) as KE.
    assert (EV : eigenvalue m (- t)).
    { exists v. split; [exact V|]. intros i Hi. pose proof (KE i Hi) as Z. revert Z. unfold shift, delta. revert i Hi.
      refine (case3 _ _ _ _); cbn [sum Nat.eqb]; intros; lra. }
    pose proof (AP _ EV). lra.
  - intros P lam (v & V & EV). pose proof (P v V) as Q. pose proof (sqn_pos v V) as PV.
    assert (QE : quadratic m v = lam * sqn v).
    { unfold quadratic, sqn. pose proof (EV 0%nat ltac:(lia)) as E0. pose proof (EV 1%nat ltac:(lia)) as E1. pose proof (EV 2%nat ltac:(lia)) as E2. cbn [sum] in *.
      transitivity (v 0%nat * (lam * v 0%nat) + v 1%nat * (lam * v 1%nat) + v 2%nat * (lam * v 2%nat)); [rewrite <- E0, <- E1, <- E2; ring|ring]. }
    rewrite QE in Q. apply (Rmult_lt_reg_r (sqn v)); [auto|]. lra.
Qed.
