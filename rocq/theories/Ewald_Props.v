(** C36: the Ewald sum. *)
From Coq Require Import Reals List Arith Bool ZArith Lra Lia Sorting.Permutation.
From Verif Require Import Lin Geom_Model Geom_Spec Geom_Props Periodic_Props Ewald_Model.
Import ListNotations.
Open Scope R_scope.
Local Notation length := List.length.

(** ** Lists of sums *)
Lemma lsum_app {A} (f : A -> R) a b : lsum f (a ++ b) = lsum f a + lsum f b.
Proof. induction a as [|x a IH]; simpl; [lra|]. rewrite IH. lra. Qed.
Lemma lsum_ext {A} (f g : A -> R) l : (forall x, In x l -> f x = g x) -> lsum f l = lsum g l.
Proof. induction l as [|x l IH]; simpl; intros H; auto. rewrite H by auto. rewrite IH; auto. Qed.
Lemma lsum_perm {A} (f : A -> R) a b : Permutation a b -> lsum f a = lsum f b.
Proof. induction 1; simpl; lra. Qed.
Lemma lsum_map {A B} (f : B -> R) (g : A -> B) l : lsum f (map g l) = lsum (fun x => f (g x)) l.
Proof. induction l as [|x l IH]; simpl; congruence. Qed.
Lemma lsum_nonneg {A} (f : A -> R) l : (forall x, In x l -> 0 <= f x) -> 0 <= lsum f l.
Proof. induction l as [|x l IH]; simpl; intros H; [lra|]. pose proof (H x (or_introl eq_refl)). assert (0 <= lsum f l) by auto. lra. Qed.
Lemma lsum_ge {A} (f : A -> R) l y : In y l -> (forall x, In x l -> 0 <= f x) -> f y <= lsum f l.
Proof.
  induction l as [|x l IH]; simpl; intros I H; [contradiction|]. destruct I as [->|I].
  - assert (0 <= lsum f l) by (apply lsum_nonneg; auto). lra.
  - pose proof (H x (or_introl eq_refl)). assert (f y <= lsum f l) by auto. lra.
Qed.

(** ** Specification: the box of reciprocal vectors *)
Definition zneg (v : zvec) : zvec := let '(a, b, c) := v in ((- a)%Z, (- b)%Z, (- c)%Z).
Definition zero3 : zvec := (0%Z, 0%Z, 0%Z).
Definition in_box (g : Z) (v : zvec) : Prop := let '(a, b, c) := v in ((- g <= a <= g) /\ (- g <= b <= g) /\ (- g <= c <= g))%Z.

Lemma in_arange a b x : In x (arange a b) <-> (a <= x < b)%Z.
Proof.
  unfold arange. rewrite in_map_iff. split.
  - intros (i & <- & H). apply in_seq in H. lia.
  - intros H. exists (Z.to_nat (x - a)). split; [lia|]. apply in_seq. lia.
Qed.
Lemma NoDup_arange a b : NoDup (arange a b).
Proof. unfold arange. apply FinFun.Injective_map_NoDup; [intros x y H; lia|apply seq_NoDup]. Qed.
Lemma in_mesh xs ys zs a b c : In (a, b, c) (mesh xs ys zs) <-> In a xs /\ In b ys /\ In c zs.
Proof.
  unfold mesh. rewrite in_flat_map. split.
  - intros (x & X & H). apply in_flat_map in H as (y & Y & H). apply in_map_iff in H as (z & E & Z). inversion E; subst. auto.
  - intros (A & B & C). exists a. split; auto. apply in_flat_map. exists b. split; auto. apply in_map_iff. exists c. auto.
Qed.
Lemma NoDup_flat_map {A B} (f : A -> list B) l : NoDup l -> (forall x, In x l -> NoDup (f x)) ->
  (forall x y b, In x l -> In y l -> In b (f x) -> In b (f y) -> x = y) -> NoDup (flat_map f l).
Proof.
  induction 1 as [|x l N D IH]; intros F E; simpl; [constructor|].
  assert (D2 : NoDup (flat_map f l)) by (apply IH; [intros; apply F; right; auto|intros; eapply E; eauto; right; auto]).
  assert (D1 : NoDup (f x)) by (apply F; left; auto).
  assert (DJ : forall b, In b (f x) -> ~ In b (flat_map f l)).
  { intros b B1 B2. apply in_flat_map in B2 as (y & Y & B2). assert (x = y) by (eapply E; eauto; [left; auto|right; auto]). subst. auto. }
  clear - D1 D2 DJ. induction (f x) as [|b m IHm]; simpl; auto. inversion D1; subst. constructor.
  - rewrite in_app_iff. intros [C|C]; [auto|]. apply (DJ b); [left; auto|auto].
  - apply IHm; auto. intros c C. apply DJ. right. auto.
Qed.
Lemma NoDup_mesh xs ys zs : NoDup xs -> NoDup ys -> NoDup zs -> NoDup (mesh xs ys zs).
Proof.
  intros X Y Z. unfold mesh. apply NoDup_flat_map; auto.
  - intros x _. apply NoDup_flat_map; auto.
    + intros y _. apply FinFun.Injective_map_NoDup; auto. intros p q E. inversion E; auto.
    + intros y y' b _ _ H H'. apply in_map_iff in H as (? & <- & _). apply in_map_iff in H' as (? & E & _). inversion E; auto.
  - intros x x' b _ _ H H'. apply in_flat_map in H as (? & _ & H). apply in_map_iff in H as (? & <- & _).
    apply in_flat_map in H' as (? & _ & H'). apply in_map_iff in H' as (? & E & _). inversion E; auto.
Qed.
(** Lexicographically positive *)
Definition positive (v : zvec) : Prop := let '(a, b, c) := v in (0 < a \/ (a = 0 /\ (0 < b \/ (b = 0 /\ 0 < c))))%Z.
Lemma in_half g v : In v (half_space g) <-> in_box g v /\ positive v.
Proof.
  destruct v as [[a b] c]. unfold half_space, in_box, positive. rewrite !in_app_iff, !in_mesh, !in_arange. cbn [In]. lia.
Qed.
Lemma NoDup_half g : NoDup (half_space g).
Proof.
  unfold half_space.
  assert (AP : forall (l1 l2 : list zvec), NoDup l1 -> NoDup l2 -> (forall x, In x l1 -> ~ In x l2) -> NoDup (l1 ++ l2)).
  { clear. induction l1 as [|x l1 IH]; simpl; intros l2 D1 D2 H; auto. inversion D1; subst. constructor.
    - rewrite in_app_iff. intros [C|C]; [auto|apply (H x); auto].
    - apply IH; auto. }
  assert (D0 : NoDup [0%Z]) by (constructor; [simpl; tauto|constructor]).
  apply AP; [apply NoDup_mesh; apply NoDup_arange| |].
  - apply AP; [apply NoDup_mesh; auto; apply NoDup_arange|apply NoDup_mesh; auto; apply NoDup_arange|].
    intros [[a b] c] H1 H2. rewrite in_mesh, ?in_arange in *. cbn [In] in *. lia.
  - intros [[a b] c] H1 H2. rewrite in_app_iff, !in_mesh, ?in_arange in *. cbn [In] in *. lia.
Qed.

(** ** C36: of every nonzero vector of the box and its negative exactly one is listed, once;
    nothing else is. *)
Theorem C36_half_space : forall g v,
  NoDup (half_space g) /\
  (In v (half_space g) -> in_box g v /\ v <> zero3) /\
  (in_box g v -> v <> zero3 -> (In v (half_space g) /\ ~ In (zneg v) (half_space g)) \/ (~ In v (half_space g) /\ In (zneg v) (half_space g))).
Proof.
  intros g v. split; [apply NoDup_half|]. split.
  - intros H. apply in_half in H as [H1 H2]. split; auto. intros ->. cbn in H2. lia.
  - intros B NZ. rewrite !in_half. destruct v as [[a b] c]. unfold zero3 in NZ.
    assert (N : (a <> 0 \/ b <> 0 \/ c <> 0)%Z).
    { destruct (Z.eq_dec a 0) as [->|]; auto. destruct (Z.eq_dec b 0) as [->|]; auto. destruct (Z.eq_dec c 0) as [->|]; auto. }
    unfold in_box, zneg, positive in *. lia.
Qed.

(** ** The reciprocal energy is half the sum over all vectors of the box kept by the cutoff. *)
Definition full_box (g : Z) : list zvec :=
  filter (fun v => let '(a, b, c) := v in negb ((a =? 0) && (b =? 0) && (c =? 0))%Z%bool)
    (mesh (arange (- g) (g + 1)) (arange (- g) (g + 1)) (arange (- g) (g + 1))).
Lemma in_full g v : In v (full_box g) <-> in_box g v /\ v <> zero3.
Proof.
  destruct v as [[a b] c]. unfold full_box. rewrite filter_In, in_mesh, !in_arange. unfold in_box, zero3. split.
  - intros [H E]. split; [lia|]. intros F. inversion F; subst. discriminate.
  - intros [H N]. split; [lia|]. destruct ((a =? 0) && (b =? 0) && (c =? 0))%Z%bool eqn:E; auto. exfalso. apply N.
    apply andb_true_iff in E as [E E3]. apply andb_true_iff in E as [E1 E2]. apply Z.eqb_eq in E1, E2, E3. subst. reflexivity.
Qed.
Lemma full_is_two_halves g : Permutation (full_box g) (half_space g ++ map zneg (half_space g)).
Proof.
  apply NoDup_Permutation.
  - unfold full_box. apply NoDup_filter. apply NoDup_mesh; apply NoDup_arange.
  - assert (AP : forall (l1 l2 : list zvec), NoDup l1 -> NoDup l2 -> (forall x, In x l1 -> ~ In x l2) -> NoDup (l1 ++ l2)).
    { clear. induction l1 as [|x l1 IH]; simpl; intros l2 D1 D2 H; auto. inversion D1; subst. constructor.
      - rewrite in_app_iff. intros [C|C]; [auto|apply (H x); auto].
      - apply IH; auto. }
    apply AP; [apply NoDup_half|apply FinFun.Injective_map_NoDup; [|apply NoDup_half]|].
    + intros [[a b] c] [[a' b'] c'] E. unfold zneg in E. injection E as E1 E2 E3. f_equal; [f_equal|]; lia.
    + intros v H1 H2. apply in_map_iff in H2 as (w & <- & H2). apply in_half in H1 as [_ H1]. apply in_half in H2 as [_ H2].
      destruct w as [[a b] c]. cbn in *. lia.
  - intros v. rewrite in_full, in_app_iff, in_half, in_map_iff. split.
    + intros [B N]. destruct (C36_half_space g v) as (_ & _ & K). destruct (K B N) as [[H _]|[_ H]].
      * left. apply in_half. auto.
      * right. exists (zneg v). split; auto. destruct v as [[a b] c]. unfold zneg. rewrite !Z.opp_involutive. reflexivity.
    + intros [[B P]|(w & <- & H)]; [|apply in_half in H as [B P]; destruct w as [[a b] c]]; (split; [|]).
      * auto.
      * intros ->. cbn in P. lia.
      * cbn in *. lia.
      * unfold zneg, zero3. intros E. injection E as E1 E2 E3. cbn in P. lia.
Qed.
Lemma gpoint_neg inv g k : gpoint inv (zneg g) k = - gpoint inv g k.
Proof. destruct g as [[a b] c]. unfold gpoint, zneg. rewrite !opp_IZR. ring. Qed.
Lemma gsquared_neg inv g : gsquared inv (zneg g) = gsquared inv g.
Proof. unfold gsquared, dot. apply sum_ext. intros k _. rewrite gpoint_neg. ring. Qed.
Lemma gweight_neg l inv g : gweight l inv (zneg g) = gweight l inv g.
Proof. unfold gweight. rewrite gsquared_neg. reflexivity. Qed.
Lemma phase_neg inv g r : phase inv (zneg g) r = - phase inv g r.
Proof. unfold phase, dot. rewrite <- sum_opp. apply sum_ext. intros k _. rewrite gpoint_neg. ring. Qed.
Lemma structure_neg inv ps g : structure2 inv ps (zneg g) = structure2 inv ps g.
Proof.
  unfold structure2. rewrite (lsum_ext (fun p => charge p * cos (phase inv (zneg g) (pos p))) (fun p => charge p * cos (phase inv g (pos p)))) by (intros; rewrite phase_neg, cos_neg; reflexivity).
  assert (E : lsum (fun p => charge p * sin (phase inv (zneg g) (pos p))) ps = - lsum (fun p => charge p * sin (phase inv g (pos p))) ps).
  { induction ps as [|p ps IH]; simpl; [lra|]. rewrite IH, phase_neg, sin_neg. ring. }
  rewrite E. ring.
Qed.
Lemma filter_perm {A} (f : A -> bool) a b : Permutation a b -> Permutation (filter f a) (filter f b).
Proof.
  induction 1; simpl; auto.
  - destruct (f x); auto.
  - destruct (f x), (f y); auto. constructor.
  - eapply perm_trans; eauto.
Qed.
Theorem C36_reciprocal_sum : forall l inv gmax ps,
  v_recip l inv gmax ps = / 2 * lsum (fun g => gweight l inv g * structure2 inv ps g) (filter (big l inv) (full_box gmax)).
Proof.
  intros l inv gmax ps. rewrite (lsum_perm _ _ _ (filter_perm (big l inv) _ _ (full_is_two_halves gmax))).
  rewrite filter_app, lsum_app. fold (selected l inv gmax).
  assert (E : filter (big l inv) (map zneg (half_space gmax)) = map zneg (selected l inv gmax)).
  { unfold selected. induction (half_space gmax) as [|v h IH]; simpl; auto.
    replace (big l inv (zneg v)) with (big l inv v) by (unfold big; rewrite gweight_neg; reflexivity).
    destruct (big l inv v); simpl; rewrite IH; reflexivity. }
  rewrite E, lsum_map. rewrite (lsum_ext (fun x => gweight l inv (zneg x) * structure2 inv ps (zneg x)) (fun x => gweight l inv x * structure2 inv ps x))
    by (intros; rewrite gweight_neg, structure_neg; reflexivity).
  unfold v_recip. lra.
Qed.

(** The reciprocal sum is a sum over pairs of particles of the cosine of the phase
    difference: it depends on relative positions only. *)
Theorem C36_reciprocal_pairs : forall l inv gmax ps,
  v_recip l inv gmax ps = / 2 * lsum (fun g => gweight l inv g *
     lsum (fun p => lsum (fun q => charge p * charge q * cos (dot 3 (gpoint inv g) (fun d => pos p d - pos q d))) ps) ps)
   (filter (big l inv) (full_box gmax)).
Proof.
  intros l inv gmax ps. rewrite C36_reciprocal_sum. f_equal. apply lsum_ext. intros g _. f_equal. unfold structure2.
  assert (SC : forall (c : R) (f : particle -> R) l, c * lsum f l = lsum (fun x => c * f x) l).
  { clear. intros c f. induction l as [|x l IH]; simpl; [ring|]. rewrite Rmult_plus_distr_l, IH. reflexivity. }
  assert (PL : forall (f h : particle -> R) l, lsum f l + lsum h l = lsum (fun x => f x + h x) l).
  { clear. intros f h. induction l as [|x l IH]; simpl; [ring|]. rewrite <- IH. ring. }
  assert (SQ : forall f : particle -> R, lsum f ps ^ 2 = lsum (fun p => lsum (fun q => f p * f q) ps) ps).
  { intros f. replace (lsum f ps ^ 2) with (lsum f ps * lsum f ps) by ring. rewrite SC. apply lsum_ext. intros p _. rewrite Rmult_comm, SC. reflexivity. }
  rewrite !SQ, PL. apply lsum_ext. intros p _. rewrite PL. apply lsum_ext. intros q _.
  replace (dot 3 (gpoint inv g) (fun d => pos p d - pos q d)) with (phase inv g (pos p) - phase inv g (pos q))
    by (unfold phase, dot; cbn [sum]; ring).
  rewrite cos_minus. ring.
Qed.

(** ** Translations *)
Definition image_particle (l : mat) (p q : particle) : Prop := charge p = charge q /\ is_image 3 l (pos p) (pos q).
Lemma phase_shift l inv g r r' : inverse 3 l inv -> is_image 3 l r r' -> exists z, phase inv g r' = phase inv g r + IZR z * (2 * PI).
Proof.
  intros INV [k K]. destruct g as [[a b] c]. exists (a * k 0%nat + b * k 1%nat + c * k 2%nat)%Z.
  unfold phase. rewrite (dot_comm 3 _ r'), (dot_comm 3 _ r). unfold dot.
  rewrite (sum_ext 3 (fun i => r' i * gpoint inv (a, b, c) i) (fun i => r i * gpoint inv (a, b, c) i + lattice_vector 3 l k i * gpoint inv (a, b, c) i))
    by (intros i Hi; rewrite (K i Hi); ring).
  rewrite sum_plus. f_equal.
  assert (E : forall m, (m < 3)%nat -> sum 3 (fun i => lattice_vector 3 l k i * inv i m) = IZR (k m)).
  { intros m Hm. apply (inverse_l 3 l inv (fun i => IZR (k i)) m INV Hm). }
  pose proof (E 0%nat ltac:(lia)) as E0. pose proof (E 1%nat ltac:(lia)) as E1. pose proof (E 2%nat ltac:(lia)) as E2.
  rewrite !plus_IZR, !mult_IZR, <- E0, <- E1, <- E2. unfold gpoint. cbn [sum]. ring.
Qed.
Theorem C36_reciprocal_periodic : forall l inv gmax ps qs, inverse 3 l inv -> Forall2 (image_particle l) ps qs ->
  v_recip l inv gmax qs = v_recip l inv gmax ps.
Proof.
  intros l inv gmax ps qs INV F. unfold v_recip. apply lsum_ext. intros g _. f_equal. unfold structure2.
  assert (C : lsum (fun p => charge p * cos (phase inv g (pos p))) qs = lsum (fun p => charge p * cos (phase inv g (pos p))) ps).
  { induction F as [|p q ps qs [Q I] F IH]; simpl; auto. destruct (phase_shift l inv g _ _ INV I) as [z ->]. rewrite cos_shift, IH, Q. reflexivity. }
  assert (S : lsum (fun p => charge p * sin (phase inv g (pos p))) qs = lsum (fun p => charge p * sin (phase inv g (pos p))) ps).
  { clear C. induction F as [|p q ps qs [Q I] F IH]; simpl; auto. destruct (phase_shift l inv g _ _ INV I) as [z ->]. rewrite sin_shift, IH, Q. reflexivity. }
  rewrite C, S. reflexivity.
Qed.

Lemma diagonal_distance_periodic inv l d d' : diagonal 3 l -> (forall i, (i < 3)%nat -> l i i <> 0) -> is_image 3 l d d' ->
  same 3 (fst (distance 3 inv l d')) (fst (distance 3 inv l d)).
Proof.
  intros D NZ [k K] j Hj. unfold distance. rewrite (diagonal_test 3 l D). cbn [fst]. rewrite (K j Hj), diagonal_lattice_vector by auto.
  unfold rmod. replace ((d j + IZR (k j) * l j j + l j j / 2) / l j j) with ((d j + l j j / 2) / l j j + IZR (k j)) by (field; auto).
  rewrite floor_plus, plus_IZR. ring.
Qed.
Lemma Forall2_nth {A B} (P : A -> B -> Prop) a b : Forall2 P a b -> forall i x, nth_error a i = Some x -> exists y, nth_error b i = Some y /\ P x y.
Proof. induction 1 as [|x y a b H F IH]; intros [|i] z E; simpl in E; try discriminate; [inversion E; subst; exists y; auto|]. apply IH. auto. Qed.
Lemma lsum_indexed2 (f : nat * particle -> R) (g : nat * particle -> R) (P : particle -> particle -> Prop) : forall ps qs, Forall2 P ps qs ->
  (forall i p q, P p q -> g (i, q) = f (i, p)) -> forall s, lsum g (combine (seq s (length qs)) qs) = lsum f (combine (seq s (length ps)) ps).
Proof.
  induction 1 as [|p q ps qs H F IH]; intros E s; simpl; auto. rewrite (E s p q H), (IH E (S s)). reflexivity.
Qed.
(** The whole energy is periodic for diagonal lattices. *)
Theorem C36_energy_periodic_partial : forall erfc l inv gmax nlat ps qs,
  inverse 3 l inv -> diagonal 3 l -> (forall i, (i < 3)%nat -> l i i <> 0) -> Forall2 (image_particle l) ps qs ->
  energy erfc l inv gmax nlat qs = energy erfc l inv gmax nlat ps.
Proof.
  intros erfc l inv gmax nlat ps qs INV D NZ F. unfold energy. rewrite (C36_reciprocal_periodic l inv gmax ps qs INV F).
  assert (Q : forall f : R -> R, lsum (fun p => f (charge p)) qs = lsum (fun p => f (charge p)) ps).
  { intros f. induction F as [|p q ps qs [E _] F IH]; simpl; auto. rewrite IH, E. reflexivity. }
  assert (V : v_real erfc l inv nlat qs = v_real erfc l inv nlat ps).
  { unfold v_real. cbv zeta. f_equal. apply lsum_ext. intros [n k] _. cbn [fst snd]. unfold indexed.
    apply (lsum_indexed2 _ _ (image_particle l)); auto. intros i p q [QP IP]. cbn [fst snd].
    apply (lsum_indexed2 _ _ (image_particle l)); auto. intros j p' q' [QP' IP']. cbn [fst snd]. rewrite QP, QP'. f_equal. f_equal.
    assert (E : norm 3 (fun d => fst (distance 3 inv l (fun d0 => pos q d0 - pos q' d0)) d + shift l k d) =
                norm 3 (fun d => fst (distance 3 inv l (fun d0 => pos p d0 - pos p' d0)) d + shift l k d)); [|rewrite E; reflexivity].
    apply norm_ext. intros c Hc. f_equal. apply diagonal_distance_periodic; auto. destruct IP as [a A]. destruct IP' as [b B].
    exists (fun i => (a i - b i)%Z). intros m Hm. rewrite (A m Hm), (B m Hm). unfold lattice_vector.
    rewrite (sum_ext 3 (fun i => IZR (a i - b i) * l i m) (fun i => IZR (a i) * l i m - IZR (b i) * l i m)) by (intros; rewrite minus_IZR; ring).
    rewrite sum_minus. ring. }
  rewrite V. pose proof (Q (fun x => x)) as Q1. change (lsum charge qs = lsum charge ps) in Q1. unfold v_self, v_charged. rewrite (Q (fun x => x ^ 2)), Q1. reflexivity.
Qed.

(** ** The real-space sum: every pair and image once, only a particle with itself left out *)
Lemma argmin_index_stay f : forall l best i, (forall x, In x l -> 0 <= f x) -> argmin_index f best 0 i l = best.
Proof.
  induction l as [|x l IH]; intros best i H; simpl; auto. destruct (Rlt_dec (f x) 0) as [L|L]; [pose proof (H x (or_introl eq_refl)); lra|].
  apply IH. intros; apply H; right; auto.
Qed.
Lemma argmin_index_zero f z : f z = 0 -> forall l best bestv i, 0 < bestv -> In z l -> (forall x, In x l -> x <> z -> 0 < f x) ->
  exists j, nth_error l j = Some z /\ argmin_index f best bestv i l = (i + j)%nat.
Proof.
  intros FZ. assert (DEC : forall a b : zvec, {a = b} + {a <> b}) by (repeat decide equality).
  induction l as [|x l IH]; intros best bestv i B I P; [contradiction|]. simpl. destruct (DEC x z) as [->|N].
  - exists O. split; auto. rewrite FZ. destruct (Rlt_dec 0 bestv); [|lra]. rewrite argmin_index_stay; [lia|].
    intros y Hy. destruct (DEC y z) as [->|NY]; [lra|]. pose proof (P y (or_intror Hy) NY). lra.
  - destruct I as [E|I]; [congruence|]. pose proof (P x (or_introl eq_refl) N) as PX.
    destruct (Rlt_dec (f x) bestv).
    + destruct (IH i (f x) (S i) PX I) as (j & J1 & J2); [intros; apply P; auto; right; auto|]. exists (S j). split; auto. rewrite J2. lia.
    + destruct (IH best bestv (S i) B I) as (j & J1 & J2); [intros; apply P; auto; right; auto|]. exists (S j). split; auto. rewrite J2. lia.
Qed.
Lemma shift_norm l inv k : inverse 3 l inv -> norm 3 (shift l k) = 0 -> k = zero3.
Proof.
  intros INV H. destruct k as [[a b] c].
  assert (Z : forall j, (j < 3)%nat -> shift l (a, b, c) j = 0).
  { assert (D : dot 3 (shift l (a, b, c)) (shift l (a, b, c)) = 0) by (rewrite <- norm_sq, H; ring).
    intros j Hj. pose proof (sum_pos_zero 3 (fun i => shift l (a, b, c) i * shift l (a, b, c) i) ltac:(intros; nra) D j Hj) as E. cbv beta in E. nra. }
  set (f := of_list3 (IZR a) (IZR b) (IZR c)).
  assert (C : has_coordinates 3 l (fun _ => 0) f).
  { intros j Hj. rewrite <- (Z j Hj). unfold shift, f. cbn. ring. }
  assert (U : forall i, (i < 3)%nat -> f i = 0).
  { intros i Hi. rewrite <- (coordinates_unique 3 l inv INV _ f C i Hi). unfold vecmat. apply sum_0. intros; ring. }
  pose proof (U 0%nat ltac:(lia)) as U0. pose proof (U 1%nat ltac:(lia)) as U1. pose proof (U 2%nat ltac:(lia)) as U2. unfold f in *. cbn in U0, U1, U2.
  apply eq_IZR in U0, U1, U2. subst. reflexivity.
Qed.
Lemma zero_shift l : norm 3 (shift l zero3) = 0.
Proof. rewrite norm3. unfold shift, zero3. replace (_ + _ + _) with 0; [apply sqrt_0|ring]. Qed.
Lemma in_images nlat : (0 <= nlat)%Z -> In zero3 (images nlat).
Proof. intros H. unfold images, zero3. rewrite in_mesh, in_arange. lia. Qed.
Lemma center_is_zero l inv nlat : inverse 3 l inv -> (0 <= nlat)%Z -> nth_error (images nlat) (center_index l nlat) = Some zero3.
Proof.
  intros INV H. pose proof (in_images nlat H) as I. unfold center_index.
  assert (DEC : forall a b : zvec, {a = b} + {a <> b}) by (repeat decide equality).
  assert (P : forall x, x <> zero3 -> 0 < norm 3 (shift l x)).
  { intros x N. destruct (Rle_lt_or_eq_dec _ _ (norm_nonneg 3 (shift l x))) as [L|E]; auto. exfalso. apply N. apply (shift_norm l inv); auto. }
  destruct (images nlat) as [|x rest]; [contradiction|]. destruct (DEC x zero3) as [->|N].
  - rewrite zero_shift, argmin_index_stay; auto. intros; apply norm_nonneg.
  - destruct I as [E|I]; [congruence|]. destruct (argmin_index_zero (fun k => norm 3 (shift l k)) zero3 (zero_shift l) rest 0 (norm 3 (shift l x)) 1) as (j & J1 & J2); auto.
    rewrite J2. exact J1.
Qed.
(** The screened Coulomb potential; distances below 1e-7 count as 1e-7. *)
Definition potential (erfc : R -> R) (inv : mat) (r : R) : R := erfc (alpha inv * Rmax r (1 / 10 ^ 7)) / Rmax r (1 / 10 ^ 7).
Lemma r_safe_max r : r_safe r = Rmax r (1 / 10 ^ 7).
Proof. unfold r_safe. replace (1 / 10 ^ 7) with (/ 10000000) by lra. destruct (Rlt_dec r (/ 10000000)); [rewrite Rmax_right|rewrite Rmax_left]; lra. Qed.
Definition pair_vector (l inv : mat) (p q : particle) : vec := fst (distance 3 inv l (fun d => pos p d - pos q d)).
Theorem C36_real_sum : forall erfc l inv nlat ps, inverse 3 l inv -> (0 <= nlat)%Z ->
  v_real erfc l inv nlat ps =
  / 2 * lsum (fun k => lsum (fun ip => lsum (fun jq =>
      if (Nat.eqb (fst ip) (fst jq) && (if Z.eq_dec (fst (fst k)) 0 then if Z.eq_dec (snd (fst k)) 0 then if Z.eq_dec (snd k) 0 then true else false else false else false))%bool
      then 0 (* a particle with itself *)
      else charge (snd ip) * charge (snd jq) * potential erfc inv (norm 3 (fun d => pair_vector l inv (snd ip) (snd jq) d + shift l k d)))
    (indexed ps)) (indexed ps)) (images nlat).
Proof.
  intros erfc l inv nlat ps INV H. unfold v_real. cbv zeta. f_equal.
  pose proof (center_is_zero l inv nlat INV H) as CZ.
  assert (ND : NoDup (images nlat)) by (unfold images; apply NoDup_mesh; apply NoDup_arange).
  assert (G : forall (F : nat * zvec -> R) (K : zvec -> R) (li : list zvec) s, (forall j v, nth_error li j = Some v -> F ((s + j)%nat, v) = K v) ->
     lsum F (combine (seq s (length li)) li) = lsum K li).
  { clear. induction li as [|x li IH]; intros s E; simpl; auto. rewrite (IH (S s)).
    - f_equal. specialize (E O x eq_refl). rewrite Nat.add_0_r in E. exact E.
    - intros j v Hj. rewrite <- (E (S j) v Hj). f_equal. f_equal. lia. }
  unfold indexed at 3. apply (G _ _ (images nlat) O). intros j v Hj. cbn [fst snd Nat.add].
  apply lsum_ext. intros [i p] _. apply lsum_ext. intros [i' q] _. cbn [fst snd]. rewrite !r_safe_max. fold (potential erfc inv). unfold pair_vector.
  assert (EQ : Nat.eqb j (center_index l nlat) = true <-> v = zero3).
  { rewrite Nat.eqb_eq. split; intros E.
    - subst j. congruence.
    - subst v. apply (proj1 (NoDup_nth_error (images nlat)) ND); [apply nth_error_Some; congruence|congruence]. }
  destruct v as [[a b] c]. cbn [fst snd]. unfold delta.
  destruct (Z.eq_dec a 0) as [->|Na]; [destruct (Z.eq_dec b 0) as [->|Nb]; [destruct (Z.eq_dec c 0) as [->|Nc]|]|].
  - rewrite (proj2 EQ eq_refl). destruct (Nat.eqb i i'); cbn [andb]; unfold potential; ring.
  - replace (Nat.eqb j (center_index l nlat)) with false; [rewrite andb_false_r; unfold potential; ring|].
    symmetry. apply not_true_is_false. intros T. apply EQ in T. inversion T. auto.
  - replace (Nat.eqb j (center_index l nlat)) with false; [rewrite andb_false_r; unfold potential; ring|].
    symmetry. apply not_true_is_false. intros T. apply EQ in T. inversion T. auto.
  - replace (Nat.eqb j (center_index l nlat)) with false; [rewrite andb_false_r; unfold potential; ring|].
    symmetry. apply not_true_is_false. intros T. apply EQ in T. inversion T. auto.
Qed.

(** ** Handedness *)
Lemma gsquared_nonneg inv g : 0 <= gsquared inv g.
Proof. apply dot_self_nonneg. Qed.
(** A left-handed basis has a negative determinant (line 76 takes no absolute value): no
    vector passes the test of line 199 and the reciprocal energy is zero. *)
Theorem C36_left_handed_refuted : forall l inv gmax ps, det3 l < 0 -> selected l inv gmax = [] /\ v_recip l inv gmax ps = 0 /\ 0 <= v_charged l inv ps.
Proof.
  intros l inv gmax ps D.
  assert (S : selected l inv gmax = []).
  { unfold selected. induction (half_space gmax) as [|g h IH]; simpl; auto. unfold big at 1. destruct (Rlt_dec tol (gweight l inv g)) as [L|]; auto. exfalso.
    assert (W : gweight l inv g <= 0).
    { unfold gweight. pose proof (gsquared_nonneg inv g). pose proof PI_RGT_0. pose proof (exp_pos (- gsquared inv g / (4 * alpha inv ^ 2))).
      destruct (Req_dec (gsquared inv g) 0) as [Z|NZ].
      - rewrite Z, Rmult_0_r. unfold Rdiv at 1. rewrite Rinv_0. lra.
      - assert (det3 l * gsquared inv g < 0) by nra. apply Rinv_lt_0_compat in H2. unfold Rdiv at 1.
        assert (0 < 4 * PI * exp (- gsquared inv g / (4 * alpha inv ^ 2))) by (apply Rmult_lt_0_compat; lra). nra. }
    unfold tol in L. lra. }
  split; [exact S|]. unfold v_recip. rewrite S. split; [reflexivity|]. unfold v_charged.
  assert (0 <= alpha inv ^ 2) by (simpl; nra). pose proof PI_RGT_0.
  assert (0 <= - PI / (det3 l * alpha inv ^ 2)).
  { destruct (Req_dec (alpha inv ^ 2) 0) as [Z|NZ]; [rewrite Z, Rmult_0_r; unfold Rdiv; rewrite Rinv_0; lra|].
    assert (det3 l * alpha inv ^ 2 < 0) by nra. apply Rinv_lt_0_compat in H1. unfold Rdiv. nra. }
  apply Rmult_le_pos; [lra|]. simpl. nra.
Qed.

(** The same cubic crystal with the first two basis vectors exchanged: the energy of a
    charge changes, for every cutoff and every erfc. *)
Definition swapped : mat := of_rows3 (of_list3 0 1 0) (of_list3 1 0 0) (of_list3 0 0 1).
Lemma swapped_inverse : inverse 3 swapped swapped.
Proof.
  split; intros a b A B; (destruct a as [|[|[|a]]]; [| | |lia]); (destruct b as [|[|[|b]]]; [| | |lia]); unfold swapped, delta, of_rows3, of_list3; simpl; ring.
Qed.
Definition lone : particle := {| pos := fun _ => 0; charge := 1 |}.
Lemma height_one inv i : (forall k, (k < 3)%nat -> exists s, inv k i = s) -> dot 3 (fun k => inv k i) (fun k => inv k i) = 1 -> height inv i = 1.
Proof. intros _ H. unfold height, norm. rewrite H, sqrt_1. field. Qed.
Lemma alpha_cubic : alpha cubic = 5.
Proof.
  unfold alpha. rewrite !height_one; eauto; try (unfold dot, cubic, delta; cbn; ring). rewrite !Rmin_left by (rewrite ?Rmin_left; lra). lra.
Qed.
Lemma alpha_swapped : alpha swapped = 5.
Proof.
  unfold alpha. rewrite !height_one; eauto; try (unfold dot, swapped, of_rows3, of_list3; cbn; ring). rewrite !Rmin_left by (rewrite ?Rmin_left; lra). lra.
Qed.
Lemma pair_cubic : same 3 (pair_vector cubic cubic lone lone) (fun _ => 0).
Proof.
  assert (D : diagonal 3 cubic) by (intros i j _ _ N; unfold cubic, delta; destruct (Nat.eqb_spec i j); [contradiction|reflexivity]).
  intros j Hj. unfold pair_vector, distance. rewrite (diagonal_test 3 cubic D). cbn [fst]. unfold cubic, delta. rewrite Nat.eqb_refl.
  cbn [pos lone]. replace (0 - 0 + 1 / 2) with (1 / 2) by ring. rewrite rmod1_id by lra. ring.
Qed.
Lemma pair_swapped : same 3 (pair_vector swapped swapped lone lone) (fun _ => 0).
Proof.
  assert (ND : is_diagonal 3 swapped = false) by (apply (not_diagonal3 _ 0 1); try lia; unfold swapped; simpl; rewrite Rabs_R1; lra).
  assert (NO : is_orthogonal 3 swapped = false) by (apply (C35_orthogonal_branch_dead 3 swapped 0); [lia|unfold dot, swapped, ortho_tol; simpl; lra]).
  destruct (general_branch 3 swapped swapped (fun d => pos lone d - pos lone d) ND NO) as [_ G].
  set (v := pair_vector swapped swapped lone lone) in *.
  assert (N : norm 3 v <= 0).
  { eapply Rle_trans; [apply (G (fun _ => 0%Z)); intros; lia|]. apply Req_le. rewrite norm3, !lv3. cbn [pos lone].
    replace (_ + _ + _) with 0 by ring. apply sqrt_0. }
  assert (Z : norm 3 v = 0) by (pose proof (norm_nonneg 3 v); lra).
  assert (D : dot 3 v v = 0) by (rewrite <- norm_sq, Z; ring).
  intros j Hj. pose proof (sum_pos_zero 3 (fun i => v i * v i) ltac:(intros; nra) D j Hj) as E. cbv beta in E. nra.
Qed.
Lemma PI_bound : PI < 35 / 10.
Proof.
  pose proof (proj2 (PI_ineq 1)) as H. unfold tg_alt, PI_tg in H. simpl in H. lra.
Qed.
Theorem C36_handedness_refuted : forall erfc gmax nlat, (1 <= gmax)%Z -> (0 <= nlat)%Z ->
  (forall r k, is_image 3 cubic r k <-> is_image 3 swapped r k) /\
  energy erfc swapped swapped gmax nlat [lone] < energy erfc cubic cubic gmax nlat [lone].
Proof.
  intros erfc gmax nlat G N. split.
  { intros r r'. split; intros [k K]; exists (fun i => match i with O => k 1%nat | S O => k O | _ => k i end); intros j Hj; rewrite (K j Hj); f_equal;
      unfold lattice_vector, cubic, swapped, delta, of_rows3, of_list3; cbn [sum]; (destruct j as [|[|[|j]]]; [| | |lia]); cbn; ring. }
  unfold energy. pose proof PI_RGT_0 as PP. pose proof PI_bound as PB.
  assert (V : v_real erfc swapped swapped nlat [lone] = v_real erfc cubic cubic nlat [lone]).
  { rewrite (C36_real_sum erfc swapped swapped nlat [lone] swapped_inverse N), (C36_real_sum erfc cubic cubic nlat [lone] (cubic_inverse 3) N).
    f_equal. apply lsum_ext. intros k _. cbn [indexed combine seq List.length lsum fold_right fst snd]. f_equal. f_equal.
    match goal with |- (if ?b then _ else _) = (if ?b then _ else _) => destruct b; [reflexivity|] end. f_equal.
    unfold potential. rewrite alpha_cubic, alpha_swapped.
    assert (E : norm 3 (fun d => pair_vector swapped swapped lone lone d + shift swapped k d) = norm 3 (fun d => pair_vector cubic cubic lone lone d + shift cubic k d)); [|rewrite E; reflexivity].
    rewrite !norm3. rewrite !pair_cubic, !pair_swapped by lia. destruct k as [[a b] c]. unfold shift, cubic, swapped, delta, of_rows3, of_list3. cbn. f_equal. ring. }
  assert (DS : det3 swapped = -1) by (unfold det3, swapped, of_rows3, of_list3; ring).
  assert (DC : det3 cubic = 1) by (unfold det3, cubic, delta; cbn; ring).
  destruct (C36_left_handed_refuted swapped swapped gmax [lone] ltac:(lra)) as (_ & R0 & _).
  rewrite V, R0. unfold v_self, v_charged. rewrite alpha_cubic, alpha_swapped, DS, DC. cbn [lsum fold_right charge lone].
  assert (W : / PI * (1 - PI * PI / 25) <= v_recip cubic cubic gmax [lone]).
  { assert (GS : gsquared cubic (1%Z, 0%Z, 0%Z) = 4 * PI * PI) by (unfold gsquared, dot, gpoint, cubic, delta; cbn; ring).
    assert (GW : gweight cubic cubic (1%Z, 0%Z, 0%Z) = / PI * exp (- (PI * PI / 25))).
    { unfold gweight. rewrite GS, alpha_cubic, DC. replace (- (4 * PI * PI) / (4 * 5 ^ 2)) with (- (PI * PI / 25)) by field. field. lra. }
    pose proof (exp_ineq1_le (- (PI * PI / 25))) as EX.
    assert (IP : 0 < / PI) by (apply Rinv_0_lt_compat; auto).
    assert (IB : 2 / 7 < / PI).
    { apply Rmult_lt_reg_r with PI; auto. rewrite Rinv_l by lra. lra. }
    assert (BW : / PI * (1 - PI * PI / 25) <= gweight cubic cubic (1%Z, 0%Z, 0%Z)) by (rewrite GW; apply Rmult_le_compat_l; lra).
    assert (PS : tol < gweight cubic cubic (1%Z, 0%Z, 0%Z)).
    { eapply Rlt_le_trans; [|exact BW]. unfold tol. assert (1 / 2 < 1 - PI * PI / 25) by nra. nra. }
    assert (IN : In (1%Z, 0%Z, 0%Z) (selected cubic cubic gmax)).
    { unfold selected. apply filter_In. split; [apply in_half; cbn; lia|]. unfold big. destruct (Rlt_dec _ _); auto. }
    assert (ST : forall g, structure2 cubic [lone] g = 1).
    { intros g. unfold structure2, phase, dot. cbn [lsum fold_right charge pos lone]. rewrite sum_0 by (intros; cbn; ring). rewrite cos_0, sin_0. ring. }
    eapply Rle_trans; [exact BW|]. unfold v_recip.
    replace (gweight cubic cubic (1%Z, 0%Z, 0%Z)) with (gweight cubic cubic (1%Z, 0%Z, 0%Z) * structure2 cubic [lone] (1%Z, 0%Z, 0%Z)) by (rewrite ST; ring).
    apply (lsum_ge (fun g => gweight cubic cubic g * structure2 cubic [lone] g) (selected cubic cubic gmax) (1%Z, 0%Z, 0%Z) IN).
    intros g Hg. apply filter_In in Hg as [_ Hg]. unfold big in Hg. destruct (Rlt_dec tol (gweight cubic cubic g)) as [L|]; [|discriminate].
    rewrite ST. unfold tol in L. lra. }
  assert (K : PI / 25 < / PI * (1 - PI * PI / 25)).
  { apply Rmult_lt_reg_l with PI; auto. rewrite <- Rmult_assoc, Rinv_r, Rmult_1_l by lra. nra. }
  assert (E1 : / 2 * (- PI / (-1 * 5 ^ 2)) * (1 + 0) ^ 2 = PI / 50) by field.
  assert (E2 : / 2 * (- PI / (1 * 5 ^ 2)) * (1 + 0) ^ 2 = - (PI / 50)) by field.
  rewrite E1, E2. lra.
Qed.
Example C36_example : inverse 3 cubic cubic /\ diagonal 3 cubic /\ (forall i, (i < 3)%nat -> cubic i i <> 0) /\
  half_space 1 = [(1, -1, -1); (1, -1, 0); (1, -1, 1); (1, 0, -1); (1, 0, 0); (1, 0, 1); (1, 1, -1); (1, 1, 0); (1, 1, 1);
                  (0, 1, -1); (0, 1, 0); (0, 1, 1); (0, 0, 1)]%Z /\
  image_particle cubic lone {| pos := of_list3 3 (-2) 0; charge := 1 |}.
Proof.
  split; [apply cubic_inverse|]. split; [intros i j _ _ N; unfold cubic, delta; destruct (Nat.eqb_spec i j); [contradiction|reflexivity]|].
  split; [intros i _; unfold cubic, delta; rewrite Nat.eqb_refl; lra|]. split; [reflexivity|]. split; [reflexivity|].
  exists (fun i => match i with O => 3%Z | S O => (-2)%Z | _ => 0%Z end). intros j Hj. cbn [pos lone]. rewrite lv3. unfold cubic, delta.
  (destruct j as [|[|[|j]]]; [| | |lia]); cbn; ring.
Qed.
Print Assumptions C36_real_sum.
Print Assumptions C36_handedness_refuted.
