(** C21, C23, C57: Metropolis-Hastings bookkeeping, width adaptation, proposal noise. *)
From Coq Require Import String List Bool Arith ZArith QArith Qfield Qpower Lia Permutation.
From Verif Require Import Common Data_Model Sampler_Model.
Import ListNotations.
Open Scope nat_scope.
Open Scope list_scope.

Lemma injN_nz k : 0 < k -> ~ (inject_Z (Z.of_nat k) == 0)%Q.
Proof. intros H E. unfold Qeq in E. simpl in E. lia. Qed.
Lemma nth_ext_err {A} (a b : list A) : (forall i, nth_error a i = nth_error b i) -> a = b.
Proof.
  revert b. induction a as [|x a IH]; intros [|y b] H; auto.
  - specialize (H 0); discriminate.
  - specialize (H 0); discriminate.
  - f_equal; [specialize (H 0); simpl in H; congruence|]. apply IH. intros i. apply (H (S i)).
Qed.
Lemma map_nth_seq {A} (c : list A) n d : length c = n -> map (fun i => nth i c d) (seq 0 n) = c.
Proof.
  intros <-. induction c as [|x c IH]; auto. simpl. f_equal.
  rewrite <- seq_shift, map_map. exact IH.
Qed.
Lemma filter_map_length {A B} (p : B -> bool) (f : A -> B) l : length (filter p (map f l)) = length (filter (fun x => p (f x)) l).
Proof. induction l; simpl; auto. destruct (p (f a)); simpl; auto. Qed.

Section Bookkeeping.
  Variables (V Sh L U Key : Type).
  Variable split3 : Key -> Key * Key * Key.
  Variable uniform : Key -> nat -> list U.
  Variable accept : L -> L -> U -> bool.
  Variable proposal : Key -> tree V Sh -> Q -> tree V Sh.
  Variable blp : tree V Sh -> list L.
  Notation mh := (mh V Sh L Key).
  Notation upd := (mh_update V Sh L U Key split3 uniform accept proposal blp).
  Notation iter := (iter_mh V Sh L U Key split3 uniform accept proposal blp).
  Notation pos := (pos V Sh L Key).
  Notation logp := (logp V Sh L Key).
  Notation num_accepts := (num_accepts V Sh L Key).
  Notation key := (key V Sh L Key).

  (** *** Specification: one walker of a batch *)
  Definition walker (i : nat) (x : tree V Sh) : list (option V) := map (fun l => nth_error (rows l) i) x.
  (** A batch of [n] walkers. *)
  Definition batch (n : nat) (x : tree V Sh) : Prop := Forall (fun l => length (rows l) = n) x.
  (** The log-probability scores each walker by itself ([jax.vmap] of the wavefunction). *)
  Definition walkerwise (n : nat) (lp : list (option V) -> L) : Prop :=
    forall x, batch n x -> blp x = map (fun i => lp (walker i x)) (seq 0 n).
  Definition keeps_structure (n : nat) : Prop := forall k x sd, batch n x ->
    batch n (proposal k x sd) /\ map lshape (proposal k x sd) = map lshape x.
  Definition draws (n : nat) : Prop := forall k, length (uniform k n) = n.

  (** The proposal and the decision of one update, for one walker. *)
  Definition proposed (sd : Q) (s : mh) : tree V Sh := proposal (snd (fst (split3 (key s)))) (pos s) sd.
  Definition accepted (sd : Q) (s : mh) (i : nat) : bool :=
    match nth_error (blp (proposed sd s)) i, nth_error (logp s) i,
          nth_error (uniform (snd (split3 (key s))) (length (logp s))) i with
    | Some l2, Some l1, Some u => accept l2 l1 u
    | _, _, _ => false
    end.

  Lemma length_where {A} c : forall (x y : list A), length x = length c -> length y = length c -> length (where_ c x y) = length c.
  Proof. induction c; intros [|u x] [|v y]; simpl; intros; try discriminate; auto. Qed.
  Lemma nth_where {A} i : forall c (x y : list A), length x = length c -> length y = length c ->
    nth_error (where_ c x y) i = if nth i c false then nth_error x i else nth_error y i.
  Proof.
    induction i; intros [|b c] [|u x] [|v y]; simpl; intros; try discriminate; auto.
    destruct b; auto.
  Qed.
  Lemma length_decide a : forall b u, length b = length a -> length u = length a ->
    length (decide L U accept a b u) = length a.
  Proof. induction a; intros [|y b] [|z u]; simpl; intros; try discriminate; auto. Qed.
  Lemma nth_decide i : forall a b u, length b = length a -> length u = length a ->
    nth i (decide L U accept a b u) false =
    match nth_error a i, nth_error b i, nth_error u i with Some x, Some y, Some z => accept x y z | _, _, _ => false end.
  Proof. induction i; intros [|x a] [|y b] [|z u]; simpl; intros; try discriminate; auto. Qed.

  Lemma walker_where n i c : forall x2 x1, length c = n -> batch n x2 -> batch n x1 -> length x2 = length x1 ->
    walker i (where_tree V Sh c x2 x1) = if nth i c false then walker i x2 else walker i x1.
  Proof.
    intros x2 x1 Hc. revert x1. induction x2 as [|a x2 IH]; intros [|b x1]; simpl; intros B2 B1 Hl; try discriminate.
    - destruct (nth i c false); auto.
    - inversion B2; subst. inversion B1; subst. rewrite nth_where by congruence.
      rewrite IH; auto. destruct (nth i c false); auto.
  Qed.
  Lemma batch_where n c : forall x2 x1, length c = n -> batch n x2 -> batch n x1 -> length x2 = length x1 ->
    batch n (where_tree V Sh c x2 x1) /\ map lshape (where_tree V Sh c x2 x1) = map lshape x1.
  Proof.
    intros x2 x1 Hc. revert x1. induction x2 as [|a x2 IH]; intros [|b x1]; simpl; intros B2 B1 Hl; try discriminate.
    - split; [constructor|auto].
    - inversion B2; subst. inversion B1; subst. destruct (IH x1) as [A B]; auto. split; [|congruence].
      constructor; auto. simpl. rewrite length_where; congruence.
  Qed.
  Lemma map_length_eq {A B} (f : A -> B) x y : map f x = map f y -> length x = length y.
  Proof. intros H. apply (f_equal (@length B)) in H. rewrite !map_length in H. auto. Qed.

  Section Fixed.
    Variable n : nat.
    Variable lp : list (option V) -> L.
    Hypothesis WW : walkerwise n lp.
    Hypothesis KS : keeps_structure n.
    Hypothesis DR : draws n.

    Lemma blp_length x : batch n x -> length (blp x) = n.
    Proof. intros H. rewrite (WW x H), map_length, seq_length. auto. Qed.
    Lemma nth_blp x i : batch n x -> i < n -> nth_error (blp x) i = Some (lp (walker i x)).
    Proof.
      intros H Hi. rewrite (WW x H). rewrite nth_error_map.
      rewrite (nth_error_nth' _ 0) by (rewrite seq_length; auto). rewrite seq_nth by auto. auto.
    Qed.

    (** The state between updates. *)
    Definition ok (s : mh) : Prop := batch n (pos s) /\ logp s = blp (pos s).

    Lemma upd_facts sd s : ok s ->
      ok (upd sd s) /\ map lshape (pos (upd sd s)) = map lshape (pos s) /\
      (forall i, i < n -> walker i (pos (upd sd s)) = if accepted sd s i then walker i (proposed sd s) else walker i (pos s)) /\
      num_accepts (upd sd s) = num_accepts s + length (filter (accepted sd s) (seq 0 n)).
    Proof.
      intros [B E]. unfold mh_update, accepted, proposed. destruct (split3 (key s)) as [[r1 r2] r3]. cbn [fst snd Sampler_Model.pos Sampler_Model.logp Sampler_Model.num_accepts].
      set (x2 := proposal r2 (pos s) sd). destruct (KS r2 (pos s) sd B) as [B2 S2]. fold x2 in B2, S2.
      assert (L1 : length (logp s) = n) by (rewrite E; apply blp_length; auto).
      assert (L2 : length (blp x2) = n) by (apply blp_length; auto).
      rewrite L1. set (us := uniform r3 n). assert (Lu : length us = n) by apply DR.
      set (c := decide L U accept (blp x2) (logp s) us).
      assert (Lc : length c = n) by (unfold c; rewrite length_decide; congruence).
      assert (Nc : forall i, nth i c false = match nth_error (blp x2) i, nth_error (logp s) i, nth_error us i with
                   | Some x, Some y, Some z => accept x y z | _, _, _ => false end).
      { intros i. unfold c. apply nth_decide; congruence. }
      assert (LT : length x2 = length (pos s)) by (eapply map_length_eq; eauto).
      destruct (batch_where n c x2 (pos s) Lc B2 B LT) as [BW SW].
      assert (W : forall i, walker i (where_tree V Sh c x2 (pos s)) = if nth i c false then walker i x2 else walker i (pos s))
        by (intros; apply (walker_where n); auto).
      split; [split; auto|split; [auto|split]].
      - cbn [Sampler_Model.pos Sampler_Model.logp].
        apply (nth_ext_err). intros i. rewrite nth_where by congruence.
        destruct (lt_dec i n) as [Hi|Hi].
        + rewrite !nth_blp by auto. rewrite W, E, nth_blp by auto. destruct (nth i c false); auto.
        + rewrite (proj2 (nth_error_None (blp x2) i)) by lia.
          rewrite (proj2 (nth_error_None (logp s) i)) by lia.
          symmetry. destruct (nth i c false); apply nth_error_None; rewrite blp_length; auto; lia.
      - intros i Hi. rewrite W, Nc. auto.
      - f_equal. unfold count_true. rewrite <- (map_nth_seq c n false Lc).
        rewrite filter_map_length. f_equal. apply filter_ext. intros i. apply Nc.
    Qed.

    Lemma iter_ok sd m : forall s, ok s -> ok (iter m sd s).
    Proof. induction m; simpl; auto. intros s H. apply IHm. apply upd_facts; auto. Qed.
    Lemma iter_shapes sd m : forall s, ok s -> map lshape (pos (iter m sd s)) = map lshape (pos s).
    Proof. induction m; simpl; auto. intros s H. rewrite IHm; apply upd_facts; auto. Qed.
    Lemma iter_S sd m : forall s, iter (S m) sd s = upd sd (iter m sd s).
    Proof. induction m; intros s; [reflexivity|]. change (iter (S (S m)) sd s) with (iter (S m) sd (upd sd s)). rewrite IHm. reflexivity. Qed.

    (** *** C21: in every update of a run each walker either keeps its position or takes
        the proposed one - all its fields together -, and takes it exactly when its own
        acceptance test succeeds. *)
    Theorem C21_old_or_proposal : forall m sd s i, ok s -> i < n ->
      walker i (pos (iter (S m) sd s)) =
      if accepted sd (iter m sd s) i then walker i (proposed sd (iter m sd s)) else walker i (pos (iter m sd s)).
    Proof. intros m sd s i H Hi. rewrite iter_S. apply upd_facts; auto. apply iter_ok; auto. Qed.

    (** The cached log-probability is that of the position, at all times. *)
    Theorem C21_cached_log_prob : forall m sd s, ok s -> logp (iter m sd s) = blp (pos (iter m sd s)).
    Proof. intros m sd s H. apply (iter_ok sd m s H). Qed.

    (** Hence every acceptance test compares the proposal with the current position. *)
    Theorem C21_test_uses_current_position : forall m sd s i u, ok s -> i < n ->
      nth_error (uniform (snd (split3 (key (iter m sd s)))) n) i = Some u ->
      accepted sd (iter m sd s) i = accept (lp (walker i (proposed sd (iter m sd s)))) (lp (walker i (pos (iter m sd s)))) u.
    Proof.
      intros m sd s i u H Hi Hu. destruct (iter_ok sd m s H) as [B E]. set (t := iter m sd s) in *.
      unfold accepted. rewrite E, blp_length, Hu by auto.
      rewrite !nth_blp; auto. apply KS; auto.
    Qed.

    (** Number of accepted moves in [m] updates. *)
    Definition total (l : list nat) : nat := fold_right plus 0 l.
    Definition accepted_moves (sd : Q) (s : mh) (m : nat) : nat :=
      total (map (fun t => length (filter (accepted sd (iter t sd s)) (seq 0 n))) (seq 0 m)).

    Lemma accepts_counted sd s m : ok s -> num_accepts (iter m sd s) = num_accepts s + accepted_moves sd s m.
    Proof.
      intros H. induction m as [|m IH]; [simpl; auto|].
      rewrite iter_S. destruct (upd_facts sd (iter m sd s)) as (_ & _ & _ & ->); [apply iter_ok; auto|].
      rewrite IH. unfold accepted_moves, total. rewrite seq_S, map_app, fold_right_app. simpl.
      assert (F : forall l c, fold_right plus c l = fold_right plus 0 l + c).
      { clear. induction l; simpl; intros; auto. rewrite IHl. lia. }
      rewrite (F _ (_ + 0)). lia.
    Qed.

    (** Walkers do not influence each other: a run seen from walker [i] depends on the
        other walkers in no way. *)
    Theorem C21_walkers_independent : forall sd i, i < n ->
      (forall k x y, batch n x -> batch n y -> map lshape x = map lshape y -> walker i x = walker i y ->
         walker i (proposal k x sd) = walker i (proposal k y sd)) ->
      forall m s t, ok s -> ok t -> key s = key t -> map lshape (pos s) = map lshape (pos t) ->
        walker i (pos s) = walker i (pos t) ->
        walker i (pos (iter m sd s)) = walker i (pos (iter m sd t)) /\ key (iter m sd s) = key (iter m sd t).
    Proof.
      intros sd i Hi HP. induction m as [|m IH]; intros s t Hs Ht K Sh0 W; [simpl; auto|]. cbn [iter_mh].
      destruct (upd_facts sd s Hs) as (Os & Ss & Ws & _). destruct (upd_facts sd t Ht) as (Ot & St & Wt & _).
      assert (KE : key (upd sd s) = key (upd sd t)).
      { unfold mh_update. rewrite K. destruct (split3 (key t)) as [[r1 r2] r3]. reflexivity. }
      apply IH; auto; [congruence|].
      rewrite (Ws i Hi), (Wt i Hi).
      assert (P : walker i (proposed sd s) = walker i (proposed sd t)).
      { unfold proposed. rewrite K. apply HP; auto; [apply Hs|apply Ht]. }
      assert (A : accepted sd s i = accepted sd t i).
      { unfold accepted. destruct Hs as [Bs Es]. destruct Ht as [Bt Et]. rewrite Es, Et, K.
        rewrite !blp_length by auto.
        assert (B1 : batch n (proposed sd s)) by (apply KS; auto).
        assert (B2 : batch n (proposed sd t)) by (apply KS; auto).
        rewrite !nth_blp, P, W by auto. reflexivity. }
      rewrite A, P, W. reflexivity.
    Qed.

    (** *** The reported acceptance rate, over any number of devices with [n] walkers
        each: accepted moves over attempted moves. *)
    Definition start (dk : tree V Sh * Key) : mh :=
      {| Sampler_Model.pos := fst dk; Sampler_Model.key := snd dk; Sampler_Model.logp := blp (fst dk); Sampler_Model.num_accepts := 0 |}.

    Theorem C21_acceptance_rate : forall c devices st, 0 < steps c -> 0 < n -> devices <> [] ->
      Forall (fun dk => batch n (fst dk)) devices ->
      let '(_, pmove, _) := step V Sh L U Key split3 uniform accept proposal blp c devices st in
      (pmove ==
       inject_Z (Z.of_nat (total (map (fun dk => accepted_moves (stddev st) (start dk) (steps c)) devices))) /
       inject_Z (Z.of_nat (steps c * (n * length devices))))%Q.
    Proof.
      intros c devices st Hs Hn Hd HB. unfold step. destruct (Nat.eqb_spec (steps c) 0); [lia|].
      unfold qmean. rewrite map_length.
      assert (E : (qsum (map (local_pmove V Sh L U Key split3 uniform accept proposal blp c (stddev st)) devices) ==
        inject_Z (Z.of_nat (total (map (fun dk => accepted_moves (stddev st) (start dk) (steps c)) devices)))
        / inject_Z (Z.of_nat (steps c * n)))%Q).
      { assert (NZ : ~ (inject_Z (Z.of_nat (steps c * n)) == 0)%Q).
        { apply injN_nz. nia. }
        clear Hd. induction HB as [|dk ds B HB IH]; simpl.
        - unfold qsum. simpl. unfold Qeq. simpl. lia.
        - unfold qsum in *. simpl. rewrite IH. unfold local_pmove, run_device.
          change {| Sampler_Model.pos := fst dk; Sampler_Model.key := snd dk; Sampler_Model.logp := blp (fst dk); Sampler_Model.num_accepts := 0 |} with (start dk).
          rewrite accepts_counted by (split; auto). rewrite blp_length by auto. cbn [start Sampler_Model.num_accepts].
          rewrite (Nat2Z.inj_add (accepted_moves _ _ _)). rewrite inject_Z_plus.
          change (0 + accepted_moves (stddev st) (start dk) (steps c)) with (accepted_moves (stddev st) (start dk) (steps c)).
          field. exact NZ. }
      rewrite E. rewrite Nat.mul_assoc. rewrite (Nat2Z.inj_mul (steps c * n)), inject_Z_mult.
      field. split; apply injN_nz; [destruct devices; [congruence|simpl; lia]|nia].
    Qed.

    (** The returned positions are those of the run. *)
    Theorem C21_step_returns_run : forall c devices st, 0 < steps c ->
      let '(xs, _, _) := step V Sh L U Key split3 uniform accept proposal blp c devices st in
      xs = map (fun dk => pos (iter (steps c) (stddev st) (start dk))) devices.
    Proof. intros c devices st H. unfold step. destruct (Nat.eqb_spec (steps c) 0); [lia|]. reflexivity. Qed.

    (** With no steps nothing moves, nothing adapts, and the rate is 0. *)
    Theorem C21_zero_steps : forall c devices st, steps c = 0 ->
      step V Sh L U Key split3 uniform accept proposal blp c devices st = (map fst devices, 0%Q, st).
    Proof. intros c devices st H. unfold step. rewrite H. reflexivity. Qed.
  End Fixed.
End Bookkeeping.

(** *** The Gaussian proposal keeps the structure and moves each walker by itself. *)
Section GaussianProps.
  Variables (Sh Key : Type).
  Variable normal : Key -> nat -> Sh -> list Q.
  Hypothesis normal_length : forall k n s, length (normal k n s) = n.
  Notation gp := (gaussian_proposal Sh Key normal).

  Lemma add_noise_length sd : forall xs zs, length zs = length xs -> length (add_noise xs zs sd) = length xs.
  Proof. induction xs; intros [|z zs]; simpl; intros; try discriminate; auto. Qed.
  Lemma nth_add_noise sd i : forall xs zs, length zs = length xs ->
    nth_error (add_noise xs zs sd) i = match nth_error xs i, nth_error zs i with Some x, Some z => Some (x + z * sd)%Q | _, _ => None end.
  Proof. induction i; intros [|x xs] [|z zs]; simpl; intros; try discriminate; auto. Qed.

  Lemma gaussian_keeps n : keeps_structure Q Sh Key gp n.
  Proof.
    intros k x sd B. split.
    - unfold gaussian_proposal. apply Forall_forall. intros l Hl. apply in_map_iff in Hl as (l0 & <- & Hl0). simpl.
      rewrite add_noise_length by (rewrite normal_length; auto).
      unfold batch in B. rewrite Forall_forall in B. auto.
    - unfold gaussian_proposal. rewrite map_map. apply map_ext. auto.
  Qed.

  Lemma gaussian_walkerwise n i sd : forall k x y, batch Q Sh n x -> batch Q Sh n y -> map lshape x = map lshape y ->
    walker Q Sh i x = walker Q Sh i y -> walker Q Sh i (gp k x sd) = walker Q Sh i (gp k y sd).
  Proof.
    intros k x. unfold walker, gaussian_proposal. induction x as [|a x IH]; intros [|b y] Bx By E W; simpl in *; try discriminate; auto.
    inversion Bx as [|? ? La Bx']; subst. inversion By as [|? ? Lb By']; subst.
    injection E as E1 E2. injection W as W1 W2.
    rewrite !nth_add_noise by (rewrite normal_length; auto).
    f_equal; [|apply IH; auto]. rewrite W1, E1, Lb. reflexivity.
  Qed.

  (** *** C57: two fields of equal shape sampled together receive the same noise, so
      their difference never changes - in any walker, over any number of updates,
      whatever the target distribution, the draws and the acceptance rule. *)
  Theorem C57_same_shape_difference_frozen :
    forall (L U : Type) split3 (uniform : Key -> nat -> list U) accept blp n lp,
    walkerwise Q Sh L blp n lp -> draws U Key uniform n ->
    forall m sd s a b la lb la' lb' i (xa xb xa' xb' : Q),
      ok Q Sh L Key blp n s ->
      let s' := iter_mh Q Sh L U Key split3 uniform accept gp blp m sd s in
      nth_error (pos Q Sh L Key s) a = Some la -> nth_error (pos Q Sh L Key s) b = Some lb -> lshape la = lshape lb ->
      nth_error (pos Q Sh L Key s') a = Some la' -> nth_error (pos Q Sh L Key s') b = Some lb' ->
      nth_error (rows la) i = Some xa -> nth_error (rows lb) i = Some xb ->
      nth_error (rows la') i = Some xa' -> nth_error (rows lb') i = Some xb' ->
      (xa' - xb' == xa - xb)%Q.
  Proof.
    intros L U split3 uniform accept blp n lp WW DR.
    pose proof (gaussian_keeps n) as KS.
    induction m as [|m IH]; intros sd s a b la lb la' lb' i xa xb xa' xb' O s' A B E A' B' Xa Xb Xa' Xb'.
    - subst s'. simpl in *. rewrite A in A'. rewrite B in B'. inversion A'; inversion B'; subst.
      rewrite Xa in Xa'. rewrite Xb in Xb'. inversion Xa'; inversion Xb'; subst. reflexivity.
    - subst s'. cbn [iter_mh] in A', B'.
      set (s1 := mh_update Q Sh L U Key split3 uniform accept gp blp sd s) in *.
      destruct (upd_facts Q Sh L U Key split3 uniform accept gp blp n lp WW KS DR sd s O) as (O1 & S1 & W1 & _).
      fold s1 in O1, S1, W1.
      assert (LA : length (pos Q Sh L Key s1) = length (pos Q Sh L Key s)) by (eapply map_length_eq; eauto).
      destruct (nth_error (pos Q Sh L Key s1) a) as [l1a|] eqn:A1.
      2:{ apply nth_error_None in A1. assert (a < length (pos Q Sh L Key s)) by (apply nth_error_Some; congruence). lia. }
      destruct (nth_error (pos Q Sh L Key s1) b) as [l1b|] eqn:B1.
      2:{ apply nth_error_None in B1. assert (b < length (pos Q Sh L Key s)) by (apply nth_error_Some; congruence). lia. }
      assert (SA : forall j l0 l1, nth_error (pos Q Sh L Key s) j = Some l0 -> nth_error (pos Q Sh L Key s1) j = Some l1 -> lshape l1 = lshape l0).
      { intros j l0 l1 H0 H1. apply (f_equal (fun l => nth_error l j)) in S1. rewrite !nth_error_map, H0, H1 in S1. simpl in S1. congruence. }
      destruct O as [OB OE]. destruct O1 as [OB1 OE1].
      assert (Hi : i < n).
      { unfold batch in OB. rewrite Forall_forall in OB. rewrite <- (OB la) by (eapply nth_error_In; eauto).
        apply nth_error_Some. congruence. }
      specialize (W1 i Hi).
      assert (G : forall j l0 l1, nth_error (pos Q Sh L Key s) j = Some l0 -> nth_error (pos Q Sh L Key s1) j = Some l1 ->
        nth_error (rows l1) i = (if accepted Q Sh L U Key split3 uniform accept gp blp sd s i
          then match nth_error (rows l0) i, nth_error (normal (snd (fst (split3 (key Q Sh L Key s)))) n (lshape l0)) i with
               | Some x, Some z => Some (x + z * sd)%Q | _, _ => None end
          else nth_error (rows l0) i)).
      { intros j l0 l1 H0 H1. apply (f_equal (fun l => nth_error l j)) in W1. unfold walker in W1 at 1.
        rewrite nth_error_map, H1 in W1. simpl in W1.
        destruct (accepted _ _ _ _ _ _ _ _ _ _ _ _ _).
        - unfold walker, proposed, gaussian_proposal in W1. rewrite nth_error_map, nth_error_map, H0 in W1. simpl in W1.
          inversion W1 as [W2]. rewrite W2. rewrite nth_add_noise by (rewrite normal_length; auto).
          unfold batch in OB. rewrite Forall_forall in OB. rewrite (OB l0) by (eapply nth_error_In; eauto). auto.
        - unfold walker in W1. rewrite nth_error_map, H0 in W1. simpl in W1. congruence. }
      pose proof (G a la l1a A A1) as Ga. pose proof (G b lb l1b B B1) as Gb. rewrite E in Ga. rewrite Xa in Ga. rewrite Xb in Gb.
      destruct (accepted _ _ _ _ _ _ _ _ _ _ _ _ _).
      + destruct (nth_error (normal _ n (lshape lb)) i) as [z|] eqn:Z.
        * rewrite (IH sd s1 a b l1a l1b la' lb' i (xa + z * sd)%Q (xb + z * sd)%Q xa' xb'); auto; [ring|split; auto|].
          rewrite (SA a la l1a), (SA b lb l1b); auto.
        * apply nth_error_None in Z. rewrite normal_length in Z. lia.
      + apply (IH sd s1 a b l1a l1b la' lb' i xa xb xa' xb'); auto; [split; auto|].
        rewrite (SA a la l1a), (SA b lb l1b); auto.
  Qed.

  (** So no choice of random numbers lets two such fields move independently, not even
      in a single proposal. *)
  Theorem C57_independent_moves_refuted : forall sh (xa xb : Q),
    ~ exists k sd ya yb, gp k [{| lshape := sh; rows := [xa] |}; {| lshape := sh; rows := [xb] |}] sd
        = [{| lshape := sh; rows := [ya] |}; {| lshape := sh; rows := [yb] |}] /\ ~ (ya - yb == xa - xb)%Q.
  Proof.
    intros sh xa xb (k & sd & ya & yb & E & N). apply N. unfold gaussian_proposal in E. simpl in E.
    pose proof (normal_length k 1 sh) as H. destruct (normal k 1 sh) as [|z [|]]; try discriminate.
    simpl in E. inversion E; subst. ring.
  Qed.
End GaussianProps.

(** *** C23: width adaptation *)
Section Adaptation.
  Variable c : sampler.
  Notation f := (adapt_frequency c).
  Hypothesis Hf : 0 < f.

  (** The sampler state after a history of acceptance rates. *)
  Definition after (ms : list Q) : mcmc_state := fold_left (adapt c) ms (init c).
  (** The last [k] entries of a history. *)
  Definition last_n {A} (k : nat) (l : list A) : list A := skipn (length l - k) l.

  Lemma after_snoc ms p : after (ms ++ [p]) = adapt c (after ms) p.
  Proof. unfold after. rewrite fold_left_app. reflexivity. Qed.
  Lemma after_counter ms : counter (after ms) = length ms.
  Proof.
    induction ms as [|p ms IH] using rev_ind; [reflexivity|].
    rewrite after_snoc, app_length. unfold adapt. simpl. lia.
  Qed.
  Lemma set_nth_length v : forall l i, length (set_nth i v l) = length l.
  Proof. induction l; intros [|i]; simpl; auto. Qed.
  Lemma nth_set_nth v d : forall l i j, i < length l -> nth j (set_nth i v l) d = if Nat.eqb j i then v else nth j l d.
  Proof.
    induction l as [|x l IH]; intros [|i] [|j] H; simpl in *; try lia; auto. apply IH; lia.
  Qed.
  Lemma after_length ms : length (pmoves (after ms)) = f.
  Proof.
    induction ms as [|p ms IH] using rev_ind; [apply repeat_length|].
    rewrite after_snoc. unfold adapt. simpl. rewrite set_nth_length. auto.
  Qed.

  (** Slot [j] holds the latest rate whose (1-based) number is [j] modulo [f]. *)
  Lemma after_slots ms : forall j d, j < f -> d < f -> d < length ms -> (length ms - d) mod f = j ->
    nth j (pmoves (after ms)) 0%Q = nth (length ms - 1 - d) ms 0%Q.
  Proof.
    induction ms as [|p ms IH] using rev_ind; intros j d Hj Hd Hl Hm; [simpl in Hl; lia|].
    rewrite after_snoc. unfold adapt. simpl. rewrite after_counter. rewrite app_length in *. simpl in *.
    rewrite nth_set_nth by (rewrite after_length; apply Nat.mod_upper_bound; lia).
    destruct (Nat.eqb_spec j ((length ms + 1) mod f)) as [E|E].
    - assert (D0 : d = 0).
      { (* d < f and N - d = N (mod f) *)
        assert (X : (length ms + 1 - d) mod f = (length ms + 1) mod f) by congruence.
        pose proof (Nat.div_mod (length ms + 1 - d) f ltac:(lia)) as D1.
        pose proof (Nat.div_mod (length ms + 1) f ltac:(lia)) as D2. rewrite X in D1.
        set (q1 := (length ms + 1 - d) / f) in *. set (q2 := (length ms + 1) / f) in *.
        assert (d = f * (q2 - q1)) by nia. destruct (Nat.eq_dec (q2 - q1) 0); [nia|nia]. }
      subst d. rewrite app_nth2 by lia. replace (length ms + 1 - 1 - 0 - length ms) with 0 by lia. reflexivity.
    - destruct d as [|d].
      + exfalso. apply E. rewrite <- Hm. f_equal. lia.
      + rewrite app_nth1 by lia. rewrite (IH j d); auto; try lia.
        * f_equal. lia.
        * rewrite <- Hm. f_equal. lia.
  Qed.

  Lemma nth_skipn_q k : forall (l : list Q) j, nth j (skipn k l) 0%Q = nth (k + j) l 0%Q.
  Proof. induction k; intros [|x l] j; simpl; auto. destruct j; auto. Qed.
  Lemma nth_map_seq0 (g : nat -> Q) m j : j < m -> nth j (map g (seq 0 m)) 0%Q = g j.
  Proof.
    intros H. rewrite (nth_indep (map g (seq 0 m)) 0%Q (g 0)) by (rewrite map_length, seq_length; auto).
    rewrite map_nth, seq_nth by auto. reflexivity.
  Qed.

  (** When the width is adapted, the buffer holds exactly the last [f] rates. *)
  Lemma buffer_is_last ms : ms <> [] -> length ms mod f = 0 ->
    Permutation (pmoves (after ms)) (last_n f ms).
  Proof.
    intros Hne Hm.
    assert (HL : f <= length ms).
    { destruct ms; [congruence|]. pose proof (Nat.div_mod (length (q :: ms)) f ltac:(lia)). simpl length in *.
      destruct (Nat.eq_dec (S (length ms) / f) 0) as [Z|]; [rewrite Z in *; lia|nia]. }
    set (N := length ms) in *.
    assert (E : pmoves (after ms) = nth (N - 1) ms 0%Q :: map (fun j => nth (N - f + j) ms 0%Q) (seq 0 (f - 1))).
    { apply (nth_ext _ _ 0%Q 0%Q).
      - rewrite after_length. simpl. rewrite map_length, seq_length. lia.
      - intros j Hj. rewrite after_length in Hj. destruct j as [|j].
        + rewrite (after_slots ms 0 0); fold N; try lia; [|rewrite Nat.sub_0_r; auto]. simpl. f_equal. lia.
        + rewrite (after_slots ms (S j) (f - S j)); fold N; try lia.
          * simpl. rewrite nth_map_seq0 by lia. f_equal. lia.
          * pose proof (Nat.div_mod N f ltac:(lia)) as D. rewrite Hm in D.
            set (q := N / f) in *. assert (q >= 1) by nia.
            replace (N - (f - S j)) with (S j + (q - 1) * f) by nia.
            rewrite Nat.mod_add by lia. apply Nat.mod_small. lia. }
    assert (F : last_n f ms = map (fun j => nth (N - f + j) ms 0%Q) (seq 0 (f - 1)) ++ [nth (N - 1) ms 0%Q]).
    { unfold last_n. fold N. apply (nth_ext _ _ 0%Q 0%Q).
      - rewrite skipn_length, app_length, map_length, seq_length. fold N. simpl. lia.
      - intros j Hj. rewrite skipn_length in Hj. fold N in Hj.
        rewrite nth_skipn_q. destruct (Nat.eq_dec j (f - 1)).
        + subst j. rewrite app_nth2; rewrite map_length, seq_length; [|lia].
          replace (f - 1 - (f - 1)) with 0 by lia. simpl. f_equal. lia.
        + rewrite app_nth1 by (rewrite map_length, seq_length; lia).
          rewrite nth_map_seq0 by lia. auto. }
    rewrite E, F. apply Permutation_cons_append.
  Qed.

  Lemma qsum_perm a b : Permutation a b -> (qsum a == qsum b)%Q.
  Proof.
    induction 1; unfold qsum in *; simpl; try reflexivity.
    - rewrite IHPermutation. reflexivity.
    - ring.
    - etransitivity; eauto.
  Qed.
  Lemma qmean_perm a b : Permutation a b -> (qmean a == qmean b)%Q.
  Proof. intros P. unfold qmean. rewrite (qsum_perm _ _ P), (Permutation_length P). reflexivity. Qed.
  Lemma qlt_comp a b a' b' : (a == a')%Q -> (b == b')%Q -> qlt a b = qlt a' b'.
  Proof.
    intros A B. unfold qlt. f_equal. apply eq_true_iff_eq. rewrite !Qle_bool_iff. rewrite A, B. reflexivity.
  Qed.
  Lemma qlt_true a b : qlt a b = true <-> (a < b)%Q.
  Proof.
    unfold qlt. rewrite negb_true_iff. split; intros H.
    - apply Qnot_le_lt. intros X. apply Qle_bool_iff in X. congruence.
    - destruct (Qle_bool b a) eqn:E; auto. apply Qle_bool_iff in E. exfalso. eapply Qlt_not_le; eauto.
  Qed.

  (** The width after one more step: unchanged unless the step number is a multiple of
      the frequency; then changed by the factor 1.1 according to the average of exactly
      the last [f] acceptance rates. *)
  Theorem C23_adaptation_rule : forall ms p,
    let w := stddev (after ms) in
    let w' := stddev (after (ms ++ [p])) in
    let avg := qmean (last_n f (ms ++ [p])) in
    ((S (length ms)) mod f <> 0 -> w' = w) /\
    ((S (length ms)) mod f = 0 ->
       ((snd (pmove_range c) < avg)%Q -> w' = (w * (11 # 10))%Q) /\
       ((avg <= snd (pmove_range c))%Q -> (avg < fst (pmove_range c))%Q -> w' = (w / (11 # 10))%Q) /\
       ((fst (pmove_range c) <= avg)%Q -> (avg <= snd (pmove_range c))%Q -> w' = w)).
  Proof.
    intros ms p w w' avg. subst w w'. rewrite after_snoc. unfold adapt.
    rewrite after_counter. replace (length ms + 1) with (S (length ms)) by lia. cbn [stddev].
    destruct (Nat.eqb_spec (S (length ms) mod f) 0) as [E|E]; split; intros H; try (congruence || lia); auto.
    assert (A : (qmean (set_nth (S (length ms) mod f) p (pmoves (after ms))) == avg)%Q).
    { subst avg. rewrite <- (qmean_perm _ _ (buffer_is_last (ms ++ [p]) ltac:(destruct ms; discriminate)
         ltac:(rewrite app_length; simpl; rewrite Nat.add_1_r; auto))).
      rewrite after_snoc. unfold adapt. cbn [pmoves]. rewrite after_counter, Nat.add_1_r. reflexivity. }
    rewrite (qlt_comp (snd (pmove_range c)) _ (snd (pmove_range c)) avg (Qeq_refl _) A).
    rewrite (qlt_comp _ (fst (pmove_range c)) avg (fst (pmove_range c)) A (Qeq_refl _)).
    split; [|split].
    - intros X. apply qlt_true in X. rewrite X. auto.
    - intros X Y. apply qlt_true in Y. rewrite Y. destruct (qlt (snd (pmove_range c)) avg) eqn:Z; auto.
      apply qlt_true in Z. exfalso. eapply Qlt_not_le; eauto.
    - intros X Y. destruct (qlt (snd (pmove_range c)) avg) eqn:Z.
      + apply qlt_true in Z. exfalso. eapply Qlt_not_le; eauto.
      + destruct (qlt avg (fst (pmove_range c))) eqn:Z'; auto.
        apply qlt_true in Z'. exfalso. eapply Qlt_not_le; eauto.
  Qed.

  (** The width stays positive; it is the initial width times a power of 1.1, with at
      most one factor per [f] steps. *)
  Theorem C23_width_positive : forall ms, (0 < initial_width c)%Q -> (0 < stddev (after ms))%Q.
  Proof.
    intros ms H. induction ms as [|p ms IH] using rev_ind; [exact H|].
    rewrite after_snoc. unfold adapt. cbn [stddev].
    destruct (Nat.eqb _ 0); auto. destruct (qlt _ _); [|destruct (qlt _ _); auto].
    - apply Qmult_lt_0_compat; auto. reflexivity.
    - unfold Qdiv. apply Qmult_lt_0_compat; auto. reflexivity.
  Qed.
  Theorem C23_width_is_power : forall ms, exists k : Z,
    (stddev (after ms) == initial_width c * Qpower (11 # 10) k)%Q /\ (Z.abs k <= Z.of_nat (length ms / f))%Z.
  Proof.
    intros ms. induction ms as [|p ms (k & E & B)] using rev_ind.
    - exists 0%Z. simpl. split; [ring|]. rewrite Nat.div_0_l by lia. lia.
    - rewrite after_snoc. unfold adapt. cbn [stddev]. rewrite after_counter, app_length. simpl length.
      assert (Mono : (Z.of_nat (length ms / f) <= Z.of_nat ((length ms + 1) / f))%Z).
      { apply inj_le. apply Nat.div_le_mono; lia. }
      destruct (Nat.eqb_spec ((length ms + 1) mod f) 0) as [M|M].
      + assert (St : (length ms + 1) / f = S (length ms / f)).
        { pose proof (Nat.div_mod (length ms + 1) f ltac:(lia)) as D. rewrite M in D.
          pose proof (Nat.div_mod (length ms) f ltac:(lia)) as D'.
          pose proof (Nat.mod_upper_bound (length ms) f ltac:(lia)). nia. }
        destruct (qlt _ _); [|destruct (qlt _ _)].
        * exists (k + 1)%Z. split; [|lia]. rewrite Qpower_plus by discriminate. rewrite E. simpl. ring.
        * exists (k - 1)%Z. split; [|lia]. rewrite E. unfold Z.sub. rewrite Qpower_plus by discriminate. simpl. field.
        * exists k. split; auto. lia.
      + exists k. split; auto. lia.
  Qed.
End Adaptation.

(** The state of a sampler over a run of steps is such a history. *)
Theorem C23_step_feeds_adaptation : forall V Sh L U Key split3 uniform accept proposal blp c devices st, 0 < steps c ->
  let '(_, pmove, st') := step V Sh L U Key split3 uniform accept proposal blp c devices st in st' = adapt c st pmove.
Proof. intros. unfold step. destruct (Nat.eqb_spec (steps c) 0); [lia|]. reflexivity. Qed.

(** A concrete run: two walkers, two fields, integer positions. *)
Example C21_example :
  let lp := (fun w : list (option Q) => match w with [Some a; Some b] => (a + b)%Q | _ => 0%Q end) in
  let blp := (fun x : tree Q nat => map (fun i => lp (walker Q nat i x)) (seq 0 2)) in
  let x := [{| lshape := 1; rows := [1; 2]%Q |}; {| lshape := 1; rows := [10; 20]%Q |}] in
  let gp := gaussian_proposal nat nat (fun k n s => map (fun i => inject_Z (Z.of_nat k - 2 * Z.of_nat i)) (seq 0 n)) in
  walkerwise Q nat Q blp 2 lp /\ batch Q nat 2 x /\
  (let s := iter_mh Q nat Q Q nat (fun k => (k + 3, k, k + 1)) (fun k n => repeat 0%Q n)
        (fun a b u => qlt u (a - b)%Q) gp blp 2 1 {| pos := x; key := 1; logp := blp x; num_accepts := 0 |} in
   num_accepts _ _ _ _ s = 3 /\ map (@rows Q nat) (pos _ _ _ _ s) =
     [[1 + 1 * 1 + 4 * 1; 2 + 2 * 1]%Q; [10 + 1 * 1 + 4 * 1; 20 + 2 * 1]%Q] ).
Proof. split; [intros x _; reflexivity|]. split; [repeat constructor|]. vm_compute. auto. Qed.

Example C23_example :
  let c := {| steps := 10; initial_width := 1; adapt_frequency := 2; pmove_range := (1 # 2, 11 # 20)%Q |} in
  map (fun ms => Qred (stddev (after c ms))) [[]; [1]%Q; [1; 1]%Q; [1; 1; 0]%Q; [1; 1; 0; 0]%Q; [1; 1; 0; 1]%Q]
  = [1; 1; 11 # 10; 11 # 10; 1; 11 # 10]%Q.
Proof. reflexivity. Qed.

Print Assumptions C21_old_or_proposal.
Print Assumptions C21_walkers_independent.
Print Assumptions C21_acceptance_rate.
Print Assumptions C23_adaptation_rule.
Print Assumptions C23_width_is_power.
Print Assumptions C57_same_shape_difference_frozen.
