(** C87: the spin penalty: local values against the total spin operator. *)
From Coq Require Import Reals List Bool Arith ZArith String Lra Lia Permutation FunctionalExtensionality.
From Coquelicot Require Import Coquelicot.
From Verif Require Import Sph_Spec Sph_Ops Spin_Spec Spin_Model Spin_Props Est_Model Loss_Spec Loss_Model Loss_Props.
Import ListNotations.
Open Scope R_scope.
Open Scope list_scope.
Local Notation length := List.length.

(** The real amplitude that a sign and a logarithm stand for. *)
Definition real_amplitude (w : R * option R) : R := fst w * match snd w with Some l => exp l | None => 0 end.
Definition stands_for {P} (net : (nat -> P) -> R * option R) (psi : (nat -> P) -> R) : Prop :=
  forall r, real_amplitude (net r) = psi r /\ (psi r <> 0 -> fst (net r) = 1 \/ fst (net r) = -1).
(** Minority and majority electrons: the first [up] are up; with equal numbers up is the minority. *)
Lemma majority_is up down : majority up down = if Nat.ltb down up then seq 0 up else seq up down.
Proof. unfold majority, at2, sz_polar, idx_in_spin. destruct (Nat.ltb down up); reflexivity. Qed.
Lemma minority_is up down : minority up down = if Nat.ltb down up then seq up down else seq 0 up.
Proof. unfold minority, at2, sz_polar, idx_in_spin. destruct (Nat.ltb down up); reflexivity. Qed.
Lemma minority_length up down : length (minority up down) = minor_num up down.
Proof. rewrite minority_is. unfold minor_num. destruct (Nat.ltb_spec down up); rewrite seq_length; lia. Qed.
Lemma swap_exchange {P} (r : nat -> P) a b : swap r a b = exchange a b r.
Proof. apply (swapped_exchange r a b). Qed.

Lemma combine_map2 {A B D} (f : A -> B) (g : A -> D) l : combine (map f l) (map g l) = map (fun x => (f x, g x)) l.
Proof. induction l; cbn; congruence. Qed.
Lemma logs_max_none l : logs_max l = None <-> forall x, In x l -> x = None.
Proof.
  induction l as [|[x|] l IH]; cbn.
  - split; auto. intros _ x [].
  - split; intros H; [destruct (logs_max l); discriminate|specialize (H (Some x) (or_introl eq_refl)); discriminate].
  - rewrite IH. split; intros H x Hx; [destruct Hx; auto|apply H; right; auto].
Qed.
(** The local value of one electron: 1 minus the sum of the exchanged amplitudes over the
    amplitude. *)
Definition side_value {P} (up down : nat) (psi : (nat -> P) -> R) (r : nat -> P) (i : nat) : R :=
  1 - total (map (fun a => psi (exchange i a r)) (majority up down)) / psi r.
Definition sees {P} (up down : nat) (psi : (nat -> P) -> R) (r : nat -> P) (i : nat) : Prop :=
  exists a, In a (majority up down) /\ psi (exchange i a r) <> 0.
Lemma amplitude_zero {P} (net : (nat -> P) -> R * option R) psi r : stands_for net psi -> psi r <> 0 -> snd (net r) <> None.
Proof. intros H NZ E. apply NZ. rewrite <- (proj1 (H r)). unfold real_amplitude. rewrite E. ring. Qed.
Theorem C87_side {P} up down (net : (nat -> P) -> R * option R) psi r i : stands_for net psi -> psi r <> 0 -> sees up down psi r i ->
  side_permute_wavefn up down net r i = Some (side_value up down psi r i).
Proof.
  intros HR NZ (a0 & Ha & Na). unfold side_permute_wavefn. destruct (HR r) as [A U]. specialize (U NZ). unfold real_amplitude in A.
  destruct (net r) as [s0 [l0|]] eqn:E; cbn [fst snd] in *; [|exfalso; apply NZ; rewrite <- A; ring].
  rewrite map_map, map_map, combine_map2. set (L := majority up down) in *.
  destruct (logs_max _) as [m|] eqn:M.
  - f_equal. unfold side_value. fold L. rewrite map_map. cbn [fst snd]. rewrite rsum_total.
    assert (T : total (map (fun a => oexp (option_map (fun l => l - l0) (snd (net (swap r i a)))) m * (- fst (net (swap r i a)) * s0)) L) * exp m
      = - (total (map (fun a => psi (exchange i a r)) L) / psi r)).
    { clear M Ha. induction L as [|a L IH]; cbn [map total]; [unfold Rdiv; ring|]. rewrite Rmult_plus_distr_r, IH. unfold Rdiv. rewrite Rmult_plus_distr_r, Ropp_plus_distr. f_equal.
      rewrite swap_exchange. destruct (HR (exchange i a r)) as [B _]. rewrite <- B. unfold real_amplitude. rewrite <- A.
      pose proof (exp_pos l0). pose proof (exp_pos m).
      assert (I : / (s0 * exp l0) = s0 * exp (- l0)). { rewrite exp_Ropp. destruct U as [-> | ->]; field; lra. }
      rewrite I. destruct (snd (net (exchange i a r))) as [l|]; cbn [option_map oexp]; [|ring].
      unfold Rminus. rewrite !exp_plus, (exp_Ropp m). field. lra. }
    rewrite T. lra.
  - exfalso. rewrite logs_max_none in M. assert (Z := M (option_map (fun l => l - l0) (snd (net (swap r i a0)))) (in_map (fun x => option_map (fun l => l - l0) (snd (net (swap r i x)))) L a0 Ha)).
    rewrite swap_exchange in Z. pose proof (amplitude_zero net psi _ HR Na) as Q. destruct (snd (net (exchange i a0 r))); [discriminate|congruence].
Qed.
(** If all exchanged amplitudes vanish the local value is 1, but NaN is returned (the walker
    is masked). *)
Theorem C87_all_vanish_refuted {P} up down (net : (nat -> P) -> R * option R) psi r i : stands_for net psi -> psi r <> 0 ->
  (forall a, In a (majority up down) -> snd (net (exchange i a r)) = None) ->
  side_value up down psi r i = 1 /\ side_permute_wavefn up down net r i = None.
Proof.
  intros HR NZ H. split.
  - unfold side_value. rewrite (map_ext_in _ (fun _ => 0)).
    + rewrite total_const. unfold Rdiv. ring.
    + intros a Ha. rewrite <- (proj1 (HR (exchange i a r))). unfold real_amplitude. rewrite (H a Ha). ring.
  - unfold side_permute_wavefn. destruct (net r) as [s0 [l0|]]; [|reflexivity].
    destruct (logs_max _) as [m|] eqn:M; [|reflexivity]. exfalso. assert (Z : Some m = None); [|discriminate]. rewrite <- M. apply logs_max_none.
    intros x Hx. rewrite map_map in Hx. apply in_map_iff in Hx as (a & <- & Ha). rewrite swap_exchange, (H a Ha). reflexivity.
Qed.

Lemma osum_some {A} (f : A -> option R) (g : A -> R) l : (forall x, In x l -> f x = Some (g x)) -> osum (map f l) = Some (total (map g l)).
Proof.
  induction l as [|x l IH]; intros H; cbn [map osum total]; auto. rewrite (H x (or_introl eq_refl)), IH by (intros; apply H; right; auto). reflexivity.
Qed.
Lemma full_value {P} up down (net : (nat -> P) -> R * option R) psi r : stands_for net psi -> psi r <> 0 -> (forall i, In i (minority up down) -> sees up down psi r i) ->
  full_permute_wavefn up down net r = Some (total (map (side_value up down psi r) (minority up down))).
Proof. intros HR NZ H. unfold full_permute_wavefn. apply osum_some. intros i Hi. apply C87_side; auto. Qed.

Lemma csigma_real (f : nat -> R) n : csigma n (fun k => RtoC (f k)) = RtoC (total (map f (seq 0 n))).
Proof.
  induction n as [|n IH]; [reflexivity|]. cbn [csigma]. rewrite IH, seq_S, map_app, total_app, RtoC_plus. cbn. rewrite Rplus_0_r. reflexivity.
Qed.
Lemma seq_shift_map a n : seq a n = map (fun k => (a + k)%nat) (seq 0 n).
Proof.
  revert a. induction n as [|n IH]; intros a; [reflexivity|]. rewrite !seq_S, map_app, <- IH. reflexivity.
Qed.
Lemma majority_map up down : majority up down = map (major up down) (seq 0 (n_major up down)).
Proof. rewrite majority_is. unfold major, n_major. destruct (Nat.ltb down up); [rewrite map_id; reflexivity|apply seq_shift_map]. Qed.
Lemma minority_map up down : minority up down = map (minor up down) (seq 0 (n_minor up down)).
Proof. rewrite minority_is. unfold minor, n_minor. destruct (Nat.ltb down up); [apply seq_shift_map|rewrite map_id; reflexivity]. Qed.

(** spin_square is (S^2 psi)/psi at the walker. *)
Theorem C87_spin_square {P} up down (net : (nat -> P) -> R * option R) psi (f : state P) r :
  fermionic (up + down) f -> (forall r, f r (up_first up) = RtoC (psi r)) -> stands_for net psi -> psi r <> 0 ->
  (forall i, In i (minority up down) -> sees up down psi r i) ->
  exists v, spin_square up down net r = Some v /\ Cmult (RtoC v) (f r (up_first up)) = S2 (up + down) f r (up_first up).
Proof.
  intros F HF HR NZ HS. unfold spin_square. rewrite (full_value up down net psi r HR NZ HS). cbn [option_map].
  eexists. split; [reflexivity|].
  set (plp := fun r => (RtoC (fst (net r)), snd (net r))).
  assert (REP : represents plp (fun r => f r (up_first up))).
  { intros x. rewrite HF. destruct (HR x) as [A U]. split.
    - unfold amplitude, plp. cbn [fst snd]. rewrite <- A. unfold real_amplitude. rewrite RtoC_mult. reflexivity.
    - intros Z. unfold plp. cbn [fst]. rewrite Cmod_R. assert (psi x <> 0) by (intros Q; apply Z; rewrite Q; reflexivity).
      destruct (U H) as [-> | ->]; [apply Rabs_R1|rewrite Rabs_left; lra]. }
  assert (FZ : f r (up_first up) <> RtoC 0) by (rewrite HF; intros Z; apply RtoC_inj in Z; contradiction).
  destruct (C78_local up down plp f r F REP FZ) as (v & V & W). rewrite <- W. f_equal.
  rewrite (s2_ratios up down plp _ r REP FZ) in V. injection V as <-. rewrite RtoC_plus. f_equal.
  rewrite minority_map, map_map, <- csigma_real. apply csigma_ext. intros i Hi. unfold side_value. rewrite RtoC_minus, HF. f_equal.
  rewrite RtoC_div by exact NZ. f_equal. rewrite majority_map, map_map, <- csigma_real. apply csigma_ext. intros j Hj. symmetry. apply HF.
Qed.

(** The S_+ penalty of one minority electron: on walkers closed under exchange of minority
    electrons, an antisymmetric wavefunction gives the same mean as the full S^2 penalty. *)
Lemma exchange_conj {P} i j a (r : nat -> P) : i <> j -> a <> i -> a <> j -> exchange j a r = exchange i j (exchange i a (exchange i j r)).
Proof.
  intros A B D. apply functional_extensionality. intros k. unfold exchange.
  destruct (Nat.eqb_spec k j), (Nat.eqb_spec k a), (Nat.eqb_spec k i); subst; try congruence;
  repeat match goal with |- context [Nat.eqb ?x ?y] => destruct (Nat.eqb_spec x y); subst; try congruence end.
Qed.
Lemma disjoint up down i a : In i (minority up down) -> In a (majority up down) -> a <> i.
Proof. rewrite minority_is, majority_is. destruct (Nat.ltb down up); rewrite !in_seq; lia. Qed.
Definition antisymmetric_in {P} (l : list nat) (psi : (nat -> P) -> R) : Prop :=
  forall i j r, In i l -> In j l -> i <> j -> psi (exchange i j r) = - psi r.
Lemma side_exchange {P} up down (psi : (nat -> P) -> R) i j r : antisymmetric_in (minority up down) psi -> In i (minority up down) -> In j (minority up down) -> psi r <> 0 ->
  side_value up down psi r j = side_value up down psi (exchange i j r) i.
Proof.
  intros AS I J NZ. destruct (Nat.eq_dec i j) as [->|N].
  - f_equal. apply functional_extensionality. intros k. unfold exchange. destruct (Nat.eqb_spec k j); subst; reflexivity.
  - unfold side_value. f_equal. rewrite (AS i j r I J N).
    rewrite (map_ext_in (fun a => psi (exchange j a r)) (fun a => -1 * psi (exchange i a (exchange i j r)))).
    + rewrite total_scal_f. field. exact NZ.
    + intros a Ha. rewrite (exchange_conj i j a r) by (auto; apply (disjoint up down); auto).
      rewrite (AS i j (exchange i a (exchange i j r)) I J N). ring.
Qed.
Lemma total_swap {A B} (f : A -> B -> R) la lb : total (map (fun a => total (map (f a) lb)) la) = total (map (fun b => total (map (fun a => f a b) la)) lb).
Proof.
  induction la as [|a la IH]; cbn [map total].
  - rewrite total_const. ring.
  - rewrite IH, <- total_plus. reflexivity.
Qed.
Theorem C87_plus_is_square {P} up down (net : (nat -> P) -> R * option R) psi (ws : list (nat -> P)) idx fix_idx :
  stands_for net psi -> antisymmetric_in (minority up down) psi -> In idx (minority up down) ->
  (forall i j, In i (minority up down) -> In j (minority up down) -> Permutation (map (exchange i j) ws) ws) ->
  (forall r, In r ws -> psi r <> 0 /\ forall i, In i (minority up down) -> sees up down psi r i) ->
  exists plus square, spin_penalty Plus fix_idx up down net = Some plus /\ spin_penalty Square fix_idx up down net = Some square /\
  exists p q, (forall r, In r ws -> plus r idx = Some (p r) /\ square r idx = Some (q r)) /\ average p ws = average q ws.
Proof.
  intros HR AS I CL HW. eexists. eexists. split; [reflexivity|]. split; [reflexivity|]. cbn beta.
  set (i0 := if fix_idx then nth 0 (minority up down) 0%nat else idx).
  assert (I0 : In i0 (minority up down)). { unfold i0. destruct fix_idx; [|exact I]. apply nth_In. destruct (minority up down); [contradiction|cbn; lia]. }
  exists (fun r => side_value up down psi r i0 * INR (minor_num up down)), (fun r => total (map (side_value up down psi r) (minority up down))). split.
  - intros r Hr. destruct (HW r Hr) as [NZ HS]. split.
    + cbv beta zeta. fold i0. rewrite (C87_side up down net psi r i0 HR NZ (HS i0 I0)). reflexivity.
    + apply full_value; auto.
  - unfold average, mean. rewrite !map_length. f_equal.
    rewrite (total_swap (fun r i => side_value up down psi r i)).
    assert (S : forall j, In j (minority up down) -> total (map (fun r => side_value up down psi r j) ws) = total (map (fun r => side_value up down psi r i0) ws)).
    { intros j J. rewrite (map_ext_in _ (fun r => side_value up down psi (exchange i0 j r) i0)) by (intros r Hr; apply side_exchange; auto; apply (HW r Hr)).
      rewrite <- (map_map (exchange i0 j) (fun r => side_value up down psi r i0)). apply total_perm, Permutation_map, CL; auto. }
    rewrite (map_ext_in (fun j => total (map (fun r => side_value up down psi r j) ws)) (fun _ => total (map (fun r => side_value up down psi r i0) ws)) (minority up down) S).
    rewrite total_const, minority_length. rewrite (map_ext _ (fun r => INR (minor_num up down) * side_value up down psi r i0)) by (intros; ring). rewrite total_scal_f. reflexivity.
Qed.

(** The electron exchanged at a step; consecutive steps take every minority electron once. *)
Lemma nodup_map_inj {A B} (f : A -> B) l : (forall x y, In x l -> In y l -> f x = f y -> x = y) -> NoDup l -> NoDup (map f l).
Proof.
  intros H N. induction N as [|x l X N IH]; cbn; constructor.
  - intros I. apply in_map_iff in I as (y & E & Hy). apply X. rewrite (H x y); auto; [left; auto|right; auto].
  - apply IH. intros. apply H; auto; right; auto.
Qed.
Theorem C87_swap_cycle : forall up down step, (minor_num up down <> 0)%nat ->
  Permutation (map (swap_index up down) (seq step (minor_num up down))) (map Some (minority up down)).
Proof.
  intros up down step M. set (m := minor_num up down) in *.
  assert (E : map (swap_index up down) (seq step m) = map (fun k => nth_error (minority up down) k) (map (fun s => (s mod m)%nat) (seq step m))).
  { rewrite map_map. apply map_ext. intros s. unfold swap_index. fold m. destruct (Nat.eqb_spec m 0); [contradiction|reflexivity]. }
  rewrite E. assert (P : Permutation (map (fun s => (s mod m)%nat) (seq step m)) (seq 0 m)).
  { apply NoDup_Permutation_bis.
    - apply nodup_map_inj; [|apply seq_NoDup]. intros x y X Y Q. apply in_seq in X. apply in_seq in Y.
      pose proof (Nat.div_mod x m M). pose proof (Nat.div_mod y m M). cbn beta in Q.
      destruct (Nat.eq_dec x y) as [|D]; auto. exfalso.
      assert ((x / m = y / m)%nat \/ (x / m < y / m)%nat \/ (y / m < x / m)%nat) as [H1|[H1|H1]] by lia; [|nia|nia].
      rewrite H1 in H. lia.
    - rewrite map_length, !seq_length. lia.
    - intros x Hx. apply in_map_iff in Hx as (s & <- & _). apply in_seq. pose proof (Nat.mod_upper_bound s m M). lia. }
  rewrite (Permutation_map _ P). assert (Q : map (fun k => nth_error (minority up down) k) (seq 0 m) = map Some (minority up down)); [|rewrite Q; reflexivity].
  unfold m. rewrite <- minority_length. clear. induction (minority up down) as [|x l IH]; [reflexivity|]. cbn [List.length seq map nth_error]. f_equal.
  rewrite <- seq_shift, map_map. exact IH.
Qed.
(** The state returned is the one passed in: a caller that does not count the steps itself
    (the documentation says it need not) exchanges the same electron for ever. *)
Theorem C87_step_not_counted_refuted : forall up down step n,
  swap_index up down (Nat.iter n (fun s => snd (spin_loss s)) step) = swap_index up down step /\ fst (spin_loss step) = 0.
Proof. intros up down step n. split; [|reflexivity]. f_equal. induction n; cbn; auto. Qed.
(** With one spin species there is no electron to exchange. *)
Theorem C87_polarised_refuted : forall up down step, (up = 0 \/ down = 0)%nat -> swap_index up down step = None.
Proof. intros up down step H. unfold swap_index. replace (minor_num up down) with 0%nat by (unfold minor_num; lia). reflexivity. Qed.

(** Example: two electrons in the triplet orbital x1 - x2: S^2 = 2; in the singlet x1 + x2: 0. *)
Example C87_spin_example : let net (f : R) := (if Rlt_dec f 0 then -1 else 1, if Req_EM_T f 0 then None else Some (ln (Rabs f))) in
  let r k := INR (S k) in
  spin_square 1 1 (fun x => net (x 0%nat - x 1%nat)) r = Some 2 /\ spin_square 1 1 (fun x => net (x 0%nat + x 1%nat)) r = Some 0.
Proof.
  assert (G : forall psi : (nat -> R) -> R, stands_for (fun x => ((if Rlt_dec (psi x) 0 then -1 else 1), if Req_EM_T (psi x) 0 then None else Some (ln (Rabs (psi x))))) psi).
  { intros psi x. unfold real_amplitude. cbn [fst snd]. split.
    - destruct (Req_EM_T (psi x) 0) as [Z|Z]; [rewrite Z; ring|]. rewrite exp_ln by (apply Rabs_pos_lt, Z).
      destruct (Rlt_dec (psi x) 0); [rewrite Rabs_left by lra; ring|rewrite Rabs_pos_eq by lra; ring].
    - intros _. destruct (Rlt_dec (psi x) 0); auto. }
  cbv zeta. unfold spin_square. split.
  - rewrite (full_value 1 1 _ (fun x => x 0%nat - x 1%nat) (fun k => INR (S k)) (G (fun x => x 0%nat - x 1%nat))).
    + cbn. f_equal. unfold side_value, sz_factor. cbn. rewrite Rminus_diag_eq, Rabs_R0 by reflexivity. field.
    + cbn. lra.
    + intros i [<-|[]]. exists 1%nat. split; [left; reflexivity|cbn; lra].
  - rewrite (full_value 1 1 _ (fun x => x 0%nat + x 1%nat) (fun k => INR (S k)) (G (fun x => x 0%nat + x 1%nat))).
    + cbn. f_equal. unfold side_value, sz_factor. cbn. rewrite Rminus_diag_eq, Rabs_R0 by reflexivity. field.
    + cbn. lra.
    + intros i [<-|[]]. exists 1%nat. split; [left; reflexivity|cbn; lra].
Qed.
