(** C31: initial spins of the atoms. *)
From Coq Require Import ZArith List Bool Arith Lia.
From Verif Require Import Common Spins_Model.
Import ListNotations.
Open Scope Z_scope.

(** *** Specification.  [start]: occupancies after the hints; [fixed]: atoms whose spin the
    user fixed. *)
Definition nonneg (l : list (Z * Z)) : Prop := Forall (fun s => 0 <= fst s /\ 0 <= snd s) l.
(** Every atom keeps its number of electrons, fixed atoms keep both numbers. *)
Definition respects (fixed : list bool) (start final : list (Z * Z)) : Prop :=
  length final = length start /\
  forall j, (j < length start)%nat ->
    fst (nth j final (0, 0)) + snd (nth j final (0, 0)) = fst (nth j start (0, 0)) + snd (nth j start (0, 0)) /\
    (nth j fixed true = true -> nth j final (0, 0) = nth j start (0, 0)).

Lemma set_nth_length {A} (l : list A) n v : length (set_nth l n v) = length l.
Proof. revert n. induction l; intros [|n]; simpl; auto. Qed.
Lemma set_nth_same {A} (l : list A) n v d : (n < length l)%nat -> nth n (set_nth l n v) d = v.
Proof. revert n. induction l; intros [|n] H; simpl in *; try lia; auto. apply IHl. lia. Qed.
Lemma set_nth_other {A} (l : list A) n m v d : n <> m -> nth m (set_nth l n v) d = nth m l d.
Proof. revert n m. induction l; intros [|n] [|m] H; simpl; auto; try congruence. Qed.
Lemma zsum_set_nth (f : Z * Z -> Z) l n v : (n < length l)%nat ->
  zsum (map f (set_nth l n v)) = zsum (map f l) - f (nth n l (0, 0)) + f v.
Proof.
  revert n. induction l as [|x l IH]; intros [|n] H; simpl in *; try lia.
  unfold zsum in *. simpl. rewrite IH by lia. lia.
Qed.
Lemma nonneg_nth l j : nonneg l -> 0 <= fst (nth j l (0, 0)) /\ 0 <= snd (nth j l (0, 0)).
Proof.
  intros H. destruct (Nat.lt_ge_cases j (length l)) as [L|L].
  - unfold nonneg in H. rewrite Forall_forall in H. apply H. apply nth_In. auto.
  - rewrite nth_overflow by auto. simpl. lia.
Qed.
Lemma nonneg_set l n v : nonneg l -> 0 <= fst v -> 0 <= snd v -> nonneg (set_nth l n v).
Proof. intros H A B. revert n. induction H; intros [|n]; simpl; constructor; auto. apply IHForall. Qed.

Lemma respects_refl fixed l : respects fixed l l.
Proof. split; auto. Qed.
Lemma respects_trans fixed a b c : respects fixed a b -> respects fixed b c -> respects fixed a c.
Proof.
  intros [L1 H1] [L2 H2]. split; [congruence|]. intros j Hj. destruct (H1 j Hj) as [A1 A2]. destruct (H2 j ltac:(lia)) as [B1 B2].
  split; [lia|]. intros F. rewrite B2, A2; auto.
Qed.

Lemma candidates_spec fixed spins up c : In c (candidates fixed spins up) <->
  (c < length fixed)%nat /\ nth c fixed true = false /\ 0 < (if up then snd else fst) (nth c spins (0, 0)).
Proof.
  unfold candidates. rewrite filter_In, in_seq, andb_true_iff, negb_true_iff, Z.ltb_lt. simpl. split; intros; intuition lia.
Qed.

Section Dist.
Variable pick : nat -> nat -> nat.
Hypothesis pick_range : forall d n, (0 < n)%nat -> (pick d n < n)%nat.

Lemma adjust_spec fixed target : forall fuel draws spins r, length fixed = length spins -> nonneg spins ->
  adjust pick fuel draws fixed spins (alphas spins) target = Some r ->
  (exists final, r = Ok final /\ nonneg final /\ respects fixed spins final /\ alphas final = target) \/
  (r = Raise ValueError /\ exists now, nonneg now /\ respects fixed spins now /\ alphas now <> target /\
     candidates fixed now (target >? alphas now) = [] /\
     (alphas spins <= target -> alphas now <= target) /\ (target <= alphas spins -> target <= alphas now)).
Proof.
  induction fuel as [|fuel IH]; intros draws spins r L NN H.
  - simpl in H. destruct (alphas spins =? target) eqn:E; [|discriminate]. inversion H; subst. left. exists spins.
    apply Z.eqb_eq in E. split; auto. split; auto. split; [apply respects_refl|auto].
  - cbn [adjust] in H. destruct (alphas spins =? target) eqn:E.
    { inversion H; subst. left. exists spins. apply Z.eqb_eq in E. split; auto. split; auto. split; [apply respects_refl|auto]. }
    apply Z.eqb_neq in E. cbv zeta in H. destruct (candidates fixed spins (target >? alphas spins)) as [|c0 cs] eqn:C.
    { inversion H; subst. right. split; auto. exists spins. split; [exact NN|]. split; [apply respects_refl|]. split; [exact E|]. split; [exact C|]. split; auto. }
    set (c := nth (pick draws (length (c0 :: cs))) (c0 :: cs) O) in *.
    assert (IC : In c (candidates fixed spins (target >? alphas spins))).
    { rewrite C. apply nth_In. apply pick_range. simpl. lia. }
    apply candidates_spec in IC as (C1 & C2 & C3). rewrite L in C1. pose proof (nonneg_nth spins c NN) as [N1 N2].
    set (s := nth c spins (0, 0)) in *.
    assert (R : forall v, fst v + snd v = fst s + snd s -> respects fixed spins (set_nth spins c v)).
    { intros v Hv. split; [apply set_nth_length|]. intros j Hj. destruct (Nat.eq_dec c j) as [<-|N].
      - rewrite set_nth_same by auto. split; auto. congruence.
      - rewrite set_nth_other by auto. auto. }
    destruct (target >? alphas spins) eqn:U.
    + assert (A : alphas (set_nth spins c (fst s + 1, snd s - 1)) = alphas spins + 1).
      { unfold alphas. rewrite zsum_set_nth by auto. fold s. simpl. lia. }
      rewrite <- A in H. apply IH in H; [|rewrite set_nth_length; auto|apply nonneg_set; simpl; auto; lia].
      specialize (R (fst s + 1, snd s - 1) ltac:(simpl; lia)).
      destruct H as [(f & F1 & F2 & F3 & F4)|(F0 & now & F1 & F2 & F3 & F4 & F5 & F6)]; [left|right].
      * exists f. split; auto. split; auto. split; auto. eapply respects_trans; eauto.
      * split; auto. exists now. rewrite A in *. split; [exact F1|]. split; [eapply respects_trans; eauto|]. split; [exact F3|]. split; [exact F4|]. lia.
    + assert (A : alphas (set_nth spins c (fst s - 1, snd s + 1)) = alphas spins - 1).
      { unfold alphas. rewrite zsum_set_nth by auto. fold s. simpl. lia. }
      rewrite <- A in H. apply IH in H; [|rewrite set_nth_length; auto|apply nonneg_set; simpl; auto; lia].
      specialize (R (fst s - 1, snd s + 1) ltac:(simpl; lia)).
      destruct H as [(f & F1 & F2 & F3 & F4)|(F0 & now & F1 & F2 & F3 & F4 & F5 & F6)]; [left|right].
      * exists f. split; auto. split; auto. split; auto. eapply respects_trans; eauto.
      * split; auto. exists now. rewrite A in *. split; [exact F1|]. split; [eapply respects_trans; eauto|]. split; [exact F3|]. split; [exact F4|]. lia.
Qed.

Lemma adjust_terminates fixed target : forall fuel draws spins, (Z.abs_nat (target - alphas spins) <= fuel)%nat ->
  length fixed = length spins -> adjust pick fuel draws fixed spins (alphas spins) target <> None.
Proof.
  induction fuel as [|fuel IH]; intros draws spins F L; cbn [adjust]; destruct (alphas spins =? target) eqn:E; try discriminate;
    apply Z.eqb_neq in E; [lia|]. cbv zeta.
  destruct (candidates fixed spins (target >? alphas spins)) as [|c0 cs] eqn:C; [discriminate|].
  set (c := nth (pick draws (length (c0 :: cs))) (c0 :: cs) O) in *.
  assert (IC : In c (candidates fixed spins (target >? alphas spins))).
  { rewrite C. apply nth_In. apply pick_range. simpl. lia. }
  apply candidates_spec in IC as (C1 & C2 & C3). rewrite L in C1. set (s := nth c spins (0, 0)) in *.
  destruct (target >? alphas spins) eqn:U.
  - assert (A : alphas (set_nth spins c (fst s + 1, snd s - 1)) = alphas spins + 1).
    { unfold alphas. rewrite zsum_set_nth by auto. fold s. simpl. lia. }
    rewrite <- A. apply IH; [lia|rewrite set_nth_length; auto].
  - assert (A : alphas (set_nth spins c (fst s - 1, snd s + 1)) = alphas spins - 1).
    { unfold alphas. rewrite zsum_set_nth by auto. fold s. simpl. lia. }
    rewrite <- A. apply IH; [lia|rewrite set_nth_length; auto].
Qed.

Lemma map_res_spec {A B} (f : A -> res B) l ys : map_res f l = Ok ys ->
  length ys = length l /\ forall i x, nth_error l i = Some x -> exists y, nth_error ys i = Some y /\ f x = Ok y.
Proof.
  revert ys. induction l as [|x l IH]; intros ys H; simpl in H.
  - inversion H; subst. split; auto. intros [|i]; discriminate.
  - destruct (f x) as [y|] eqn:E; [|discriminate]. cbn [bind] in H. destruct (map_res f l) as [zs|]; [|discriminate].
    cbn [bind] in H. inversion H; subst. destruct (IH zs eq_refl) as [A1 A2]. split; [simpl; auto|].
    intros [|i] x0 Hx; simpl in Hx; [inversion Hx; subst; exists y; auto|]. apply A2. auto.
Qed.
Lemma atom_spins_nonneg a i s : atom_spins a i = Ok s -> 0 <= fst s /\ 0 <= snd s.
Proof.
  unfold atom_spins. match goal with |- context [if (fst ?x <? 0) || _ then _ else _] => set (t := x) end.
  destruct ((fst t <? 0) || (snd t <? 0)) eqn:E; intros H; inversion H; subst.
  apply orb_false_iff in E as [E1 E2]. apply Z.ltb_ge in E1, E2. auto.
Qed.

Lemma all_fixed_explicit (fixed : list bool) : forall spins : list (Z * Z), length fixed = length spins ->
  forallb (fun b => b) fixed = true -> map fst (filter snd (combine spins fixed)) = spins.
Proof.
  induction fixed as [|b fixed IH]; intros [|s spins] L H; simpl in *; try discriminate; auto.
  apply andb_true_iff in H as [-> H]. simpl. f_equal. apply IH; auto.
Qed.

(** The occupancies after the hints. *)
Definition hinted (atoms : list atom) (inits : list ainit) (start : list (Z * Z)) : Prop :=
  length start = length atoms /\
  forall j a i, nth_error atoms j = Some a -> nth_error inits j = Some i ->
    exists s, nth_error start j = Some s /\ atom_spins a i = Ok s.

(** ** C31.  Whatever the random choices: an assignment that is returned has the requested
    totals, no negative numbers, the electron number of every atom and the spins of the
    fixed atoms; the loop ends. *)
Theorem C31_assignment : forall fuel atoms inits total final,
  length atoms = length inits ->
  distribute pick fuel atoms inits total = Some (Ok final) ->
  exists start, hinted atoms inits start /\ respects (map is_fixed inits) start final /\ nonneg final /\
    alphas final = fst total /\ betas final = snd total.
Proof.
  intros fuel atoms inits total final L.
  assert (CE : forall i p, nth_error (combine atoms inits) i = Some p <-> nth_error atoms i = Some (fst p) /\ nth_error inits i = Some (snd p)).
  { clear - L. revert inits L. induction atoms as [|a atoms IH]; intros [|b inits] L [|i] [p q]; simpl in *; try discriminate.
    - split; [discriminate|intros [H _]; discriminate].
    - split; [discriminate|intros [H _]; discriminate].
    - split; [intros H; inversion H; auto|intros [H1 H2]; congruence].
    - apply IH. lia. }
  unfold distribute. destruct (zsum (map local_charge inits) =? 0); cbn [negb]; [|discriminate].
  destruct (map_res _ (combine atoms inits)) as [spins|e] eqn:M; [|discriminate].
  apply map_res_spec in M as [ML MS]. rewrite combine_length in ML. replace (Nat.min (length atoms) (length inits)) with (length atoms) in ML by lia.
  assert (HI : hinted atoms inits spins).
  { split; auto. intros j a i Ha Hi. destruct (MS j (a, i)) as (y & Y1 & Y2); [apply CE; auto|]. exists y. auto. }
  assert (NN : nonneg spins).
  { unfold nonneg. apply Forall_forall. intros s Hs. apply In_nth_error in Hs as [j Hj].
    assert (Lj : (j < length spins)%nat) by (apply nth_error_Some; congruence).
    destruct (nth_error (combine atoms inits) j) as [[a i]|] eqn:E.
    - destruct (MS j (a, i) E) as (y & Y1 & Y2). rewrite Hj in Y1. inversion Y1; subst. eapply atom_spins_nonneg. exact Y2.
    - apply nth_error_None in E. rewrite combine_length in E. lia. }
  assert (LF : length (map is_fixed inits) = length spins) by (rewrite map_length; lia).
  destruct (fst total + snd total =? alphas spins + betas spins) eqn:T; cbn [negb]; [|discriminate].
  apply Z.eqb_eq in T. cbv zeta. cbn [fst snd].
  assert (SUM : forall final, respects (map is_fixed inits) spins final -> alphas final + betas final = alphas spins + betas spins).
  { clear. intros final [FL FR]. revert FR FL. generalize (map is_fixed inits). revert final.
    induction spins as [|s spins IH]; intros [|f final] fx FR FL; simpl in *; try discriminate; auto.
    assert (alphas final + betas final = alphas spins + betas spins).
    { apply (IH final (match fx with [] => [] | _ :: t => t end)); [|lia]. intros j Hj. specialize (FR (S j) ltac:(lia)). simpl in FR.
      destruct FR as [F1 F2]. split; auto. intros F3. apply F2. destruct fx; auto. }
    specialize (FR O ltac:(lia)). simpl in FR. unfold alphas, betas, zsum in *. simpl. lia. }
  destruct (forallb (fun b => b) (map is_fixed inits)) eqn:AF.
  - rewrite all_fixed_explicit by auto.
    intros H. destruct ((alphas spins =? fst total) && (betas spins =? snd total)) eqn:E; inversion H; subst.
    apply andb_true_iff in E as [E1 E2]. apply Z.eqb_eq in E1, E2. exists final. split; auto. split; [apply respects_refl|]. auto.
  - intros H. apply adjust_spec in H; auto. destruct H as [(f & F1 & F2 & F3 & F4)|(F0 & _)]; [|discriminate].
    inversion F1; subst f. exists spins. split; auto. split; auto. split; auto. split; auto. specialize (SUM final F3). lia.
Qed.

(** The same atom by atom, in terms of the input only: a fixed atom has the spin the user
    gave and, without a local charge, its electron number; any other atom has the electrons
    of its nucleus minus its local charge. *)
Theorem C31_atoms : forall fuel atoms inits total final j a i s,
  length atoms = length inits ->
  distribute pick fuel atoms inits total = Some (Ok final) ->
  nth_error atoms j = Some a -> nth_error inits j = Some i -> nth_error final j = Some s ->
  match imbalance i with
  | Some d => (charge a + local_charge i + d) mod 2 = 0 -> fst s - snd s = d /\ fst s + snd s = charge a + local_charge i
  | None => (charge a + unpaired a) mod 2 = 0 -> fst s + snd s = charge a - local_charge i
  end.
Proof.
  intros fuel atoms inits total final j a i s L H Ha Hi Hs.
  destruct (C31_assignment fuel atoms inits total final L H) as (start & [HL HH] & [RL R] & _).
  destruct (HH j a i Ha Hi) as (s0 & S1 & S2).
  assert (J : (j < length start)%nat) by (apply nth_error_Some; congruence).
  destruct (R j J) as [R1 R2].
  rewrite (nth_error_nth _ _ (0, 0) S1), (nth_error_nth _ _ (0, 0) Hs) in R1.
  rewrite (nth_error_nth _ _ (0, 0) S1), (nth_error_nth _ _ (0, 0) Hs) in R2.
  assert (F : nth j (map is_fixed inits) true = is_fixed i) by (apply nth_error_nth; rewrite nth_error_map, Hi; reflexivity).
  rewrite F in R2. unfold is_fixed in R2. unfold atom_spins in S2. destruct (imbalance i) as [d|].
  - intros E. specialize (R2 eq_refl). match type of S2 with (if ?b then _ else _) = _ => destruct b end; inversion S2; subst s0. subst s.
    cbn [fst snd] in *. set (n := charge a + local_charge i) in *.
    pose proof (Z.div_mod (n + d) 2 ltac:(lia)). pose proof (Z.div_mod (n - d) 2 ltac:(lia)).
    assert ((n - d) mod 2 = 0).
    { replace (n - d) with (n + d + (- d) * 2) by lia. rewrite Z.mod_add by lia. auto. }
    lia.
  - intros E. clear R2. unfold spin_config in S2. cbn [fst snd] in S2.
    pose proof (Z.div_mod (charge a + unpaired a) 2 ltac:(lia)). pose proof (Z.div_mod (charge a - unpaired a) 2 ltac:(lia)).
    assert ((charge a - unpaired a) mod 2 = 0).
    { replace (charge a - unpaired a) with (charge a + unpaired a + (- unpaired a) * 2) by lia. rewrite Z.mod_add by lia. auto. }
    destruct (local_charge i >? (charge a + unpaired a) / 2); cbn [fst snd] in S2;
      match type of S2 with (if ?b then _ else _) = _ => destruct b end; inversion S2; subst s0; cbn [fst snd] in R1; lia.
Qed.


(** The loop ends. *)
Theorem C31_terminates : forall atoms inits total, length atoms = length inits ->
  exists n, forall fuel, (n <= fuel)%nat -> distribute pick fuel atoms inits total <> None.
Proof.
  intros atoms inits total L.
  destruct (map_res (fun p => atom_spins (fst p) (snd p)) (combine atoms inits)) as [spins|e] eqn:M.
  - exists (Z.abs_nat (fst total - alphas spins)). intros fuel F. unfold distribute. rewrite M.
    destruct (zsum (map local_charge inits) =? 0); cbn [negb]; [|discriminate]. cbv zeta.
    destruct (_ =? alphas spins + betas spins); cbn [negb]; [|discriminate].
    destruct (forallb _ _); [destruct (_ && _); discriminate|]. apply adjust_terminates; auto.
    apply map_res_spec in M as [ML _]. rewrite combine_length in ML. rewrite map_length. lia.
  - exists O. intros fuel _. unfold distribute. rewrite M. destruct (negb _); discriminate.
Qed.

(** It raises only when it has to: if some assignment keeps the fixed atoms and all electron
    numbers and has the requested number of spin-up electrons, the loop finds one. *)
Lemma candidates_none_up fixed now final : length fixed = length now -> respects fixed now final -> nonneg final ->
  candidates fixed now true = [] -> alphas final <= alphas now.
Proof.
  intros L [RL R] NF C.
  assert (P : forall j, (j < length now)%nat -> fst (nth j final (0, 0)) <= fst (nth j now (0, 0))).
  { intros j Hj. destruct (R j Hj) as [R1 R2]. destruct (nth j fixed true) eqn:F; [rewrite R2; auto; lia|].
    assert (~ In j (candidates fixed now true)) by (rewrite C; auto). rewrite candidates_spec in H.
    pose proof (nonneg_nth final j NF). assert (~ 0 < snd (nth j now (0, 0))) by (intros X; apply H; split; [lia|auto]). lia. }
  clear - RL P. unfold alphas, zsum. revert final RL P. induction now as [|s now IH]; intros [|f final] RL P; simpl in *; try discriminate.
  specialize (IH final ltac:(lia)). pose proof (P O ltac:(lia)). simpl in H.
  assert (forall j, (j < length now)%nat -> fst (nth j final (0, 0)) <= fst (nth j now (0, 0))) by (intros j Hj; apply (P (S j)); lia).
  specialize (IH H0). lia.
Qed.
Lemma candidates_none_down fixed now final : length fixed = length now -> respects fixed now final -> nonneg final ->
  candidates fixed now false = [] -> alphas now <= alphas final.
Proof.
  intros L [RL R] NF C.
  assert (P : forall j, (j < length now)%nat -> fst (nth j now (0, 0)) <= fst (nth j final (0, 0))).
  { intros j Hj. destruct (R j Hj) as [R1 R2]. destruct (nth j fixed true) eqn:F; [rewrite R2; auto; lia|].
    assert (~ In j (candidates fixed now false)) by (rewrite C; auto). rewrite candidates_spec in H.
    pose proof (nonneg_nth final j NF). assert (~ 0 < fst (nth j now (0, 0))) by (intros X; apply H; split; [lia|auto]). lia. }
  clear - RL P. unfold alphas, zsum. revert final RL P. induction now as [|s now IH]; intros [|f final] RL P; simpl in *; try discriminate.
  specialize (IH final ltac:(lia)). pose proof (P O ltac:(lia)). simpl in H.
  assert (forall j, (j < length now)%nat -> fst (nth j now (0, 0)) <= fst (nth j final (0, 0))) by (intros j Hj; apply (P (S j)); lia).
  specialize (IH H0). lia.
Qed.
Lemma respects_sym fixed a b : respects fixed a b -> respects fixed b a.
Proof. intros [L H]. split; auto. intros j Hj. destruct (H j ltac:(lia)) as [A B]. split; auto. intros F. rewrite B; auto. Qed.

Theorem C31_raises_only_if_impossible : forall fuel draws fixed start target e,
  length fixed = length start -> nonneg start ->
  adjust pick fuel draws fixed start (alphas start) target = Some (Raise e) ->
  ~ exists final, respects fixed start final /\ nonneg final /\ alphas final = target.
Proof.
  intros fuel draws fixed start target e L NN H (final & F1 & F2 & F3).
  apply adjust_spec in H; auto. destruct H as [(f & F & _)|(_ & now & N1 & N2 & N3 & N4 & _)]; [discriminate|].
  assert (LN : length fixed = length now) by (destruct N2; congruence).
  assert (R : respects fixed now final) by (eapply respects_trans; [apply respects_sym; exact N2|exact F1]).
  destruct (target >? alphas now) eqn:U.
  - pose proof (candidates_none_up fixed now final LN R F2 N4). lia.
  - pose proof (candidates_none_down fixed now final LN R F2 N4). lia.
Qed.
End Dist.

(** *** What fails *)
(** A hint with a spin and a positive local charge puts more electrons near the atom
    ([atom_spins] adds the charge, line 25); the configuration class documents fewer, and
    without a spin it is fewer (lines 27, 29).  Carbon, charge +1: five electrons or seven. *)
Definition carbon := {| charge := 6; unpaired := 2 |}.
Theorem C31_local_charge_sign_refuted :
  atom_spins carbon {| imbalance := None; local_charge := 1 |} = Ok (3, 2) /\
  atom_spins carbon {| imbalance := Some 1; local_charge := 1 |} = Ok (4, 3) /\
  atom_config_ok carbon {| imbalance := Some 1; local_charge := 1 |} = true.
Proof. repeat split; reflexivity. Qed.

(** A molecule of non-zero total charge cannot be initialised at all unless some atom's spin
    is fixed: the local charges must cancel and the electrons of the atoms then never add
    up to the system's. *)
Theorem C31_ions_refuted : forall pick fuel atoms inits tc imb, length atoms = length inits ->
  tc <> 0 -> (zsum (map charge atoms) - tc + imb) mod 2 = 0 ->
  Forall (fun a => (charge a + unpaired a) mod 2 = 0) atoms -> Forall (fun i => imbalance i = None) inits ->
  exists e, distribute pick fuel atoms inits (electron_spins atoms tc imb) = Some (Raise e).
Proof.
  intros pick fuel atoms inits tc imb L TC PAR FA FI. unfold distribute.
  destruct (zsum (map local_charge inits) =? 0) eqn:Z0; cbn [negb]; [|eauto]. apply Z.eqb_eq in Z0.
  destruct (map_res _ (combine atoms inits)) as [spins|e] eqn:M; [|eauto].
  assert (S : alphas spins + betas spins = zsum (map charge atoms) - zsum (map local_charge inits)).
  { clear - L FA FI M. revert inits spins L FI M. induction FA as [|a atoms Ha FA IH]; intros [|i inits] spins L FI M; simpl in *; try discriminate.
    - inversion M; subst. reflexivity.
    - inversion FI as [|? ? Hi FI']; subst. destruct (atom_spins a i) as [s|] eqn:E; [|discriminate]. cbn [bind] in M.
      destruct (map_res _ (combine atoms inits)) as [ss|] eqn:M'; [|discriminate]. cbn [bind] in M. inversion M; subst.
      specialize (IH inits ss ltac:(lia) FI' M'). unfold alphas, betas, zsum in *. simpl.
      assert (fst s + snd s = charge a - local_charge i).
      { unfold atom_spins in E. rewrite Hi in E. unfold spin_config in E. simpl in E.
        pose proof (Z.div_mod (charge a + unpaired a) 2 ltac:(lia)). pose proof (Z.div_mod (charge a - unpaired a) 2 ltac:(lia)).
        assert ((charge a - unpaired a) mod 2 = 0).
        { replace (charge a - unpaired a) with (charge a + unpaired a + (- unpaired a) * 2) by lia. rewrite Z.mod_add by lia. auto. }
        destruct (local_charge i >? (charge a + unpaired a) / 2); simpl in E; match type of E with (if ?b then _ else _) = _ => destruct b end; inversion E; subst; simpl; lia. }
      lia. }
  replace (fst (electron_spins atoms tc imb) + snd (electron_spins atoms tc imb) =? alphas spins + betas spins) with false; [cbn [negb]; eauto|].
  symmetry. apply Z.eqb_neq. rewrite S, Z0. unfold electron_spins. cbn [fst snd]. set (n := zsum (map charge atoms) - tc) in *.
  pose proof (Z.div_mod (n + imb) 2 ltac:(lia)). pose proof (Z.div_mod (n - imb) 2 ltac:(lia)).
  assert ((n - imb) mod 2 = 0).
  { replace (n - imb) with (n + imb + (- imb) * 2) by lia. rewrite Z.mod_add by lia. auto. }
  unfold n in *. lia.
Qed.

(** A concrete case: two carbons, one fixed at spin 0, total (6, 6). *)
Example C31_example :
  distribute (fun _ _ => O) 10 [carbon; carbon] [{| imbalance := Some 0; local_charge := 0 |}; {| imbalance := None; local_charge := 0 |}] (6, 6)
  = Some (Ok [(3, 3); (3, 3)]) /\
  respects [true; false] [(3, 3); (4, 2)] [(3, 3); (3, 3)].
Proof.
  split; [reflexivity|]. split; auto. intros [|[|j]] Hj; simpl in *; try lia; split; auto; discriminate.
Qed.

Print Assumptions C31_assignment.
Print Assumptions C31_raises_only_if_impossible.
