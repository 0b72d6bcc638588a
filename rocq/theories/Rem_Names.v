(** C90: the names of data files. *)
From Coq Require Import String Ascii List Bool Arith NArith Lia Permutation.
From Verif Require Import Common Common_Proofs Ckpt_Model Ckpt_Proofs Roll_Model Rem_Model Rem_Spec.
Import ListNotations.
Open Scope list_scope.

Lemma app_assoc_s : forall a b c : string, ((a ++ b) ++ c = a ++ b ++ c)%string.
Proof. induction a as [|x a IH]; intros b c; cbn; [reflexivity|]. rewrite IH. reflexivity. Qed.
Lemma after_app : forall p s, after p (p ++ s) = Some s.
Proof. induction p as [|a p IH]; intros s; cbn; [reflexivity|]. rewrite Ascii.eqb_refl. apply IH. Qed.
Lemma after_inv : forall p s r, after p s = Some r -> s = (p ++ r)%string.
Proof.
  induction p as [|a p IH]; intros s r H; cbn in *; [injection H as <-; reflexivity|]. destruct s as [|b s]; [discriminate|]. destruct (Ascii.eqb_spec a b) as [<-|]; [|discriminate]. rewrite (IH s r H). reflexivity.
Qed.
Lemma ndigits_fuel_upper : forall f n, (f >= N.to_nat (N.size n))%nat -> (n < 10 ^ N.of_nat (ndigits_fuel f n))%N.
Proof.
  induction f as [|f IH]; intros n F; cbn [ndigits_fuel].
  - assert (N.size n = 0)%N by lia. destruct n as [|p]; [reflexivity|cbn in H; lia].
  - destruct (N.ltb_spec n 10) as [L|L]; [exact L|]. rewrite pow10_S. assert (Q : (n / 10 < 10 ^ N.of_nat (ndigits_fuel f (n / 10)))%N).
    { apply IH. assert (X : (N.size (n / 10) < N.size n)%N); [|lia].
      assert (NZ : (n / 10 <> 0)%N) by (intros E; apply N.div_small_iff in E; lia).
      rewrite !N.size_log2 by lia. apply -> N.succ_lt_mono. apply N.le_lt_trans with (N.log2 (n / 2)).
      - apply N.log2_le_mono. apply N.div_le_compat_l. lia.
      - replace (n / 2)%N with (N.shiftr n 1) by (rewrite N.shiftr_div_pow2; reflexivity). rewrite N.log2_shiftr. pose proof (N.log2_pos n). lia. }
    pose proof (N.div_mod n 10 ltac:(lia)). pose proof (N.mod_lt n 10 ltac:(lia)). lia.
Qed.
Lemma fmt_bound n : (n < 10 ^ N.of_nat (Nat.max 6 (ndigits n)))%N.
Proof.
  eapply N.lt_le_trans; [apply (ndigits_fuel_upper (N.to_nat (N.size n))); lia|]. apply N.pow_le_mono_r; [lia|]. fold (ndigits n). lia.
Qed.
Lemma digit_is d : (d < 10)%N -> is_digit (digit_char d) = true /\ digit (digit_char d) = d.
Proof. intros H. unfold is_digit, digit, digit_char. rewrite N_ascii_embedding by lia. split; [apply andb_true_intro; split; apply N.leb_le; lia|lia]. Qed.
Lemma digits_read : forall k n acc s v, (n < 10 ^ N.of_nat k)%N -> digits_tgz (acc * 10 ^ N.of_nat k + n) true s = Some v -> (0 < k)%nat ->
  forall seen, digits_tgz acc seen (digits k n ++ s) = Some v.
Proof.
  induction k as [|k IH]; intros n acc s v B H P seen; [lia|]. cbn [digits]. rewrite app_assoc_s. cbn [String.append]. rewrite pow10_S in B, H.
  destruct (digit_is (n mod 10) (N.mod_lt n 10 ltac:(lia))) as [D1 D2].
  assert (X : forall seen, digits_tgz (acc * 10 ^ N.of_nat k + n / 10) seen (String (digit_char (n mod 10)) s) = Some v).
  { intros sn. cbn [digits_tgz]. rewrite D1, D2. replace ((acc * 10 ^ N.of_nat k + n / 10) * 10 + n mod 10)%N with (acc * (10 * 10 ^ N.of_nat k) + n)%N; [rewrite H; reflexivity|].
    pose proof (N.div_mod n 10 ltac:(lia)) as DM. rewrite DM at 1. lia. }
  destruct k as [|k]; [|apply IH; [apply N.div_lt_upper_bound; [discriminate|exact B]|apply X|lia]].
  cbn [digits String.append]. specialize (X seen). cbn [N.of_nat N.pow] in X. replace (acc * 1 + n / 10)%N with acc in X; [exact X|]. rewrite N.div_small by (cbn in B; lia). lia.
Qed.
Lemma index_long prefix k rest : data_index prefix (data_name prefix k ++ rest) = Some k.
Proof.
  unfold data_index, data_name. rewrite !app_assoc_s. rewrite <- app_assoc_s, after_app. unfold fmt06. rewrite (digits_read _ (N.of_nat k) 0 _ (N.of_nat k)).
  - cbn [option_map]. rewrite Nat2N.id. reflexivity.
  - apply fmt_bound.
  - rewrite N.mul_0_l, N.add_0_l. cbn. destruct rest; reflexivity.
  - lia.
Qed.
Lemma app_nil_s : forall s, (s ++ "" = s)%string. Proof. induction s as [|a s IH]; cbn; [reflexivity|]. rewrite IH. reflexivity. Qed.
(** The step is read back from the name of every data file, for every prefix and step. *)
Theorem C90_names : forall prefix k, data_index prefix (data_name prefix k) = Some k.
Proof. intros prefix k. rewrite <- (app_nil_s (data_name prefix k)). apply index_long. Qed.
Lemma name_inj prefix j k : data_name prefix j = data_name prefix k -> j = k.
Proof. intros H. pose proof (C90_names prefix j) as A. rewrite H, C90_names in A. congruence. Qed.
Lemma index_copying prefix k : data_index prefix (copying (data_name prefix k)) = Some k.
Proof. apply index_long. Qed.
Lemma prefix_rest : forall p s, String.prefix p s = true -> exists r, s = (p ++ r)%string.
Proof.
  induction p as [|a p IH]; intros s H; [exists s; reflexivity|]. destruct s as [|b s]; [discriminate|]. cbn in H. destruct (Ascii.ascii_dec a b) as [<-|]; [|discriminate]. destruct (IH s H) as [r ->]. exists r. reflexivity.
Qed.
Lemma digits_longer : forall s acc seen v x, digits_tgz acc seen s = Some v -> digits_tgz acc seen (s ++ x) = Some v.
Proof.
  induction s as [|c r IH]; intros acc seen v x H; [discriminate|]. cbn [digits_tgz String.append] in *.
  assert (STOP : (if seen && negb (Ascii.eqb c newline) && String.prefix "tgz" r then Some acc else None) = Some v -> exists rest, r = ("tgz" ++ rest)%string /\ (if seen && negb (Ascii.eqb c newline) && String.prefix "tgz" (r ++ x) then Some acc else None) = Some v).
  { destruct (seen && negb (Ascii.eqb c newline)); cbn [andb]; [|discriminate]. destruct (String.prefix "tgz" r) eqn:P; [|discriminate]. destruct (prefix_rest _ _ P) as [rest ->]. intros E. exists rest. split; [reflexivity|]. cbn. destruct (rest ++ x)%string; exact E. }
  destruct (is_digit c); [|destruct (STOP H) as [_ [_ E]]; exact E]. destruct (digits_tgz (acc * 10 + digit c) true r) as [v'|] eqn:D; [rewrite (IH _ _ _ x D); exact H|].
  destruct (STOP H) as [rest [-> E]]. rewrite E. reflexivity.
Qed.
Lemma copying_index prefix n k : data_index prefix n = Some k -> data_index prefix (copying n) = Some k.
Proof.
  unfold data_index, copying. intros H. destruct (after (prefix ++ "_") n) as [r|] eqn:A; [|discriminate]. apply after_inv in A. subst n. rewrite app_assoc_s, after_app. destruct (digits_tgz 0 false r) as [v|] eqn:D; [|discriminate]. rewrite (digits_longer _ _ _ _ _ D). exact H.
Qed.
Lemma length_app : forall a b, String.length (a ++ b) = (String.length a + String.length b)%nat.
Proof. induction a as [|x a IH]; intros b; cbn; [reflexivity|]. rewrite IH. reflexivity. Qed.
Lemma copying_not_name prefix j k : copying (data_name prefix j) <> data_name prefix k.
Proof.
  intros H. pose proof (index_copying prefix j) as A. rewrite H, C90_names in A. injection A as ->. apply (f_equal String.length) in H. unfold copying in H. rewrite length_app in H. cbn in H. lia.
Qed.
(** A name with a step is prefix, underscore, a numeral, some character, "tgz" and anything after it. *)
Lemma digits_shape : forall s acc seen v, digits_tgz acc seen s = Some v ->
  exists ds c rest, s = (ds ++ String c ("tgz" ++ rest))%string /\ fold_left numeral_step (list_ascii_of_string ds) (Some acc) = Some v /\ (ds = EmptyString -> seen = true).
Proof.
  induction s as [|c r IH]; intros acc seen v H; [discriminate|]. cbn [digits_tgz] in H.
  assert (STOP : (if seen && negb (Ascii.eqb c newline) && String.prefix "tgz" r then Some acc else None) = Some v ->
     exists ds c' rest, String c r = (ds ++ String c' ("tgz" ++ rest))%string /\ fold_left numeral_step (list_ascii_of_string ds) (Some acc) = Some v /\ (ds = EmptyString -> seen = true)).
  { destruct seen; cbn [andb]; [|discriminate]. destruct (negb (Ascii.eqb c newline)); cbn [andb]; [|discriminate]. destruct (String.prefix "tgz" r) eqn:P; [|discriminate]. intros E. injection E as <-.
    destruct (prefix_rest _ _ P) as [rest ->]. exists EmptyString, c, rest. split; [reflexivity|split; reflexivity]. }
  destruct (is_digit c) eqn:D; [|exact (STOP H)]. destruct (digits_tgz (acc * 10 + digit c) true r) as [v'|] eqn:R; [|exact (STOP H)]. injection H as ->.
  destruct (IH _ _ _ R) as [ds [c' [rest [E [F _]]]]]. exists (String c ds), c', rest. split; [cbn; rewrite E; reflexivity|]. split; [|discriminate]. cbn [list_ascii_of_string fold_left numeral_step]. unfold is_digit in D. rewrite D. exact F.
Qed.
Theorem C90_names_only : forall prefix name k, data_index prefix name = Some k -> exists ds c rest, name = (prefix ++ "_" ++ ds ++ String c ("tgz" ++ rest))%string /\ numeral ds k.
Proof.
  intros prefix name k H. unfold data_index in H. destruct (after (prefix ++ "_") name) as [r|] eqn:A; [|discriminate]. apply after_inv in A. destruct (digits_tgz 0 false r) as [v|] eqn:D; [|discriminate]. injection H as <-.
  destruct (digits_shape _ _ _ _ D) as [ds [c [rest [E [F NE]]]]]. exists ds, c, rest. split; [rewrite A, E, app_assoc_s; reflexivity|]. split; [intros X; specialize (NE X); discriminate|]. rewrite F, N2Nat.id. reflexivity.
Qed.
(** Full statement: only data files have a step.  False: the pattern is not anchored at the end and its dot is any character. *)
Theorem C90_names_refuted : data_index "dmc_data" "dmc_data_000010.tgz._COPYING_" = Some 10%nat /\ data_index "dmc_data" "dmc_data_12tgz" = Some 1%nat /\ data_index "dmc_data" "dmc_data_000010.tgz.bak" = Some 10%nat.
Proof. repeat split; reflexivity. Qed.
