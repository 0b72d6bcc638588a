(** C52: configuration backups never overwrite. *)
From Coq Require Import String Ascii List Bool Arith Lia Decimal DecimalString DecimalFacts DecimalNat.
From Verif Require Import Common Common_Proofs Backup_Model.
Import ListNotations.
Open Scope string_scope.

Lemma to_uint_nonnil n : Nat.to_uint n <> Nil.
Proof.
  intros E. pose proof (Unsigned.of_to n) as U. rewrite E in U.
  assert (Z : n = 0) by (rewrite <- U; reflexivity).
  rewrite Z in E. discriminate E.
Qed.

Lemma str_nat_inj a b : str_nat a = str_nat b -> a = b.
Proof.
  unfold str_nat. intros H. apply (f_equal NilZero.uint_of_string) in H.
  rewrite !NilZero.usu in H by apply to_uint_nonnil.
  inversion H as [E]. apply (f_equal Nat.of_uint) in E. rewrite !Unsigned.of_to in E. exact E.
Qed.

(** The names tried, in order. *)
Definition candidate (stem : string) (i : nat) : string :=
  match i with O => stem ++ ".yaml" | S _ => stem ++ "_" ++ str_nat i ++ ".yaml" end.

Lemma app_inv_tail_s a b c : a ++ c = b ++ c -> a = b.
Proof.
  intros H. assert (L : String.length a = String.length b).
  { apply (f_equal String.length) in H. rewrite !length_app_s in H. lia. }
  destruct (app_eq_len_s _ _ _ _ L H); auto.
Qed.

Lemma candidate_inj stem i j : candidate stem i = candidate stem j -> i = j.
Proof.
  unfold candidate. destruct i, j; auto; intros H; apply app_inv_head_s in H.
  - discriminate.
  - discriminate.
  - apply app_inv_head_s in H. apply app_inv_tail_s in H. apply str_nat_inj in H. auto.
Qed.

Lemma backup_loop_spec f stem : forall fuel i,
  backup_loop fuel f stem (candidate stem i) (i + 1) =
  match find (fun j => negb (exists_file f (candidate stem j))) (seq i fuel) with
  | Some j => Some (candidate stem j) | None => None end.
Proof.
  induction fuel as [|fuel IH]; intros i; simpl; auto.
  destruct (exists_file f (candidate stem i)) eqn:E; simpl; auto.
  specialize (IH (S i)). replace (S i + 1) with (i + 1 + 1) in IH by lia.
  replace (i + 1) with (S i) at 1 by lia. exact IH.
Qed.

(** A backup name is always found, and it is unused. *)
Lemma backup_path_unused f ns t : exists b,
  config_backup_path f ns t = Some b /\ dict_get f b = None /\ (exists i, b = candidate (backup_stem ns t) i).
Proof.
  unfold config_backup_path. set (stem := backup_stem ns t).
  change (stem ++ ".yaml") with (candidate stem 0). change 1 with (0 + 1).
  rewrite backup_loop_spec.
  destruct (find _ (seq 0 (S (length f)))) as [j|] eqn:F.
  - apply find_some in F as [_ F]. apply negb_true_iff in F. unfold exists_file in F.
    exists (candidate stem j). split; auto. split; [|exists j; auto].
    destruct (dict_get f (candidate stem j)); [discriminate|auto].
  - exfalso. pose proof (find_none _ _ F) as N.
    (* pigeonhole: length f + 1 distinct existing names *)
    assert (incl (map (candidate stem) (seq 0 (S (length f)))) (map fst f)).
    { intros x Hx. apply in_map_iff in Hx as (j & <- & Hj). specialize (N j Hj).
      apply negb_false_iff in N. unfold exists_file in N.
      destruct (dict_get f (candidate stem j)) as [c|] eqn:E; [|discriminate].
      apply dict_get_In in E. apply in_map_iff. exists (candidate stem j, c). auto. }
    assert (ND : NoDup (map (candidate stem) (seq 0 (S (length f))))).
    { apply FinFun.Injective_map_NoDup; [intros a b; apply candidate_inj|apply seq_NoDup]. }
    pose proof (NoDup_incl_length ND H) as L. rewrite !map_length, seq_length in L. lia.
Qed.

Lemma dict_get_del (A : Type) (d : list (string * A)) k x :
  dict_get (dict_del d k) x = if String.eqb x k then None else dict_get d x.
Proof.
  unfold dict_del. induction d as [|[a v] d IH]; simpl; [destruct (x =? k); auto|].
  destruct (String.eqb_spec a k); simpl.
  - subst. rewrite IH. destruct (String.eqb_spec x k); auto.
  - rewrite IH. destruct (String.eqb_spec x a); auto. subst.
    destruct (String.eqb_spec a k); [congruence|reflexivity].
Qed.

(** The configuration file is never one of the backup names. *)
Lemma stem_no_slash_prefix ns t i : (forall n, ns = Some n -> str_has "/" n = false) ->
  candidate (backup_stem ns t) i <> config_path ns.
Proof.
  intros Hns E.
  assert (A : forall s, str_has "/" ("config_history/" ++ s) = true) by reflexivity.
  assert (B : str_has "/" (config_path ns) = true).
  { rewrite <- E. unfold candidate, backup_stem. destruct i; apply A. }
  assert (C : forall a b, str_has "/" (a ++ b) = str_has "/" a || str_has "/" b).
  { clear. induction a; simpl; intros; auto. rewrite IHa. apply orb_assoc. }
  unfold config_path, config_stem in B. destruct ns as [n|].
  - destruct (n =? "")%string; [discriminate|]. rewrite !C, (Hns n eq_refl) in B. discriminate.
  - discriminate.
Qed.

(** *** C52.  A complete, non-dry prepare on the master process: the configuration file
    holds the current configuration; a different previous one survives unchanged under
    a name that did not exist before; every other file is untouched. *)
Theorem C52_old_config_preserved : forall f ns c,
  (forall n, ns = Some n -> str_has "/" n = false) ->
  process_index c = 0 -> dry_run c = false -> finalize_ok c = true ->
  let p := config_path ns in
  dict_get (prepare f ns c) p = Some (current_yaml c) /\
  (forall old, dict_get f p = Some old -> old <> current_yaml c ->
     exists b, dict_get f b = None /\ dict_get (prepare f ns c) b = Some old /\
       forall q, q <> p -> q <> b -> dict_get (prepare f ns c) q = dict_get f q) /\
  ((forall old, dict_get f p = Some old -> old = current_yaml c) ->
     forall q, q <> p -> dict_get (prepare f ns c) q = dict_get f q).
Proof.
  intros f ns c Hns H0 Hd Hf p. unfold prepare, prepare_ops. rewrite H0, Hd, Hf. simpl.
  fold p. destruct (dict_get f p) as [old|] eqn:E.
  - destruct (String.eqb_spec old (current_yaml c)).
    + simpl. split; [apply dict_get_set_same|]. split.
      * intros o Ho N. congruence.
      * intros _ q Hq. rewrite !dict_get_set_other by auto. auto.
    + destruct (backup_path_unused f ns (timestamp c)) as (b & Eb & Ub & i & Ei). rewrite Eb. simpl.
      rewrite E. assert (Nb : b <> p) by (rewrite Ei; apply stem_no_slash_prefix; auto).
      split; [apply dict_get_set_same|]. split.
      * intros o Ho _. inversion Ho; subst o. exists b. split; auto. split.
        -- rewrite !dict_get_set_other by auto. apply dict_get_set_same.
        -- intros q Hq Hb. rewrite !dict_get_set_other by auto. rewrite dict_get_del.
           destruct (String.eqb_spec q p); [congruence|auto].
      * intros H. exfalso. apply n. apply H; auto.
  - simpl. split; [apply dict_get_set_same|]. split; [discriminate|].
    intros _ q Hq. rewrite !dict_get_set_other by auto. auto.
Qed.

(** A dry run, a non-master process and a configuration error write nothing. *)
Theorem C52_no_write : forall f ns c,
  dry_run c = true \/ process_index c <> 0 \/ (process_index c = 0 /\ finalize_ok c = false) ->
  prepare f ns c = f.
Proof.
  intros f ns c H. unfold prepare, prepare_ops.
  destruct (Nat.eqb_spec (process_index c) 0) as [Z|Z]; [|reflexivity].
  destruct H as [H|[H|[_ H]]]; [|contradiction|]; rewrite H.
  - destruct (finalize_ok c); reflexivity.
  - reflexivity.
Qed.

(** Died in the middle: a different previous configuration is still complete in some
    file, and all other files are as they were. *)
Theorem C52_crash_safe : forall f ns c k old,
  (forall n, ns = Some n -> str_has "/" n = false) ->
  dict_get f (config_path ns) = Some old -> old <> current_yaml c ->
  exists b, (dict_get f b = None \/ b = config_path ns) /\
    dict_get (prepare_crash f ns c k) b = Some old /\
    forall q, q <> config_path ns -> q <> b -> dict_get (prepare_crash f ns c k) q = dict_get f q.
Proof.
  intros f ns c k old Hns E N. set (p := config_path ns) in *.
  unfold prepare_crash, prepare_ops. fold p.
  assert (Same : exists b, (dict_get f b = None \/ b = p) /\ dict_get f b = Some old /\
     forall q, q <> p -> q <> b -> dict_get f q = dict_get f q) by (exists p; auto).
  destruct (Nat.eqb (process_index c) 0); [|destruct k; simpl; exact Same].
  destruct (finalize_ok c); [|exact Same].
  destruct (dry_run c); [destruct k; simpl; exact Same|].
  rewrite E. destruct (String.eqb_spec old (current_yaml c)); [contradiction|].
  destruct (backup_path_unused f ns (timestamp c)) as (b & Eb & Ub & i & Ei). rewrite Eb.
  assert (Nb : b <> p) by (rewrite Ei; apply stem_no_slash_prefix; auto).
  destruct k as [|k]; [simpl; exact Same|]. exists b. split; [auto|].
  destruct k as [|[|k]]; cbn [firstn run_ops fold_left do_op]; rewrite E.
  - split; [apply dict_get_set_same|]. intros q Hq Hb. rewrite dict_get_set_other, dict_get_del by auto.
    destruct (String.eqb_spec q p); [congruence|auto].
  - split; [rewrite dict_get_set_other by auto; apply dict_get_set_same|].
    intros q Hq Hb. rewrite !dict_get_set_other, dict_get_del by auto.
    destruct (String.eqb_spec q p); [congruence|auto].
  - replace (firstn k []) with (@nil op) by (destruct k; auto). cbn [fold_left].
    split; [rewrite !dict_get_set_other by auto; apply dict_get_set_same|].
    intros q Hq Hb. rewrite !dict_get_set_other, dict_get_del by auto.
    destruct (String.eqb_spec q p); [congruence|auto].
Qed.

(** Over any history of complete runs every configuration that was ever in a file is
    still in some file. *)
Definition runs (f : fs) (h : list (option string * call)) : fs :=
  fold_left (fun f nc => prepare f (fst nc) (snd nc)) h f.

Lemma prepare_keeps f ns c : (forall n, ns = Some n -> str_has "/" n = false) ->
  forall q x, dict_get f q = Some x -> exists b, dict_get (prepare f ns c) b = Some x.
Proof.
  intros Hns q x E.
  destruct (Nat.eqb_spec (process_index c) 0) as [Z|Z]; [|exists q; rewrite C52_no_write; auto].
  destruct (dry_run c) eqn:D; [exists q; rewrite C52_no_write; auto|].
  destruct (finalize_ok c) eqn:F; [|exists q; rewrite C52_no_write; auto].
  destruct (C52_old_config_preserved f ns c Hns Z D F) as (A & B & C).
  destruct (string_dec q (config_path ns)) as [->|Nq].
  - destruct (string_dec x (current_yaml c)) as [->|Nx]; [eauto|].
    destruct (B x E Nx) as (b & _ & H & _). eauto.
  - destruct (dict_get f (config_path ns)) as [old|] eqn:O.
    + destruct (string_dec old (current_yaml c)) as [->|No].
      * exists q. rewrite C; auto. congruence.
      * destruct (B old eq_refl No) as (b & Ub & H & K).
        exists q. rewrite K; auto. intros ->. congruence.
    + exists q. rewrite C; auto. discriminate.
Qed.

Theorem C52_history_keeps_every_config : forall h f x q,
  Forall (fun nc => forall n, fst nc = Some n -> str_has "/" n = false) h ->
  dict_get f q = Some x -> exists b, dict_get (runs f h) b = Some x.
Proof.
  induction h as [|[ns c] h IH]; intros f x q F E; [simpl; eauto|].
  inversion F; subst. simpl. destruct (prepare_keeps f ns c H1 q x E) as (b & Hb). eapply IH; eauto.
Qed.

(** Rewriting an unchanged configuration is not protected: a crash between opening and
    writing leaves it in no file. *)
Theorem C52_crash_same_config_refuted :
  ~ (forall f ns c k x, dict_get f (config_path ns) = Some x -> exists b, dict_get (prepare_crash f ns c k) b = Some x).
Proof.
  intros H. specialize (H [("config.yaml", "a: 1")] None
    {| process_index := 0; dry_run := false; finalize_ok := true; current_yaml := "a: 1"; timestamp := "t" |} 1 "a: 1" eq_refl).
  destruct H as (b & H). apply dict_get_In in H.
  change (In (b, "a: 1") [("config.yaml", "")]) in H.
  destruct H as [H|[]]; inversion H.
Qed.

(** Walkers are split evenly over the processes or the run is refused. *)
Theorem C52_even_split : forall b p n, 0 < p -> local_batch b p = Ok n -> n * p = b.
Proof.
  intros b p n Hp. unfold local_batch. destruct (Nat.eqb_spec (b mod p) 0) as [E|]; [|discriminate].
  intros H; inversion H; subst. pose proof (Nat.div_mod b p ltac:(lia)). nia.
Qed.

Example C52_example :
  let c y := {| process_index := 0; dry_run := false; finalize_ok := true; current_yaml := y; timestamp := "T" |} in
  runs [] [(None, c "a"); (None, c "b"); (None, c "b"); (None, c "c"); (Some "train", c "d")]
  = [("config_history/config.backup_T.yaml", "a"); ("config_history/config.backup_T_1.yaml", "b");
     ("config.yaml", "c"); ("train_config.yaml", "d")].
Proof. reflexivity. Qed.

Print Assumptions C52_old_config_preserved.
Print Assumptions C52_crash_safe.
Print Assumptions C52_history_keeps_every_config.
