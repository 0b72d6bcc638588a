(** C84: what the KFAC curvature blocks, layer patterns and complex VJP compute. *)
From Coq Require Import Reals List Arith Lra ZArith String Lia.
From Coquelicot Require Import Coquelicot.
From Verif Require Import Lin Shape Sph_Spec Kfac_Spec Kfac_Model.
Import ListNotations.
Open Scope R_scope.

(** ** Row-major layout of concatenated shapes *)
Lemma size_app s1 s2 : size (s1 ++ s2) = (size s1 * size s2)%nat.
Proof. induction s1 as [|d s1 IH]; cbn; [unfold size; lia|]. change (fold_right Nat.mul 1%nat (s1 ++ s2)) with (size (s1 ++ s2)). rewrite IH. change (fold_right Nat.mul 1%nat s1) with (size s1). lia. Qed.
Lemma ravel_app s1 : forall i1 s2 i2, List.length i1 = List.length s1 -> ravel (s1 ++ s2) (i1 ++ i2) = (ravel s1 i1 * size s2 + ravel s2 i2)%nat.
Proof.
  induction s1 as [|d s1 IH]; intros [|i i1] s2 i2 H; cbn [List.length] in H; try discriminate; [reflexivity|].
  cbn [app ravel]. rewrite IH by congruence. rewrite size_app. lia.
Qed.
Lemma entry_app {T} (a : array T) s1 s2 i1 i2 : shape a = (s1 ++ s2)%list -> List.length i1 = List.length s1 ->
  entry a (i1 ++ i2)%list = buf a (ravel s1 i1 * size s2 + ravel s2 i2)%nat.
Proof. intros S L. unfold entry. rewrite S, ravel_app by exact L. reflexivity. Qed.
Lemma entry_row {T} (a : array T) s1 s2 k i : shape a = (s1 ++ s2)%list -> (k < size s1)%nat ->
  entry a (unravel s1 k ++ i)%list = buf a (k * size s2 + ravel s2 i)%nat.
Proof. intros S K. rewrite (entry_app a s1 s2) by (exact S || apply length_unravel). rewrite ravel_unravel by exact K. reflexivity. Qed.
Lemma size_cons d s : size (d :: s) = (d * size s)%nat. Proof. reflexivity. Qed.

Lemma last_dims_app {T} (l m : list T) : m <> [] -> last_dims (rank m) (l ++ m) = m.
Proof.
  intros M. unfold last_dims, rank. replace (0 <? Z.of_nat (List.length m))%Z with true.
  - rewrite Nat2Z.id, app_length, Nat.add_sub, skipn_app, skipn_all, Nat.sub_diag. reflexivity.
  - symmetry. apply Z.ltb_lt. destruct m; [contradiction|]. cbn [List.length]. lia.
Qed.
Lemma but_last_dims_app {T} (l m : list T) : m <> [] -> but_last_dims (rank m) (l ++ m) = l.
Proof.
  intros M. unfold but_last_dims, rank. replace (0 <? Z.of_nat (List.length m))%Z with true.
  - rewrite Nat2Z.id, app_length, Nat.add_sub, firstn_app, firstn_all, Nat.sub_diag. apply app_nil_r.
  - symmetry. apply Z.ltb_lt. destruct m; [contradiction|]. cbn [List.length]. lia.
Qed.
Lemma split_ranks lead ins outs : weight_dimension_split (lead ++ ins) (lead ++ outs) (ins ++ outs) = (rank ins, rank outs).
Proof.
  unfold weight_dimension_split, rank. rewrite !app_length, !Nat2Z.inj_add. f_equal.
  - replace (_ - _)%Z with (Z.of_nat (List.length ins) * 2)%Z by lia. apply Z.div_mul. lia.
  - replace ((_ + _ - (_ - _)) / 2)%Z with (Z.of_nat (List.length ins)); [lia|].
    replace (Z.of_nat (List.length ins) + Z.of_nat (List.length outs) - (Z.of_nat (List.length lead) + Z.of_nat (List.length outs) - (Z.of_nat (List.length lead) + Z.of_nat (List.length ins))))%Z
      with (Z.of_nat (List.length ins) * 2)%Z by lia. symmetry. apply Z.div_mul. lia.
Qed.
(** C84: the (in)(out) matrix layout of weight and bias is recovered from ranks alone, whatever the number of
    repeated, contracted and produced axes. *)
Theorem C84_parameter_split : forall lead ins outs, outs <> [] ->
  parameter_split (lead ++ ins) (lead ++ outs) (ins ++ outs) (ins ++ outs) = (ins, outs) /\
  parameter_split (lead ++ ins) (lead ++ outs) (ins ++ outs) outs = ([], outs).
Proof.
  intros lead ins outs H. unfold parameter_split. rewrite split_ranks. cbn [snd]. split; f_equal.
  - apply but_last_dims_app. exact H.
  - apply last_dims_app. exact H.
  - apply (but_last_dims_app [] outs). exact H.
  - apply (last_dims_app [] outs). exact H.
Qed.

Lemma csum_csigma n f : csum n f = csigma n f.
Proof. induction n as [|n IH]; cbn; [reflexivity|now rewrite IH]. Qed.
Lemma fst_csum n f : fst (csum n f) = sum n (fun k => fst (f k)).
Proof. induction n as [|n IH]; cbn; [reflexivity|now rewrite IH]. Qed.
Lemma snd_csum n f : snd (csum n f) = sum n (fun k => snd (f k)).
Proof. induction n as [|n IH]; cbn; [reflexivity|now rewrite IH]. Qed.
Lemma fst_cconj_mul u v : fst (cconj_mul u v) = re_inner u v.
Proof. destruct u, v. unfold cconj_mul, re_inner. cbn. lra. Qed.
Lemma output_stats_eq n dy y z : output_stats n dy y z = sum n (fun a => re_inner (dy a y) (dy a z)) / INR n.
Proof. unfold output_stats. rewrite fst_csum. f_equal. apply sum_ext. intros a _. apply fst_cconj_mul. Qed.
Lemma rows_of_app {T} (x : array T) s1 s2 : shape x = (s1 ++ s2)%list -> (0 < size s2)%nat ->
  rows_of x (size s2) = Some (size s1, fun a y => buf x (a * size s2 + y)%nat).
Proof.
  intros S P. unfold rows_of. rewrite S, size_app, Nat.mod_mul, Nat.div_mul by lia. rewrite Nat.eqb_refl.
  destruct (Nat.eqb_spec (size s2) 0); [lia|]. reflexivity.
Qed.
Lemma sum_const n c : sum n (fun _ => c) = INR n * c.
Proof. induction n as [|n IH]; [cbn; lra|]. cbn [sum]. rewrite IH, S_INR. lra. Qed.

(** C84: the factors of a (repeated) dense block are the second moments of the layer input, with a 1 appended when
    there is a bias, and the real second moments of the derivatives of the output, over samples and repeats. *)
Theorem C84_repeated_dense : forall bias B reps ins outs x dy,
  ins <> [] -> outs <> [] -> (0 < B * size reps * size ins * size outs)%nat ->
  shape x = ((B :: reps) ++ ins)%list -> shape dy = ((B :: reps) ++ outs)%list ->
  exists st, repeated_dense_stats bias B (ins ++ outs) x dy = Some st /\
    fin_size st = (size ins + if bias then 1 else 0)%nat /\ fout_size st = size outs /\
    (forall i j, inside ins i -> inside ins j ->
      in_stats st (ravel ins i) (ravel ins j) = mean_over (B :: reps) (fun l => entry x (l ++ i) * entry x (l ++ j))) /\
    (bias = true -> (forall i, inside ins i ->
      in_stats st (ravel ins i) (size ins) = mean_over (B :: reps) (fun l => entry x (l ++ i)) /\
      in_stats st (size ins) (ravel ins i) = mean_over (B :: reps) (fun l => entry x (l ++ i))) /\
      in_stats st (size ins) (size ins) = 1) /\
    (forall o p, inside outs o -> inside outs p ->
      out_stats st (ravel outs o) (ravel outs p) = mean_over (B :: reps) (fun l => re_inner (entry dy (l ++ o)) (entry dy (l ++ p)))).
Proof.
  intros bias B reps ins outs x dy HI HO HP SX SY.
  assert (P1 : (0 < size ins)%nat) by (destruct (size ins); lia).
  assert (P2 : (0 < size outs)%nat) by (destruct (size outs); lia).
  assert (PL : (0 < size (B :: reps))%nat) by (rewrite size_cons; destruct (B * size reps)%nat; lia).
  assert (HL : INR (size (B :: reps)) <> 0) by (apply not_0_INR; lia).
  unfold repeated_dense_stats. replace (hd 0%nat (shape x)) with B by (rewrite SX; reflexivity). rewrite Nat.eqb_refl. cbn [negb].
  rewrite SX, SY, split_ranks, !last_dims_app by assumption.
  rewrite (rows_of_app x _ _ SX P1), (rows_of_app dy _ _ SY P2), Nat.eqb_refl.
  assert (RX : forall a i, (a < size (B :: reps))%nat -> entry x (unravel (B :: reps) a ++ i)%list = buf x (a * size ins + ravel ins i)%nat) by (intros; apply entry_row; assumption).
  assert (RY : forall a i, (a < size (B :: reps))%nat -> entry dy (unravel (B :: reps) a ++ i)%list = buf dy (a * size outs + ravel outs i)%nat) by (intros; apply entry_row; assumption).
  assert (OUT : forall o p, inside outs o -> inside outs p ->
    output_stats (size (B :: reps)) (fun a y => buf dy (a * size outs + y)%nat) (ravel outs o) (ravel outs p) = mean_over (B :: reps) (fun l => re_inner (entry dy (l ++ o)) (entry dy (l ++ p)))).
  { intros o p _ _. rewrite output_stats_eq. unfold mean_over. f_equal. apply sum_ext. intros a A. rewrite !RY by exact A. reflexivity. }
  destruct bias; cbn [with_ones]; eexists; (split; [reflexivity|]); cbn [fin_size fout_size in_stats out_stats].
  - refine (conj _ (conj eq_refl (conj _ (conj _ OUT)))).
    + lia.
    + intros i j I J. unfold input_stats, mean_over. f_equal. apply sum_ext. intros a A. rewrite !RX by exact A.
      pose proof (ravel_lt _ _ I). pose proof (ravel_lt _ _ J).
      destruct (Nat.ltb_spec (ravel ins i) (size ins)); [|lia]. destruct (Nat.ltb_spec (ravel ins j) (size ins)); [reflexivity|lia].
    + intros _. split.
      * intros i I. pose proof (ravel_lt _ _ I). unfold input_stats, mean_over. split; f_equal; apply sum_ext; intros a A; rewrite RX by exact A;
        rewrite Nat.ltb_irrefl; (destruct (Nat.ltb_spec (ravel ins i) (size ins)); [lra|lia]).
      * unfold input_stats. rewrite Nat.ltb_irrefl, sum_const. field. exact HL.
  - refine (conj _ (conj eq_refl (conj _ (conj _ OUT)))).
    + lia.
    + intros i j I J. unfold input_stats, mean_over. f_equal. apply sum_ext. intros a A. rewrite !RX by exact A. reflexivity.
    + discriminate.
Qed.
(** The block for a dense layer without repeats computes the same on arrays of two axes and nothing else. *)
Theorem C84_dense : forall bias B fin fout x dy, shape x = [B; fin] -> shape dy = [B; fout] -> (0 < B * fin * fout)%nat ->
  dense_stats bias B x dy = repeated_dense_stats bias B [fin; fout] x dy.
Proof.
  intros bias B fin fout x dy SX SY P.
  unfold dense_stats, repeated_dense_stats. rewrite SX, SY. cbn [hd]. rewrite !Nat.eqb_refl. cbn [negb andb].
  change (weight_dimension_split [B; fin] [B; fout] [fin; fout]) with (1%Z, 1%Z). cbv iota beta.
  change (last_dims 1 [B; fin]) with [fin]. change (last_dims 1 [B; fout]) with [fout].
  assert (0 < fin)%nat by (destruct fin; lia). assert (0 < fout)%nat by (destruct fout; lia).
  assert (E : forall T (a : array T) f, shape a = [B; f] -> (0 < f)%nat -> rows_of a (size [f]) = Some (B, fun r y => buf a (r * f + y)%nat)).
  { intros T a f S Hf. pose proof (rows_of_app a [B] [f] S) as E. replace (size [f]) with f in * by (unfold size; cbn; lia). replace (size [B]) with B in E by (unfold size; cbn; lia). apply E. exact Hf. }
  rewrite (E _ x fin SX), (E _ dy fout SY) by assumption. rewrite Nat.eqb_refl.
  replace (size [fin]) with fin by (unfold size; cbn; lia). replace (size [fout]) with fout by (unfold size; cbn; lia).
  destruct bias; reflexivity.
Qed.
Definition accepted (p : dense_pattern) (dy_shape : list nat) : Prop :=
  let x := {| shape := x_shape p; buf := fun _ => 0 |} in let dy := {| shape := dy_shape; buf := fun _ => RtoC 0 |} in
  match tag p with
  | RepeatedDense => repeated_dense_stats (List.length (p_shapes p) =? 2)%nat (hd 0%nat (x_shape p)) (hd [] (p_shapes p)) x dy <> None
  | Dense => dense_stats (List.length (p_shapes p) =? 2)%nat (hd 0%nat (x_shape p)) x dy <> None
  | _ => False
  end.
(** C84, refuted part: a layer that contracts or produces two axes matches a registered pattern also without a
    repeated axis, and is then given the block that handles two-axis arrays only. *)
Theorem C84_patterns_refuted : forall bias r i o, (1 <= i)%nat -> (1 <= o)%nat ->
  let p := make_flax_dense_pattern bias r i o in
  (accepted p (2 :: repeat 7 r ++ map (fun k => k + 2) (seq 0 o))%nat%list <-> (1 <= r)%nat \/ (i = 1 /\ o = 1)%nat) /\
  ((r < 3)%nat -> (i < 3)%nat -> (o < 3)%nat -> In p dense_patterns).
Proof.
  intros bias r i o Hi Ho p. split.
  - unfold accepted, p, make_flax_dense_pattern. cbn [tag x_shape p_shapes hd]. destruct r as [|r].
    + cbn [Nat.ltb Nat.leb repeat app]. split.
      * intros H. right. unfold dense_stats in H. cbn [shape] in H.
        destruct i as [|[|i]]; [lia| |].
        -- destruct o as [|[|o]]; [lia|split; reflexivity|]. exfalso. apply H. cbn [seq map]. reflexivity.
        -- exfalso. apply H. cbn [seq map]. reflexivity.
      * intros [A|[A B]]; [lia|]. subst i o. unfold dense_stats. cbn. destruct bias; cbn; discriminate.
    + split; [intros _; left; lia|intros _].
      cbn [Nat.ltb Nat.leb].
      set (ins := map (fun k => (k + 2)%nat) (seq 0 i)). set (outs := map (fun k => (k + 2)%nat) (seq 0 o)).
      assert (NI : ins <> []) by (unfold ins; destruct i; [lia|]; discriminate).
      assert (NO : outs <> []) by (unfold outs; destruct o; [lia|]; discriminate).
      assert (PZ : forall n m, (0 < size (map (fun k => (k + 2)%nat) (seq m n)))%nat).
      { induction n as [|n IH]; intros m; cbn [seq map]; [unfold size; cbn; lia|]. rewrite size_cons. specialize (IH (S m)). lia. }
      assert (PR : forall n, (0 < size (repeat 7%nat n))%nat) by (induction n as [|n IH]; cbn [repeat]; [unfold size; cbn; lia|rewrite size_cons; lia]).
      pose proof (C84_repeated_dense bias 2 (repeat 7%nat (S r)) ins outs
        {| shape := ((2 :: repeat 7 (S r)) ++ ins)%nat%list; buf := fun _ => 0 |} {| shape := ((2 :: repeat 7 (S r)) ++ outs)%nat%list; buf := fun _ => RtoC 0 |} NI NO) as [st [E _]].
      * pose proof (PR (S r)). pose proof (PZ i 0%nat). pose proof (PZ o 0%nat). fold ins in H0. fold outs in H1. apply Nat.mul_pos_pos; [apply Nat.mul_pos_pos; [lia|]|]; assumption.
      * reflexivity.
      * reflexivity.
      * cbn [app] in E. destruct bias; cbn [List.length Nat.eqb hd]; rewrite E; discriminate.
  - intros A B D. unfold p. clear p.
    assert (R : r = 0%nat \/ r = 1%nat \/ r = 2%nat) by lia. assert (I : i = 1%nat \/ i = 2%nat) by lia. assert (O : o = 1%nat \/ o = 2%nat) by lia.
    destruct bias, R as [->|[->| ->]], I as [->| ->], O as [->| ->]; cbn; tauto.
Qed.
(** C84: the scale that turns row averages into sums over repeats is right for one contracted axis ... *)
Theorem C84_fixed_scale : forall B reps fin, (0 < B)%nat -> (0 < fin)%nat -> fixed_scale ((B :: reps) ++ [fin]) = size reps.
Proof.
  intros B reps fin HB HF. unfold fixed_scale. rewrite last_last. cbn [app hd]. rewrite size_cons, size_app.
  replace (size [fin]) with fin by (unfold size; cbn; lia).
  replace (B * (size reps * fin))%nat with (size reps * (B * fin))%nat by lia. apply Nat.div_mul. nia.
Qed.
(** ... and wrong for more: every contracted axis but the last is counted as a repeat. *)
Theorem C84_fixed_scale_refuted : forall B reps ins fin, (0 < B)%nat -> (0 < fin)%nat ->
  fixed_scale ((B :: reps) ++ ins ++ [fin]) = (size reps * size ins)%nat.
Proof.
  intros B reps ins fin HB HF. change ((B :: reps) ++ ins ++ [fin])%list with (B :: (reps ++ ins ++ [fin]))%list.
  rewrite app_assoc. pose proof (C84_fixed_scale B (reps ++ ins) fin HB HF) as E. cbn [app] in E. rewrite E. apply size_app.
Qed.

(** ** The layer pattern *)
Lemma position_In k l : In k l -> exists q, position k l = Some q.
Proof. induction l as [|a l IH]; intros H; [contradiction|]. cbn. destruct (Nat.eqb_spec a k) as [->|N]; [eexists; reflexivity|]. destruct H as [->|H]; [contradiction|]. destruct (IH H) as [q ->]. eexists; reflexivity. Qed.
Lemma position_notIn k l : ~ In k l -> position k l = None.
Proof. induction l as [|a l IH]; intros H; [reflexivity|]. cbn. destruct (Nat.eqb_spec a k) as [->|N]; [exfalso; apply H; left; reflexivity|]. rewrite IH; [reflexivity|]. intros I. apply H. right. exact I. Qed.
Lemma position_seq : forall n a k, (a <= k < a + n)%nat -> position k (seq a n) = Some (k - a)%nat.
Proof.
  induction n as [|n IH]; intros a k H; [lia|]. cbn. destruct (Nat.eqb_spec a k) as [->|N]; [f_equal; lia|].
  rewrite IH by lia. cbn. f_equal. lia.
Qed.
Lemma position_seq_out n a k : (k < a \/ a + n <= k)%nat -> position k (seq a n) = None.
Proof. intros H. apply position_notIn. rewrite in_seq. lia. Qed.
Lemma filter_all {T} (f : T -> bool) l : (forall a, In a l -> f a = true) -> filter f l = l.
Proof. induction l as [|a l IH]; intros H; [reflexivity|]. cbn. rewrite H by (left; reflexivity). rewrite IH; [reflexivity|]. intros b B. apply H. right. exact B. Qed.
Lemma filter_none {T} (f : T -> bool) l : (forall a, In a l -> f a = false) -> filter f l = [].
Proof. induction l as [|a l IH]; intros H; [reflexivity|]. cbn. rewrite H by (left; reflexivity). apply IH. intros b B. apply H. right. exact B. Qed.
Lemma free_last p q : free_axes (p + q) (seq p q) = seq 0 p.
Proof.
  unfold free_axes. rewrite seq_app, filter_app. rewrite filter_all, filter_none; [apply app_nil_r| |].
  - intros a A. apply in_seq in A. rewrite position_seq by lia. reflexivity.
  - intros a A. apply in_seq in A. rewrite position_seq_out by lia. reflexivity.
Qed.
Lemma free_first p q : free_axes (p + q) (seq 0 p) = seq p q.
Proof.
  unfold free_axes. rewrite seq_app, filter_app. rewrite filter_none, filter_all; [reflexivity| |].
  - intros a A. apply in_seq in A. rewrite position_seq_out by lia. reflexivity.
  - intros a A. apply in_seq in A. rewrite position_seq by lia. reflexivity.
Qed.
Lemma map_seq_nth (l : list nat) a n : List.length l = n -> map (fun k => nth (k - a) l 0%nat) (seq a n) = l.
Proof.
  intros L. apply (nth_ext _ _ 0%nat 0%nat); [rewrite map_length, seq_length; symmetry; exact L|].
  intros k K. rewrite map_length, seq_length in K. rewrite (nth_indep _ 0%nat (nth (0 - a) l 0%nat)) by (rewrite map_length, seq_length; exact K).
  rewrite (map_nth (fun k => nth (k - a) l 0%nat)), seq_nth by exact K. f_equal. lia.
Qed.
Lemma map_ext_seq {T} (f g : nat -> T) a n : (forall k, (a <= k < a + n)%nat -> f k = g k) -> map f (seq a n) = map g (seq a n).
Proof. intros H. apply map_ext_in. intros k K. apply H. apply in_seq in K. exact K. Qed.
Lemma place_last p q c f : List.length f = p -> List.length c = q -> place (p + q) (seq p q) c f = (f ++ c)%list.
Proof.
  intros LF LC. unfold place. rewrite free_last, seq_app, map_app. f_equal.
  - transitivity (map (fun k => nth (k - 0) f 0%nat) (seq 0 p)); [|apply map_seq_nth; exact LF]. apply map_ext_seq. intros k K.
    rewrite position_seq_out by lia. rewrite position_seq by lia. reflexivity.
  - transitivity (map (fun k => nth (k - p) c 0%nat) (seq p q)); [|apply map_seq_nth; exact LC]. apply map_ext_seq. intros k K.
    rewrite position_seq by lia. reflexivity.
Qed.
Lemma place_first p q c f : List.length c = p -> List.length f = q -> place (p + q) (seq 0 p) c f = (c ++ f)%list.
Proof.
  intros LC LF. unfold place. rewrite free_first, seq_app, map_app. f_equal.
  - transitivity (map (fun k => nth (k - 0) c 0%nat) (seq 0 p)); [|apply map_seq_nth; exact LC]. apply map_ext_seq. intros k K.
    rewrite position_seq by lia. reflexivity.
  - transitivity (map (fun k => nth (k - p) f 0%nat) (seq p q)); [|apply map_seq_nth; exact LF]. apply map_ext_seq. intros k K.
    rewrite position_seq_out by lia. rewrite position_seq by lia. reflexivity.
Qed.
Lemma take_first (l m : list nat) : take_axes (l ++ m) (seq 0 (List.length l)) = l.
Proof.
  unfold take_axes. transitivity (map (fun k => nth (k - 0) l 0%nat) (seq 0 (List.length l))); [|apply map_seq_nth; reflexivity].
  apply map_ext_seq. intros k K. rewrite app_nth1 by lia. f_equal. lia.
Qed.
Lemma take_last (l m : list nat) : take_axes (l ++ m) (seq (List.length l) (List.length m)) = m.
Proof.
  unfold take_axes. transitivity (map (fun k => nth (k - List.length l) m 0%nat) (seq (List.length l) (List.length m))); [|apply map_seq_nth; reflexivity].
  apply map_ext_seq. intros k K. rewrite app_nth2 by lia. reflexivity.
Qed.
Lemma contracted_axes p q : map (fun i => (p + q) - 1 - i)%nat (rev (seq 0 q)) = seq p q.
Proof.
  apply (nth_ext _ _ 0%nat 0%nat); [rewrite map_length, rev_length, !seq_length; reflexivity|].
  intros k K. rewrite map_length, rev_length, seq_length in K.
  rewrite (nth_indep _ 0%nat ((p + q) - 1 - 0)%nat) by (rewrite map_length, rev_length, seq_length; exact K).
  rewrite (map_nth (fun i => (p + q) - 1 - i)%nat), rev_nth by (rewrite seq_length; exact K). rewrite seq_length, !seq_nth by lia. lia.
Qed.
Lemma dot_dense lead ins outs x w : shape x = (lead ++ ins)%list -> shape w = (ins ++ outs)%list -> (0 < size outs)%nat ->
  let y := dot_general x w (map (fun i => List.length (shape x) - 1 - i)%nat (rev (seq 0 (List.length ins)))) (seq 0 (List.length ins)) in
  shape y = (lead ++ outs)%list /\
  forall l o, inside lead l -> inside outs o -> entry y (l ++ o)%list = sum (size ins) (fun i => entry x (l ++ unravel ins i)%list * entry w (unravel ins i ++ o)%list).
Proof.
  intros SX SW P. cbv zeta. unfold dot_general. cbn [shape buf]. rewrite SX, SW, !app_length, contracted_axes, free_last, free_first, !take_first, !take_last, seq_length.
  split; [reflexivity|]. intros l o L O. pose proof L as [LL _]. pose proof O as [LO _].
  assert (INS : inside (lead ++ outs) (l ++ o)%list).
  { destruct L as [_ IA], O as [_ IB]. split; [rewrite !app_length; congruence|].
    intros a HA. rewrite app_length in HA. destruct (Nat.lt_ge_cases a (List.length lead)) as [H|H].
    + rewrite !app_nth1 by lia. apply IA. exact H.
    + rewrite !app_nth2 by lia. rewrite LL. apply IB. lia. }
  unfold entry at 1. cbn [shape buf]. rewrite unravel_ravel by exact INS. rewrite <- LL, firstn_app, firstn_all, Nat.sub_diag, skipn_app, skipn_all, Nat.sub_diag. cbn [firstn skipn app]. rewrite app_nil_r.
  apply sum_ext. intros i I. rewrite LL. rewrite place_last, place_first; [reflexivity|apply length_unravel|exact LO|exact LL|apply length_unravel].
Qed.
(** C84: the pattern is the dense layer: every registered shape of lead axes, contracted axes and output axes. *)
Theorem C84_layer : forall lead ins outs x w b, shape x = (lead ++ ins)%list -> shape w = (ins ++ outs)%list -> shape b = outs -> (0 < size outs)%nat ->
  (exists y, flax_dense x [w; b] (List.length ins) = Some y /\ shape y = (lead ++ outs)%list /\
     forall l o, inside lead l -> inside outs o -> entry y (l ++ o)%list = dense_layer ins (entry x) (entry w) (entry b) l o) /\
  (exists y, flax_dense x [w] (List.length ins) = Some y /\ shape y = (lead ++ outs)%list /\
     forall l o, inside lead l -> inside outs o -> entry y (l ++ o)%list = dense_layer ins (entry x) (entry w) (fun _ => 0) l o).
Proof.
  intros lead ins outs x w b SX SW SB P. pose proof (dot_dense lead ins outs x w SX SW P) as [S E]. cbv zeta in S, E.
  unfold flax_dense. set (y := dot_general _ _ _ _) in *. split; (eexists; split; [reflexivity|]; cbn [shape]; split; [exact S|]).
  - intros l o L O. unfold entry at 1. cbn [shape buf]. fold (entry y (l ++ o)%list). rewrite E by assumption. unfold dense_layer. f_equal.
    unfold entry. rewrite SB. f_equal. rewrite S, ravel_app by apply L. rewrite Nat.add_comm, Nat.mod_add by lia. apply Nat.mod_small. apply ravel_lt. exact O.
  - intros l o L O. rewrite E by assumption. unfold dense_layer. lra.
Qed.

(** The parameters as one matrix: weight rows, then the bias row; the block appends its 1 in the same place. *)
Definition rows (lead ins : list nat) (x : array R) : nat -> nat -> R := fun a i => buf x (a * size ins + i)%nat.
Theorem C84_layer_matrix : forall lead ins outs x w b, shape x = (lead ++ ins)%list -> shape w = (ins ++ outs)%list -> shape b = outs ->
  forall l o, inside lead l -> inside outs o ->
  let '(k, xe) := with_ones true (size ins) (rows lead ins x) in
  dense_layer ins (entry x) (entry w) (entry b) l o = sum k (fun i => xe (ravel lead l) i * parameter_array (size ins) (size outs) w b i (ravel outs o)).
Proof.
  intros lead ins outs x w b SX SW SB l o L O. cbn [with_ones]. cbn [sum]. unfold dense_layer. f_equal.
  - apply sum_ext. intros i I. rewrite (proj2 (Nat.ltb_lt i (size ins)) I). unfold parameter_array. rewrite (proj2 (Nat.ltb_lt i (size ins)) I). f_equal.
    + rewrite (entry_app x lead ins) by (exact SX || apply L). rewrite ravel_unravel by exact I. reflexivity.
    + rewrite (entry_row w ins outs) by assumption. reflexivity.
  - rewrite Nat.ltb_irrefl. unfold parameter_array. rewrite Nat.ltb_irrefl, Nat.sub_diag. cbn [Nat.mul Nat.add]. unfold entry. rewrite SB. lra.
Qed.
