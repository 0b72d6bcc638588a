(** C27: histograms accumulated over steps and devices. *)
From Coq Require Import Reals List Bool Arith String Lra Lia Permutation Sorting.Sorted.
From Verif Require Import Common Est_Model Est_Props.
Import ListNotations.
Open Scope R_scope.
Open Scope list_scope.
Local Notation length := List.length.

(** *** Specification *)
(** Bin [i] between two edges; the last one includes its right edge. *)
Definition in_bin (edges : list R) (i : nat) (x : R) : Prop :=
  (S i < length edges)%nat /\ nth i edges 0 <= x /\
  (x < nth (S i) edges 0 \/ (S (S i) = length edges /\ x = nth (S i) edges 0)).
(** A sample lies in a cell: each coordinate a number in its bin. *)
Fixpoint in_cell (dims : list (list R)) (cell : list nat) (v : list nv) : Prop :=
  match dims, cell, v with
  | [], [], [] => True
  | e :: dims', i :: cell', Some x :: v' => in_bin e i x /\ in_cell dims' cell' v'
  | _, _, _ => False
  end.
Definition increasing (edges : list R) : Prop := StronglySorted Rlt edges /\ (2 <= length edges)%nat.

(** *** Edges *)
Definition le_b (v e : R) : bool := if Rle_dec e v then true else false.
Lemma below_spec edges v : StronglySorted Rlt edges ->
  let k := length (filter (le_b v) edges) in
  (k <= length edges)%nat /\
  (forall i, (i < k)%nat -> nth i edges 0 <= v) /\ (forall i, (k <= i < length edges)%nat -> v < nth i edges 0).
Proof.
  cbv zeta. induction 1 as [|e edges S IH F]; simpl.
  - split; [lia|]. split; intros; lia.
  - destruct IH as (A & B & C). assert (Q : (le_b v e = true /\ e <= v) \/ (le_b v e = false /\ ~ e <= v)).
    { unfold le_b. destruct (Rle_dec e v); auto. }
    destruct Q as [[Q L]|[Q L]]; rewrite Q; simpl.
    + split; [lia|]. split.
      * intros [|i] Hi; [exact L|]. apply B. lia.
      * intros [|i] Hi; [lia|]. apply C. lia.
    + assert (Z : filter (le_b v) edges = []).
      { clear - F L. induction F as [|x l Hx F IH]; simpl; auto. unfold le_b at 1. destruct (Rle_dec x v); [lra|auto]. }
      rewrite Z in *. simpl. split; [lia|]. split; [intros; lia|]. intros [|i] Hi; [lra|]. apply C. simpl. lia.
Qed.
Lemma sorted_lt_nth s : StronglySorted Rlt s -> forall i j, (i < j < length s)%nat -> nth i s 0 < nth j s 0.
Proof.
  induction 1 as [|x s S IH F]; intros i j H; simpl in *; [lia|].
  destruct i as [|i], j as [|j]; try lia.
  - rewrite Forall_forall in F. apply F. apply nth_In. lia.
  - apply IH. lia.
Qed.
Lemma last_nth (l : list R) : l <> [] -> last l 0 = nth (length l - 1) l 0.
Proof.
  induction l as [|x l IH]; [congruence|]. intros _. destruct l as [|y l]; auto.
  change (last (x :: y :: l) 0) with (last (y :: l) 0). rewrite IH by discriminate. cbn [length].
  replace (S (S (length l)) - 1)%nat with (S (length l)) by lia. replace (S (length l) - 1)%nat with (length l) by lia. reflexivity.
Qed.

(** The bin found is the one the sample is in. *)
Theorem C27_bin_found : forall edges x i, increasing edges -> (bin_of edges (Some x) = Some i <-> in_bin edges i x).
Proof.
  intros edges x i (SS & L2). pose proof (below_spec edges x SS) as B. cbv zeta in B.
  unfold bin_of. fold (le_b x). change (fun e : R => if Rle_dec e x then true else false) with (le_b x).
  set (k := length (filter (le_b x) edges)) in *. destruct B as (K & Lo & Hi).
  assert (NE : edges <> []) by (destruct edges; simpl in L2; [lia|discriminate]).
  rewrite last_nth by auto. set (n := length edges) in *.
  pose proof (sorted_lt_nth edges SS) as LT. fold n in LT.
  destruct (Req_EM_T x (nth (n - 1) edges 0)) as [E|E].
  - assert (Kn : k = n).
    { destruct (Nat.eq_dec k n); auto. exfalso. specialize (Hi (n - 1)%nat ltac:(lia)). lra. }
    rewrite Kn. replace (Nat.leb 1 (n - 1)) with true by (symmetry; apply Nat.leb_le; lia).
    replace (Nat.ltb (n - 1) n) with true by (symmetry; apply Nat.ltb_lt; lia). simpl. split.
    + intros H. inversion H. subst i. unfold in_bin. fold n. replace (S (n - 1 - 1)) with (n - 1)%nat by lia.
      split; [lia|]. split; [left; rewrite E; apply LT; lia|]. right. split; [lia|auto].
    + intros (A & B & C). fold n in A, C. f_equal. destruct C as [C|[C _]]; [|lia]. exfalso.
      destruct (Nat.eq_dec (S i) (n - 1)) as [D|D]; [rewrite D in C; lra|].
      specialize (LT (S i) (n - 1)%nat ltac:(lia)). lra.
  - destruct (Nat.leb 1 k && Nat.ltb k n)%bool eqn:T.
    + apply andb_true_iff in T as [T1 T2]. apply Nat.leb_le in T1. apply Nat.ltb_lt in T2. split.
      * intros H. inversion H. subst i. unfold in_bin. fold n. replace (S (k - 1)) with k by lia.
        split; [lia|]. split; [apply Lo; lia|]. left. apply Hi. lia.
      * intros (A & B & C). fold n in A, C. f_equal.
        destruct C as [C|[C1 C2]]; [|exfalso; apply E; rewrite C2; f_equal; lia].
        destruct (Nat.lt_ge_cases (k - 1) i) as [D|D].
        { exfalso. specialize (Hi i ltac:(lia)). lra. }
        destruct (Nat.eq_dec (k - 1) i); auto. exfalso. specialize (Lo (S i) ltac:(lia)). lra.
    + split; [discriminate|]. intros (A & B & C). fold n in A, C. exfalso.
      apply andb_false_iff in T as [T|T]; [apply Nat.leb_gt in T|apply Nat.ltb_ge in T].
      * specialize (Hi i ltac:(lia)). lra.
      * specialize (Lo (n - 1)%nat ltac:(lia)). destruct C as [C|[C1 C2]].
        -- destruct (Nat.eq_dec (S i) (n - 1)) as [D|D]; [rewrite D in C; lra|].
           specialize (LT (S i) (n - 1)%nat ltac:(lia)). lra.
        -- apply E. rewrite C2. f_equal. lia.
Qed.

(** Every number in the range is in exactly one bin; anything else (also NaN) in none. *)
Theorem C27_each_sample_once : forall edges x, increasing edges ->
  (hd 0 edges <= x <= last edges 0 -> exists! i, in_bin edges i x) /\
  (x < hd 0 edges \/ last edges 0 < x -> bin_of edges (Some x) = None) /\
  bin_of edges None = None.
Proof.
  intros edges x I. pose proof I as (SS & L2). split; [|split].
  - intros [H1 H2].
    assert (X : exists i, bin_of edges (Some x) = Some i).
    { pose proof (below_spec edges x SS) as B. cbv zeta in B. unfold bin_of.
      change (fun e : R => if Rle_dec e x then true else false) with (le_b x).
      set (k := length (filter (le_b x) edges)) in *. destruct B as (K & Lo & Hi).
      assert (NE : edges <> []) by (destruct edges; simpl in L2; [lia|discriminate]).
      assert (K1 : (1 <= k)%nat).
      { destruct k; [|lia]. specialize (Hi 0%nat ltac:(lia)). destruct edges; [congruence|]. simpl in *. lra. }
      rewrite last_nth in * by auto. destruct (Req_EM_T x _) as [E|E].
      - replace (Nat.leb 1 (k - 1)) with true; [replace (Nat.ltb (k - 1) (length edges)) with true; [eexists; reflexivity|]|].
        + symmetry. apply Nat.ltb_lt. lia.
        + symmetry. apply Nat.leb_le. destruct (Nat.eq_dec k (length edges)); [lia|].
          specialize (Hi (length edges - 1)%nat ltac:(lia)). lra.
      - replace (Nat.leb 1 k) with true by (symmetry; apply Nat.leb_le; auto).
        replace (Nat.ltb k (length edges)) with true; [eexists; reflexivity|]. symmetry. apply Nat.ltb_lt.
        destruct (Nat.eq_dec k (length edges)); [|lia]. exfalso. specialize (Lo (length edges - 1)%nat ltac:(lia)). lra. }
    destruct X as [i Hi]. exists i. split; [apply C27_bin_found; auto|].
    intros j Hj. apply (C27_bin_found edges x j I) in Hj. congruence.
  - intros H. destruct (bin_of edges (Some x)) as [i|] eqn:E; auto. exfalso.
    apply (C27_bin_found edges x i I) in E. destruct E as (A & B & C).
    pose proof (sorted_lt_nth edges SS) as LT.
    assert (NE : edges <> []) by (destruct edges; simpl in L2; [lia|discriminate]).
    rewrite last_nth in H by auto. destruct H as [H|H].
    + assert (nth 0 edges 0 <= nth i edges 0).
      { destruct i; [lra|]. left. apply LT. lia. }
      destruct edges; [congruence|]. simpl in *. lra.
    + assert (nth (S i) edges 0 <= nth (length edges - 1) edges 0).
      { destruct (Nat.eq_dec (S i) (length edges - 1)) as [->|]; [lra|]. left. apply LT. lia. }
      destruct C as [C|[_ C]]; lra.
  - reflexivity.
Qed.

Theorem C27_cell_found : forall dims v cell, Forall increasing dims ->
  (cell_of dims v = Some cell <-> in_cell dims cell v).
Proof.
  intros dims. induction dims as [|e dims IH]; intros [|x v] cell F; simpl.
  - destruct cell; split; intros H; try congruence; auto; contradiction.
  - destruct cell; split; intros H; try congruence; contradiction.
  - destruct cell; split; intros H; try congruence; contradiction.
  - inversion F as [|? ? Fe Fd]; subst. destruct x as [x|].
    + destruct (bin_of e (Some x)) as [i|] eqn:B.
      * destruct (cell_of dims v) as [c|] eqn:C.
        -- split.
           ++ intros H. inversion H. subst cell. split; [apply C27_bin_found; auto|]. apply IH; auto.
           ++ destruct cell as [|j cell]; [contradiction|]. intros [H1 H2]. apply C27_bin_found in H1; auto.
              apply IH in H2; auto. congruence.
        -- split; [discriminate|]. destruct cell as [|j cell]; [contradiction|]. intros [H1 H2].
           apply IH in H2; auto. congruence.
      * split; [discriminate|]. destruct cell as [|j cell]; [contradiction|]. intros [H1 H2].
        apply C27_bin_found in H1; auto. congruence.
    + simpl. destruct cell; split; intros H; try discriminate; contradiction.
Qed.

(** *** Accumulation *)
(** Number of samples of a list that are in a cell. *)
Definition hits (dims : list (list R)) (cell : list nat) (v : list nv) : bool :=
  match cell_of dims v with Some c => if list_eq_dec Nat.eq_dec c cell then true else false | None => false end.
Definition number_in (dims : list (list R)) (cell : list nat) (values : list (list nv)) : nat :=
  length (filter (hits dims cell) values).

(** [number_in] counts exactly the samples in the cell. *)
Theorem C27_count_is_count : forall dims cell values, Forall increasing dims ->
  Forall (in_cell dims cell) (filter (hits dims cell) values) /\
  Forall (fun v => ~ in_cell dims cell v) (filter (fun v => negb (hits dims cell v)) values).
Proof.
  intros dims cell values F.
  assert (K : forall v, hits dims cell v = true <-> in_cell dims cell v).
  { intros v. rewrite <- C27_cell_found by auto. unfold hits. destruct (cell_of dims v) as [c|]; [|split; congruence].
    destruct (list_eq_dec Nat.eq_dec c cell); split; congruence. }
  split; apply Forall_forall; intros v Hv; apply filter_In in Hv as [_ Hv].
  - apply K. auto.
  - rewrite <- K. destruct (hits dims cell v); simpl in Hv; congruence.
Qed.

Lemma counts_eq dims values cell : counts dims values cell = INR (number_in dims cell values).
Proof. reflexivity. Qed.
Lemma number_app dims cell a b : number_in dims cell (a ++ b) = (number_in dims cell a + number_in dims cell b)%nat.
Proof. unfold number_in. rewrite filter_app, app_length. auto. Qed.

(** The samples each device has seen. *)
Definition seen_step (acc : list (list (list nv))) (step : list (list (list nv))) :=
  map (fun p => fst p ++ snd p) (combine acc step).
Definition seen (d : nat) (stream : list (list (list (list nv)))) : list (list (list nv)) :=
  fold_left seen_step stream (repeat [] d).

Lemma nsum_seen dims cell acc step : length acc = length step ->
  number_in dims cell (List.concat (seen_step acc step)) =
  (number_in dims cell (List.concat acc) + number_in dims cell (List.concat step))%nat.
Proof.
  revert step. induction acc as [|a acc IH]; intros [|b step] H; simpl in *; try lia; auto.
  rewrite !number_app. unfold seen_step in IH. rewrite IH by lia. lia.
Qed.
Lemma seen_total dims cell d stream acc : length acc = d -> Forall (fun step => length step = d) stream ->
  length (fold_left seen_step stream acc) = d /\
  number_in dims cell (List.concat (fold_left seen_step stream acc)) =
  (number_in dims cell (List.concat acc) + number_in dims cell (List.concat (List.concat stream)))%nat.
Proof.
  intros L F. revert acc L. induction F as [|step stream Hs F IH]; intros acc L; simpl.
  - split; [exact L|]. unfold number_in. simpl. lia.
  - destruct (IH (seen_step acc step)) as [A B].
    + unfold seen_step. rewrite map_length, combine_length. lia.
    + split; auto. rewrite B, nsum_seen by congruence. rewrite concat_app, number_app. lia.
Qed.

(** The two numbers of a device: whatever the rounding of the running sum, sum minus
    compensation is the true count. *)
Definition tracks (dims : list (list R)) (cell : list nat) (h : hist) (vs : list (list nv)) : Prop :=
  h_sum h cell - h_comp h cell = INR (number_in dims cell vs).
Lemma run_tracks rnd dims cell stream : forall ss acc, Forall2 (tracks dims cell) ss acc ->
  Forall (fun step => length step = length ss) stream ->
  Forall2 (tracks dims cell) (hist_run rnd dims ss stream) (fold_left seen_step stream acc).
Proof.
  induction stream as [|step stream IH]; intros ss acc T F; simpl; auto.
  inversion F as [|? ? Fs Fr]; subst. apply IH.
  - unfold seen_step. clear IH F Fr. revert step Fs. induction T as [|h vs ss acc Th T IH]; intros [|v step] Fs; simpl in *; try lia; constructor.
    + unfold tracks in *. simpl. rewrite counts_eq, number_app, plus_INR, <- Th. lra.
    + apply IH. lia.
  - eapply Forall_impl; [|exact Fr]. simpl. intros s Hs. rewrite map_length, combine_length. lia.
Qed.
Lemma init_tracks dims cell d : Forall2 (tracks dims cell) (repeat hist_init d) (repeat [] d).
Proof. induction d; simpl; constructor; auto. unfold tracks, number_in. simpl. lra. Qed.

(** ** C27.  The histogram of a run of [d] devices is the number of samples in the cell
    over all steps and devices, up to the last compensation of each device: rounding errors
    do not accumulate. *)
Theorem C27_total_up_to_last_compensation : forall rnd dims d stream cell,
  Forall (fun step => length step = d) stream ->
  let final := hist_run rnd dims (repeat hist_init d) stream in
  hist_final final cell - rsum (map (fun s => h_comp s cell) final) =
  INR (number_in dims cell (List.concat (List.concat stream))).
Proof.
  intros rnd dims d stream cell F final.
  pose proof (run_tracks rnd dims cell stream _ _ (init_tracks dims cell d)) as T.
  rewrite repeat_length in T. specialize (T F). fold final in T.
  destruct (seen_total dims cell d stream (repeat [] d)) as [_ N]; [apply repeat_length|auto|].
  replace (number_in dims cell (List.concat (repeat [] d))) with 0%nat in N.
  2:{ clear. induction d; simpl; auto. }
  simpl in N. rewrite <- N. clear N. unfold hist_final. induction T as [|h vs ss acc Th T IH]; simpl.
  - unfold number_in. simpl. lra.
  - rewrite number_app, plus_INR, <- Th, <- IH. unfold rsum. lra.
Qed.

(** If sums of counts up to [K] are stored exactly (2^24 in single precision), the
    histogram is exact as long as no device counts more than [K] in a cell. *)
Theorem C27_total_exact : forall rnd K dims d stream cell,
  (forall k, (k <= K)%nat -> rnd (INR k) = INR k) ->
  Forall (fun step => length step = d) stream ->
  Forall (fun vs => (number_in dims cell vs <= K)%nat) (seen d stream) ->
  hist_final (hist_run rnd dims (repeat hist_init d) stream) cell =
  INR (number_in dims cell (List.concat (List.concat stream))).
Proof.
  intros rnd K dims d stream cell HK F S.
  set (exact := fun h vs => h_sum h cell = INR (number_in dims cell vs) /\ h_comp h cell = 0).
  assert (G : forall stream ss acc, Forall2 exact ss acc -> Forall (fun step => length step = length ss) stream ->
    Forall (fun vs => (number_in dims cell vs <= K)%nat) (fold_left seen_step stream acc) ->
    Forall2 exact (hist_run rnd dims ss stream) (fold_left seen_step stream acc)).
  { clear S F stream. induction stream as [|step stream IH]; intros ss acc T F S; simpl in *; auto.
    inversion F as [|? ? Fs Fr]; subst. apply IH; auto.
    - assert (S1 : Forall (fun vs => (number_in dims cell vs <= K)%nat) (seen_step acc step)).
      { assert (LA : length acc = length ss) by (clear - T; induction T; simpl; auto).
        assert (M : forall stream acc, Forall (fun step => length step = length acc) stream ->
          Forall (fun vs => (number_in dims cell vs <= K)%nat) (fold_left seen_step stream acc) ->
          Forall (fun vs => (number_in dims cell vs <= K)%nat) acc).
        { clear. induction stream as [|st stream IH]; intros acc F S; simpl in *; auto. inversion F as [|? ? Fs Fr]; subst.
          assert (L : length (seen_step acc st) = length acc) by (unfold seen_step; rewrite map_length, combine_length; lia).
          apply IH in S; [|rewrite L; auto].
          clear - S Fs. unfold seen_step in S. revert st Fs S.
          induction acc as [|a acc IH]; intros [|b st] Fs S; simpl in *; try lia; constructor.
          - inversion S as [|? ? A B]; subst. simpl in A. rewrite number_app in A. lia.
          - inversion S as [|? ? A B]; subst. eapply IH; [|exact B]. lia. }
        eapply M; [|exact S]. eapply Forall_impl; [|exact Fr]. simpl. intros s Hs. unfold seen_step.
        rewrite map_length, combine_length. lia. }
      clear - T Fs S1 HK. revert step Fs S1. unfold seen_step.
      induction T as [|h vs ss acc [T1 T2] T IH]; intros [|v step] Fs S1; simpl in *; try lia; constructor.
      + inversion S1 as [|? ? A B]; subst. cbn [fst snd] in A. unfold exact, hist_step. cbn [h_sum h_comp fst snd].
        rewrite T1, T2, counts_eq, number_app, plus_INR.
        replace (INR (number_in dims cell vs) + (INR (number_in dims cell v) - 0))
          with (INR (number_in dims cell vs + number_in dims cell v)) by (rewrite plus_INR; lra).
        rewrite number_app in A. rewrite HK by auto. rewrite plus_INR. split; lra.
      + apply IH; [lia|]. inversion S1; auto.
    - eapply Forall_impl; [|exact Fr]. simpl. intros s Hs. rewrite map_length, combine_length. lia. }
  assert (I : Forall2 exact (repeat hist_init d) (repeat [] d)).
  { clear. induction d; simpl; constructor; auto. unfold exact, number_in. simpl. auto. }
  specialize (G stream _ _ I). rewrite repeat_length in G. specialize (G F S). clear I S HK.
  destruct (seen_total dims cell d stream (repeat [] d)) as [_ N]; [apply repeat_length|auto|].
  replace (number_in dims cell (List.concat (repeat [] d))) with 0%nat in N.
  2:{ clear. induction d; simpl; auto. }
  simpl in N. rewrite <- N. clear N. unfold hist_final. induction G as [|h vs ss acc [T1 T2] T IH]; simpl.
  - unfold number_in. simpl. lra.
  - rewrite number_app, plus_INR, T1. rewrite <- IH. reflexivity.
Qed.

(** Interrupting after any step and going on from the saved state gives the same state. *)
Theorem C27_interruption : forall rnd dims ss first rest,
  hist_run rnd dims (hist_run rnd dims ss first) rest = hist_run rnd dims ss (first ++ rest).
Proof. intros. unfold hist_run. rewrite fold_left_app. auto. Qed.

(** Another spread of the same samples over devices and steps counts the same. *)
Theorem C27_layout_independent : forall dims d1 d2 s1 s2 cell,
  Forall (fun step => length step = d1) s1 -> Forall (fun step => length step = d2) s2 ->
  Permutation (List.concat (List.concat s1)) (List.concat (List.concat s2)) ->
  hist_final (hist_run (fun x => x) dims (repeat hist_init d1) s1) cell =
  hist_final (hist_run (fun x => x) dims (repeat hist_init d2) s2) cell.
Proof.
  intros dims d1 d2 s1 s2 cell F1 F2 P.
  assert (B : forall T : list (list (list nv)), exists K, Forall (fun vs => (number_in dims cell vs <= K)%nat) T).
  { induction T as [|v T [K HK]]; [exists 0%nat; constructor|]. exists (Nat.max K (number_in dims cell v)). constructor; [lia|].
    eapply Forall_impl; [|exact HK]. simpl. intros. lia. }
  destruct (B (seen d1 s1)) as [K1 B1]. destruct (B (seen d2 s2)) as [K2 B2].
  rewrite (C27_total_exact _ K1), (C27_total_exact _ K2); auto. f_equal.
  unfold number_in. revert P. generalize (List.concat (List.concat s1)) (List.concat (List.concat s2)). clear.
  induction 1; simpl; auto.
  - destruct (hits dims cell x); simpl; auto.
  - destruct (hits dims cell x), (hits dims cell y); simpl; auto.
  - congruence.
Qed.

Lemma number_le dims cell vs : (number_in dims cell vs <= length vs)%nat.
Proof. unfold number_in. induction vs as [|v vs IH]; simpl; auto. destruct (hits dims cell v); simpl; lia. Qed.
(** A concrete case: edges 0, 1, 2; two devices, two steps; 2 is in the last bin, 3 and NaN nowhere. *)
Lemma ex_edges : increasing [0; 1; 2].
Proof. split; [|simpl; lia]. repeat constructor; lra. Qed.
Example C27_example :
  in_bin [0; 1; 2] 1 1 /\ in_bin [0; 1; 2] 1 2 /\ bin_of [0; 1; 2] (Some 3) = None /\
  hist_final (hist_run (fun x => x) [[0; 1; 2]] (repeat hist_init 2)
    [[[[Some 1]]; [[Some 2]]]; [[[Some 3]]; [[None]]]]) [1%nat] = 2.
Proof.
  assert (A : in_bin [0; 1; 2] 1 1) by (split; [simpl; lia|]; simpl; split; lra).
  assert (B : in_bin [0; 1; 2] 1 2) by (split; [simpl; lia|]; simpl; split; [lra|right; split; auto; lra]).
  assert (C : bin_of [0; 1; 2] (Some 3) = None) by (apply C27_each_sample_once; [apply ex_edges|right; simpl; lra]).
  split; auto. split; auto. split; auto.
  rewrite (C27_total_exact _ 10); [|auto|apply Forall_cons; [reflexivity|apply Forall_cons; [reflexivity|apply Forall_nil]]|].
  - unfold number_in. cbn [List.concat app filter]. unfold hits, cell_of.
    apply (C27_bin_found _ _ _ ex_edges) in A, B. rewrite A, B, C. simpl. lra.
  - unfold seen. cbn. apply Forall_cons; [|apply Forall_cons; [|apply Forall_nil]];
      (eapply Nat.le_trans; [apply number_le|simpl; lia]).
Qed.

Print Assumptions C27_each_sample_once.
Print Assumptions C27_total_exact.
