(** C20: chunked evaluation equals batched evaluation. *)
From Coq Require Import List Arith Lia Bool.
From Verif Require Import Common Chunk_Model.
Import ListNotations.

Section P.
Context {X Y : Type} (dx : X) (dy : Y).
Implicit Types (args : list (arg X)) (f : list X -> list Y).

(** All mapped leaves have length [n], and there is at least one. *)
Definition batch_of args (n : nat) : Prop :=
  (exists xs, In (Mapped xs) args) /\ forall xs, In (Mapped xs) args -> length xs = n.

Lemma mapped_sizes_In args n : In n (mapped_sizes X args) <-> exists xs, In (Mapped xs) args /\ length xs = n.
Proof.
  unfold mapped_sizes. rewrite in_flat_map. split.
  - intros ([xs|x] & H & E); [destruct E as [<-|[]]; eauto|destruct E].
  - intros (xs & H & <-). exists (Mapped xs). split; auto. left; auto.
Qed.

Lemma validate_ok args n : validate (mapped_sizes X args) = Ok n <-> batch_of args n.
Proof.
  unfold batch_of. pose proof (mapped_sizes_In args) as HI.
  destruct (mapped_sizes X args) as [|m rest] eqn:E; simpl.
  - split; [discriminate|]. intros ((xs & H) & _). exfalso. apply (HI (length xs)). eauto.
  - destruct (forallb (Nat.eqb m) rest) eqn:F.
    + rewrite forallb_forall in F.
      assert (A : forall x, In x (m :: rest) -> x = m).
      { intros x [<-|H]; auto. symmetry. apply Nat.eqb_eq. auto. }
      split.
      * intros H; inversion H; subst. split.
        -- destruct (proj1 (HI n) (or_introl eq_refl)) as (xs & Hx & _). eauto.
        -- intros xs Hx. apply A. apply HI. eauto.
      * intros ((xs & Hx) & B). f_equal. rewrite <- (B xs Hx). symmetry. apply A. apply HI. eauto.
    + split; [discriminate|]. intros ((xs & Hx) & B). exfalso.
      assert (forallb (Nat.eqb m) rest = true); [|congruence].
      apply forallb_forall. intros x H. apply Nat.eqb_eq.
      assert (C : forall x, In x (m :: rest) -> x = n).
      { intros y Hy. apply HI in Hy as (ys & Hys & <-). auto. }
      rewrite (C m), (C x); simpl; auto.
Qed.

Lemma row_take args n start size i :
  (forall xs, In (Mapped xs) args -> length xs = n) -> start + size <= n -> i < size ->
  row X dx (take_chunk X args start size) i = row X dx args (start + i).
Proof.
  intros B Hs Hi. unfold row, take_chunk. rewrite map_map. apply map_ext_in.
  intros [xs|x] H; auto. pose proof (B _ H) as L. unfold dynamic_slice.
  replace (Nat.min start (length xs - size)) with start by lia.
  rewrite <- (firstn_skipn start xs) at 2.
  rewrite app_nth2; rewrite firstn_length; [|lia].
  replace (start + i - Nat.min start (length xs)) with i by lia.
  generalize (skipn start xs) as l. clear -Hi. intros l. revert size l Hi.
  induction i; intros [|size] [|a l] Hi; try lia; simpl; auto.
  apply IHi. lia.
Qed.

Lemma vmap_length f specs args n : length (vmap X Y dx dy f specs args n) = length specs.
Proof. unfold vmap. rewrite map_length, combine_length, seq_length. lia. Qed.

Lemma nth_vmap f specs args n j d : j < length specs ->
  nth j (vmap X Y dx dy f specs args n) d =
  match nth j specs OAxis with
  | OAxis => OutMapped (map (fun i => nth j (f (row X dx args i)) dy) (seq 0 n))
  | ONone => OutShared (nth j (f (row X dx args 0)) dy)
  end.
Proof.
  intros H. unfold vmap.
  set (g := fun js : nat * outspec => match snd js with OAxis => _ | ONone => _ end).
  rewrite nth_indep with (d' := g (0, OAxis)).
  - rewrite map_nth, combine_nth by (rewrite seq_length; auto). rewrite seq_nth by auto. reflexivity.
  - rewrite map_length, combine_length, seq_length. lia.
Qed.

(** Splitting a range of positions into chunks and a remainder. *)
Lemma chunks_cover (A : Type) (g : nat -> A) c k r :
  concat (map (fun i => map (fun t => g (i * c + t)) (seq 0 c)) (seq 0 k)) ++
  map (fun t => g (k * c + t)) (seq 0 r) = map g (seq 0 (k * c + r)).
Proof.
  assert (SH : forall s n, map (fun t => g (s + t)) (seq 0 n) = map g (seq s n)).
  { intros s n. assert (H : forall z, map (fun t => g (s + t)) (seq z n) = map g (seq (s + z) n)).
    { induction n; intros z; simpl; auto. f_equal. rewrite <- Nat.add_succ_r. apply IHn. }
    rewrite H, Nat.add_0_r. reflexivity. }
  rewrite seq_app, map_app. simpl. rewrite SH. f_equal.
  induction k; [reflexivity|]. rewrite seq_S, map_app, concat_app. simpl map at 2. simpl concat at 2. rewrite IHk, SH, app_nil_r.
  replace (S k * c) with (k * c + c) by lia. rewrite seq_app, map_app. reflexivity.
Qed.

Lemma map_seq_take (A : Type) (h : list X -> A) args n start size :
  (forall xs, In (Mapped xs) args -> length xs = n) -> start + size <= n ->
  map (fun i => h (row X dx (take_chunk X args start size) i)) (seq 0 size) =
  map (fun t => h (row X dx args (start + t))) (seq 0 size).
Proof.
  intros B L. apply map_ext_in. intros i Hi. apply in_seq in Hi. f_equal. apply row_take with n; auto. lia.
Qed.

(** Outputs declared unmapped (out_axes None) must really not depend on the position --
    jax.vmap itself demands it. *)
Definition unmapped_ok f specs args (n : nat) : Prop :=
  forall j i, j < length specs -> nth j specs OAxis = ONone -> i < n ->
    nth j (f (row X dx args i)) dy = nth j (f (row X dx args 0)) dy.

(** *** C20.  For every function, every number of input and output leaves, every batch
    size and every positive (or absent) chunk size the chunked map is the plain map. *)
Theorem C20_chunked_equals_vmap : forall f specs args n chunk,
  batch_of args n -> unmapped_ok f specs args n -> chunk <> Some 0 ->
  chunked_vmap X Y dx dy f specs chunk args = Ok (vmap X Y dx dy f specs args n).
Proof.
  intros f specs args n chunk B U Hc. unfold chunked_vmap.
  rewrite (proj2 (validate_ok args n) B). destruct chunk as [c|]; auto.
  destruct (Nat.leb_spec n c); auto. destruct c as [|c']; [congruence|]. set (c := S c') in *.
  pose proof (Nat.div_mod n c ltac:(discriminate)) as DM.
  pose proof (Nat.mod_upper_bound n c ltac:(discriminate)) as MB.
  assert (K1 : 1 <= n / c) by (apply Nat.div_le_lower_bound; lia).
  set (k := n / c) in *. set (r := n mod c) in *. clearbody k r.
  destruct B as [_ B]. f_equal. unfold vmap at 3. apply map_ext_in.
  intros [j s] Hin. simpl fst; simpl snd.
  assert (Hj : j < length specs /\ nth j specs OAxis = s).
  { apply In_nth with (d := (0, OAxis)) in Hin as (p & Hp & E).
    rewrite combine_length, seq_length in Hp. rewrite combine_nth in E by apply seq_length.
    rewrite seq_nth in E by lia. inversion E; subst. split; auto; lia. }
  destruct Hj as [Hj Hs].
  rewrite nth_vmap by auto. rewrite Hs.
  destruct s; unfold restore_leaf.
  - f_equal. rewrite map_map, map_map.
    rewrite (map_ext_in _ (fun i => map (fun t => nth j (f (row X dx args (i * c + t))) dy) (seq 0 c))).
    + rewrite map_seq_take with (h := fun x => nth j (f x) dy) (n := n) by (auto; lia).
      rewrite chunks_cover with (g := fun i => nth j (f (row X dx args i)) dy).
      f_equal. f_equal. lia.
    + intros i Hi. apply in_seq in Hi. rewrite nth_vmap by auto. rewrite Hs.
      apply map_seq_take with (h := fun x => nth j (f x) dy) (n := n); auto.
      assert (i * c + c <= k * c) by nia. lia.
  - destruct k as [|k]; [lia|]. simpl seq. simpl map. simpl nth.
    rewrite nth_vmap by auto. rewrite Hs. f_equal.
    rewrite row_take with (n := n); auto; try lia.
Qed.

(** Argument errors are reported before anything is evaluated. *)
Theorem C20_inconsistent_batch_raises : forall f specs args chunk,
  (forall n, ~ batch_of args n) -> chunked_vmap X Y dx dy f specs chunk args = Raise ValueError.
Proof.
  intros f specs args chunk H. unfold chunked_vmap.
  destruct (validate (mapped_sizes X args)) as [n|e] eqn:E.
  - exfalso. apply (H n). apply validate_ok; auto.
  - unfold validate in E. destruct (mapped_sizes X args); [inversion E; auto|].
    destruct (forallb _ _); inversion E; auto.
Qed.

Theorem C20_chunk_size_zero_raises : forall f specs args n, batch_of args n -> 0 < n ->
  chunked_vmap X Y dx dy f specs (Some 0) args = Raise ZeroDivisionError.
Proof.
  intros f specs args n B H. unfold chunked_vmap. rewrite (proj2 (validate_ok args n) B).
  destruct (Nat.leb_spec n 0); [lia|reflexivity].
Qed.
End P.

(** Two mapped leaves, a shared one; 7 walkers in chunks of 3; a mapped and an unmapped output. *)
Example C20_example :
  let f := fun xs => match xs with [a; b; s] => [a * b + s; s] | _ => [] end in
  let args := [Mapped [1;2;3;4;5;6;7]; Mapped [7;6;5;4;3;2;1]; Shared 100] in
  chunked_vmap nat nat 0 0 f [OAxis; ONone] (Some 3) args =
    Ok [OutMapped [107; 112; 115; 116; 115; 112; 107]; OutShared 100] /\
  batch_of args 7 /\ unmapped_ok 0 0 f [OAxis; ONone] args 7.
Proof.
  repeat split.
  - exists [1;2;3;4;5;6;7]. left; auto.
  - intros xs [H|[H|[H|[]]]]; inversion H; reflexivity.
  - intros [|[|j]] i Hj Hn Hi; simpl in *; try discriminate; try lia.
Qed.

Print Assumptions C20_chunked_equals_vmap.
