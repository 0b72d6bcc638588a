(** C93: walkers and density estimators spread over processes and devices. *)
From Coq Require Import List Arith ZArith Bool Lia.
From Verif Require Import Mh_Spec Mh_Model.
Import ListNotations.

(** ** Pieces *)
Lemma joined_pieces : forall W n (g : list W), 0 < n -> length g mod n = 0 -> joined n (piece n g) = g.
Proof.
  intros W n g Hn Hm. pose proof (Nat.div_mod (length g) n ltac:(lia)) as E. rewrite Hm, Nat.add_0_r in E.
  assert (G : forall k, joined k (piece n g) = firstn (k * (length g / n)) g).
  { unfold joined, piece. induction k; [reflexivity|].
    rewrite seq_S, flat_map_app, IHk. cbn [flat_map]. rewrite app_nil_r. cbn [plus].
    set (m := length g / n) in *. replace (S k * m) with (k * m + m) by lia.
    clearbody m. clear. generalize (k * m) as a. intro a. revert g. induction a as [|a IH]; intro g.
    - reflexivity.
    - destruct g; simpl; [rewrite firstn_nil; reflexivity|]. f_equal. apply IH. }
  rewrite G. apply firstn_all2. lia.
Qed.
Lemma piece_length : forall W n (g : list W) k, k < n -> length g mod n = 0 -> length (piece n g k) = length g / n.
Proof.
  intros W n g k Hk Hm. pose proof (Nat.div_mod (length g) n ltac:(lia)) as E. rewrite Hm, Nat.add_0_r in E.
  unfold piece. rewrite firstn_length, skipn_length. set (m := length g / n) in *.
  apply Nat.min_l. nia.
Qed.
Lemma joined_length : forall W P (f : nat -> list W) b, (forall p, p < P -> length (f p) = b) -> length (joined P f) = P * b.
Proof.
  intros W P f b. unfold joined. induction P as [|P IH]; intro H; [reflexivity|].
  rewrite seq_S, flat_map_app, app_length, IH by (intros; apply H; lia). cbn [flat_map plus]. rewrite app_nil_r, H by lia. lia.
Qed.
Lemma joined_from : forall W (f : nat -> list W) b p P, p < P -> (forall q, q < P -> length (f q) = b) ->
  exists rest, skipn (p * b) (joined P f) = f p ++ rest.
Proof.
  intros W f b p P Hp H. unfold joined. replace P with (p + S (P - p - 1)) by lia.
  rewrite seq_app, flat_map_app. cbn [plus seq flat_map].
  assert (L : length (flat_map f (seq 0 p)) = p * b) by (apply (joined_length _ p f b); intros; apply H; lia).
  rewrite skipn_app, L, Nat.sub_diag, <- L, skipn_all. cbn [app skipn]. eexists; reflexivity.
Qed.
Lemma shard_piece : forall W (f : nat -> list W) b P D p d, p < P -> d < D -> b mod D = 0 ->
  (forall q, q < P -> length (f q) = b) -> piece (P * D) (joined P f) (p * D + d) = piece D (f p) d.
Proof.
  intros W f b P D p d Hp Hd Hb H.
  pose proof (Nat.div_mod b D ltac:(lia)) as E. rewrite Hb, Nat.add_0_r in E.
  unfold piece. rewrite (joined_length _ _ _ b), (H p) by auto.
  replace (P * b / (P * D)) with (b / D) by (symmetry; apply Nat.div_mul_cancel_l; lia).
  set (m := b / D) in *. replace ((p * D + d) * m) with (d * m + p * b) by (rewrite E; lia).
  assert (SK : forall (l : list W) x y, skipn (x + y) l = skipn x (skipn y l)).
  { intros l x y. revert l. induction y; intro l; [rewrite Nat.add_0_r; reflexivity|].
    rewrite Nat.add_succ_r. destruct l; simpl; [destruct x; reflexivity|apply IHy]. }
  rewrite SK. destruct (joined_from _ f b p P Hp H) as (rest & ->).
  rewrite skipn_app, firstn_app, skipn_length, (H p) by auto.
  replace (m - (b - d * m)) with 0 by nia. cbn [firstn]. rewrite app_nil_r. reflexivity.
Qed.

(** ** Walkers *)
Theorem C93_init : forall K W (fold_in : K -> nat -> K) (data_init : nat -> K -> list W) P D B key,
  0 < P -> 0 < D -> (forall m k, length (data_init m k) = m) ->
  ((exists g, init_batched_data fold_in data_init P D B key = Some g) <-> (exists q, B = P * D * q)) /\
  forall g, init_batched_data fold_in data_init P D B key = Some g ->
    length g = B /\
    exists shards, device_put (P * D) g = Some shards /\
      allgather (P * D) shards = g /\
      forall p, p < P ->
        addressable D shards p = piece D (data_init (B / P) (fold_in key p)) 0 /\
        piece P g p = data_init (B / P) (fold_in key p) /\
        joined D (fun d => shards (p * D + d)) = data_init (B / P) (fold_in key p) /\
        forall d, d < D -> length (shards (p * D + d)) = B / (P * D).
Proof.
  intros K W fold_in data_init P D B key HP HD HL. unfold init_batched_data. split.
  - split.
    + intros (g & H). destruct (Nat.eqb_spec (B mod P) 0) as [E|]; [|discriminate].
      cbn [negb] in H. destruct (Nat.eqb_spec ((B / P) mod D) 0) as [F|]; [|discriminate].
      pose proof (Nat.div_mod B P ltac:(lia)). pose proof (Nat.div_mod (B / P) D ltac:(lia)).
      exists (B / P / D). rewrite E in *. rewrite F in *. nia.
    + intros (q & ->). replace (P * D * q) with ((D * q) * P) by lia.
      rewrite Nat.mod_mul, Nat.div_mul by lia. cbn [Nat.eqb negb].
      replace (D * q) with (q * D) by lia. rewrite Nat.mod_mul by lia. cbn. eauto.
  - intros g H. destruct (Nat.eqb_spec (B mod P) 0) as [E|]; [|discriminate].
    cbn [negb] in H. destruct (Nat.eqb_spec ((B / P) mod D) 0) as [F|]; [|discriminate].
    cbn [negb] in H. injection H as <-.
    set (f := fun p => data_init (B / P) (fold_in key p)).
    pose proof (Nat.div_mod B P ltac:(lia)) as EB. rewrite E, Nat.add_0_r in EB.
    pose proof (Nat.div_mod (B / P) D ltac:(lia)) as ED. rewrite F, Nat.add_0_r in ED.
    assert (Hf : forall p, p < P -> length (f p) = B / P) by (intros; apply HL).
    assert (LG : length (joined P f) = B) by (rewrite (joined_length _ _ _ _ Hf); lia).
    assert (MD : B mod (P * D) = 0).
    { replace B with ((B / P / D) * (P * D)) by nia. apply Nat.mod_mul. lia. }
    split; [exact LG|]. unfold device_put. rewrite LG, MD. cbn [Nat.eqb].
    eexists; split; [reflexivity|]. split; [apply joined_pieces; [lia|rewrite LG; exact MD]|].
    intros p Hp.
    assert (S1 : forall d, d < D -> piece (P * D) (joined P f) (p * D + d) = piece D (f p) d)
      by (intros d Hd; apply shard_piece with (b := B / P); assumption).
    split; [|split; [|split]].
    + unfold addressable. change (data_init (B / P) (fold_in key p)) with (f p). rewrite <- (S1 0) by lia. f_equal. lia.
    + unfold piece. rewrite LG. destruct (joined_from _ f (B / P) p P Hp Hf) as (rest & ->).
      rewrite firstn_app, (Hf p Hp), Nat.sub_diag. cbn [firstn]. rewrite app_nil_r. apply firstn_all2. rewrite HL. apply le_n.
    + transitivity (joined D (piece D (f p))).
      * unfold joined at 1 3. rewrite !flat_map_concat_map. f_equal. apply map_ext_in. intros d I. apply in_seq in I. apply S1. lia.
      * apply joined_pieces; [lia|rewrite HL; exact F].
    + intros d Hd. rewrite (piece_length _ (P * D)); [rewrite LG; reflexivity|nia|rewrite LG; exact MD].
Qed.

Theorem C93_checkpoint_portable : forall W n n' (g : list W) shards, 0 < n -> 0 < n' ->
  device_put n g = Some shards ->
  save_walkers n shards = g /\
  ((exists shards', device_put n' (save_walkers n shards) = Some shards') <-> (exists q, length g = n' * q)) /\
  forall shards', device_put n' (save_walkers n shards) = Some shards' ->
    allgather n' shards' = g /\ forall d, d < n' -> length (shards' d) = length g / n'.
Proof.
  intros W n n' g shards Hn Hn' H. unfold device_put in H.
  destruct (Nat.eqb_spec (length g mod n) 0) as [E|]; [|discriminate]. injection H as <-.
  assert (S : save_walkers n (piece n g) = g) by (apply joined_pieces; assumption).
  split; [exact S|]. rewrite S. unfold device_put. split.
  - destruct (Nat.eqb_spec (length g mod n') 0) as [F|F]; split.
    + intros _. apply Nat.mod_divides in F; [|lia]. exact F.
    + intros _. eauto.
    + intros (x & X). discriminate X.
    + intros (q & Q). exfalso. apply F. rewrite Q, Nat.mul_comm. apply Nat.mod_mul. lia.
  - destruct (Nat.eqb_spec (length g mod n') 0) as [F|F]; [|discriminate]. intros shards' X. injection X as <-.
    split; [apply joined_pieces; assumption|]. intros d Hd. apply piece_length; assumption.
Qed.

(** ** Density estimators *)
Lemma total_ext : forall n f g, (forall i, i < n -> f i = g i) -> total n f = total n g.
Proof. intros n f g H. unfold total. f_equal. apply map_ext_in. intros i I. apply in_seq in I. apply H. lia. Qed.
Lemma total_S : forall n f, total (S n) f = (total n f + f n)%Z.
Proof.
  intros n f. unfold total. rewrite seq_S, map_app. cbn [map plus].
  generalize (map f (seq 0 n)) as l. induction l as [|x l IH]; cbn [app fold_right] in *; lia.
Qed.
Lemma total_first : forall n f, total (S n) f = (f 0%nat + total n (fun i => f (S i)))%Z.
Proof. intros n f. unfold total. cbn [seq map fold_right]. rewrite <- seq_shift, map_map. reflexivity. Qed.
Lemma total_add : forall n f g, total n (fun i => (f i + g i)%Z) = (total n f + total n g)%Z.
Proof. induction n; intros; [reflexivity|]. rewrite !total_S, IHn. lia. Qed.
Lemma total_mul : forall n z f, total n (fun i => (z * f i)%Z) = (z * total n f)%Z.
Proof. induction n; intros; [unfold total; simpl; lia|]. rewrite !total_S, IHn. lia. Qed.
Lemma total_swap : forall n m f, total n (fun i => total m (fun j => f i j)) = total m (fun j => total n (fun i => f i j)).
Proof.
  induction n; intros m f.
  - unfold total at 1. simpl. induction m; [reflexivity|]. rewrite total_S, <- IHm. reflexivity.
  - rewrite total_S, IHn, <- total_add. apply total_ext. intros. rewrite total_S. reflexivity.
Qed.
Lemma hist_total_app : forall a b x, hist_total (a ++ b) x = (hist_total a x + hist_total b x)%Z.
Proof. intros a b x. unfold hist_total. induction a as [|r a IH]; cbn [app fold_right] in *; lia. Qed.
Lemma hist_total_joined : forall n f x, hist_total (joined n f) x = total n (fun d => hist_total (f d) x).
Proof.
  intros n f x. unfold joined. induction n; [reflexivity|].
  rewrite seq_S, flat_map_app, hist_total_app, IHn, total_S. cbn [flat_map plus]. rewrite app_nil_r. reflexivity.
Qed.
Lemma hist_run_total : forall n counts steps from rows d x,
  hist_total (hist_run n counts from steps rows d) x =
  (hist_total (rows d) x + Z.of_nat (length (rows d)) * total steps (fun s => counts (from + s)%nat d x))%Z.
Proof.
  intros n counts steps. induction steps as [|k IH]; intros from rows d x; cbn [hist_run]; [unfold total; simpl; lia|].
  rewrite IH, total_first. unfold hist_step at 2. rewrite map_length.
  assert (G : hist_total (hist_step rows (counts from) d) x = (hist_total (rows d) x + Z.of_nat (length (rows d)) * counts from d x)%Z).
  { unfold hist_step. induction (rows d) as [|r l IHl]; [reflexivity|]. cbn [map length].
    unfold hist_total in *. cbn [fold_right]. rewrite IHl. lia. }
  rewrite G, Nat.add_0_r. rewrite (total_ext k (fun s => counts (S from + s) d x) (fun i => counts (from + S i) d x)).
  - cbn beta. rewrite Z.mul_add_distr_l, Z.add_assoc. reflexivity.
  - intros i _. replace (S from + i) with (from + S i) by lia. reflexivity.
Qed.
Lemma hist_run_length : forall n counts steps from rows d, length (hist_run n counts from steps rows d) = length (rows d).
Proof.
  intros n counts steps. induction steps as [|k IH]; intros; [reflexivity|]. cbn [hist_run]. rewrite IH. unfold hist_step. apply map_length.
Qed.

Lemma hist_run_all : forall n counts steps from (rows : list row) x, 0 < n -> length rows mod n = 0 ->
  hist_total (allgather n (hist_run n counts from steps (piece n rows))) x =
  (hist_total rows x + Z.of_nat (length rows / n) * total steps (fun s => total n (fun d => counts (from + s)%nat d x)))%Z.
Proof.
  intros n counts steps from rows x Hn Hm. unfold allgather. rewrite hist_total_joined.
  rewrite (total_ext n _ (fun d => (hist_total (piece n rows d) x + Z.of_nat (length rows / n) * total steps (fun s => counts (from + s)%nat d x))%Z)).
  - rewrite total_add, total_mul, <- hist_total_joined, joined_pieces by assumption.
    rewrite (total_swap n steps (fun d s => counts (from + s) d x)). reflexivity.
  - intros d Hd. rewrite hist_run_total, piece_length by assumption. reflexivity.
Qed.

(** A density that is accumulated on the same number of devices throughout, in one process: every
    sample is counted once, also over a save and a resume. *)
Theorem C93_density_partial : forall n counts steps more x, 0 < n ->
  exists shards rows shards',
    device_put n (hist_init n) = Some shards /\
    (exists walkers, save_state 1 n walkers (hist_run n counts 0 steps shards) = Some ([] : list nat, rows)) /\
    device_put n rows = Some shards' /\
    hist_total rows x = total steps (fun s => total n (fun d => counts s d x)) /\
    hist_total (allgather n (hist_run n counts steps more shards')) x =
      total (steps + more) (fun s => total n (fun d => counts s d x)).
Proof.
  intros n counts steps more x Hn.
  assert (L0 : length (hist_init n) = n) by apply repeat_length.
  assert (M0 : length (hist_init n) mod n = 0) by (rewrite L0; apply Nat.mod_same; lia).
  set (rows := allgather n (hist_run n counts 0 steps (piece n (hist_init n)))).
  assert (L1 : length rows = n).
  { unfold rows, allgather. rewrite (joined_length _ _ _ 1); [lia|]. intros p Hp.
    rewrite hist_run_length, piece_length by assumption. rewrite L0. apply Nat.div_same. lia. }
  assert (M1 : length rows mod n = 0) by (rewrite L1; apply Nat.mod_same; lia).
  assert (T0 : hist_total (hist_init n) x = 0%Z).
  { unfold hist_init. clear. induction n; [reflexivity|]. unfold hist_total in *. cbn [repeat fold_right]. rewrite IHn. reflexivity. }
  assert (T1 : hist_total rows x = total steps (fun s => total n (fun d => counts s d x))).
  { unfold rows. rewrite hist_run_all by assumption. rewrite T0, L0, Nat.div_same by lia. rewrite Z.mul_1_l. reflexivity. }
  exists (piece n (hist_init n)), rows, (piece n rows). unfold device_put. rewrite L0, L1, Nat.mod_same by lia. cbn [Nat.eqb].
  split; [reflexivity|]. split; [|split; [reflexivity|split; [exact T1|]]].
  - exists (fun _ => []). unfold save_state. cbn [Nat.eqb]. f_equal. f_equal. unfold allgather, joined. clear. generalize 0 as k. induction n; intro k; [reflexivity|]. simpl. apply IHn.
  - rewrite hist_run_all by assumption. rewrite T1, L1, Nat.div_same by lia. rewrite Z.mul_1_l.
    clear. induction more as [|m IH]; [rewrite Nat.add_0_r; apply Z.add_0_r|].
    rewrite Nat.add_succ_r, !total_S, <- IH. rewrite Z.add_assoc. reflexivity.
Qed.

(** Resumed on m times fewer devices, every further sample counts m times. *)
Theorem C93_density_devices_refuted : forall n' m counts steps (rows : list row) x, 0 < n' ->
  length rows = m * n' ->
  exists shards', device_put n' rows = Some shards' /\
    hist_total (allgather n' (hist_run n' counts 0 steps shards')) x =
      (hist_total rows x + Z.of_nat m * total steps (fun s => total n' (fun d => counts s d x)))%Z.
Proof.
  intros n' m counts steps rows x Hn L.
  assert (M : length rows mod n' = 0) by (rewrite L; apply Nat.mod_mul; lia).
  exists (piece n' rows). unfold device_put. rewrite M. cbn [Nat.eqb]. split; [reflexivity|].
  rewrite hist_run_all by assumption. rewrite L, Nat.div_mul by lia. reflexivity.
Qed.
(** On more devices than there were, or a number that does not divide it, the checkpoint is refused. *)
Theorem C93_density_more_devices_refuted : forall n n' (rows : list row), 0 < n -> 0 < n' -> length rows = n ->
  (forall q, n <> n' * q) -> device_put n' rows = None.
Proof.
  intros n n' rows Hn Hn' L H. unfold device_put. rewrite L.
  destruct (Nat.eqb_spec (n mod n') 0) as [E|]; [|reflexivity].
  apply Nat.mod_divides in E; [|lia]. destruct E as (q & E). exfalso. apply (H q E).
Qed.
(** With two or more processes the density state is spread over them and saving fails. *)
Theorem C93_density_processes_refuted : forall W P n (walkers : nat -> list W) rows, 1 < P ->
  save_state P n walkers rows = None.
Proof. intros W P n walkers rows H. unfold save_state. rewrite (proj2 (Nat.eqb_neq _ _)) by lia. reflexivity. Qed.
