(** C76: the pair correlation function on the Haldane sphere. *)
From Coq Require Import Reals List Arith Bool Lra Lia Sorting.Sorted.
From Coquelicot Require Import Coquelicot.
From Verif Require Import Det Est_Model Hist_Props Wf_Model Hall_Spec Sph_Spec Sph_Model Sphere_Spec Sphere_Model Sphere_Props Pair_Model Pair_Spec.
Import ListNotations.
Open Scope R_scope.

(** ** Bins *)
Lemma edges_nth bins k : (k <= bins)%nat -> nth k (pair_edges bins) 0 = INR k * (PI / INR bins).
Proof.
  intros K. unfold pair_edges. rewrite (nth_indep _ 0 (INR 0 * (PI / INR bins))) by (rewrite map_length, seq_length; lia).
  rewrite (map_nth (fun k => INR k * (PI / INR bins))), seq_nth by lia. reflexivity.
Qed.
Lemma edges_length bins : length (pair_edges bins) = S bins.
Proof. unfold pair_edges. rewrite map_length, seq_length. lia. Qed.
Lemma width_pos bins : (0 < bins)%nat -> 0 < PI / INR bins.
Proof. intros B. apply Rdiv_lt_0_compat; [apply PI_RGT_0|apply lt_0_INR; exact B]. Qed.
Lemma edges_increasing bins : (0 < bins)%nat -> increasing (pair_edges bins).
Proof.
  intros B. split; [|rewrite edges_length; lia]. unfold pair_edges. pose proof (width_pos bins B) as W. generalize (bins + 1)%nat. intros len. generalize 0%nat.
  induction len as [|len IH]; intros lo; cbn [seq map]; constructor; [apply IH|]. apply Forall_forall. intros x X. apply in_map_iff in X as (k & <- & K). apply in_seq in K. apply Rmult_lt_compat_r; [exact W|]. apply lt_INR. lia.
Qed.
Lemma bin_iff bins t b : (0 < bins)%nat -> (b < bins)%nat -> (bin_of (pair_edges bins) (Some t) = Some b <-> bin_contains bins b t).
Proof.
  intros B L. rewrite (C27_bin_found _ _ _ (edges_increasing bins B)). unfold in_bin. rewrite edges_length.
  rewrite !edges_nth by lia. unfold bin_contains. assert (E : INR bins * (PI / INR bins) = PI) by (field; apply not_0_INR; lia).
  split.
  - intros (_ & A & D). split; [exact A|]. destruct D as [D|[D D']]; [left; exact D|right]. assert (S b = bins) by lia. split; [assumption|]. rewrite D'. rewrite H. exact E.
  - intros (A & D). split; [lia|]. split; [exact A|]. destruct D as [D|[D D']]; [left; exact D|right]. split; [lia|]. rewrite D', D. symmetry. exact E.
Qed.

(** ** Sums over pairs *)
Definition hsum := Est_Model.rsum.
Lemma hsum_app l l' : hsum (l ++ l') = hsum l + hsum l'.
Proof. induction l as [|x l IH]; [change (hsum l' = 0 + hsum l'); ring|]. change (x + hsum (l ++ l') = x + hsum l + hsum l'). rewrite IH. ring. Qed.
Lemma hsum_seq (f : nat -> R) n : hsum (map f (seq 0 n)) = rtotal n f.
Proof. induction n as [|n IH]; [reflexivity|]. rewrite seq_S, map_app, hsum_app, IH, rtotal_S. cbn. ring. Qed.
Lemma hsum_tail (f : nat -> R) i n : hsum (map f (seq (S i) (n - S i))) = rtotal n (fun j => if Nat.ltb i j then f j else 0).
Proof.
  induction n as [|n IH]; [reflexivity|]. rewrite rtotal_S. destruct (Nat.ltb_spec i n) as [L|L].
  - replace (S n - S i)%nat with (S (n - S i)) by lia. rewrite seq_S, map_app, hsum_app, IH. replace (S i + (n - S i))%nat with n by lia. cbn. ring.
  - replace (S n - S i)%nat with 0%nat by lia. cbn [seq map]. replace (n - S i)%nat with 0%nat in IH by lia. cbn [seq map] in IH. rewrite <- IH. cbn. ring.
Qed.
Lemma hsum_concat (l : list (list R)) : hsum (concat l) = hsum (map hsum l).
Proof. induction l as [|x l IH]; [reflexivity|]. cbn [concat map]. rewrite hsum_app, IH. reflexivity. Qed.
Lemma hsum_pairs n (f : nat * nat -> R) : hsum (map f (upper_pairs 0 n)) = rsigma n (fun j => rsigma j (fun i => f (i, j))).
Proof.
  unfold upper_pairs. rewrite concat_map, hsum_concat, !map_map. transitivity (rtotal n (fun j => rtotal j (fun i => f (i, j)))); [|reflexivity]. rewrite <- (upper_sum n (fun i j => f (i, j))). rewrite <- hsum_seq.
  f_equal. apply map_ext. intros i. rewrite map_map, Nat.add_0_l. apply (hsum_tail (fun j => f (i, j))).
Qed.
Lemma dot_bound p q : -1 <= dot p q <= 1.
Proof.
  assert (A : 0 <= (x_of p - x_of q) ^ 2 + (y_of p - y_of q) ^ 2 + (z_of p - z_of q) ^ 2) by (pose proof (pow2_ge_0 (x_of p - x_of q)); pose proof (pow2_ge_0 (y_of p - y_of q)); pose proof (pow2_ge_0 (z_of p - z_of q)); lra).
  assert (B : 0 <= (x_of p + x_of q) ^ 2 + (y_of p + y_of q) ^ 2 + (z_of p + z_of q) ^ 2) by (pose proof (pow2_ge_0 (x_of p + x_of q)); pose proof (pow2_ge_0 (y_of p + y_of q)); pose proof (pow2_ge_0 (z_of p + z_of q)); lra).
  assert (U : forall p, x_of p * x_of p + y_of p * y_of p + z_of p * z_of p = 1).
  { intros [t f]. unfold x_of, y_of, z_of. cbn [fst snd]. pose proof (sq1 t) as T. pose proof (sq1 f) as F. revert T F. generalize (sin t) (cos t) (sin f) (cos f). intros s c sp cp T F.
    assert (T' : s * s = 1 - c * c) by lra. assert (F' : sp * sp = 1 - cp * cp) by lra. ring [T' F']. }
  pose proof (U p) as P. pose proof (U q) as Q. unfold dot. nra.
Qed.
Lemma geodesic_angle e i j t : is_angle (e i) (e j) t -> geodesic e i j = t.
Proof.
  intros [B E]. unfold geodesic, cos12. replace (rtotal 3 (fun a => r_hat (e i) a * r_hat (e j) a)) with (dot (e i) (e j)) by (unfold rtotal, dot, r_hat, x_of, y_of, z_of; cbn; ring).
  rewrite clip_id by apply dot_bound. rewrite <- E. apply acos_cos. exact B.
Qed.
Theorem C76_angle_exists : forall p q, exists! theta, is_angle p q theta.
Proof.
  intros p q. exists (acos (dot p q)). split.
  - split; [apply acos_bound|]. apply cos_acos, dot_bound.
  - intros t [B E]. rewrite <- E. apply acos_cos. exact B.
Qed.
(** What one step adds to bin b: over all walkers and pairs i < j whose angle is in the bin, 1/sin(angle), times 4 bins / (walkers n^2 pi). *)
Theorem C76_histogram : forall n bins walkers b (theta : config -> nat -> nat -> R) (hit : R -> R), (0 < bins)%nat -> (b < bins)%nat ->
  (forall e i j, In e walkers -> (i < j)%nat -> (j < n)%nat -> is_angle (e i) (e j) (theta e i j) /\ sin (theta e i j) <> 0) ->
  (forall t, (bin_contains bins b t -> hit t = 1) /\ (~ bin_contains bins b t -> hit t = 0)) ->
  pair_added n bins walkers b =
  4 * INR bins / (INR (length walkers) * INR n ^ 2 * PI) * listsum (fun e => rsigma n (fun j => rsigma j (fun i => hit (theta e i j) / sin (theta e i j)))) walkers.
Proof.
  intros n bins walkers b theta hit B L A H. unfold pair_added.
  assert (E : pair_histogram n bins walkers b = listsum (fun e => rsigma n (fun j => rsigma j (fun i => hit (theta e i j) / sin (theta e i j)))) walkers).
  { unfold pair_histogram, pair_angles. change Wf_Model.rsum with hsum. induction walkers as [|e ws IH]; [reflexivity|]. cbn [flat_map listsum fold_right]. rewrite map_app, hsum_app. f_equal; [|apply IH; intros; apply A; auto; right; auto].
    rewrite map_map, hsum_pairs. change (rsigma n) with (rtotal n). apply rtotal_ext. intros j J. change (rsigma j) with (rtotal j). apply rtotal_ext. intros i I. cbn [fst snd].
    destruct (A e i j (or_introl eq_refl) I J) as [AN _]. rewrite (geodesic_angle e i j _ AN). set (t := theta e i j). destruct (H t) as [H1 H0].
    pose proof (bin_iff bins t b B L) as Q. destruct (bin_of (pair_edges bins) (Some t)) as [b'|].
    - destruct (Nat.eqb_spec b' b) as [->|N]; [rewrite H1 by (apply Q; reflexivity); unfold Rdiv; ring|]. rewrite H0; [unfold Rdiv; ring|]. intros X. apply Q in X. injection X as X. contradiction.
    - rewrite H0; [unfold Rdiv; ring|]. intros X. apply Q in X. discriminate. }
  rewrite E. generalize (listsum (fun e => rsigma n (fun j => rsigma j (fun i => hit (theta e i j) / sin (theta e i j)))) walkers). intros x. unfold Rdiv. rewrite !Rinv_mult. set (d := INR (length walkers)). change (INR (@length config walkers)) with d. ring.
Qed.

(** ** Normalisation *)
(** For a direction drawn uniformly, the angle to a fixed direction has density sin(theta)/2.  With n electrons drawn independently,
    the expected value added to every bin is (n - 1)/n. *)
Theorem C76_uniform : forall n bins b, (0 < n)%nat -> (b < bins)%nat ->
  4 * INR bins / (INR n ^ 2 * PI) * (INR n * (INR n - 1) / 2) * RInt (fun t => sin t / 2 * (1 / sin t)) (INR b * (PI / INR bins)) (INR (S b) * (PI / INR bins)) = (INR n - 1) / INR n.
Proof.
  intros n bins b N L. assert (B : (0 < bins)%nat) by lia. pose proof (width_pos bins B) as W. pose proof PI_RGT_0 as P0.
  assert (NB : 0 < INR bins) by (apply lt_0_INR; exact B). assert (NN : 0 < INR n) by (apply lt_0_INR; exact N).
  assert (E : INR bins * (PI / INR bins) = PI) by (field; lra).
  assert (UP : INR (S b) * (PI / INR bins) <= PI). { rewrite <- E at 2. apply Rmult_le_compat_r; [lra|]. apply le_INR. lia. }
  assert (LO : 0 <= INR b * (PI / INR bins)) by (apply Rmult_le_pos; [apply pos_INR|lra]).
  assert (LT : INR b * (PI / INR bins) < INR (S b) * (PI / INR bins)) by (apply Rmult_lt_compat_r; [lra|]; rewrite S_INR; lra).
  rewrite (RInt_ext _ (fun _ => / 2)).
  - rewrite RInt_const, S_INR. unfold scal. cbn. unfold mult. cbn. field. lra.
  - intros t T. rewrite Rmin_left, Rmax_right in T by lra. assert (0 < sin t) by (apply sin_gt_0; lra). match goal with |- ?a = ?b => change (@eq R a b) end. field. lra.
Qed.

(** ** One device: the steps add up *)
Lemma add_arrays (f g : nat -> R) : forall l : list nat, map (fun p => fst p + snd p) (combine (map f l) (map g l)) = map (fun b => f b + g b) l.
Proof. induction l as [|x l IH]; [reflexivity|]. cbn [map combine fst snd]. rewrite IH. reflexivity. Qed.
Lemma one_device n bins (f : nat -> R) ws : sharded_step n bins (map f (seq 0 bins)) [ws] = Some (map (fun b => f b + pair_added n bins ws b) (seq 0 bins)).
Proof.
  unfold sharded_step. cbn [length]. rewrite Nat.mod_1_r. cbn [Nat.eqb seq combine map fst snd]. rewrite Nat.div_1_r. unfold part. cbn [Nat.mul skipn]. rewrite firstn_all.
  unfold broadcast_add, added_array. rewrite !map_length, seq_length, Nat.eqb_refl. cbn [all_some option_map concat]. rewrite app_nil_r, add_arrays. reflexivity.
Qed.
Theorem C76_accumulates : forall n bins stream, sharded_run n bins (zeros bins) (map (fun ws => [ws]) stream) =
  Some (map (fun b => listsum (fun ws => pair_added n bins ws b) stream) (seq 0 bins)).
Proof.
  intros n bins stream. assert (Z : zeros bins = map (fun _ => 0) (seq 0 bins)). { unfold zeros. generalize 0%nat. induction bins as [|k IH]; intros lo; [reflexivity|]. cbn [repeat seq map]. rewrite (IH (S lo)). reflexivity. }
  rewrite Z. clear Z. assert (G : forall f, sharded_run n bins (map f (seq 0 bins)) (map (fun ws => [ws]) stream) = Some (map (fun b => f b + listsum (fun ws => pair_added n bins ws b) stream) (seq 0 bins))).
  { induction stream as [|ws rest IH]; intros f; cbn [map sharded_run listsum fold_right].
    - f_equal. apply map_ext. intros b. ring.
    - rewrite one_device, IH. f_equal. apply map_ext. intros b. unfold listsum. ring. }
  rewrite G. f_equal. apply map_ext. intros b. ring.
Qed.
(** ** Several devices: the state has no device axis, so the first step raises, or (when there is one bin per device) the array no
    longer has [bins] entries. *)
Lemma all_some_none l : In None l -> all_some l = None.
Proof. induction l as [|x l IH]; [intros []|]. intros [->|H]; cbn [all_some]; [reflexivity|]. rewrite IH by exact H. destruct x; reflexivity. Qed.
Theorem C76_devices_refuted : forall n bins walkers, (1 < length walkers)%nat -> (0 < bins)%nat ->
  match sharded_step n bins (zeros bins) walkers with None => True | Some s => length s <> bins end.
Proof.
  intros n bins walkers D B. unfold sharded_step. assert (LZ : length (zeros bins) = bins) by apply repeat_length. rewrite LZ.
  destruct (Nat.eqb_spec (bins mod length walkers) 0) as [M|M]; [|exact I].
  set (sz := (bins / length walkers)%nat). assert (SZ : bins = (length walkers * sz)%nat) by (apply Nat.div_exact in M; lia).
  assert (Z0 : (0 < sz)%nat) by nia. assert (ZB : (sz < bins)%nat) by nia.
  assert (LP : forall d, (d < length walkers)%nat -> length (part (zeros bins) sz d) = sz). { intros d Hd. unfold part. rewrite firstn_length, skipn_length, LZ. nia. }
  assert (LA : forall ws, length (added_array n bins ws) = bins) by (intros; unfold added_array; rewrite map_length, seq_length; reflexivity).
  destruct walkers as [|w0 rest]; [cbn in D; lia|].
  destruct (Nat.eq_dec sz 1) as [S1|S1].
  - assert (G : forall ws lo, (lo + length ws <= length (w0 :: rest))%nat -> exists l, all_some (map (fun p => broadcast_add (part (zeros bins) sz (fst p)) (added_array n bins (snd p))) (combine (seq lo (length ws)) ws)) = Some l /\ length (concat l) = (length ws * bins)%nat).
    { induction ws as [|w ws IH]; intros lo H; [exists []; split; reflexivity|]. cbn [length seq combine map fst snd all_some] in *. destruct (IH (S lo)) as (l & E & LL); [lia|].
      assert (BA : broadcast_add (part (zeros bins) sz lo) (added_array n bins w) = Some (map (fun x => hd 0 (part (zeros bins) sz lo) + x) (added_array n bins w))).
      { unfold broadcast_add. rewrite LP, LA by lia. destruct (Nat.eqb_spec sz bins); [lia|]. rewrite S1. reflexivity. }
      rewrite BA, E. eexists. split; [reflexivity|]. cbn [concat]. rewrite app_length, LL, map_length, LA. lia. }
    destruct (G (w0 :: rest) 0%nat (le_n _)) as (l & E & LL). rewrite E. cbn [option_map]. rewrite LL. nia.
  - rewrite all_some_none; [exact I|]. cbn [length seq combine map fst snd]. left. unfold broadcast_add. rewrite LP, LA by (cbn [length]; lia).
    destruct (Nat.eqb_spec sz bins); [lia|]. destruct (Nat.eqb_spec sz 1); [lia|]. destruct (Nat.eqb_spec bins 1); [lia|]. reflexivity.
Qed.
(** ** The digest: nothing of the state is in it, so runs with different pair correlations have the same digest. *)
Theorem C76_digest_refuted : exists n bins walkers walkers' s s', sharded_run n bins (zeros bins) [[walkers]] = Some s /\ sharded_run n bins (zeros bins) [[walkers']] = Some s' /\
  s <> s' /\ pair_digest s 1 = pair_digest s' 1.
Proof.
  set (e1 := (fun i : nat => if Nat.eqb i 0 then (PI / 2, 0) else (PI / 2, PI / 2)) : config). set (e2 := (fun i : nat => if Nat.eqb i 0 then (PI / 2, 0) else (PI / 2, PI / 4)) : config).
  exists 2%nat, 1%nat, [e1], [e2], [pair_added 2 1 [e1] 0], [pair_added 2 1 [e2] 0]. pose proof PI_RGT_0 as P0.
  split; [|split; [|split]].
  - change [[[e1]]] with (map (fun ws => [ws]) [[e1]]). rewrite C76_accumulates. cbn [seq map]. unfold listsum. cbn [fold_right]. do 2 f_equal. ring.
  - change [[[e2]]] with (map (fun ws => [ws]) [[e2]]). rewrite C76_accumulates. cbn [seq map]. unfold listsum. cbn [fold_right]. do 2 f_equal. ring.
  - assert (V : forall (e : config) t, is_angle (e 0%nat) (e 1%nat) t -> sin t <> 0 -> pair_added 2 1 [e] 0 = / PI * / sin t).
    { intros e t A S. rewrite (C76_histogram 2 1 [e] 0 (fun _ _ _ => t) (fun t => if Rle_dec 0 t then if Rle_dec t PI then 1 else 0 else 0)); [|lia|lia| |].
      - unfold listsum. cbn [fold_right rsigma length INR]. destruct A as [[A1 A2] _]. destruct (Rle_dec 0 t); [|lra]. destruct (Rle_dec t PI); [|lra]. field. split; [exact S|lra].
      - intros e' i j H I J. assert (i = 0%nat /\ j = 1%nat) as [-> ->] by lia. destruct H as [<-|[]]. split; assumption.
      - intros u. unfold bin_contains. cbn [INR]. replace (PI / 1) with PI by field. split.
        + intros [X Y]. destruct (Rle_dec 0 u); [|lra]. destruct (Rle_dec u PI); [reflexivity|]. destruct Y as [Y|[_ Y]]; lra.
        + intros H. destruct (Rle_dec 0 u) as [U|]; [|reflexivity]. destruct (Rle_dec u PI) as [U'|]; [|reflexivity]. exfalso. apply H. split; [lra|]. destruct (Req_dec u PI); [right; split; [reflexivity|assumption]|left; lra]. }
    assert (A1 : is_angle (e1 0%nat) (e1 1%nat) (PI / 2)). { split; [lra|]. unfold dot, x_of, y_of, z_of. cbn [fst snd e1 Nat.eqb]. rewrite sin_PI2, cos_PI2, cos_0, sin_0. ring. }
    assert (A2 : is_angle (e2 0%nat) (e2 1%nat) (PI / 4)). { split; [lra|]. unfold dot, x_of, y_of, z_of. cbn [fst snd e2 Nat.eqb]. rewrite sin_PI2, cos_PI2, cos_0, sin_0. ring. }
    assert (S4 : 0 < sin (PI / 4)) by (apply sin_gt_0; lra). rewrite (V e1 _ A1), (V e2 _ A2) by (rewrite ?sin_PI2; lra). rewrite sin_PI2. intros E. injection E as E.
    apply Rmult_eq_reg_l in E; [|apply Rgt_not_eq, Rinv_0_lt_compat, P0]. rewrite Rinv_1 in E. assert (E' : sin (PI / 4) = 1) by (rewrite <- (Rinv_inv (sin (PI / 4))), <- E; field).
    rewrite sin_PI4 in E'. assert (S2 : 1 < sqrt 2) by (rewrite <- sqrt_1 at 1; apply sqrt_lt_1; lra). apply (f_equal (fun x => x * sqrt 2)) in E'. unfold Rdiv in E'. rewrite Rmult_assoc, Rinv_l in E' by lra. lra.
  - reflexivity.
Qed.
