(** Equivariance of the network layers under permutations of the electrons within a spin channel, and
    the logarithm of a sum of determinants. *)
From Coq Require Import Reals List Arith Bool Lra Lia Permutation.
From Coquelicot Require Import Coquelicot.
From Verif Require Import Lin Geom_Model Det Wf_Model Wf_Spec.
Import ListNotations.
Open Scope R_scope.
Local Notation vec := Lin.vec.

(** ** Sums over permuted lists *)
Lemma rsum_perm l l' : Permutation l l' -> rsum l = rsum l'.
Proof. induction 1; simpl; lra. Qed.
Lemma rsum_map_perm {A} (f : A -> R) l l' : Permutation l l' -> rsum (map f l) = rsum (map f l').
Proof. intros P. apply rsum_perm. apply Permutation_map. exact P. Qed.
Lemma rsum_reindex (f : nat -> R) t l : Permutation (map t l) l -> rsum (map (fun i => f (t i)) l) = rsum (map f l).
Proof. intros P. rewrite <- (map_map t f). apply rsum_map_perm. exact P. Qed.
Lemma rsum_ext {A} (f g : A -> R) l : (forall x, In x l -> f x = g x) -> rsum (map f l) = rsum (map g l).
Proof. intros H. f_equal. apply map_ext_in. exact H. Qed.

(** A permutation of the electrons that keeps every spin channel *)
Record spin_perm (ns : spins) (t : nat -> nat) : Prop := {
  sp_inj : forall i j, t i = t j -> i = j;
  sp_all : Permutation (map t (seq 0 (n_el ns))) (seq 0 (n_el ns));
  sp_up : Permutation (map t (seq 0 (fst ns))) (seq 0 (fst ns));
  sp_down : Permutation (map t (seq (fst ns) (snd ns))) (seq (fst ns) (snd ns));
  sp_chan : forall i, Nat.ltb (t i) (fst ns) = Nat.ltb i (fst ns) }.

Lemma swap_outside a b lo len : (a < lo \/ lo + len <= a)%nat -> (b < lo \/ lo + len <= b)%nat -> map (swap a b) (seq lo len) = seq lo len.
Proof. intros A B. rewrite <- (map_id (seq lo len)) at 2. apply map_ext_in. intros x H. apply in_seq in H. apply swap_other; lia. Qed.
Lemma swap_spin_perm ns a b : same_spin ns a b -> spin_perm ns (swap a b).
Proof.
  intros H. split.
  - intros i j E. rewrite <- (swap_inv a b i), E. apply swap_inv.
  - apply swap_perm; unfold n_el, same_spin in *; lia.
  - destruct H as [H|H]; [apply swap_perm; lia|rewrite swap_outside by lia; reflexivity].
  - destruct H as [H|H]; [rewrite swap_outside by lia; reflexivity|apply swap_perm; lia].
  - intros i. unfold swap. destruct (Nat.eqb_spec i a) as [->|].
    + destruct (Nat.ltb_spec a (fst ns)), (Nat.ltb_spec b (fst ns)); unfold same_spin in H; lia || reflexivity.
    + destruct (Nat.eqb_spec i b) as [->|]; [|reflexivity].
      destruct (Nat.ltb_spec a (fst ns)), (Nat.ltb_spec b (fst ns)); unfold same_spin in H; lia || reflexivity.
Qed.
Lemma exchange_swap {A} a b (e : nat -> A) i : exchange a b e i = e (swap a b i).
Proof. unfold exchange, swap. destruct (Nat.eqb i a); auto. destruct (Nat.eqb i b); auto. Qed.

Section Equivariance.
  Context (ns : spins) (t : nat -> nat) (T : spin_perm ns t).

  Lemma delta_t i j : delta (t i) (t j) = delta i j.
  Proof. unfold delta. destruct (Nat.eqb_spec i j) as [->|N]; [rewrite Nat.eqb_refl; reflexivity|]. destruct (Nat.eqb_spec (t i) (t j)) as [E|]; [apply (sp_inj _ _ T) in E; congruence|reflexivity]. Qed.
  Lemma channels_t : forall ch, In ch (channels ns) -> Permutation (map t ch) ch.
  Proof.
    intros ch. unfold channels. destruct (both ns).
    - intros [<-|[<-|[]]]; [apply (sp_up _ _ T)|apply (sp_down _ _ T)].
    - intros [<-|[]]. apply (sp_all _ _ T).
  Qed.
  Lemma spin_t i : spin_of ns (t i) = spin_of ns i.
  Proof. unfold spin_of. rewrite (sp_chan _ _ T). reflexivity. Qed.
  Lemma channel_t s i : channel_of ns s (t i) = channel_of ns s i.
  Proof. unfold channel_of. destruct (s && both ns); auto. apply (sp_chan _ _ T). Qed.

  Lemma channel_mean_t w ch f f' : In ch (channels ns) -> (forall i, f' i = f (t i)) -> channel_mean w ch f' = channel_mean w ch f.
  Proof.
    intros I H. unfold channel_mean. apply map_ext. intros k. f_equal.
    rewrite (rsum_ext _ (fun i => nth k (f (t i)) 0)) by (intros; rewrite H; reflexivity).
    apply (rsum_reindex (fun i => nth k (f i) 0)). apply channels_t. exact I.
  Qed.

  Definition equi1 (h' h : stream1) : Prop := w1 h' = w1 h /\ forall i, f1 h' i = f1 h (t i).
  Definition equi2 (h' h : stream2) : Prop := w2 h' = w2 h /\ forall i j, f2 h' i j = f2 h (t i) (t j).
  Lemma aggregate_t h1' h1 h2' h2 : equi1 h1' h1 -> equi2 h2' h2 -> equi1 (aggregate ns h1' h2') (aggregate ns h1 h2).
  Proof.
    intros [W1 F1] [W2 F2]. split; cbn [aggregate w1 f1]; [rewrite W1, W2; reflexivity|]. intros i. rewrite F1, W1, W2. f_equal. f_equal.
    - f_equal. apply map_ext_in. intros ch I. apply channel_mean_t; auto.
    - f_equal. apply map_ext_in. intros ch I. apply (channel_mean_t (w2 h2) ch (fun j => f2 h2 j (t i))); auto.
  Qed.
  Lemma update_single_t p h1' h1 h2' h2 : equi1 h1' h1 -> equi2 h2' h2 -> equi1 (update_single ns p h1' h2') (update_single ns p h1 h2).
  Proof.
    intros E1 E2. split; [reflexivity|]. intros i. unfold update_single. cbn [f1]. destruct (aggregate_t _ _ _ _ E1 E2) as [_ A].
    destruct E1 as [W1 F1]. rewrite A, W1, F1. reflexivity.
  Qed.
  Lemma update_double_t p h2' h2 : equi2 h2' h2 -> equi2 (update_double p h2') (update_double p h2).
  Proof. intros [W F]. split; [reflexivity|]. intros i j. cbn [update_double f2]. rewrite W, F. reflexivity. Qed.
  Lemma fermi_layers_t last ps : forall h1' h1 h2' h2, equi1 h1' h1 -> equi2 h2' h2 ->
    equi1 (fermi_layers ns last ps h1' h2') (fermi_layers ns last ps h1 h2).
  Proof.
    induction ps as [|[s dbl] ps IH]; intros h1' h1 h2' h2 E1 E2; [exact E1|]. destruct ps as [|q ps].
    - cbn [fermi_layers]. destruct last; [apply aggregate_t; [apply update_single_t|apply update_double_t]|apply update_single_t]; auto.
    - change (equi1 (fermi_layers ns last (q :: ps) (update_single ns s h1' h2') (update_double dbl h2')) (fermi_layers ns last (q :: ps) (update_single ns s h1 h2) (update_double dbl h2))).
      apply IH; [apply update_single_t|apply update_double_t]; auto.
  Qed.

  (** Attention *)
  Lemma attend_t hd q q' k k' v v' i : (forall i, q' i = q (t i)) -> (forall i, k' i = k (t i)) -> (forall i, v' i = v (t i)) ->
    attend (n_el ns) hd q' k' v' i = attend (n_el ns) hd q k v (t i).
  Proof.
    intros Q K V. unfold attend. apply map_ext. intros c. rewrite Q.
    rewrite (rsum_ext (fun j => exp (ldot (q (t i)) (k' j) / sqrt (INR hd))) (fun j => exp (ldot (q (t i)) (k (t j)) / sqrt (INR hd)))) by (intros; rewrite K; reflexivity).
    rewrite (rsum_reindex (fun j => exp (ldot (q (t i)) (k j) / sqrt (INR hd))) t) by apply (sp_all _ _ T).
    set (z := rsum (map (fun j => exp (ldot (q (t i)) (k j) / sqrt (INR hd))) (seq 0 (n_el ns)))).
    rewrite <- (rsum_reindex (fun j => exp (ldot (q (t i)) (k j) / sqrt (INR hd)) / z * nth c (v j) 0) t) by apply (sp_all _ _ T).
    apply rsum_ext. intros j _. rewrite K, V. reflexivity.
  Qed.
  Lemma psiformer_layer_t mode hd p x x' : (forall i, x' i = x (t i)) ->
    forall i, psiformer_layer mode (n_el ns) hd p x' i = psiformer_layer mode (n_el ns) hd p x (t i).
  Proof.
    intros X i. unfold psiformer_layer.
    assert (XI : forall j, match mode with Pre => layer_norm eps5 (ln_a p) (x' j) | _ => x' j end = match mode with Pre => layer_norm eps5 (ln_a p) (x (t j)) | _ => x (t j) end) by (intros; rewrite X; reflexivity).
    assert (A : attention (n_el ns) hd (heads p) (attn_out p) (fun j => match mode with Pre => layer_norm eps5 (ln_a p) (x' j) | _ => x' j end) i =
                attention (n_el ns) hd (heads p) (attn_out p) (fun j => match mode with Pre => layer_norm eps5 (ln_a p) (x j) | _ => x j end) (t i)).
    { unfold attention. f_equal. f_equal. apply map_ext. intros h. apply attend_t; intros j; rewrite XI; reflexivity. }
    rewrite A, X. reflexivity.
  Qed.
  Lemma psiformer_t p h h' : (forall i, h' i = h (t i)) -> forall i, psiformer ns p h' i = psiformer ns p h (t i).
  Proof.
    intros H. unfold psiformer.
    assert (E : forall ls x x', (forall i, x' i = x (t i)) -> forall i,
      fold_left (fun x l => psiformer_layer (psi_mode p) (n_el ns) (psi_hd p) l x) ls x' i = fold_left (fun x l => psiformer_layer (psi_mode p) (n_el ns) (psi_hd p) l x) ls x (t i)).
    { induction ls as [|l ls IH]; intros x x' X; [exact X|]. cbn [fold_left]. apply IH. apply psiformer_layer_t. exact X. }
    apply E. intros i. rewrite H, spin_t. reflexivity.
  Qed.
  Lemma lap_dense_block_t nh hd p qs qs' x x' : (forall i, qs' i = qs (t i)) -> (forall i, x' i = x (t i)) ->
    forall i, lap_dense_block (n_el ns) nh hd p qs' x' i = lap_dense_block (n_el ns) nh hd p qs x (t i).
  Proof.
    intros Q X i. unfold lap_dense_block.
    assert (A : map (fun h => attend (n_el ns) hd (fun k => head_slice hd h (fst (qs' k))) (fun k => head_slice hd h (snd (qs' k)))
                   (fun k => head_slice hd h (apply_dense (vproj p) (opt_norm (option_map (fun t0 => snd (fst t0)) (lns p)) (x' k)))) i) (seq 0 nh) =
                map (fun h => attend (n_el ns) hd (fun k => head_slice hd h (fst (qs k))) (fun k => head_slice hd h (snd (qs k)))
                   (fun k => head_slice hd h (apply_dense (vproj p) (opt_norm (option_map (fun t0 => snd (fst t0)) (lns p)) (x k)))) (t i)) (seq 0 nh)).
    { apply map_ext. intros h. apply attend_t; intros j; rewrite ?Q, ?X; reflexivity. }
    rewrite A, X. reflexivity.
  Qed.
  Lemma lapnet_t p h h' : (forall i, h' i = h (t i)) -> forall i, lapnet ns p h' i = lapnet ns p h (t i).
  Proof.
    intros H. unfold lapnet.
    assert (HS : forall i, apply_dense (lap_in p) (h' i ++ [spin_of ns i]) = apply_dense (lap_in p) (h (t i) ++ [spin_of ns (t i)])) by (intros; rewrite H, spin_t; reflexivity).
    set (hs' := fun i => apply_dense (lap_in p) (h' i ++ [spin_of ns i])) in *. set (hs := fun i => apply_dense (lap_in p) (h i ++ [spin_of ns i])) in *.
    assert (HT : forall i, hs' i = hs (t i)) by (intros; apply HS).
    assert (E : forall ls x x', (forall i, x' i = x (t i)) -> forall i,
      fold_left (fun x li => lap_dense_block (n_el ns) (lap_nh p) (lap_hd p) (snd li) (fun i => nth (fst li) (qk_streams (lap_nh p * lap_hd p) (lap_layers p) (hs' i)) ([], [])) x) ls x' i =
      fold_left (fun x li => lap_dense_block (n_el ns) (lap_nh p) (lap_hd p) (snd li) (fun i => nth (fst li) (qk_streams (lap_nh p * lap_hd p) (lap_layers p) (hs i)) ([], [])) x) ls x (t i)).
    { induction ls as [|l ls IH]; intros x x' X; [exact X|]. cbn [fold_left]. apply IH. apply lap_dense_block_t; [|exact X]. intros j. rewrite HT. reflexivity. }
    apply E. exact HT.
  Qed.

  (** Embeddings *)
  Definition equi_emb (m' m : embedding) : Prop :=
    ae_width m' = ae_width m /\ ee_width m' = ee_width m /\
    (forall i, ae_feat m' i = ae_feat m (t i)) /\ (forall i j, ee_feat m' i j = ee_feat m (t i) (t j)) /\
    (forall i a, emb_r m' i a = emb_r m (t i) a) /\ (forall i a, emb_vec m' i a = emb_vec m (t i) a).
  Lemma molecule_features_t rs d na e e' atoms : (forall i, e' i = e (t i)) -> equi_emb (molecule_features rs d na e' atoms) (molecule_features rs d na e atoms).
  Proof.
    intros E. unfold equi_emb, molecule_features. cbn [ae_width ee_width ae_feat ee_feat emb_r emb_vec].
    split; [reflexivity|]. split; [reflexivity|]. unfold ae_dist, ae_disp. split; [intros i; rewrite E; reflexivity|]. split.
    - intros i j. unfold ee_dist, ee_disp. rewrite !E, delta_t. reflexivity.
    - split; intros; rewrite E; reflexivity.
  Qed.
  Lemma solid_features_t ty d na prim sim e e' atoms : (forall i, e' i = e (t i)) -> equi_emb (solid_features ty d na prim sim e' atoms) (solid_features ty d na prim sim e atoms).
  Proof.
    intros E. unfold equi_emb, solid_features, ae_features, ee_features. cbn [ae_width ee_width ae_feat ee_feat emb_r emb_vec].
    split; [reflexivity|]. split; [reflexivity|]. split; [intros i; rewrite E; reflexivity|]. split.
    - intros i j. rewrite !E, delta_t. reflexivity.
    - split; intros; rewrite E; reflexivity.
  Qed.
  Lemma ferminet_layers_t last ps m' m i : equi_emb m' m ->
    f1 (fermi_layers ns last ps {| w1 := ae_width m'; f1 := ae_feat m' |} {| w2 := ee_width m'; f2 := ee_feat m' |}) i =
    f1 (fermi_layers ns last ps {| w1 := ae_width m; f1 := ae_feat m |} {| w2 := ee_width m; f2 := ee_feat m |}) (t i).
  Proof.
    intros (A & B & F & G & _). apply (fermi_layers_t last ps); split; cbn [w1 w2 f1 f2]; auto.
  Qed.
  Lemma orbital_projection_t sp p h h' k i j : (forall i, h' i = h (t i)) -> orbital_projection ns sp p h' k i j = orbital_projection ns sp p h k (t i) j.
  Proof. intros H. unfold orbital_projection. rewrite H, channel_t. reflexivity. Qed.
  Lemma envelope_t ty sp p na m' m k i j : equi_emb m' m -> envelope ty ns sp p na m' k i j = envelope ty ns sp p na m k (t i) j.
  Proof.
    intros (_ & _ & _ & _ & R & V). unfold envelope. rewrite channel_t.
    destruct ty; [apply rsum_ext; intros; rewrite R; reflexivity|apply rsum_ext; intros; rewrite R; reflexivity|apply rsum_ext; intros; rewrite V; reflexivity|reflexivity].
  Qed.
  Lemma molecule_entry_t c na m' m h' h k i j : equi_emb m' m -> (forall i, h' i = h (t i)) ->
    molecule_entry ns c na m' h' k i j = molecule_entry ns c na m h k (t i) j.
  Proof. intros M H. unfold molecule_entry. rewrite (orbital_projection_t _ _ h h'), (envelope_t _ _ _ _ m' m) by auto. reflexivity. Qed.
End Equivariance.

(** ** Jastrow *)
Lemma seq_split_lt lo len i : (lo <= i < lo + len)%nat -> seq lo len = seq lo (i - lo) ++ i :: seq (S i) (lo + len - S i).
Proof.
  intros H. replace len with ((i - lo) + S (lo + len - S i))%nat at 1 by lia. rewrite seq_app. f_equal. replace (lo + (i - lo))%nat with i by lia. reflexivity.
Qed.
Lemma rsum_app l l' : rsum (l ++ l') = rsum l + rsum l'.
Proof. induction l; simpl; lra. Qed.
Lemma rsum_concat {A} (f : A -> list R) l : rsum (concat (map f l)) = rsum (map (fun x => rsum (f x)) l).
Proof. induction l as [|x l IH]; simpl; auto. rewrite rsum_app, IH. reflexivity. Qed.
Lemma rsum_scal {A} c (f : A -> R) l : rsum (map (fun x => c * f x) l) = c * rsum (map f l).
Proof. induction l; simpl; lra. Qed.
Lemma rsum_add {A} (f g : A -> R) l : rsum (map (fun x => f x + g x) l) = rsum (map f l) + rsum (map g l).
Proof. induction l; simpl; lra. Qed.
Lemma rsum_exch {A B} (f : A -> B -> R) l l' : rsum (map (fun x => rsum (map (f x) l')) l) = rsum (map (fun y => rsum (map (fun x => f x y) l)) l').
Proof. induction l as [|x l IH]; simpl; [induction l'; simpl; lra|]. rewrite IH, <- rsum_add. reflexivity. Qed.
(** The sum over the upper triangle of a symmetric block, through the sum over the whole block *)
Lemma upper_pairs_sum lo len (g : nat -> nat -> R) : (forall i j, g i j = g j i) ->
  2 * rsum (map (fun p => g (fst p) (snd p)) (upper_pairs lo len)) =
  rsum (map (fun i => rsum (map (g i) (seq lo len))) (seq lo len)) - rsum (map (fun i => g i i) (seq lo len)).
Proof.
  intros SY. unfold upper_pairs. rewrite concat_map, map_map, rsum_concat.
  rewrite (rsum_ext _ (fun i => rsum (map (g i) (seq (S i) (lo + len - S i))))) by (intros; rewrite map_map; reflexivity).
  induction len as [|len IH]; [simpl; lra|].
  assert (E : rsum (map (fun i => rsum (map (g i) (seq (S i) (lo + S len - S i)))) (seq lo (S len))) =
              rsum (map (fun i => rsum (map (g i) (seq (S i) (lo + len - S i)))) (seq lo len)) + rsum (map (fun i => g i (lo + len)%nat) (seq lo len))).
  { rewrite seq_S, map_app, rsum_app. cbn [map rsum fold_right]. replace (lo + S len - S (lo + len))%nat with 0%nat by lia. cbn [seq map fold_right].
    rewrite <- rsum_add. rewrite !Rplus_0_r. apply rsum_ext. intros i H. apply in_seq in H.
    replace (lo + S len - S i)%nat with (S (lo + len - S i)) by lia. rewrite seq_S, map_app, rsum_app. cbn [map rsum fold_right].
    replace (S i + (lo + len - S i))%nat with (lo + len)%nat by lia. lra. }
  rewrite E. rewrite (seq_S len lo), !map_app, !rsum_app. cbn [map rsum fold_right].
  rewrite (rsum_ext (fun i => rsum (map (g i) (seq lo len ++ [(lo + len)%nat]))) (fun i => rsum (map (g i) (seq lo len)) + g i (lo + len)%nat)) by (intros; rewrite map_app, rsum_app; simpl; lra).
  rewrite rsum_add, !map_app, !rsum_app. cbn [map rsum fold_right].
  rewrite (rsum_ext (g (lo + len)%nat) (fun i => g i (lo + len)%nat)) by (intros; apply SY). lra.
Qed.
Lemma upper_pairs_t lo len (g : nat -> nat -> R) t : (forall i j, g i j = g j i) -> Permutation (map t (seq lo len)) (seq lo len) ->
  rsum (map (fun p => g (t (fst p)) (t (snd p))) (upper_pairs lo len)) = rsum (map (fun p => g (fst p) (snd p)) (upper_pairs lo len)).
Proof.
  intros S P. apply Rmult_eq_reg_l with 2; [|lra].
  rewrite (upper_pairs_sum lo len (fun i j => g (t i) (t j))) by (intros; apply S). rewrite upper_pairs_sum by exact S. f_equal.
  - rewrite <- (rsum_reindex (fun i => rsum (map (g i) (seq lo len))) t) by exact P. apply rsum_ext. intros i _. apply (rsum_reindex (g (t i))). exact P.
  - apply (rsum_reindex (fun i => g i i)). exact P.
Qed.
Lemma list_prod_sum (g : nat -> nat -> R) l l' : rsum (map (fun p => g (fst p) (snd p)) (list_prod l l')) = rsum (map (fun i => rsum (map (g i) l')) l).
Proof. induction l as [|x l IH]; simpl; auto. rewrite map_app, rsum_app, IH, map_map. reflexivity. Qed.
Lemma jastrow_t ns t a b r r' : spin_perm ns t -> (forall i j, r i j = r j i) -> (forall i j, r' i j = r (t i) (t j)) -> jastrow ns a b r' = jastrow ns a b r.
Proof.
  intros T S E. unfold jastrow. rewrite !map_app, !rsum_app. f_equal; [f_equal|].
  - rewrite <- (upper_pairs_t 0 (fst ns) (fun i j => cusp (/ 4) a (r i j)) t); [|intros; rewrite S; reflexivity|apply (sp_up _ _ T)]. apply rsum_ext. intros p _. rewrite E. reflexivity.
  - rewrite <- (upper_pairs_t (fst ns) (snd ns) (fun i j => cusp (/ 4) a (r i j)) t); [|intros; rewrite S; reflexivity|apply (sp_down _ _ T)]. apply rsum_ext. intros p _. rewrite E. reflexivity.
  - rewrite (list_prod_sum (fun i j => cusp (/ 2) b (r' i j))), (list_prod_sum (fun i j => cusp (/ 2) b (r i j))).
    rewrite <- (rsum_reindex (fun i => rsum (map (fun j => cusp (/ 2) b (r i j)) (seq (fst ns) (snd ns)))) t) by apply (sp_up _ _ T).
    apply rsum_ext. intros i _. rewrite <- (rsum_reindex (fun j => cusp (/ 2) b (r (t i) j)) t) by apply (sp_down _ _ T). apply rsum_ext. intros j _. rewrite E. reflexivity.
Qed.
Lemma norm_ext d u v : (forall k, (k < d)%nat -> u k = v k) -> norm d u = norm d v.
Proof. intros H. unfold norm. f_equal. apply sum_ext. intros k Hk. rewrite H by auto. reflexivity. Qed.
Lemma norm_opp d u v : (forall k, (k < d)%nat -> u k = - v k) -> norm d u = norm d v.
Proof. intros H. unfold norm. f_equal. apply sum_ext. intros k Hk. rewrite H by auto. ring. Qed.
Lemma ee_dist_sym d e i j : ee_dist d e i j = ee_dist d e j i.
Proof.
  unfold ee_dist, delta. rewrite (Nat.eqb_sym j i). destruct (Nat.eqb_spec i j) as [->|N]; [reflexivity|]. f_equal.
  apply norm_opp. intros k _. unfold ee_disp. ring.
Qed.
Lemma ee_jastrow_t ns t p d e e' : spin_perm ns t -> (forall i, e' i = e (t i)) -> ee_jastrow ns p d e' = ee_jastrow ns p d e.
Proof.
  intros T E. unfold ee_jastrow. destruct p as [[a b]|]; [|reflexivity]. cbn [option_map fst snd]. f_equal. apply (jastrow_t ns t); auto.
  - intros. apply ee_dist_sym.
  - intros i j. unfold ee_dist, ee_disp. rewrite !E, (delta_t ns t T). reflexivity.
Qed.
