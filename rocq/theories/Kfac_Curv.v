(** C84: the curvature estimates against the S matrix of stochastic reconfiguration. *)
From Coq Require Import Reals List Arith Lra ZArith String Lia.
From Coquelicot Require Import Coquelicot.
From Verif Require Import Lin Shape Sph_Spec Kfac_Spec Kfac_Model Kfac_Props.
Import ListNotations.
Open Scope R_scope.

Lemma cpair (u v : C) : fst u = fst v -> snd u = snd v -> u = v.
Proof. destruct u, v. cbn. intros -> ->. reflexivity. Qed.
Lemma fst_csigma n f : fst (csigma n f) = sum n (fun k => fst (f k)).
Proof. induction n as [|n IH]; cbn; [reflexivity|now rewrite IH]. Qed.
Lemma snd_csigma n f : snd (csigma n f) = sum n (fun k => snd (f k)).
Proof. induction n as [|n IH]; cbn; [reflexivity|now rewrite IH]. Qed.
Lemma sum_pick n (f : nat -> R) j : (j < n)%nat -> sum n (fun i => delta i j * f i) = f j.
Proof. intros H. rewrite <- (sum_delta_r n f j H). apply sum_ext. intros. ring. Qed.

Lemma divn a b c : (c < b)%nat -> ((a * b + c) / b)%nat = a.
Proof. intros. rewrite Nat.div_add_l, Nat.div_small by lia. lia. Qed.
Lemma modn a b c : (c < b)%nat -> ((a * b + c) mod b)%nat = c.
Proof. intros. rewrite Nat.add_comm, Nat.mod_add, Nat.mod_small by lia. reflexivity. Qed.
(** ** Per-sample derivatives of a dense layer *)
(** The outputs of a layer applied to [m] rows, flattened, as a function of its parameter matrix. *)
Definition layer_out (k fout : nat) (xe : nat -> nat -> R) (P : mat) : vec := fun q => sum k (fun i => xe (q / fout)%nat i * P i (q mod fout)%nat).
(** C84: if [g] is the derivative of log psi in the layer's outputs, then sum_r x[r, i] g[r, o] is its derivative in
    the parameter (i, o). *)
Theorem C84_layer_gradient : forall m k fout xe P h g i o, (i < k)%nat -> (o < fout)%nat ->
  cgradient (m * fout) h (layer_out k fout xe P) g ->
  cderive (fun s => h (layer_out k fout xe (fun i' o' => P i' o' + s * (delta i' i * delta o' o)))) 0
    (csigma m (fun r => Cmult (RtoC (xe r i)) (g (r * fout + o)%nat))).
Proof.
  intros m k fout xe P h g i o Hi Ho G.
  set (d := fun q => xe (q / fout)%nat i * delta (q mod fout)%nat o).
  assert (E : forall s, layer_out k fout xe (fun i' o' => P i' o' + s * (delta i' i * delta o' o)) = fun q => layer_out k fout xe P q + s * d q).
  { intros s. apply FunctionalExtensionality.functional_extensionality. intros q. unfold layer_out, d.
    rewrite <- (sum_pick k (fun i' => xe (q / fout)%nat i') i Hi). rewrite <- sum_scal_r, <- sum_scal_l, <- sum_plus. apply sum_ext. intros. ring. }
  specialize (G d).
  assert (V : csigma (m * fout) (fun q => Cmult (RtoC (d q)) (g q)) = csigma m (fun r => Cmult (RtoC (xe r i)) (g (r * fout + o)%nat))).
  { assert (A : forall (f : nat -> R), sum (m * fout) (fun q => d q * f q) = sum m (fun r => xe r i * f (r * fout + o)%nat)).
    { intros f. rewrite sum_prod. apply sum_ext. intros r Hr.
      rewrite <- (sum_pick fout (fun o' => xe r i * f (r * fout + o')%nat) o Ho). apply sum_ext. intros o' Ho'. unfold d.
      rewrite Nat.div_add_l, Nat.div_small, Nat.add_0_r by lia. rewrite Nat.add_comm, Nat.mod_add, Nat.mod_small by lia.
      rewrite (Nat.add_comm o'). ring. }
    apply cpair; [rewrite !fst_csigma|rewrite !snd_csigma].
    - transitivity (sum (m * fout) (fun q => d q * fst (g q))); [apply sum_ext; intros; cbn; ring|]. rewrite A. apply sum_ext. intros. cbn. ring.
    - transitivity (sum (m * fout) (fun q => d q * snd (g q))); [apply sum_ext; intros; cbn; ring|]. rewrite A. apply sum_ext. intros. cbn. ring. }
  rewrite V in G. destruct G as [G1 G2]. split.
  - eapply is_derive_ext; [|exact G1]. intros s. cbn. rewrite E. reflexivity.
  - eapply is_derive_ext; [|exact G2]. intros s. cbn. rewrite E. reflexivity.
Qed.

(** ** Kronecker factors and S *)
(** derivative in parameter number i * fout + o, one row per sample *)
Definition sample_grad (fout : nat) (xe : nat -> nat -> R) (g : nat -> nat -> C) (n q : nat) : C := Cmult (RtoC (xe n (q / fout)%nat)) (g n (q mod fout)%nat).
Lemma re_inner_scal a b u v : re_inner (Cmult (RtoC a) u) (Cmult (RtoC b) v) = a * b * re_inner u v.
Proof. unfold re_inner. destruct u, v. cbn. ring. Qed.
Lemma average_product N u v : (0 < N)%nat -> average N (fun n => u n * v n) = average N u * average N v + covariance N u v.
Proof.
  intros HN. assert (HR : INR N <> 0) by (apply not_0_INR; lia). unfold covariance. set (a := average N u). set (b := average N v).
  assert (EA : sum N u = INR N * a) by (unfold a, average; field; exact HR). assert (EB : sum N v = INR N * b) by (unfold b, average; field; exact HR). clearbody a b.
  unfold average. rewrite (sum_ext N (fun n => (u n - a) * (v n - b)) (fun n => (u n * v n - a * v n) + (a * b - u n * b))) by (intros; ring).
  rewrite sum_plus, !sum_minus, (sum_scal_l N a v), (sum_scal_r N b u), sum_const, EA, EB. field. exact HR.
Qed.
(** C84: what the Kronecker product leaves out of Re S is exactly the covariance, over the samples, of the products
    of activations with the products of output derivatives. *)
Theorem C84_kronecker : forall N fout xe g r c, (0 < N)%nat ->
  re_S N (sample_grad fout xe g) r c =
  kron fout (input_stats N xe) (output_stats N g) r c +
  covariance N (fun n => xe n (r / fout)%nat * xe n (c / fout)%nat) (fun n => re_inner (g n (r mod fout)%nat) (g n (c mod fout)%nat)).
Proof.
  intros N fout xe g r c HN. unfold kron. rewrite output_stats_eq. unfold input_stats, re_S.
  etransitivity; [|exact (average_product N (fun n => xe n (r / fout)%nat * xe n (c / fout)%nat) (fun n => re_inner (g n (r mod fout)%nat) (g n (c mod fout)%nat)) HN)].
  unfold average. f_equal.
  apply sum_ext. intros n _. unfold sample_grad. apply re_inner_scal.
Qed.
(** C84: with one sample the factors give Re S exactly. *)
Theorem C84_kronecker_exact : forall fout xe g r c, kron fout (input_stats 1 xe) (output_stats 1 g) r c = re_S 1 (sample_grad fout xe g) r c.
Proof.
  intros. rewrite C84_kronecker by lia. unfold covariance, average. cbn [sum INR]. set (k := kron _ _ _ _ _). clearbody k.
  set (a := xe _ _ * xe _ _). set (b := re_inner _ _). field.
Qed.

(** ** Positivity *)
(** A weighted sum of squares: sum_t w_t u_t u_t^T with nonnegative weights. *)
Definition gram (n : nat) (M : mat) : Prop := exists T (w : nat -> R) (u : nat -> vec), (forall t, (t < T)%nat -> 0 <= w t) /\
  forall i j, (i < n)%nat -> (j < n)%nat -> M i j = sum T (fun t => w t * (u t i * u t j)).
Lemma gram_ext n M M' : (forall i j, (i < n)%nat -> (j < n)%nat -> M i j = M' i j) -> gram n M -> gram n M'.
Proof. intros E (T & w & u & W & H). exists T, w, u. split; [exact W|]. intros i j I J. rewrite <- E by assumption. apply H; assumption. Qed.
Lemma gram_zero n : gram n (fun _ _ => 0).
Proof. exists 0%nat, (fun _ => 0), (fun _ _ => 0). split; [lia|]. reflexivity. Qed.
Lemma sum_split n m f g : sum (n + m) (fun t => if (t <? n)%nat then f t else g (t - n)%nat) = sum n f + sum m g.
Proof.
  rewrite sum_app. f_equal; apply sum_ext; intros t Ht.
  - rewrite (proj2 (Nat.ltb_lt t n) Ht). reflexivity.
  - destruct (Nat.ltb_spec (n + t) n); [lia|]. f_equal. lia.
Qed.
Lemma gram_comb n a b M N : 0 <= a -> 0 <= b -> gram n M -> gram n N -> gram n (fun i j => a * M i j + b * N i j).
Proof.
  intros A B (T & w & u & W & H) (T' & w' & u' & W' & H').
  exists (T + T')%nat, (fun t => if (t <? T)%nat then a * w t else b * w' (t - T)%nat), (fun t => if (t <? T)%nat then u t else u' (t - T)%nat). split.
  - intros t Ht. destruct (Nat.ltb_spec t T); apply Rmult_le_pos; auto. apply W'. lia.
  - intros i j I J. rewrite H, H' by assumption. rewrite <- !sum_scal_l, <- (sum_split T T'). apply sum_ext. intros t _. destruct (t <? T)%nat; ring.
Qed.
Lemma gram_input n N xe : gram n (input_stats N xe).
Proof.
  exists N, (fun _ => / INR N), xe. split.
  - intros t Ht. left. apply Rinv_0_lt_compat, lt_0_INR. lia.
  - intros i j _ _. unfold input_stats. rewrite sum_scal_l. unfold Rdiv. ring.
Qed.
Lemma gram_output n N g : gram n (output_stats N g).
Proof.
  apply (gram_ext n (fun i j => 1 * input_stats N (fun a y => fst (g a y)) i j + 1 * input_stats N (fun a y => snd (g a y)) i j)).
  - intros i j _ _. rewrite output_stats_eq. unfold input_stats, re_inner. rewrite sum_plus. unfold Rdiv. ring.
  - apply gram_comb; try lra; apply gram_input.
Qed.
Lemma sum_sq n (f : nat -> R) : sum n f * sum n f = sum n (fun i => sum n (fun j => f i * f j)).
Proof. rewrite <- sum_scal_r. apply sum_ext. intros i _. rewrite <- sum_scal_l. reflexivity. Qed.
Lemma gram_psd n M : gram n M -> psd n M.
Proof.
  intros (T & w & u & W & H). split.
  - intros i j I J. rewrite !H by assumption. apply sum_ext. intros. ring.
  - intros v. unfold quadratic.
    replace (sum n (fun i => sum n (fun j => v i * M i j * v j))) with (sum T (fun t => w t * (dot n (u t) v * dot n (u t) v))).
    + apply sum_nonneg. intros t Ht. apply Rmult_le_pos; [auto|]. apply Rle_0_sqr.
    + transitivity (sum n (fun i => sum n (fun j => sum T (fun t => w t * ((u t i * v i) * (u t j * v j)))))).
      * rewrite (sum_ext n _ (fun i => sum T (fun t => sum n (fun j => w t * ((u t i * v i) * (u t j * v j))))) (fun i _ => sum_swap _ _ _)).
        rewrite sum_swap. apply sum_ext. intros t _. unfold dot. rewrite sum_sq, <- sum_scal_l. apply sum_ext. intros i _. rewrite <- sum_scal_l. reflexivity.
      * apply sum_ext. intros i I. apply sum_ext. intros j J. rewrite H by assumption. rewrite <- sum_scal_l, <- sum_scal_r. apply sum_ext. intros. ring.
Qed.
Lemma gram_kron n m A B : (0 < m)%nat -> gram n A -> gram m B -> gram (n * m) (kron m A B).
Proof.
  intros Hm (T & w & u & W & H) (T' & w' & u' & W' & H').
  exists (T * T')%nat, (fun t => w (t / T')%nat * w' (t mod T')%nat), (fun t q => u (t / T')%nat (q / m)%nat * u' (t mod T')%nat (q mod m)%nat). split.
  - intros t Ht. assert (T' <> 0)%nat by lia. apply Rmult_le_pos; [apply W|apply W'].
    + apply Nat.div_lt_upper_bound; lia.
    + apply Nat.mod_upper_bound. assumption.
  - intros i j I J. unfold kron.
    assert (forall q, (q < n * m)%nat -> (q / m < n)%nat /\ (q mod m < m)%nat) as D by (intros q Q; split; [apply Nat.div_lt_upper_bound; lia|apply Nat.mod_upper_bound; lia]).
    destruct (D i I), (D j J). rewrite H, H' by assumption. rewrite sum_prod, <- sum_scal_r. apply sum_ext. intros t Ht. rewrite <- sum_scal_l. apply sum_ext. intros t' Ht'.
    rewrite (divn t T' t') by lia. rewrite (modn t T' t') by lia. ring.
Qed.

(** ** Moving averages *)
Definition good_update (u : mat * R * R) : Prop := 0 <= snd (fst u) /\ 0 < snd u.
(** the weight each past estimate has in the end: its own weight times all later decays *)
Fixpoint final_weights (hist : list (mat * R * R)) : list (R * mat) :=
  match hist with
  | [] => []
  | (v, o, n) :: rest => (n * fold_right (fun u p => snd (fst u) * p) 1 rest, v) :: final_weights rest
  end.
Definition wsum (l : list (R * mat)) (f : mat -> R) : R := fold_right (fun p s => fst p * f (snd p) + s) 0 l.
Lemma wsum_cons a l f : wsum (a :: l) f = fst a * f (snd a) + wsum l f. Proof. reflexivity. Qed.
Lemma history_from : forall hist st, 0 <= weight st -> List.Forall good_update hist ->
  let p := fold_right (fun u p => snd (fst u) * p) 1 hist in
  let st' := update_factors st hist in
  0 <= p /\ 0 <= weight st' /\ (hist <> [] -> 0 < weight st') /\ weight st' = weight st * p + wsum (final_weights hist) (fun _ => 1) /\
  forall i j, weight st' * value st' i j = weight st * p * value st i j + wsum (final_weights hist) (fun v => v i j).
Proof.
  induction hist as [|[[v o] n] hist IH]; intros st W G; cbn [fold_right final_weights update_factors fold_left fst snd]; rewrite ?wsum_cons; cbn [fst snd].
  - unfold wsum. cbn. refine (conj _ (conj W (conj _ (conj _ _)))); try lra; [contradiction|]. intros. lra.
  - inversion G as [|? ? [G1 G2] GR]; subst. cbn [fst snd] in G1, G2. cbn zeta.
    assert (0 <= weight st * o) by (apply Rmult_le_pos; assumption).
    assert (WP : 0 < weight (update_factor st v o n)) by (cbn; lra).
    specialize (IH (update_factor st v o n) (Rlt_le _ _ WP) GR). cbn zeta in IH. destruct IH as (P & WN & WS & WE & VE).
    fold (update_factors (update_factor st v o n) hist).
    set (p := fold_right (fun u p => snd (fst u) * p) 1 hist) in *. set (st' := update_factors (update_factor st v o n) hist) in *.
    refine (conj _ (conj WN (conj _ (conj _ _)))).
    + apply Rmult_le_pos; assumption.
    + intros _. destruct hist as [|u hist]; [exact WP|]. apply WS. discriminate.
    + rewrite WE. cbn [weight update_factor]. ring.
    + intros i j. rewrite wsum_cons. cbn [fst snd]. rewrite VE. cbn [weight value update_factor] in *. field. lra.
Qed.
(** C84: after any history of updates the factor is the weighted mean of the estimates, the one from k updates ago
    multiplied by every decay since. *)
Theorem C84_moving_average : forall hist, List.Forall good_update hist -> hist <> [] ->
  let st := update_factors average_zero hist in
  0 < wsum (final_weights hist) (fun _ => 1) /\ weight st = wsum (final_weights hist) (fun _ => 1) /\
  forall i j, value st i j = wsum (final_weights hist) (fun v => v i j) / wsum (final_weights hist) (fun _ => 1).
Proof.
  intros hist G N st. pose proof (history_from hist average_zero ltac:(cbn; lra) G) as H. cbn zeta in H. fold st in H. destruct H as (_ & _ & WS & WE & VE).
  specialize (WS N). cbn [weight average_zero] in WE, VE. rewrite Rmult_0_l, Rplus_0_l in WE. rewrite <- WE.
  refine (conj WS (conj eq_refl _)). intros i j. specialize (VE i j). rewrite !Rmult_0_l, Rplus_0_l in VE. rewrite <- VE. field. lra.
Qed.
Lemma gram_history n : forall hist st, gram n (value st) -> 0 <= weight st -> List.Forall good_update hist -> List.Forall (fun u => gram n (fst (fst u))) hist ->
  gram n (value (update_factors st hist)).
Proof.
  induction hist as [|[[v o] e] hist IH]; intros st GS W G H; [exact GS|]. cbn [update_factors fold_left].
  inversion G as [|? ? [G1 G2] GR]; subst. inversion H as [|? ? HV HR]; subst. cbn [fst snd] in *.
  assert (0 <= weight st * o) by (apply Rmult_le_pos; assumption).
  apply IH; try assumption; cbn [weight value update_factor]; [|lra].
  assert (0 < e / (weight st * o + e)) by (apply Rdiv_lt_0_compat; lra).
  apply gram_comb; [|lra|exact GS|exact HV].
  apply Rmult_le_reg_r with (weight st * o + e); [lra|]. rewrite Rmult_0_l. replace ((1 - e / (weight st * o + e)) * (weight st * o + e)) with (weight st * o); [assumption|]. field. lra.
Qed.
(** C84: whatever activations and derivatives the updates saw, the factors and their Kronecker product stay
    symmetric and positive semidefinite. *)
Theorem C84_psd : forall k m (histA histG : list (nat * (nat -> nat -> R) * (nat -> nat -> C) * R * R)),
  (0 < m)%nat ->
  let A := map (fun u => let '(N, xe, g, o, e) := u in (input_stats N xe, o, e)) histA in
  let G := map (fun u => let '(N, xe, g, o, e) := u in (output_stats N g, o, e)) histG in
  List.Forall good_update A -> List.Forall good_update G ->
  let a := value (update_factors average_zero A) in let b := value (update_factors average_zero G) in
  psd k a /\ psd m b /\ psd (k * m) (kron m a b).
Proof.
  intros k m hA hG Hm A G GA GG a b.
  assert (HA : gram k a).
  { apply gram_history; [apply gram_zero|cbn; lra|exact GA|]. unfold A. apply List.Forall_forall. intros u U. apply in_map_iff in U. destruct U as [[[[[N xe] g] o] e] [<- _]]. apply gram_input. }
  assert (HB : gram m b).
  { apply gram_history; [apply gram_zero|cbn; lra|exact GG|]. unfold G. apply List.Forall_forall. intros u U. apply in_map_iff in U. destruct U as [[[[[N xe] g] o] e] [<- _]]. apply gram_output. }
  refine (conj (gram_psd _ _ HA) (conj (gram_psd _ _ HB) (gram_psd _ _ (gram_kron _ _ _ _ Hm HA HB)))).
Qed.

(** ** Diagonal blocks *)
(** C84: for a scale and a shift the estimate is the diagonal of Re S: per sample the derivative is summed over the
    axes the parameter is broadcast over, then the squared moduli are averaged. *)
Theorem C84_scale_shift : forall B m fn x dy k,
  scale_diag B m fn x dy k = re_S B (fun b k => csigma m (fun r => Cmult (RtoC (x ((b * m + r) * fn + k)%nat)) (dy ((b * m + r) * fn + k)%nat))) k k /\
  shift_diag B m fn dy k = re_S B (fun b k => csigma m (fun r => dy ((b * m + r) * fn + k)%nat)) k k.
Proof.
  intros. unfold scale_diag, shift_diag, sum_over_batch, re_S, d_scale, d_shift. split; f_equal; apply sum_ext; intros b _; rewrite !csum_csigma; apply fst_cconj_mul.
Qed.
(** The derivatives those sums stand for: y[r, k] = x[r, k] scale[k] + shift[k]. *)
Theorem C84_scale_shift_gradient : forall m fn (x : vec) (scale shift : vec) h g k, (k < fn)%nat ->
  let y := fun sc sh : vec => (fun q => x q * sc (q mod fn)%nat + sh (q mod fn)%nat) in
  cgradient (m * fn) h (y scale shift) g ->
  cderive (fun s => h (y (fun j => scale j + s * delta j k) shift)) 0 (csigma m (fun r => Cmult (RtoC (x (r * fn + k)%nat)) (g (r * fn + k)%nat))) /\
  cderive (fun s => h (y scale (fun j => shift j + s * delta j k))) 0 (csigma m (fun r => g (r * fn + k)%nat)).
Proof.
  intros m fn x scale shift h g k Hk y G.
  assert (A : forall (f : nat -> R), sum (m * fn) (fun q => delta (q mod fn)%nat k * f q) = sum m (fun r => f (r * fn + k)%nat)).
  { intros f. rewrite sum_prod. apply sum_ext. intros r Hr. rewrite <- (sum_pick fn (fun o => f (r * fn + o)%nat) k Hk). apply sum_ext. intros o Ho.
    rewrite Nat.add_comm, Nat.mod_add, Nat.mod_small by lia. reflexivity. }
  split.
  - pose proof (G (fun q => x q * delta (q mod fn)%nat k)) as [G1 G2].
    assert (E : forall s, y (fun j => scale j + s * delta j k) shift = fun q => y scale shift q + s * (x q * delta (q mod fn)%nat k)).
    { intros s. apply FunctionalExtensionality.functional_extensionality. intros q. unfold y. ring. }
    rewrite !fst_csigma in G1. rewrite !snd_csigma in G2. split.
    + rewrite fst_csigma. rewrite (sum_ext _ _ (fun q => delta (q mod fn)%nat k * (x q * fst (g q)))) in G1 by (intros; cbn; ring). rewrite A in G1.
      rewrite (sum_ext m _ (fun r => x (r * fn + k)%nat * fst (g (r * fn + k)%nat))) by (intros; cbn; ring).
      eapply is_derive_ext; [|exact G1]. intros s. cbn. rewrite E. reflexivity.
    + rewrite snd_csigma. rewrite (sum_ext _ _ (fun q => delta (q mod fn)%nat k * (x q * snd (g q)))) in G2 by (intros; cbn; ring). rewrite A in G2.
      rewrite (sum_ext m _ (fun r => x (r * fn + k)%nat * snd (g (r * fn + k)%nat))) by (intros; cbn; ring).
      eapply is_derive_ext; [|exact G2]. intros s. cbn. rewrite E. reflexivity.
  - pose proof (G (fun q => delta (q mod fn)%nat k)) as [G1 G2].
    assert (E : forall s, y scale (fun j => shift j + s * delta j k) = fun q => y scale shift q + s * delta (q mod fn)%nat k).
    { intros s. apply FunctionalExtensionality.functional_extensionality. intros q. unfold y. ring. }
    rewrite !fst_csigma in G1. rewrite !snd_csigma in G2. split.
    + rewrite fst_csigma. rewrite (sum_ext _ _ (fun q => delta (q mod fn)%nat k * fst (g q))) in G1 by (intros; cbn; ring). rewrite A in G1.
      eapply is_derive_ext; [|exact G1]. intros s. cbn. rewrite E. reflexivity.
    + rewrite snd_csigma. rewrite (sum_ext _ _ (fun q => delta (q mod fn)%nat k * snd (g q))) in G2 by (intros; cbn; ring). rewrite A in G2.
      eapply is_derive_ext; [|exact G2]. intros s. cbn. rewrite E. reflexivity.
Qed.
(** C84: for any other parameter the batch is summed before the modulus is squared: the estimate is B times the
    squared modulus of the mean derivative, at most B times the diagonal of Re S ... *)
Theorem C84_generic : forall B (O : nat -> nat -> C) k, (0 < B)%nat ->
  let est := naive_diagonal B (fun j => csigma B (fun b => O b j)) k in
  est = INR B * (average B (fun b => fst (O b k)) ^ 2 + average B (fun b => snd (O b k)) ^ 2) /\
  0 <= est <= INR B * re_S B O k k.
Proof.
  intros B O k HB est. assert (HR : 0 < INR B) by (apply lt_0_INR; lia).
  assert (E : est = (sum B (fun b => fst (O b k)) * sum B (fun b => fst (O b k)) + sum B (fun b => snd (O b k)) * sum B (fun b => snd (O b k))) / INR B).
  { unfold est, naive_diagonal. rewrite fst_cconj_mul. unfold re_inner. rewrite fst_csigma, snd_csigma. reflexivity. }
  assert (CS : forall f : nat -> R, sum B f * sum B f <= INR B * sum B (fun b => f b * f b)).
  { intros f. pose proof (cauchy_sq B (fun _ => 1) f) as H. unfold dot in H. rewrite sum_const in H.
    rewrite (sum_ext B (fun i => 1 * f i) f) in H by (intros; ring). lra. }
  refine (conj _ (conj _ _)).
  - rewrite E. unfold average. field. lra.
  - rewrite E. apply Rmult_le_pos; [|left; apply Rinv_0_lt_compat; exact HR].
    pose proof (Rle_0_sqr (sum B (fun b => fst (O b k)))). pose proof (Rle_0_sqr (sum B (fun b => snd (O b k)))). unfold Rsqr in *. lra.
  - rewrite E. unfold re_S, re_inner. rewrite sum_plus. pose proof (CS (fun b => fst (O b k))). pose proof (CS (fun b => snd (O b k))). cbn in H, H0.
    apply Rmult_le_reg_r with (INR B); [exact HR|]. unfold Rdiv.
    set (a := sum B (fun b => fst (O b k))) in *. set (b := sum B (fun b => snd (O b k))) in *.
    set (p := sum B (fun b => fst (O b k) * fst (O b k))) in *. set (q := sum B (fun b => snd (O b k) * snd (O b k))) in *.
    replace ((a * a + b * b) * / INR B * INR B) with (a * a + b * b) by (field; lra). replace (INR B * ((p + q) * / INR B) * INR B) with (INR B * p + INR B * q) by (field; lra). lra.
Qed.
(** ... so it can vanish where S does not: two walkers with opposite derivatives. *)
Theorem C84_generic_refuted : exists O, re_S 2 O 0 0 = 1 /\ naive_diagonal 2 (fun j => csigma 2 (fun b => O b j)) 0 = 0.
Proof.
  exists (fun b _ => RtoC (if (b =? 0)%nat then 1 else - 1)). unfold re_S, naive_diagonal, cconj_mul, re_inner. cbn. split; field.
Qed.

(** ** The complex VJP *)
Lemma tree_complex_pair a b : tree_complex a b = (a, b).
Proof. unfold tree_complex. apply cpair; cbn; ring. Qed.
Definition leaf_ok (l : leaf) : Prop := l_complex l = false -> forall x k, snd (l_fun l x k) = 0.
Definition no_leaf : leaf := {| l_size := 0; l_complex := false; l_fun := fun _ _ => RtoC 0 |}.
Lemma combine_map {A B T} (f : T -> A) (g : T -> B) l : combine (map f l) (map g l) = map (fun t => (f t, g t)) l.
Proof. induction l as [|a l IH]; [reflexivity|]. cbn. now rewrite IH. Qed.
Lemma real_leaf_ext (a b : nat -> R) : (forall k, a k = b k) -> a = b.
Proof. apply FunctionalExtensionality.functional_extensionality. Qed.
Lemma jax_vjp_real ls x ys i : snd (jax_vjp (real_fun ls) x) ys i = sum (List.length ls) (fun l => sum (l_size (nth l ls no_leaf)) (fun k => ys l k * partial (fun z => fst (l_fun (nth l ls no_leaf) z k)) x i)).
Proof.
  unfold jax_vjp, real_fun. cbn [snd]. rewrite map_length. apply sum_ext. intros l L.
  change (0%nat, fun _ _ => 0) with ((fun lf => (l_size lf, fun x k => fst (l_fun lf x k))) no_leaf). rewrite map_nth. reflexivity.
Qed.
Lemma jax_vjp_imag ls x ys i : snd (jax_vjp (imag_fun ls) x) ys i = sum (List.length ls) (fun l => sum (l_size (nth l ls no_leaf)) (fun k => ys l k * partial (fun z => snd (l_fun (nth l ls no_leaf) z k)) x i)).
Proof.
  unfold jax_vjp, imag_fun. cbn [snd]. rewrite map_length. apply sum_ext. intros l L.
  change (0%nat, fun _ _ => 0) with ((fun lf => (l_size lf, fun x k => snd (l_fun lf x k))) no_leaf). rewrite map_nth. reflexivity.
Qed.
(** C84: with the first output complex, or every output real, the values and, for every real cotangent, the complex
    number sum y d f / d x_i come back; without aux the call is refused. *)
Theorem C84_vjp : forall ls x, ls <> [] -> List.Forall leaf_ok ls -> (l_complex (hd no_leaf ls) = true \/ List.Forall (fun l => l_complex l = false) ls) ->
  vjp_rc_with_aux ls x false = None /\
  exists vals vjp, vjp_rc_with_aux ls x true = Some (vals, vjp) /\ vals = map (fun l => l_fun l x) ls /\
  forall ys i, vjp ys i = csigma (List.length ls) (fun l => csigma (l_size (nth l ls no_leaf)) (fun k =>
    Cmult (RtoC (ys l k)) (CDerive (fun s => l_fun (nth l ls no_leaf) (fun j => x j + s * delta i j) k) 0))).
Proof.
  intros ls x N OK D. split; [reflexivity|]. destruct ls as [|first rest]; [contradiction|]. cbn [hd] in D. unfold vjp_rc_with_aux. cbn [negb].
  remember (first :: rest) as ls eqn:EL.
  destruct (jax_vjp (real_fun ls) x) as [vr jr] eqn:ER. destruct (jax_vjp (imag_fun ls) x) as [vi ji] eqn:EI.
  assert (VR : vr = map (fun l k => fst (l_fun l x k)) ls) by (transitivity (fst (jax_vjp (real_fun ls) x)); [rewrite ER; reflexivity|unfold jax_vjp, real_fun; cbn [fst]; rewrite map_map; reflexivity]).
  assert (VI : vi = map (fun l k => snd (l_fun l x k)) ls) by (transitivity (fst (jax_vjp (imag_fun ls) x)); [rewrite EI; reflexivity|unfold jax_vjp, imag_fun; cbn [fst]; rewrite map_map; reflexivity]).
  assert (JR : forall ys i, jr ys i = fst (csigma (List.length ls) (fun l => csigma (l_size (nth l ls no_leaf)) (fun k => Cmult (RtoC (ys l k)) (CDerive (fun s => l_fun (nth l ls no_leaf) (fun j => x j + s * delta i j) k) 0))))).
  { intros ys i. transitivity (snd (jax_vjp (real_fun ls) x) ys i); [rewrite ER; reflexivity|]. rewrite jax_vjp_real, fst_csigma. apply sum_ext. intros l _. rewrite fst_csigma. apply sum_ext. intros k _. cbn. unfold partial. ring. }
  assert (JI : forall ys i, ji ys i = snd (csigma (List.length ls) (fun l => csigma (l_size (nth l ls no_leaf)) (fun k => Cmult (RtoC (ys l k)) (CDerive (fun s => l_fun (nth l ls no_leaf) (fun j => x j + s * delta i j) k) 0))))).
  { intros ys i. transitivity (snd (jax_vjp (imag_fun ls) x) ys i); [rewrite EI; reflexivity|]. rewrite jax_vjp_imag, snd_csigma. apply sum_ext. intros l _. rewrite snd_csigma. apply sum_ext. intros k _. cbn. unfold partial. ring. }
  destruct (l_complex first) eqn:CF.
  - eexists. eexists. refine (conj eq_refl (conj _ _)).
    + rewrite VR, VI, combine_map, map_map. apply map_ext. intros l. apply FunctionalExtensionality.functional_extensionality. intros k. cbn [fst snd]. rewrite tree_complex_pair. symmetry. apply surjective_pairing.
    + intros ys i. rewrite tree_complex_pair, JR, JI. symmetry. apply surjective_pairing.
  - destruct D as [D|D]; [discriminate|]. eexists. eexists. refine (conj eq_refl (conj _ _)).
    + rewrite VR, map_map. apply map_ext_in. intros l L. apply FunctionalExtensionality.functional_extensionality. intros k. apply cpair; [reflexivity|]. cbn.
      symmetry. apply (proj1 (List.Forall_forall _ _) OK l L). apply (proj1 (List.Forall_forall _ _) D l L).
    + intros ys i. rewrite JR. apply cpair; [reflexivity|]. cbn [snd RtoC]. symmetry. rewrite snd_csigma. apply sum_0. intros l L. rewrite snd_csigma. apply sum_0. intros k K.
      assert (Z : forall z, snd (l_fun (nth l ls no_leaf) z k) = 0).
      { intros z. apply (proj1 (List.Forall_forall _ _) OK); [apply nth_In; exact L|]. apply (proj1 (List.Forall_forall _ _) D). apply nth_In. exact L. }
      cbn. rewrite (Derive_ext _ (fun _ => 0)) by (intros; apply Z). rewrite Derive_const. ring.
Qed.
(** C84, refuted part: only the first output's type is looked at; a complex output after a real one loses its
    imaginary part. *)
Theorem C84_vjp_refuted : exists ls x, List.Forall leaf_ok ls /\ match vjp_rc_with_aux ls x true with
  | Some (vals, _) => map (fun l => l_fun l x 0%nat) ls = [RtoC 0; Ci] /\ map (fun v => v 0%nat) vals = [RtoC 0; RtoC 0]
  | None => False end.
Proof.
  exists [{| l_size := 1; l_complex := false; l_fun := fun _ _ => RtoC 0 |}; {| l_size := 1; l_complex := true; l_fun := fun _ _ => Ci |}], (fun _ => 0). split.
  - repeat constructor; unfold leaf_ok; cbn; congruence.
  - cbn. split; reflexivity.
Qed.
(** C84: during the traced computation jax.vjp is the patched one; whatever it does and however it ends, and
    whatever was bound before, jax.vjp is the original afterwards and the result or exception is passed on. *)
Theorem C84_patch_restored : forall T (f : computation T) before,
  patched_layer_tag_vjp f before = (fst (f PatchedVjp), OriginalVjp).
Proof. intros T f before. unfold patched_layer_tag_vjp. destruct (f PatchedVjp). reflexivity. Qed.
(** Hence two nested uses: the rest of the outer computation runs with the original jax.vjp. *)
Theorem C84_patch_not_reentrant : forall T (inner : computation T) (rest : outcome T -> computation T) before,
  patched_layer_tag_vjp (fun b => let '(r, b') := patched_layer_tag_vjp inner b in rest r b') before = (fst (rest (fst (inner PatchedVjp)) OriginalVjp), OriginalVjp).
Proof. intros. rewrite C84_patch_restored, C84_patch_restored. reflexivity. Qed.

(** ** Examples *)
Example C84_dense_example : exists st, repeated_dense_stats true 2 [2; 1]%nat {| shape := [2; 2]%nat; buf := INR |} {| shape := [2; 1]%nat; buf := fun k => (INR k, 1) |} = Some st /\
  in_stats st 0%nat 1%nat = 3 /\ in_stats st 2%nat 1%nat = 2 /\ out_stats st 0%nat 0%nat = 3 / 2.
Proof. rewrite <- (C84_dense true 2 2 1) by (reflexivity || lia). eexists. split; [reflexivity|]. cbn. unfold input_stats, output_stats, cconj_mul. cbn. refine (conj _ (conj _ _)); field. Qed.
Example C84_history_example : List.Forall good_update [(fun _ _ => 4, 95/100, 5/100); (fun _ _ => 1, 95/100, 5/100)] /\
  value (update_factors average_zero [(fun _ _ => 4, 1/2, 1/2); (fun _ _ => 1, 1/2, 1/2)]) 0%nat 0%nat = 2.
Proof. split; [repeat constructor; cbn; lra|]. cbn. field. Qed.
Example C84_vjp_example : let l := {| l_size := 1; l_complex := true; l_fun := fun z _ => (z 0%nat, 2 * z 0%nat) |} in
  exists vals vjp, vjp_rc_with_aux [l] (fun _ => 3) true = Some (vals, vjp) /\ vjp (fun _ _ => 1) 0%nat = (1, 2).
Proof.
  intros l. destruct (C84_vjp [l] (fun _ => 3)) as [_ (vals & vjp & E & _ & H)]; [discriminate|constructor; [intros H; discriminate|constructor]|left; reflexivity|].
  exists vals, vjp. split; [exact E|]. rewrite H. cbn. unfold CDerive, delta. cbn.
  assert (A : Derive (fun t => 3 + t * 1) 0 = 1). { apply is_derive_unique. auto_derive; [exact I|ring]. }
  assert (B : Derive (fun t => 2 * (3 + t * 1)) 0 = 2). { apply is_derive_unique. auto_derive; [exact I|ring]. }
  rewrite A, B. apply cpair; cbn; ring.
Qed.
