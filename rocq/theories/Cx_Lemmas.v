(** Lemmas for C92: complex sparse Jacobians, part by part, and closure of complex derivatives. *)
From Coq Require Import Reals List Arith Bool Lra Lia.
From Coquelicot Require Import Complex.
From Verif Require Import Lin Shape Jet Lap_Spec Lap_Lang Lap_Model Lap_Props Sparse_Model Sparse_Spec Sparse_Lemmas Sparse_Layout Sparse_Rules Fl_Spec Cx_Model Cx_Spec.
Import ListNotations.
Open Scope C_scope.
Local Notation "a =? b" := (Nat.eqb a b).

(** ** Complex sums *)
Lemma C_ext (a c : C) : fst a = fst c -> snd a = snd c -> a = c.
Proof. destruct a, c; cbn; intros -> ->; reflexivity. Qed.
Lemma csum_fst n f : fst (csum n f) = sum n (fun i => fst (f i)). Proof. reflexivity. Qed.
Lemma csum_snd n f : snd (csum n f) = sum n (fun i => snd (f i)). Proof. reflexivity. Qed.
Lemma csum_ext n f g : (forall i, (i < n)%nat -> f i = g i) -> csum n f = csum n g.
Proof. intros H. unfold csum. f_equal; apply sum_ext; intros i I; rewrite H by exact I; reflexivity. Qed.
Lemma csum_0 n f : (forall i, (i < n)%nat -> f i = RtoC 0) -> csum n f = RtoC 0.
Proof. intros H. unfold csum, RtoC. f_equal; apply sum_0; intros i I; rewrite H by exact I; reflexivity. Qed.
Lemma csum_plus n f g : csum n (fun i => f i + g i) = csum n f + csum n g.
Proof. unfold csum, Cplus. cbn [fst snd]. rewrite !sum_plus. reflexivity. Qed.
Lemma csum_minus n f g : csum n (fun i => f i - g i) = csum n f - csum n g.
Proof. apply C_ext; unfold csum, Cminus, Cplus, Copp; cbn [fst snd]; rewrite sum_plus, sum_opp; reflexivity. Qed.
Lemma csum_scal_l n c f : csum n (fun i => c * f i) = c * csum n f.
Proof.
  apply C_ext; unfold csum, Cmult; cbn [fst snd].
  - rewrite sum_minus, !sum_scal_l. reflexivity.
  - rewrite sum_plus, !sum_scal_l. reflexivity.
Qed.
Lemma csum_scal_r n c f : csum n (fun i => f i * c) = csum n f * c.
Proof. rewrite (csum_ext n _ (fun i => c * f i)) by (intros; ring). rewrite csum_scal_l. ring. Qed.
Lemma csum_swap n m f : csum n (fun i => csum m (fun j => f i j)) = csum m (fun j => csum n (fun i => f i j)).
Proof. unfold csum. cbn [fst snd]. f_equal; apply sum_swap. Qed.
Lemma csum_S n f : csum (S n) f = csum n f + f n. Proof. reflexivity. Qed.
Lemma csum_1 f : csum 1 f = f 0%nat. Proof. rewrite csum_S. apply C_ext; cbn; ring. Qed.
Lemma csum_2 f : csum 2 f = f 0%nat + f 1%nat. Proof. rewrite csum_S, csum_1. reflexivity. Qed.
Lemma fst_plus (a c : C) : fst (a + c) = (fst a + fst c)%R. Proof. reflexivity. Qed.
Lemma fst_scal (a : R) (c : C) : fst (RtoC a * c) = (a * fst c)%R. Proof. cbn. ring. Qed.
Lemma csum_real n f : csum n (fun i => RtoC (f i)) = RtoC (sum n f).
Proof. apply C_ext; cbn; [reflexivity|]. apply sum_0. reflexivity. Qed.

(** ** Expansion of owner blocks *)
Definition cind (i p : nat) : C := RtoC (ind i p).
Definition xspread (b : basis) (S : nat) (i : nat -> nat) (f : nat -> nat -> C) (k : nat) : C :=
  csum S (fun s => cind (i s) (own b k) * f s (crd b k)).
Lemma x_dense_spread b sh t k o : x_to_dense b sh t k o = xspread b (x_slots t) (fun s => owner_id sh (x_owner t s) o) (fun s c => xblk t s c o) k.
Proof. reflexivity. Qed.
Lemma xspread_fst b S i f k : fst (xspread b S i f k) = spread b S i (fun s c => fst (f s c)) k.
Proof. unfold xspread, spread. rewrite csum_fst. apply sum_ext. intros s _. unfold cind. cbn. ring. Qed.
Lemma xspread_snd b S i f k : snd (xspread b S i f k) = spread b S i (fun s c => snd (f s c)) k.
Proof. unfold xspread, spread. rewrite csum_snd. apply sum_ext. intros s _. unfold cind. cbn. ring. Qed.
Lemma xspread_ext b S i i' f f' k : (forall s, (s < S)%nat -> i s = i' s) -> (forall s c, (s < S)%nat -> f s c = f' s c) -> xspread b S i f k = xspread b S i' f' k.
Proof. intros I F. apply csum_ext. intros s H. rewrite (I s H), (F s _ H). reflexivity. Qed.
Lemma xspread_scale b S i f a k : xspread b S i (fun s c => f s c * a) k = xspread b S i f k * a.
Proof. unfold xspread. rewrite <- csum_scal_r. apply csum_ext. intros. ring. Qed.
Lemma xspread_plus b S i f g k : xspread b S i (fun s c => f s c + g s c) k = xspread b S i f k + xspread b S i g k.
Proof. unfold xspread. rewrite <- csum_plus. apply csum_ext. intros. ring. Qed.
Lemma csum_pick n j (c : C) : (j < n)%nat -> csum n (fun s => if j =? s then c else RtoC 0) = c.
Proof.
  intros J. apply C_ext; cbn [csum fst snd].
  - rewrite <- (sum_pick n j (fst c) J). apply sum_ext. intros s _. destruct (j =? s); reflexivity.
  - rewrite <- (sum_pick n j (snd c) J). apply sum_ext. intros s _. destruct (j =? s); reflexivity.
Qed.
Lemma xspread_put b rs owners slots id f o k : good_slots rs owners slots ->
  xspread b (length owners) (fun s => id (nth s owners role0)) (fun s c => x_put slots f s c o) k =
  xspread b (length rs) (fun s => id (nth s rs role0)) (fun s c => f s c o) k.
Proof.
  intros [L G]. unfold xspread, x_put. rewrite L.
  rewrite (csum_ext _ _ (fun s => csum (length rs) (fun i => if nth i slots 0%nat =? s then cind (id (nth i rs role0)) (own b k) * f i (crd b k) o else RtoC 0))).
  2:{ intros s _. rewrite <- csum_scal_l. apply csum_ext. intros i I. destruct (Nat.eqb_spec (nth i slots 0%nat) s) as [E|E]; [|ring].
      destruct (G i I) as [_ V]. rewrite <- E, V. reflexivity. }
  rewrite csum_swap. apply csum_ext. intros i I. apply csum_pick. apply (G i I).
Qed.
(** tr over all coordinates equals the sum over pairs of slots with the same owner *)
Lemma xcross_spread b S i f S' i' f' : wf_basis b -> (forall s, (s < S)%nat -> (i s < b_N b)%nat) -> (forall s, (s < S')%nat -> (i' s < b_N b)%nat) ->
  csum (b_n b) (fun k => xspread b S i f k * xspread b S' i' f' k) =
  csum S (fun s => csum S' (fun s' => if i s =? i' s' then csum (b_C b) (fun c => f s c * f' s' c) else RtoC 0)).
Proof.
  intros W I I'. rewrite (csum_ext _ _ (fun k => csum S (fun s => csum S' (fun s' => (RtoC (ind (i s) (own b k) * ind (i' s') (own b k)) * (f s (crd b k) * f' s' (crd b k))))))).
  2:{ intros k _. unfold xspread. rewrite <- csum_scal_r. apply csum_ext. intros s _. rewrite <- csum_scal_l. apply csum_ext. intros. unfold cind. rewrite RtoC_mult. ring. }
  rewrite csum_swap. apply csum_ext. intros s Hs. rewrite csum_swap. apply csum_ext. intros s' Hs'.
  set (h := fun c => f s c * f' s' c).
  assert (P : forall (pr : C -> R), (forall (x : R) (z : C), pr (Cmult (RtoC x) z) = x * pr z)%R -> (sum (b_n b) (fun k => pr (Cmult (RtoC (ind (i s) (own b k) * ind (i' s') (own b k))) (h (crd b k)))) = ind (i s) (i' s') * sum (b_C b) (fun c => pr (h c)))%R).
  { intros pr PR. rewrite (sum_ext _ _ (fun k => ind (i s) (own b k) * ind (i' s') (own b k) * pr (h (crd b k)))%R) by (intros; apply PR).
    rewrite (W (fun p c => ind (i s) p * ind (i' s') p * pr (h c))%R).
    rewrite (sum_ext (b_N b) _ (fun p => ind (i s) p * ind (i' s') p * sum (b_C b) (fun c => pr (h c)))%R) by (intros p _; apply sum_scal_l).
    rewrite sum_scal_r, sum_ind2 by auto. reflexivity. }
  apply C_ext.
  - etransitivity; [apply (P fst); intros x [z1 z2]; cbn; ring|]. unfold ind. destruct (i s =? i' s'); cbn; ring.
  - etransitivity; [apply (P snd); intros x [z1 z2]; cbn; ring|]. unfold ind. destruct (i s =? i' s'); cbn; ring.
Qed.

(** ** Broadcast operands *)
Lemma x_bcast_slots sh out t : x_slots (x_bcast sh out t) = x_slots t.
Proof. unfold x_slots, x_bcast. cbn. apply map_length. Qed.
Lemma x_bcast_owner sh out t s : (s < x_slots t)%nat -> x_owner (x_bcast sh out t) s = bcast_role sh out (x_owner t s).
Proof. intros S. unfold x_owner, x_bcast. cbn [xowners]. rewrite (nth_indep _ role0 (bcast_role sh out role0)) by (rewrite map_length; exact S). apply map_nth. Qed.
Lemma x_owner_wf b sh t s : Forall (wf_role (b_N b) sh) (xowners t) -> (s < x_slots t)%nat -> wf_role (b_N b) sh (x_owner t s).
Proof. intros F S. rewrite Forall_forall in F. apply F. apply nth_In. exact S. Qed.
Lemma x_owner_ids b sh t o : Forall (wf_role (b_N b) sh) (xowners t) -> (0 < size sh)%nat -> (o < size sh)%nat -> forall s, (s < x_slots t)%nat -> (owner_id sh (x_owner t s) o < b_N b)%nat.
Proof. intros F P O s S. apply owner_id_lt; auto. apply x_owner_wf; auto. Qed.
Lemma x_bcast_spec b sh out t : broadcasts sh out -> (0 < size sh)%nat -> (0 < size out)%nat -> Forall (wf_role (b_N b) sh) (xowners t) ->
  Forall (wf_role (b_N b) out) (xowners (x_bcast sh out t)) /\
  forall k o, (o < size out)%nat -> x_to_dense b out (x_bcast sh out t) k o = x_to_dense b sh t k (bsrc sh out o).
Proof.
  intros B P PO F. assert (H : forall s, (s < x_slots t)%nat -> follows (b_N b) sh out (x_owner t s) (bcast_role sh out (x_owner t s)) (bsrc sh out)).
  { intros s S. apply bcast_follows; auto. apply (x_owner_wf b); auto. }
  split.
  - apply Forall_slots. intros s S. change (length (xowners (x_bcast sh out t))) with (x_slots (x_bcast sh out t)) in S. rewrite x_bcast_slots in S. fold (x_owner (x_bcast sh out t) s). rewrite x_bcast_owner by exact S. apply H. exact S.
  - intros k o O. rewrite !x_dense_spread, x_bcast_slots. apply xspread_ext; [|reflexivity]. intros s S. rewrite x_bcast_owner by exact S. apply H; auto.
Qed.
Lemma x_cross_dense b sh l r o : wf_basis b -> Forall (wf_role (b_N b) sh) (xowners l) -> Forall (wf_role (b_N b) sh) (xowners r) -> (0 < size sh)%nat -> (o < size sh)%nat ->
  x_cross_trace b sh l r o = csum (b_n b) (fun k => x_to_dense b sh l k o * x_to_dense b sh r k o).
Proof.
  intros W FL FR P O. symmetry. apply (xcross_spread b (x_slots l) (fun s => owner_id sh (x_owner l s) o) (fun s c => xblk l s c o) (x_slots r) (fun s => owner_id sh (x_owner r s) o) (fun s c => xblk r s c o)); auto.
  - apply (x_owner_ids b); auto.
  - apply (x_owner_ids b); auto.
Qed.
Lemma x_dense_scale b sh t f x l k o : x_to_dense b sh {| xsx := x; xowners := xowners t; xblk := x_scale t f; xsl := l |} k o = x_to_dense b sh t k o * f o.
Proof. apply (xspread_scale b (x_slots t) (fun s => owner_id sh (x_owner t s) o) (fun s c => xblk t s c o) (f o) k). Qed.
Lemma x_dense_1 b sh t k o : x_slots t = 1%nat -> x_to_dense b sh t k o = cind (owner_id sh (x_owner t 0) o) (own b k) * xblk t 0 (crd b k) o.
Proof. intros S. unfold x_to_dense. rewrite S, csum_1. reflexivity. Qed.
Lemma x_dense_pair b sh x r q f l k o :
  x_to_dense b sh {| xsx := x; xowners := [r; q]; xblk := f; xsl := l |} k o = cind (owner_id sh r o) (own b k) * f 0%nat (crd b k) o + cind (owner_id sh q o) (own b k) * f 1%nat (crd b k) o.
Proof. unfold x_to_dense. cbn [x_slots xowners length]. rewrite csum_2. reflexivity. Qed.
Lemma x_merge_dense b m l r id f g o k : good_slots l (m_owners m) (m_lhs m) -> good_slots r (m_owners m) (m_rhs m) ->
  xspread b (length (m_owners m)) (fun s => id (nth s (m_owners m) role0)) (fun s c => x_merge m f g s c o) k =
  xspread b (length l) (fun s => id (nth s l role0)) (fun s c => f s c o) k + xspread b (length r) (fun s => id (nth s r role0)) (fun s c => g s c o) k.
Proof. intros A B. unfold x_merge. rewrite xspread_plus, (xspread_put b l _ _ id f o k A), (xspread_put b r _ _ id g o k B). reflexivity. Qed.

(** ** Traces *)
(** the sum of two complex 0/1 selectors compares as in the real case *)
Lemma same_selector b sh t o : Forall (wf_role (b_N b) sh) (xowners t) -> (0 < size sh)%nat -> (o < size sh)%nat -> x_slots t = 2%nat ->
  fst (csum (b_N b) (fun p => RtoC (selector sh (x_owner t 0) o p) * RtoC (selector sh (x_owner t 1) o p))) = ind (owner_id sh (x_owner t 0) o) (owner_id sh (x_owner t 1) o).
Proof.
  intros F P O S. rewrite csum_fst. rewrite <- (sum_ind2 (b_N b)).
  - apply sum_ext. intros p _. cbn. unfold selector, ind. ring.
  - apply (x_owner_ids b); auto. lia.
  - apply (x_owner_ids b); auto. lia.
Qed.
Lemma x_trace_T b sh t o : wf_basis b -> (x_slots t = 1%nat \/ x_slots t = 2%nat) -> Forall (wf_role (b_N b) sh) (xowners t) -> (0 < size sh)%nat -> (o < size sh)%nat ->
  x_trace false b sh t o = csum (b_n b) (fun k => x_to_dense b sh t k o * x_to_dense b sh t k o).
Proof.
  intros W S F P O. rewrite <- (x_cross_dense b sh t t o) by auto. unfold x_trace, x_cross_trace. destruct S as [S|S].
  - rewrite S. cbn [Nat.eqb]. rewrite !csum_1. unfold same_ids. rewrite Nat.eqb_refl. reflexivity.
  - rewrite (same_selector b sh t o) by auto. rewrite S. cbn [Nat.eqb]. rewrite !csum_2. unfold same_ids, ind.
    rewrite !Nat.eqb_refl, (Nat.eqb_sym (owner_id sh (x_owner t 1) o)). destruct (owner_id sh (x_owner t 0) o =? owner_id sh (x_owner t 1) o).
    + destruct (Rlt_dec 0 1) as [_|X]; [|exfalso; apply X; lra].
      rewrite (csum_ext (b_C b) (fun c => xblk t 1 c o * xblk t 0 c o) (fun c => xblk t 0 c o * xblk t 1 c o)) by (intros; ring).
      replace (RtoC 2) with (RtoC 1 + RtoC 1) by (rewrite <- RtoC_plus; f_equal; ring). ring.
    + destruct (Rlt_dec 0 0) as [X|_]; [exfalso; lra|]. ring.
Qed.
Definition x_bar (t : xsparse) : xsparse := {| xsx := xsx t; xowners := xowners t; xblk := fun s c o => Cconj (xblk t s c o); xsl := xsl t |}.
Lemma x_bar_dense b sh t k o : x_to_dense b sh (x_bar t) k o = Cconj (x_to_dense b sh t k o).
Proof.
  rewrite !x_dense_spread. change (x_slots (x_bar t)) with (x_slots t). apply C_ext; cbn [Cconj fst snd]; rewrite ?xspread_fst, ?xspread_snd; cbn [x_bar xblk Cconj fst snd]; [reflexivity|].
  unfold spread. rewrite <- sum_opp. apply sum_ext. intros s _. change (x_owner (x_bar t) s) with (x_owner t s). ring.
Qed.
Lemma x_trace_H b sh t o : wf_basis b -> (x_slots t = 1%nat \/ x_slots t = 2%nat) -> Forall (wf_role (b_N b) sh) (xowners t) -> (0 < size sh)%nat -> (o < size sh)%nat ->
  x_trace true b sh t o = RtoC (sum (b_n b) (fun k => fst (x_to_dense b sh t k o) * fst (x_to_dense b sh t k o) + snd (x_to_dense b sh t k o) * snd (x_to_dense b sh t k o))%R).
Proof.
  intros W S F P O. pose proof (x_cross_dense b sh t (x_bar t) o W F F P O) as X. unfold x_trace. f_equal.
  transitivity (fst (csum (b_n b) (fun k => x_to_dense b sh t k o * x_to_dense b sh (x_bar t) k o))).
  2:{ rewrite csum_fst. apply sum_ext. intros k _. rewrite x_bar_dense. unfold Cconj. cbn. ring. }
  rewrite <- X. unfold x_cross_trace. change (x_slots (x_bar t)) with (x_slots t). destruct S as [S|S].
  - rewrite S. cbn [Nat.eqb]. rewrite !csum_1. unfold same_ids. change (x_owner (x_bar t) 0) with (x_owner t 0). rewrite Nat.eqb_refl. reflexivity.
  - rewrite (same_selector b sh t o) by auto. rewrite S. cbn [Nat.eqb]. rewrite !csum_2. unfold same_ids, ind. change (x_owner (x_bar t)) with (x_owner t). cbn [x_bar xblk].
    rewrite !Nat.eqb_refl, (Nat.eqb_sym (owner_id sh (x_owner t 1) o)). destruct (owner_id sh (x_owner t 0) o =? owner_id sh (x_owner t 1) o).
    + destruct (Rlt_dec 0 1) as [_|Y]; [|exfalso; apply Y; lra].
      assert (E : fst (csum (b_C b) (fun c => xblk t 1 c o * Cconj (xblk t 0 c o))) = fst (csum (b_C b) (fun c => xblk t 0 c o * Cconj (xblk t 1 c o)))).
      { rewrite !csum_fst. apply sum_ext. intros c _. unfold Cconj. cbn. ring. }
      rewrite !fst_plus, fst_scal, E. ring.
    + destruct (Rlt_dec 0 0) as [Y|_]; [exfalso; lra|]. rewrite !fst_plus. cbn [RtoC fst]. ring.
Qed.

(** ** Complex derivatives of sums, products and components *)
Section gl.
Variables (n : nat) (w p : vec).
Notation cgl := (complex_gradient_and_laplacian n w p).
Notation gl := (gradient_and_laplacian n w p).
Lemma cgl_eq f x J L x' J' L' : cgl f x J L -> x = x' -> (forall k, (k < n)%nat -> J k = J' k) -> L = L' -> cgl f x' J' L'.
Proof.
  intros [A B] E EJ EL. subst. split; eapply gl_eq; eauto; intros k K; cbn; rewrite (EJ k K); reflexivity.
Qed.
Lemma cgl_ext f g x J L : (forall q, f q = g q) -> cgl f x J L -> cgl g x J L.
Proof. intros E [A B]. split; [apply (gl_ext n w p (fun q => fst (f q))); [|exact A]|apply (gl_ext n w p (fun q => snd (f q))); [|exact B]]; intros q; rewrite E; reflexivity. Qed.
Lemma cgl_const a : cgl (fun _ => a) a (fun _ => RtoC 0) (RtoC 0).
Proof. split; cbn; apply gl_const. Qed.
Lemma cgl_value f x J L : cgl f x J L -> x = f p.
Proof. intros [A B]. apply C_ext; [exact (gl_value _ _ _ _ _ _ _ A)|exact (gl_value _ _ _ _ _ _ _ B)]. Qed.
Lemma cgl_plus f g x J L x' J' L' : cgl f x J L -> cgl g x' J' L' -> cgl (fun q => f q + g q) (x + x') (fun k => J k + J' k) (L + L').
Proof. intros [A B] [A' B']. split; [exact (gl_plus n w p _ _ _ _ _ _ _ _ A A')|exact (gl_plus n w p _ _ _ _ _ _ _ _ B B')]. Qed.
Lemma cgl_mult f g x J L x' J' L' : cgl f x J L -> cgl g x' J' L' ->
  cgl (fun q => f q * g q) (x * x') (fun k => J k * x' + J' k * x) (L * x' + L' * x + RtoC 2 * csum n (fun k => J k * J' k)).
Proof.
  intros [A B] [A' B']. split.
  - pose proof (gl_minus n w p _ _ _ _ _ _ _ _ (gl_mult n w p _ _ _ _ _ _ _ _ A A') (gl_mult n w p _ _ _ _ _ _ _ _ B B')) as M.
    eapply gl_eq; [exact M| | |].
    + destruct x, x'; cbn; ring.
    + intros k K. destruct x, x'; cbn; ring.
    + unfold csum, Cmult, Cplus. cbn [fst snd RtoC]. rewrite sum_minus. set (s1 := sum n (fun k => fst (J k) * fst (J' k))%R). set (s2 := sum n (fun k => snd (J k) * snd (J' k))%R). set (s3 := sum n _). destruct x, x', L, L'; cbn [fst snd]; ring.
  - pose proof (gl_plus n w p _ _ _ _ _ _ _ _ (gl_mult n w p _ _ _ _ _ _ _ _ A B') (gl_mult n w p _ _ _ _ _ _ _ _ B A')) as M.
    eapply gl_eq; [apply (gl_ext n w p (fun q => fst (f q) * snd (g q) + snd (f q) * fst (g q))%R); [|exact M]| | |].
    + intros q. cbn. ring.
    + destruct x, x'; cbn; ring.
    + intros k K. destruct x, x'; cbn; ring.
    + unfold csum, Cmult, Cplus. cbn [fst snd RtoC]. rewrite sum_plus. set (s1 := sum n (fun k => fst (J k) * snd (J' k))%R). set (s2 := sum n (fun k => snd (J k) * fst (J' k))%R). set (s3 := sum n _). destruct x, x', L, L'; cbn [fst snd]; ring.
Qed.
Lemma cgl_scal c f x J L : cgl f x J L -> cgl (fun q => c * f q) (c * x) (fun k => c * J k) (c * L).
Proof.
  intros H. eapply cgl_eq; [exact (cgl_mult _ _ _ _ _ _ _ _ (cgl_const c) H)|reflexivity|intros; cbn beta; ring|].
  cbn beta. rewrite (csum_0 n (fun k => RtoC 0 * J k)) by (intros; cbn beta; ring). ring.
Qed.
(** A complex differentiable function of a complex quantity. *)
Lemma derivative_total f z d : complex_derivative f z d ->
  total 2 (fun v => fst (f (v 0%nat, v 1%nat))) (fun a => if a =? 0 then fst z else snd z) (fun a => if a =? 0 then fst d else (- snd d)%R).
Proof.
  intros H eps E. destruct (H eps E) as (del & P & Hd). exists (del / 2)%R. split; [lra|]. intros u Hu. cbn [sum Nat.eqb].
  set (v := (u 0%nat, u 1%nat) : C). pose proof (Hu 0%nat ltac:(lia)) as U0. pose proof (Hu 1%nat ltac:(lia)) as U1. cbn [Nat.eqb] in U0, U1.
  assert (M : (Cmod (v - z)%C <= Rabs (u 0%nat - fst z) + Rabs (u 1%nat - snd z))%R).
  { apply Rsqr_incr_0_var.
    - unfold Cmod. rewrite Rsqr_sqrt by (apply Rplus_le_le_0_compat; apply pow2_ge_0). cbn. unfold Rsqr.
      pose proof (Rabs_pos (u 0%nat - fst z)). pose proof (Rabs_pos (u 1%nat - snd z)).
      pose proof (Rsqr_abs (u 0%nat - fst z)) as A1. pose proof (Rsqr_abs (u 1%nat - snd z)) as A2. unfold Rsqr in A1, A2. nra.
    - pose proof (Rabs_pos (u 0%nat - fst z)). pose proof (Rabs_pos (u 1%nat - snd z)). lra. }
  assert (MD : (Cmod (v - z)%C < del)%R) by lra. specialize (Hd v MD). fold v.
  replace (if 0 =? 0 then fst z else snd z)%nat with (fst z) in * by reflexivity.
  replace (fst (f v) - fst (f (fst z, snd z)) - (0 + fst d * (u 0%nat - fst z) + - snd d * (u 1%nat - snd z)))%R with (fst (f v - f z - d * (v - z))%C) by (destruct z, d; cbn; ring).
  pose proof (Rmax_Cmod (f v - f z - d * (v - z))) as RM. pose proof (Rmax_l (Rabs (fst (f v - f z - d * (v - z)))) (Rabs (snd (f v - f z - d * (v - z))))) as RL.
  apply (Rle_trans _ (eps * Cmod (v - z)%C)); [lra|]. apply Rmult_le_compat_l; lra.
Qed.
Lemma derivative_scal c f z d : complex_derivative f z d -> complex_derivative (fun u => c * f u) z (c * d).
Proof.
  intros H eps E. pose proof (Cmod_ge_0 c) as M. destruct (H (eps / (Cmod c + 1))%R) as (del & P & Hd); [apply Rdiv_lt_0_compat; lra|].
  exists del. split; [exact P|]. intros u U. specialize (Hd u U). replace (c * f u - c * f z - c * d * (u - z)) with (c * (f u - f z - d * (u - z))) by ring.
  rewrite Cmod_mult. pose proof (Cmod_ge_0 (u - z)). apply (Rle_trans _ (Cmod c * (eps / (Cmod c + 1) * Cmod (u - z)%C))); [apply Rmult_le_compat_l; auto|].
  replace (Cmod c * (eps / (Cmod c + 1) * Cmod (u - z)%C))%R with (eps * Cmod (u - z)%C * (Cmod c / (Cmod c + 1)))%R by (field; lra).
  rewrite <- (Rmult_1_r (eps * Cmod (u - z)%C)) at 2. apply Rmult_le_compat_l; [nra|]. apply Rmult_le_reg_r with (Cmod c + 1)%R; [lra|]. replace (Cmod c / (Cmod c + 1) * (Cmod c + 1))%R with (Cmod c) by (field; lra). lra.
Qed.
Lemma holomorphic_scal c D f f1 f2 : holomorphic D f f1 f2 -> holomorphic D (fun u => c * f u) (fun u => c * f1 u) (fun u => c * f2 u).
Proof. intros [O H]. split; [exact O|]. intros z Z. split; [apply (derivative_scal c f)|apply (derivative_scal c f1)]; apply H; exact Z. Qed.
Lemma total_ext m f v v' g g' : (forall a, (a < m)%nat -> v a = v' a) -> (forall x y, (forall a, (a < m)%nat -> x a = y a) -> f x = f y) -> (forall a, (a < m)%nat -> g a = g' a) -> total m f v g -> total m f v' g'.
Proof.
  intros V X G T eps E. destruct (T eps E) as (del & P & H). exists del. split; [exact P|]. intros u U. rewrite <- (X v v' V).
  rewrite <- (sum_ext m (fun a => g a * (u a - v a))%R (fun a => g' a * (u a - v' a))%R) by (intros a A; cbn beta; rewrite (V a A), (G a A); reflexivity).
  rewrite <- (sum_ext m (fun a => Rabs (u a - v a)) (fun a => Rabs (u a - v' a))) by (intros a A; cbn beta; rewrite (V a A); reflexivity). apply H. intros a A. rewrite (V a A). auto.
Qed.
Lemma cgl_holo_re D f f1 f2 g x J L : holomorphic D f f1 f2 -> D x -> cgl g x J L ->
  gl (fun q => fst (f (g q))) (fst (f x)) (fun k => fst (f1 x * J k)) (fst (f1 x * L + f2 x * csum n (fun k => J k * J k))).
Proof.
  intros [O H] DX [A B]. set (at2 := fun v : vec => (v 0%nat, v 1%nat) : C). set (v0 := fun a : nat => if a =? 0 then fst x else snd x).
  assert (XV : at2 v0 = x) by (destruct x; reflexivity).
  pose (G := fun (v : vec) (a : nat) => if a =? 0 then fst (f1 (at2 v)) else (- snd (f1 (at2 v)))%R).
  pose (Hs := fun a c : nat => if a =? 0 then (if c =? 0 then fst (f2 x) else - snd (f2 x))%R else (if c =? 0 then - snd (f2 x) else - fst (f2 x))%R).
  assert (CL : forall v u : vec, (forall a, (a < 2)%nat -> v a = u a) -> at2 v = at2 u) by (intros v u E; unfold at2; rewrite (E 0%nat), (E 1%nat) by lia; reflexivity).
  pose proof (gl_general n w p 2 (fun v => fst (f (at2 v))) G Hs (fun v => D (at2 v)) (fun a q => if a =? 0 then fst (g q) else snd (g q)) v0
     (fun a k => if a =? 0 then fst (J k) else snd (J k)) (fun a => if a =? 0 then fst L else snd L)) as GG.
  eapply gl_eq; [eapply gl_ext; [|apply GG]| | |].
  - intros q. cbn beta. unfold at2. cbn [Nat.eqb]. rewrite <- surjective_pairing. reflexivity.
  - intros v Dv. destruct (O _ Dv) as (e & E & Ho). exists (e / 2)%R. split; [lra|]. intros u U. apply Ho.
    pose proof (U 0%nat ltac:(lia)) as U0. pose proof (U 1%nat ltac:(lia)) as U1. unfold at2.
    apply (Rle_lt_trans _ (Rabs (u 0%nat - v 0%nat) + Rabs (u 1%nat - v 1%nat))); [|lra].
    apply Rsqr_incr_0_var.
    + unfold Cmod. rewrite Rsqr_sqrt by (apply Rplus_le_le_0_compat; apply pow2_ge_0). cbn. unfold Rsqr.
      pose proof (Rabs_pos (u 0%nat - v 0%nat)). pose proof (Rabs_pos (u 1%nat - v 1%nat)).
      pose proof (Rsqr_abs (u 0%nat - v 0%nat)) as A1. pose proof (Rsqr_abs (u 1%nat - v 1%nat)) as A2. unfold Rsqr in A1, A2. nra.
    + pose proof (Rabs_pos (u 0%nat - v 0%nat)). pose proof (Rabs_pos (u 1%nat - v 1%nat)). lra.
  - intros v Dv. destruct (H _ Dv) as [H1 _]. apply derivative_total in H1. eapply total_ext; [| | |exact H1].
    + intros [|[|a]] La; [reflexivity|reflexivity|lia].
    + intros u u' E. change (fst (f (at2 u)) = fst (f (at2 u'))). rewrite (CL u u' E). reflexivity.
    + intros [|[|a]] La; [reflexivity|reflexivity|lia].
  - cbn beta. rewrite XV. exact DX.
  - destruct (H x DX) as [_ H2]. intros [|[|a]] La; [| |lia].
    + apply derivative_total in H2. eapply total_ext; [| | |exact H2].
      * intros [|[|a]] La'; [reflexivity|reflexivity|lia].
      * intros u u' E. change (fst (f1 (at2 u)) = fst (f1 (at2 u'))). rewrite (CL u u' E). reflexivity.
      * intros [|[|a]] La'; [reflexivity|reflexivity|lia].
    + apply (derivative_scal Ci) in H2. apply derivative_total in H2.
      assert (Q : forall u : vec, fst (Ci * f1 (at2 u)) = G u 1%nat) by (intros u; unfold G; cbn; ring).
      intros eps E. destruct (H2 eps E) as (del & P & K). exists del. split; [exact P|]. intros u U. fold (at2 u). specialize (K u). rewrite <- !Q. cbn [sum] in *. fold (at2 u) in K.
      assert (K' := K (fun a A => match a as a0 return (a0 < 2)%nat -> (Rabs (u a0 - v0 a0) < del)%R -> (Rabs (u a0 - (if a0 =? 0 then fst x else snd x)) < del)%R with _ => fun _ z => z end A (U a A))). clear K.
      rewrite XV. replace (f1 (if 0 =? 0 then fst x else snd x, if 1 =? 0 then fst x else snd x))%nat with (f1 x) in K' by (destruct x; reflexivity).
      eapply Rle_trans; [|exact K']. apply Req_le. f_equal. unfold v0, Hs. cbn. ring.
  - intros u u' E. cbn beta. rewrite (CL u u' E). reflexivity.
  - intros [|[|a]] La; [exact A|exact B|lia].
  - cbn beta. rewrite XV. reflexivity.
  - intros k K. unfold G. cbn [sum Nat.eqb]. rewrite XV. cbn. ring.
  - unfold G. cbn [sum Nat.eqb]. rewrite XV. unfold Hs. cbn [Nat.eqb].
    unfold csum, Cmult, Cplus. cbn [fst snd].
    rewrite (sum_ext n _ (fun k => fst (f2 x) * (fst (J k) * fst (J k) - snd (J k) * snd (J k)) - snd (f2 x) * (fst (J k) * snd (J k) + snd (J k) * fst (J k)))%R) by (intros; ring).
    rewrite sum_minus, !sum_scal_l. ring.
Qed.
Lemma cgl_holo D f f1 f2 g x J L : holomorphic D f f1 f2 -> D x -> cgl g x J L ->
  cgl (fun q => f (g q)) (f x) (fun k => f1 x * J k) (f1 x * L + f2 x * csum n (fun k => J k * J k)).
Proof.
  intros H DX G. split; [apply (cgl_holo_re D f f1 f2); auto|].
  pose proof (cgl_holo_re D _ _ _ g x J L (holomorphic_scal (- Ci) D f f1 f2 H) DX G) as K.
  eapply gl_eq; [eapply gl_ext; [|exact K]| | |].
  - intros q. cbn. ring.
  - cbn. ring.
  - intros k _. cbn. ring.
  - cbn. ring.
Qed.
End gl.
