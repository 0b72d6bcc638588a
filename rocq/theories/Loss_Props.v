(** C87: the energy loss of jaqmc_legacy. *)
From Coq Require Import Reals List Bool Arith ZArith String Lra Lia Permutation.
From Verif Require Import Est_Model Est_Props Clip_Props Loss_Spec Loss_Model.
Import ListNotations.
Open Scope R_scope.
Open Scope list_scope.
Local Notation length := List.length.

(** *** Sums over devices *)
Lemma rsum_total l : rsum l = total l. Proof. induction l as [|x l IH]; simpl; auto. Qed.
Lemma total_app a b : total (a ++ b) = total a + total b. Proof. induction a; simpl; lra. Qed.
Lemma total_perm a b : Permutation a b -> total a = total b. Proof. induction 1; simpl; lra. Qed.
Lemma total_concat {A} (f : A -> R) w : rsum (map (fun s => rsum (map f s)) w) = total (map f (List.concat w)).
Proof. induction w as [|s w IH]; simpl; auto. rewrite map_app, total_app, rsum_total. f_equal. exact IH. Qed.
Lemma total_masked l : total (map (fun x : R * bool => fst x * b2r (snd x)) l) = total (map fst (filter snd l)).
Proof. induction l as [|[x []] l IH]; simpl; auto; rewrite IH; simpl; lra. Qed.
Lemma total_count {A} (f : A -> bool) l : total (map (fun x => b2r (f x)) l) = INR (length (filter f l)).
Proof. induction l as [|x l IH]; [reflexivity|]. cbn [map total filter]. rewrite IH. destruct (f x); cbn [b2r length]; [rewrite S_INR|]; lra. Qed.
Lemma total_scal c l : total (map (fun x => c * x) l) = c * total l. Proof. induction l; simpl; lra. Qed.
Lemma total_scal_f {A} c (f : A -> R) l : total (map (fun x => c * f x) l) = c * total (map f l). Proof. induction l; simpl; lra. Qed.
Lemma total_plus {A} (f g : A -> R) l : total (map (fun x => f x + g x) l) = total (map f l) + total (map g l). Proof. induction l; simpl; lra. Qed.
Lemma total_minus {A} (f g : A -> R) l : total (map (fun x => f x - g x) l) = total (map f l) - total (map g l). Proof. induction l; simpl; lra. Qed.
Lemma total_const {A} c (l : list A) : total (map (fun _ => c) l) = INR (length l) * c.
Proof. induction l as [|x l IH]; [simpl; lra|]. cbn [map total length]. rewrite IH, S_INR. lra. Qed.
Lemma total_nonneg l : Forall (fun x => 0 <= x) l -> 0 <= total l. Proof. induction 1; simpl; lra. Qed.

Definition mean_or_nan (l : list R) : option R := match l with [] => None | _ => Some (mean l) end.
Lemma pmm w : pmean_with_mask w = mean_or_nan (map fst (filter snd (List.concat w))).
Proof.
  unfold pmean_with_mask, div. rewrite !total_concat, total_masked, (total_count snd).
  generalize (filter snd (List.concat w)). intros [|x k]; cbn [map mean_or_nan].
  - destruct (Req_EM_T _ 0) as [|N]; [reflexivity|]. exfalso. apply N. reflexivity.
  - destruct (Req_EM_T _ 0) as [N|_].
    + exfalso. change 0 with (INR 0) in N. apply INR_eq in N. discriminate.
    + unfold mean. do 2 f_equal. cbn [List.length]. rewrite map_length. reflexivity.
Qed.
Lemma psm w : pmean_with_structure_mask w = mean_or_nan (map fst (filter snd (List.concat w))).
Proof. exact (pmm w). Qed.
Lemma concat_mm {A B} (f : A -> B) w : List.concat (map (map f) w) = map f (List.concat w).
Proof. symmetry. apply concat_map. Qed.
Lemma ltb_true x y : ltb x y = true <-> x < y.
Proof. unfold ltb. destruct (Rlt_dec x y); split; intros; auto; discriminate || contradiction. Qed.
Lemma ltb_false x y : ltb x y = false <-> y <= x.
Proof. unfold ltb. destruct (Rlt_dec x y); split; intros; auto; try discriminate; lra. Qed.

(** *** Specification: the finite local energies, in order. *)
Fixpoint finite_values (l : list fl) : list R :=
  match l with [] => [] | Fin x :: t => x :: finite_values t | _ :: t => finite_values t end.
(** Those within [width] mean absolute deviations of the mean. *)
Definition inliers (width : R) (l : list R) : list R :=
  filter (fun x => ltb (Rabs (x - mean l)) (width * deviation l)) l.
Lemma inliers_spec width l x : In x (inliers width l) <-> In x l /\ Rabs (x - mean l) < width * deviation l.
Proof. unfold inliers. rewrite filter_In, ltb_true. tauto. Qed.

Lemma kept_finite {A} (f : R -> A) big l : map fst (filter snd (map (fun v => (f (nan_to_num big v), isfinite v)) l)) = map f (finite_values l).
Proof. induction l as [|[x| |p] l IH]; simpl; auto. f_equal. exact IH. Qed.
Lemma window_ltb m w d x : ltb (m - w * d) x && ltb x (m + w * d) = ltb (Rabs (x - m)) (w * d).
Proof.
  apply eq_true_iff_eq. rewrite andb_true_iff, !ltb_true. split; intros H.
  - apply Rabs_def1; lra.
  - apply Rabs_def2 in H. lra.
Qed.
Lemma mean_or_nan_some l : l <> [] -> mean_or_nan l = Some (mean l). Proof. destruct l; [congruence|reflexivity]. Qed.
Lemma mean_or_nan_none l : mean_or_nan l = None <-> l = []. Proof. destruct l; simpl; split; auto; discriminate. Qed.

(** The walkers that enter the loss and its gradient. *)
Definition selected (rm : bool) (width : R) (e : list (list fl)) : list R :=
  let l := finite_values (List.concat e) in if rm && ltb 0 width then inliers width l else l.

Lemma filter_window big width m d l :
  map fst (filter snd (map (fun v => (nan_to_num big v, ltb (m - width * d) (nan_to_num big v) && ltb (nan_to_num big v) (m + width * d) && isfinite v)) l))
  = filter (fun x => ltb (Rabs (x - m)) (width * d)) (finite_values l).
Proof.
  induction l as [|[x| |p] l IH]; cbn [map filter snd fst finite_values nan_to_num isfinite]; auto; rewrite ?andb_false_r, ?andb_true_r; auto.
  rewrite window_ltb. destruct (ltb (Rabs (x - m)) (width * d)); simpl; [f_equal|]; exact IH.
Qed.
Lemma filter_false {A} (l : list A) (f : A -> R) : map fst (filter snd (map (fun x => (f x, false)) l)) = [].
Proof. induction l; simpl; auto. Qed.

Lemma vmc_kept big rm width e : map fst (filter snd (List.concat (vmc_mask big rm width e))) = selected rm width e.
Proof.
  unfold vmc_mask, selected. destruct (rm && ltb 0 width).
  - rewrite pmm, concat_mm, (kept_finite (fun x => x)), map_id. set (l := finite_values (List.concat e)).
    destruct l as [|x0 l0] eqn:E.
    + cbn [mean_or_nan inliers filter]. rewrite !concat_mm, map_map. apply filter_false.
    + rewrite <- E. rewrite mean_or_nan_some by congruence. rewrite pmm, !concat_mm, map_map. cbn [fst snd].
      rewrite (kept_finite (fun x => Rabs (x - mean l))). fold l. rewrite mean_or_nan_some by (rewrite E; discriminate).
      rewrite !concat_mm, map_map. cbn [fst snd]. rewrite filter_window. reflexivity.
  - rewrite concat_mm, (kept_finite (fun x => x)), map_id. reflexivity.
Qed.

(** The reported loss and variance are the mean and the variance of the selected local
    energies of all devices; NaN if there is none. *)
Theorem C87_energy : forall big rm width e, let l := selected rm width e in
  (l <> [] -> vmc_loss big rm width e = Some (mean l) /\ vmc_variance big rm width e = Some (mean (map (fun x => (x - mean l) * (x - mean l)) l))) /\
  (l = [] -> vmc_loss big rm width e = None /\ vmc_variance big rm width e = None).
Proof.
  intros big rm width e l. unfold vmc_variance. assert (L : vmc_loss big rm width e = mean_or_nan l).
  { unfold vmc_loss. rewrite pmm, vmc_kept. reflexivity. }
  rewrite L. split; intros H.
  - rewrite mean_or_nan_some by exact H. split; [reflexivity|].
    rewrite pmm, concat_mm.
    assert (K : forall l0 : list (R * bool), map fst (filter snd (map (fun x => ((fst x - mean l) * (fst x - mean l), snd x)) l0))
      = map (fun x => (x - mean l) * (x - mean l)) (map fst (filter snd l0))).
    { induction l0 as [|[x []] l0 IH]; simpl; auto. f_equal. exact IH. }
    rewrite K, vmc_kept. fold l. apply mean_or_nan_some. destruct l; [congruence|discriminate].
  - rewrite H. split; reflexivity.
Qed.

(** NaN and infinite local energies have no effect, nor has the way the walkers are spread
    over the devices. *)
Lemma finite_perm a b : Permutation a b -> Permutation (finite_values a) (finite_values b).
Proof.
  induction 1 as [|x a b H IH|x y l|a b c H1 IH1 H2 IH2]; simpl; auto.
  - destruct x; auto.
  - destruct x, y; auto. apply perm_swap.
  - eapply perm_trans; eauto.
Qed.
Lemma mean_perm a b : Permutation a b -> mean a = mean b.
Proof. intros H. unfold mean. rewrite (total_perm _ _ H), (Permutation_length H). reflexivity. Qed.
Lemma perm_filter {A} (f : A -> bool) a b : Permutation a b -> Permutation (filter f a) (filter f b).
Proof.
  induction 1 as [|x a b H IH|x y l|a b c H1 IH1 H2 IH2]; simpl; auto.
  - destruct (f x); auto.
  - destruct (f x), (f y); auto. apply perm_swap.
  - eapply perm_trans; eauto.
Qed.
Theorem C87_independent : forall big big' rm width e e', Permutation (finite_values (List.concat e)) (finite_values (List.concat e')) ->
  vmc_loss big rm width e = vmc_loss big' rm width e' /\ vmc_variance big rm width e = vmc_variance big' rm width e'.
Proof.
  intros big big' rm width e e' H.
  assert (P : Permutation (selected rm width e) (selected rm width e')).
  { unfold selected. cbv zeta. destruct (rm && ltb 0 width); [|exact H]. unfold inliers.
    assert (M := mean_perm _ _ H).
    assert (D : deviation (finite_values (List.concat e)) = deviation (finite_values (List.concat e'))).
    { unfold deviation. rewrite M. apply mean_perm, Permutation_map, H. }
    rewrite M, D. apply perm_filter, H. }
  destruct (C87_energy big rm width e) as [A1 A2], (C87_energy big' rm width e') as [B1 B2]. cbv zeta in *.
  destruct (selected rm width e) as [|x l] eqn:E.
  - apply Permutation_nil in P. destruct (A2 eq_refl) as [-> ->], (B2 P) as [-> ->]. auto.
  - assert (N : selected rm width e' <> []) by (intros Z; rewrite Z in P; apply Permutation_sym, Permutation_nil in P; discriminate).
    destruct (A1 ltac:(discriminate)) as [-> ->], (B1 N) as [-> ->]. rewrite (mean_perm _ _ P). split; [reflexivity|].
    f_equal. apply mean_perm, Permutation_map, P.
Qed.

(** With a width above 1, unless all finite local energies are equal, some survive. *)
Lemma mean_const_dev l : l <> [] -> total (map (fun x => x - mean l) l) = 0.
Proof.
  intros H. rewrite (total_minus (fun x => x) (fun _ => mean l)), total_const, map_id. unfold mean. field.
  apply not_0_INR. destruct l; [congruence|discriminate].
Qed.
Lemma mean_ge (f : R -> R) l c : l <> [] -> (forall x, In x l -> c <= f x) -> c <= mean (map f l).
Proof.
  intros N H. assert (0 < INR (length l)) by (apply lt_0_INR; destruct l; [congruence|simpl; lia]).
  assert (T : INR (length l) * c <= total (map f l)).
  { clear N. rewrite <- (total_const c l). clear H0. induction l as [|x l IH]; simpl; [lra|].
    pose proof (H x (or_introl eq_refl)). specialize (IH (fun y Hy => H y (or_intror Hy))). lra. }
  unfold mean. rewrite map_length. apply Rmult_le_reg_r with (INR (length l)); [lra|]. field_simplify; lra.
Qed.
Lemma deviation_zero l : deviation l = 0 -> forall x, In x l -> x = mean l.
Proof.
  intros D x Hx. assert (N : l <> []) by (intros ->; contradiction).
  assert (T : total (map (fun x => Rabs (x - mean l)) l) = 0).
  { unfold deviation, mean in D. rewrite map_length in D. set (s := total _) in D.
    assert (INR (length l) <> 0) by (apply not_0_INR; destruct l; [congruence|discriminate]).
    apply Rmult_integral in D. destruct D as [D|D]; [exact D|]. exfalso. apply (Rinv_neq_0_compat _ H). exact D. }
  clear D N. set (m := mean l) in *. clearbody m. revert T. induction l as [|y l IH]; [contradiction|]. simpl.
  intros T. assert (0 <= Rabs (y - m)) by apply Rabs_pos.
  assert (0 <= total (map (fun x => Rabs (x - m)) l)).
  { apply total_nonneg, Forall_map, Forall_forall. intros. apply Rabs_pos. }
  destruct Hx as [->|Hx]; [|apply IH; auto; lra]. assert (Rabs (x - m) = 0) by lra.
  destruct (Req_dec (x - m) 0) as [|NZ]; [lra|]. exfalso. apply (Rabs_no_R0 _ NZ H1).
Qed.
Theorem C87_survivor : forall big width e x y, 1 < width -> In x (finite_values (List.concat e)) -> In y (finite_values (List.concat e)) -> x <> y ->
  exists v, vmc_loss big true width e = Some v.
Proof.
  intros big width e x y W X Y N. destruct (C87_energy big true width e) as [A _]. cbv zeta in A.
  unfold selected in A. cbv zeta in A. rewrite (proj2 (ltb_true 0 width)) in A by lra. cbn [andb] in A.
  set (l := finite_values (List.concat e)) in *. eexists. apply A. clear A. intros Z.
  assert (L : l <> []) by (intros E; rewrite E in X; contradiction).
  assert (D0 : deviation l <> 0) by (intros D; apply N; rewrite (deviation_zero l D x X), (deviation_zero l D y Y); reflexivity).
  assert (D1 : 0 <= deviation l) by (apply mean_ge; auto; intros; apply Rabs_pos).
  assert (G : width * deviation l <= deviation l).
  { unfold deviation at 2. apply mean_ge; auto. intros z Hz. destruct (Rlt_dec (Rabs (z - mean l)) (width * deviation l)) as [B|B]; [|lra].
    exfalso. assert (I : In z (inliers width l)) by (apply inliers_spec; auto). rewrite Z in I. contradiction. }
  nra.
Qed.
(** Equal finite local energies (an eigenstate) are all removed: the loss is NaN. *)
Theorem C87_eigenstate_refuted : forall big width e c, 0 < width -> (forall x, In x (finite_values (List.concat e)) -> x = c) ->
  vmc_loss big true width e = None.
Proof.
  intros big width e c W H. apply (proj2 (C87_energy big true width e)). unfold selected. cbv zeta. rewrite (proj2 (ltb_true 0 width)) by lra. cbn [andb].
  set (l := finite_values (List.concat e)) in *.
  assert (E : l = [] \/ l <> []) by (destruct l; [left; reflexivity|right; discriminate]).
  destruct E as [-> | N]; [reflexivity|].
  assert (EC : forall m, (forall x, In x m -> x = c) -> m = map (fun _ => c) m).
  { induction m as [|x m IH]; intros HH; simpl; auto. rewrite (HH x) at 1 by (left; auto). f_equal. apply IH. intros. apply HH. right; auto. }
  assert (I0 : INR (length l) <> 0) by (apply not_0_INR; destruct l; [congruence|discriminate]).
  assert (M : mean l = c) by (unfold mean; rewrite (EC l H) at 1; rewrite total_const; field; exact I0).
  assert (D : deviation l = 0).
  { unfold deviation. rewrite M. assert (E : map (fun x => Rabs (x - c)) l = map (fun _ => 0) l).
    { apply map_ext_in. intros x Hx. rewrite (H x Hx), Rminus_diag_eq, Rabs_R0 by reflexivity. reflexivity. }
    rewrite E. unfold mean. rewrite map_length, total_const. field. exact I0. }
  destruct (inliers width l) as [|x k] eqn:E; auto. exfalso.
  assert (I : In x (inliers width l)) by (rewrite E; left; auto). apply inliers_spec in I. rewrite D in I.
  pose proof (Rabs_pos (x - mean l)). lra.
Qed.

(** *** Partitions *)
Lemma rows_concat {A} n k (l : list A) : length l = (n * k)%nat -> List.concat (rows n k l) = l.
Proof.
  revert l. induction n as [|n IH]; intros l H; simpl in *.
  - destruct l; [reflexivity|discriminate].
  - rewrite IH by (rewrite skipn_length; lia). apply firstn_skipn.
Qed.
Lemma rows_batch {A B V} (energy : A -> B -> V) n k (a : list A) (b : list B) : length a = (n * k)%nat -> length b = (n * k)%nat ->
  List.concat (map (fun p => map (fun q => energy (fst q) (snd q)) (combine (fst p) (snd p))) (combine (rows n k a) (rows n k b)))
  = map (fun q => energy (fst q) (snd q)) (combine a b).
Proof.
  revert a b. induction n as [|n IH]; intros a b HA HB; simpl in *.
  - destruct a; [reflexivity|discriminate].
  - rewrite IH by (rewrite skipn_length; lia). rewrite <- map_app. f_equal.
    rewrite <- (firstn_skipn k a) at 3. rewrite <- (firstn_skipn k b) at 3.
    assert (LF : length (firstn k a) = length (firstn k b)) by (rewrite !firstn_length; lia).
    revert LF. generalize (firstn k a) (firstn k b) (skipn k a) (skipn k b). clear.
    induction l as [|x l IH]; intros m p q H; destruct m; simpl in *; try discriminate; auto. f_equal. apply IH. lia.
Qed.
(** Folding the walkers to save memory changes nothing: walker i gets the local energy of its
    position and the i-th key. *)
Theorem C87_partition {A B V} : forall (energy : A -> B -> V) p keys data, length keys = length data -> (p <> 0)%nat -> Nat.divide p (length data) ->
  local_energies p energy keys data = map (fun q => energy (fst q) (snd q)) (combine keys data).
Proof.
  intros energy p keys data HL P [n D]. unfold local_energies. destruct (Nat.ltb_spec 1 p) as [H|H]; [|reflexivity].
  rewrite D, Nat.div_mul by exact P. apply rows_batch; lia.
Qed.

(** *** Gradient *)
Lemma kept_masked f ws : map fst (filter snd (List.concat (masked f ws))) = map f (filter kept (List.concat ws)).
Proof.
  unfold masked. rewrite concat_mm. induction (List.concat ws) as [|x l IH]; simpl; auto. destruct (kept x) eqn:K; simpl; [f_equal|]; exact IH.
Qed.
Lemma total_kept (f : wk -> R) l : total (map (fun x => f x * b2r (kept x)) l) = total (map f (filter kept l)).
Proof. induction l as [|x l IH]; simpl; auto. destruct (kept x); simpl; rewrite IH; simpl; lra. Qed.
Lemma pmean_somes l : l <> [] -> pmean (map Some l) = Some (mean l).
Proof.
  intros H. unfold pmean, nv. match goal with |- (if ?b then _ else _) = _ => assert (E : b = true) end.
  { apply forallb_forall. intros x Hx. apply in_map_iff in Hx. destruct Hx as [y [<- _]]. reflexivity. }
  rewrite E, valid_map_Some. unfold rmean, mean. rewrite rsum_total. reflexivity.
Qed.
(** Devices with equal numbers: the mean of the devices' means is the mean of all. *)
Lemma mean_of_means {A} (f g : list A -> R) (n : R) ws : n <> 0 -> (forall s, In s ws -> g s = n) ->
  map (fun s => div (f s) (g s)) ws = map Some (map (fun s => f s / n) ws).
Proof.
  intros N H. rewrite map_map. apply map_ext_in. intros s Hs. unfold div. rewrite (H s Hs). destruct (Req_EM_T n 0); [contradiction|reflexivity].
Qed.
Lemma mean_div {A} (f : A -> R) n l : n <> 0 -> mean (map (fun x => f x / n) l) = total (map f l) / (n * INR (length l)).
Proof.
  intros N. unfold mean. rewrite map_length. assert (E : map (fun x => f x / n) l = map (fun x => / n * f x) l) by (apply map_ext; intros; field; exact N).
  rewrite E, total_scal_f. destruct (Req_dec (INR (length l)) 0) as [Z|Z].
  - rewrite Z, Rmult_0_r. unfold Rdiv. rewrite Rinv_0. ring.
  - field. auto.
Qed.
Lemma len_uniform {A} n (ws : list (list A)) : (forall s, In s ws -> length s = n) -> length (List.concat ws) = (length ws * n)%nat.
Proof. induction ws as [|s ws IH]; intros H; simpl; auto. rewrite app_length, IH by (intros; apply H; right; auto). rewrite (H s) by (left; auto). lia. Qed.
Lemma kept_uniform n (ws : list (list wk)) : (forall s, In s ws -> length (filter kept s) = n) -> length (filter kept (List.concat ws)) = (length ws * n)%nat.
Proof. induction ws as [|s ws IH]; intros H; simpl; auto. rewrite filter_app, app_length, IH by (intros; apply H; right; auto). rewrite (H s) by (left; auto). lia. Qed.
Lemma total_cov (f : wk -> R) l : l <> [] -> total (map (fun x => score x * (f x - average f l)) l) = INR (length l) * covariance f score l.
Proof.
  intros N. assert (INR (length l) <> 0) by (apply not_0_INR; destruct l; [congruence|discriminate]).
  unfold covariance at 1, average at 2, mean. rewrite map_length.
  rewrite (map_ext (fun x => score x * (f x - average f l)) (fun x => (f x - average f l) * score x)) by (intros; ring). field. auto.
Qed.

(** No clipping: the gradient is the covariance of the local energy with the derivative of
    log |psi| over the kept walkers, times the fraction of walkers kept. *)
Theorem C87_gradient : forall c n ws, c <= 0 -> ws <> [] -> (0 < n)%nat -> (forall s, In s ws -> length s = n) ->
  let l := filter kept (List.concat ws) in l <> [] ->
  vmc_grad c ws = Some (INR (length l) / INR (length (List.concat ws)) * covariance value score l).
Proof.
  intros c n ws HC W N U l L. unfold vmc_grad, vmc_device_grads. rewrite (proj2 (ltb_false 0 c)) by lra.
  rewrite pmm, kept_masked. fold l. rewrite mean_or_nan_some by (destruct l; [congruence|discriminate]).
  change (mean (map value l)) with (average value l).
  assert (N0 : INR n <> 0) by (apply not_0_INR; lia).
  rewrite (mean_of_means (fun s => rsum (map (fun x => score x * ((value x - average value l) * b2r (kept x))) s)) (fun s => INR (length s)) (INR n) ws N0) by (intros s Hs; rewrite (U s Hs); reflexivity).
  rewrite pmean_somes by (destruct ws; [congruence|discriminate]). f_equal.
  rewrite mean_div by exact N0. rewrite <- rsum_total, total_concat.
  rewrite (map_ext _ (fun x => score x * (value x - average value l) * b2r (kept x))) by (intros; ring).
  rewrite (total_kept (fun x => score x * (value x - average value l))). fold l. rewrite total_cov by exact L.
  rewrite (len_uniform n ws U), mult_INR.
  assert (INR (length ws) <> 0) by (apply not_0_INR; destruct ws; [congruence|discriminate]). field. auto.
Qed.
(** So it is the covariance if no walker is masked... *)
Theorem C87_gradient_all : forall c n ws, c <= 0 -> ws <> [] -> (0 < n)%nat -> (forall s, In s ws -> length s = n) ->
  (forall x, In x (List.concat ws) -> kept x = true) -> vmc_grad c ws = Some (covariance value score (List.concat ws)).
Proof.
  intros c n ws HC W N U K. assert (E : filter kept (List.concat ws) = List.concat ws).
  { revert K. generalize (List.concat ws). induction l as [|x l IH]; intros H; simpl; auto. rewrite (H x) by (left; auto). f_equal. apply IH. intros; apply H; right; auto. }
  assert (LN : INR (length (List.concat ws)) <> 0).
  { rewrite (len_uniform n ws U). apply not_0_INR. destruct ws; [congruence|simpl; nia]. }
  pose proof (C87_gradient c n ws HC W N U) as H. cbv zeta in H. rewrite E in H. rewrite H.
  - f_equal. field. exact LN.
  - intros Z. rewrite Z in LN. apply LN. reflexivity.
Qed.
(** ... and too small otherwise: removing a walker is not the same as not having it. *)
Theorem C87_masked_gradient_refuted : exists a b : wk, kept a = true /\ kept b = true /\
  vmc_grad 0 [[a; b]] = Some 1 /\ forall v s, vmc_grad 0 [[a; b; (v, false, s); (v, false, s)]] = Some (/ 2).
Proof.
  exists (-1, true, -1), (1, true, 1). split; [reflexivity|]. split; [reflexivity|]. split.
  - rewrite (C87_gradient_all 0 2) by (try lra; try lia; try discriminate; first [intros x [<-|[<-|[]]]; reflexivity|intros s [<-|[]]; reflexivity]).
    f_equal. unfold covariance, average, mean, value, score. simpl. lra.
  - intros v s. rewrite (C87_gradient 0 4) by (try lra; try lia; try discriminate; intros t [<-|[]]; reflexivity).
    f_equal. unfold covariance, average, mean, value, score. simpl. lra.
Qed.

(** Clipping: devices with equal numbers of kept walkers give the covariance of the clipped
    local energies, and a derivative that is the same for all walkers (the normalisation of
    psi) gives no gradient. *)
Theorem C87_clipped_gradient : forall c n ws, 0 < c -> ws <> [] -> (0 < n)%nat -> (forall s, In s ws -> length (filter kept s) = n) ->
  let l := filter kept (List.concat ws) in
  let m := median (map value (List.concat ws)) in
  let d := average (fun x => Rabs (value x - m)) l in
  let clipped x := clip (m - c * d) (m + c * d) (value x) in
  vmc_grad c ws = Some (covariance clipped score l) /\
  ((exists k, forall x, In x l -> score x = k) -> vmc_grad c ws = Some 0).
Proof.
  intros c n ws HC W N U l m d clipped.
  assert (LN : length l = (length ws * n)%nat) by (apply kept_uniform; exact U).
  assert (N0 : INR n <> 0) by (apply not_0_INR; lia).
  assert (W0 : INR (length ws) <> 0) by (apply not_0_INR; destruct ws; [congruence|discriminate]).
  assert (L : l <> []) by (intros Z; rewrite Z in LN; simpl in LN; destruct ws; [congruence|simpl in LN; lia]).
  assert (G : vmc_grad c ws = Some (covariance clipped score l)).
  { unfold vmc_grad, vmc_device_grads. rewrite (proj2 (ltb_true 0 c)) by lra. fold m.
    rewrite pmm, kept_masked. fold l. rewrite mean_or_nan_some by (destruct l; [congruence|discriminate]). fold (average (fun x => Rabs (value x - m)) l). fold d.
    change (fun x : wk => clip (m - c * d) (m + c * d) (value x)) with clipped.
    rewrite pmm, kept_masked. fold l. rewrite mean_or_nan_some by (destruct l; [congruence|discriminate]). fold (average clipped l).
    transitivity (pmean (map (fun s => div (rsum (map (fun x => score x * ((clipped x - average clipped l) * b2r (kept x))) s)) (rsum (map (fun x => b2r (kept x)) s))) ws)); [reflexivity|].
    rewrite (mean_of_means (fun s => rsum (map (fun x => score x * ((clipped x - average clipped l) * b2r (kept x))) s)) (fun s => rsum (map (fun x => b2r (kept x)) s)) (INR n) ws N0)
      by (intros s Hs; rewrite rsum_total, (total_count kept), (U s Hs); reflexivity).
    rewrite pmean_somes by (destruct ws; [congruence|discriminate]). f_equal.
    rewrite mean_div by exact N0. rewrite <- rsum_total, total_concat.
    rewrite (map_ext _ (fun x => score x * (clipped x - average clipped l) * b2r (kept x))) by (intros; ring).
    rewrite (total_kept (fun x => score x * (clipped x - average clipped l))). fold l. rewrite total_cov by exact L.
    rewrite LN, mult_INR. field. auto. }
  split; [exact G|]. intros [k K]. rewrite G. f_equal. unfold covariance, average at 1, mean. rewrite map_length.
  rewrite (map_ext_in _ (fun x => k * (clipped x - average clipped l))) by (intros x Hx; rewrite (K x Hx); ring).
  rewrite total_scal_f. assert (Z : total (map (fun x => clipped x - average clipped l) l) = 0).
  { rewrite (total_minus clipped (fun _ => average clipped l)), total_const. unfold average, mean. rewrite map_length. field. rewrite LN, mult_INR. nra. }
  rewrite Z. unfold Rdiv. ring.
Qed.

Ltac sorted := repeat (cbn [sort fold_right insert]; match goal with |- context [Rle_dec ?a ?b] => destruct (Rle_dec a b); try lra end).
Lemma median3 : median [0; 2; 0] = 0.
Proof. unfold median, quantile4. cbn. sorted; cbn; lra. Qed.
Lemma median2 : median [0; 2] = 1.
Proof. unfold median, quantile4. cbn. sorted; cbn; lra. Qed.
Lemma median4 : median [0; 0; 3; 0] = 0.
Proof. unfold median, quantile4. cbn. sorted; cbn; lra. Qed.
Lemma clip_in lo hi x : lo <= x <= hi -> clip lo hi x = x.
Proof. intros [A B]. unfold clip. rewrite Rmax_left, Rmin_left; lra. Qed.
Lemma clip_hi lo hi x : lo <= hi -> hi <= x -> clip lo hi x = hi.
Proof. intros A B. unfold clip. rewrite Rmax_left, Rmin_right; lra. Qed.
Lemma clip_lo lo hi x : lo <= hi -> x <= lo -> clip lo hi x = lo.
Proof. intros A B. unfold clip. rewrite Rmax_right, Rmin_left; lra. Qed.

(** With clipping the centre of the window is the median of all local energies, the masked
    ones included: a NaN (replaced by 0) moves it and changes the gradient. *)
Definition ex_a : wk := (0, true, -1).
Definition ex_b : wk := (2, true, 1).
Definition ex_nan (big s : R) : wk := (nan_to_num big NaN, isfinite NaN, s).
Theorem C87_nan_moves_window_refuted : exists a b : wk, kept a = true /\ kept b = true /\
  vmc_grad (1 / 2) [[a; b]] = Some (1 / 2) /\ forall big s, vmc_grad (1 / 2) [[a; b; ex_nan big s]] = Some (1 / 4).
Proof.
  exists ex_a, ex_b. split; [reflexivity|]. split; [reflexivity|]. split.
  - rewrite (proj1 (C87_clipped_gradient (1 / 2) 2 [[ex_a; ex_b]] ltac:(lra) ltac:(discriminate) ltac:(lia) ltac:(intros s [<-|[]]; reflexivity))).
    change (filter kept (List.concat [[ex_a; ex_b]])) with [ex_a; ex_b]. change (map value (List.concat [[ex_a; ex_b]])) with [0; 2]. rewrite median2. f_equal.
    assert (D : average (fun x => Rabs (value x - 1)) [ex_a; ex_b] = 1).
    { unfold average, mean, value, ex_a, ex_b. cbn [map fst snd total]. rewrite Rabs_left, Rabs_pos_eq by lra. cbn. lra. }
    rewrite D. unfold covariance, average, mean, value, score, ex_a, ex_b. cbn [map fst snd total].
    rewrite clip_lo, clip_hi by lra. cbn. lra.
  - intros big s. rewrite (proj1 (C87_clipped_gradient (1 / 2) 2 [[ex_a; ex_b; ex_nan big s]] ltac:(lra) ltac:(discriminate) ltac:(lia) ltac:(intros t [<-|[]]; reflexivity))).
    change (filter kept (List.concat [[ex_a; ex_b; ex_nan big s]])) with [ex_a; ex_b]. change (map value (List.concat [[ex_a; ex_b; ex_nan big s]])) with [0; 2; 0]. rewrite median3. f_equal.
    assert (D : average (fun x => Rabs (value x - 0)) [ex_a; ex_b] = 1).
    { unfold average, mean, value, ex_a, ex_b. cbn [map fst snd total]. rewrite !Rabs_pos_eq by lra. cbn. lra. }
    rewrite D. unfold covariance, average, mean, value, score, ex_a, ex_b. cbn [map fst snd total].
    rewrite clip_in, clip_hi by lra. cbn. lra.
Qed.

(** With clipping each device divides by its own number of kept walkers, but the centring is
    over all: with unequal numbers a change of the norm of psi has a gradient, and a device
    with no walker left makes the gradient NaN. *)
Theorem C87_uneven_devices_refuted : exists ws : list (list wk), (forall x, In x (List.concat ws) -> score x = 1) /\ vmc_grad 100 ws = Some (1 / 2).
Proof.
  exists [[(0, true, 1); (0, true, 1)]; [(3, true, 1); (0, false, 1)]]. split.
  - intros x [<-|[<-|[<-|[<-|[]]]]]; reflexivity.
  - unfold vmc_grad, vmc_device_grads. rewrite (proj2 (ltb_true 0 100)) by lra. cbn [List.concat app map value fst snd]. rewrite median4.
    rewrite pmm, kept_masked. cbn [List.concat app map filter kept value fst snd mean_or_nan].
    assert (D : mean [Rabs (0 - 0); Rabs (0 - 0); Rabs (3 - 0)] = 1).
    { unfold mean. cbn [total List.length]. rewrite !Rabs_pos_eq by lra. cbn. lra. }
    rewrite D, pmm, kept_masked. cbn [List.concat app map filter kept value fst snd mean_or_nan]. rewrite !clip_in by lra.
    unfold mean. cbn [total List.length score snd map rsum fold_right b2r].
    replace (0 + (0 + (3 + 0))) with 3 by lra. change (INR 3) with (1 + 1 + 1).
    unfold div. destruct (Req_EM_T (1 + (1 + 0)) 0); [lra|]. destruct (Req_EM_T (1 + (0 + 0)) 0); [lra|].
    unfold pmean. cbn. apply (f_equal (@Some R)). unfold rmean. cbn. lra.
Qed.
Theorem C87_empty_device_refuted : forall c ws s, 0 < c -> In s ws -> filter kept s = [] -> vmc_grad c ws = None.
Proof.
  intros c ws s HC IS E. unfold vmc_grad. apply pmean_none. unfold vmc_device_grads. rewrite (proj2 (ltb_true 0 c)) by lra. cbv zeta.
  destruct (pmean_with_mask _) as [tv|]; [|apply in_map_iff; exists s; auto].
  destruct (pmean_with_mask _) as [mu|]; [|apply in_map_iff; exists s; auto].
  apply in_map_iff. exists s. split; [|exact IS]. unfold div. rewrite !rsum_total, (total_count kept), E. cbn.
  destruct (Req_EM_T 0 0); [reflexivity|contradiction].
Qed.

(** Example: two devices, a NaN and an outlier. *)
Example C87_example : let e := [[Fin 0; Fin 1; NaN]; [Fin 2; Fin 97; Inf true]] in
  (forall big, vmc_loss big false 0 e = Some 25) /\ (forall big, vmc_loss big true (3 / 2) e = Some 1).
Proof.
  split; intros big.
  - rewrite (proj1 (proj1 (C87_energy big false 0 [[Fin 0; Fin 1; NaN]; [Fin 2; Fin 97; Inf true]]) ltac:(discriminate))). unfold mean. cbn. f_equal. lra.
  - assert (S : selected true (3 / 2) [[Fin 0; Fin 1; NaN]; [Fin 2; Fin 97; Inf true]] = [0; 1; 2]).
    { unfold selected. rewrite (proj2 (ltb_true 0 (3 / 2))) by lra. cbn [andb List.concat app finite_values]. unfold inliers.
      assert (M : mean [0; 1; 2; 97] = 25) by (unfold mean; cbn; lra).
      assert (D : deviation [0; 1; 2; 97] = 36) by (unfold deviation; rewrite M; unfold mean; cbn [map total List.length]; rewrite !Rabs_left, Rabs_pos_eq by lra; cbn; lra).
      rewrite M, D. cbn [filter]. rewrite !Rabs_left, Rabs_pos_eq by lra.
      rewrite !(proj2 (ltb_true _ _)) by lra. rewrite (proj2 (ltb_false _ _)) by lra. reflexivity. }
    pose proof (C87_energy big true (3 / 2) [[Fin 0; Fin 1; NaN]; [Fin 2; Fin 97; Inf true]]) as H. cbv zeta in H. rewrite S in H.
    rewrite (proj1 (proj1 H ltac:(discriminate))). unfold mean. cbn. f_equal. lra.
Qed.
