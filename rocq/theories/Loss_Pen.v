(** C87: penalties: masks, clipping, and gradients as derivatives. *)
From Coq Require Import Reals List Bool Arith ZArith String Lra Lia Permutation Sorting.Sorted.
From Coquelicot Require Import Coquelicot.
From Verif Require Import Est_Model Est_Props Clip_Props Loss_Spec Loss_Model Loss_Props.
Import ListNotations.
Open Scope R_scope.
Open Scope list_scope.
Local Notation length := List.length.

Lemma map_ne {A B} (f : A -> B) l : l <> [] -> map f l <> []. Proof. destruct l; [congruence|discriminate]. Qed.
(** *** Percentiles *)
Lemma floor_pos x : 0 <= x -> INR (Z.to_nat (Int_part x)) <= x < INR (Z.to_nat (Int_part x)) + 1.
Proof.
  intros H. pose proof (base_Int_part x) as [A B].
  assert (Z0 : (0 <= Int_part x)%Z). { assert (Q : (-1 < Int_part x)%Z) by (apply lt_IZR; lra). lia. }
  rewrite INR_IZR_INZ, Z2Nat.id by exact Z0. lra.
Qed.
(** A percentile has not too many values on either side: q/100 of the n - 1 steps between the
    sorted values lie below. *)
Theorem C87_percentile : forall q l, l <> [] -> 0 <= q <= 100 ->
  let pos := q / 100 * INR (length l - 1) in
  INR (count_below (percentile q l) l) < pos + 1 /\ INR (count_above (percentile q l) l) < INR (length l) - pos.
Proof.
  intros q l NE Q pos. assert (L0 : (0 < length l)%nat) by (destruct l; [congruence|simpl; lia]).
  assert (PN : 0 <= INR (length l - 1)) by apply pos_INR.
  assert (P0 : 0 <= pos <= INR (length l - 1)) by (unfold pos; split; nra).
  pose proof (floor_pos pos ltac:(lra)) as F. set (i := Z.to_nat (Int_part pos)) in *.
  set (s := sort l). assert (Ls : length s = length l) by apply sort_length.
  assert (SS : StronglySorted Rle s) by apply sort_sorted.
  assert (I : (i <= length l - 1)%nat) by (apply INR_le; lra).
  set (lo := nth i s 0). set (hi := nth (i + 1) s lo).
  assert (LH : lo <= hi).
  { unfold hi. destruct (Nat.lt_ge_cases (i + 1) (length s)) as [H|H].
    - rewrite (nth_indep s lo 0) by exact H. apply sorted_nth; auto. lia.
    - rewrite nth_overflow by exact H. lra. }
  assert (E : percentile q l = lo + (hi - lo) * (pos - INR i)) by reflexivity.
  set (p := percentile q l) in *. assert (B : lo <= p <= hi) by (rewrite E; nra).
  assert (CB : count_below p l = count_below p s) by (apply count_perm, sort_perm).
  assert (CA : count_above p l = count_above p s) by (apply count_perm, sort_perm). rewrite CB, CA. split.
  - destruct (Req_dec pos (INR i)) as [Z|Z].
    + assert (C : (count_below p s <= i)%nat).
      { apply count_le_firstn. intros x Hx. apply In_skipn_nth in Hx as (j & Hj & ->).
        pose proof (sorted_nth s SS i j 0 ltac:(lia)). fold lo in H. assert (p = lo) by (rewrite E, Z; ring). lra. }
      apply le_INR in C. lra.
    + assert (N1 : (i + 1 < length s)%nat). { assert ((i < length l - 1)%nat) by (apply INR_lt; lra). lia. }
      assert (C : (count_below p s <= i + 1)%nat).
      { apply count_le_firstn. intros x Hx. apply In_skipn_nth in Hx as (j & Hj & ->).
        pose proof (sorted_nth s SS (i + 1) j 0 ltac:(lia)). unfold hi in B. rewrite (nth_indep s lo 0) in B by exact N1. lra. }
      apply le_INR in C. rewrite plus_INR in C. cbn [INR] in C. lra.
  - assert (C : (count_above p s <= length s - (i + 1))%nat).
    { apply count_le_skipn. intros x Hx. apply In_firstn_nth in Hx as (j & Hj & Hj2 & ->).
      pose proof (sorted_nth s SS j i 0 ltac:(lia)). fold lo in H. lra. }
    apply le_INR in C. rewrite minus_INR in C by lia. rewrite plus_INR, Ls in C. cbn [INR] in C. lra.
Qed.

(** *** Masks *)
Lemma device_mean_uniform n (w : list (list R)) : (0 < n)%nat -> (forall s, In s w -> length s = n) -> device_mean w = mean (List.concat w).
Proof.
  intros N U. unfold device_mean, mean. rewrite (len_uniform n w U), mult_INR.
  assert (E : map rmean w = map (fun s => rsum s / INR n) w) by (apply map_ext_in; intros s Hs; unfold rmean; rewrite (U s Hs); reflexivity).
  assert (N0 : INR n <> 0) by (apply not_0_INR; lia).
  change (rmean (map rmean w)) with (rsum (map rmean w) / INR (length (map rmean w))). rewrite E, map_length, rsum_total.
  pose proof (mean_div rsum (INR n) w N0) as M. unfold mean in M. rewrite map_length in M. rewrite M.
  rewrite <- rsum_total. assert (T : rsum (map rsum w) = total (List.concat w)).
  { pose proof (total_concat (fun x => x) w) as H. rewrite map_id in H. rewrite <- H. f_equal. apply map_ext. intros s. rewrite map_id. reflexivity. }
  rewrite T. f_equal. ring.
Qed.
(** What is masked: without rm_outlier what is not finite; with it also what lies outside a
    window around the mean of the values, or outside two percentiles. *)
Theorem C87_penalty_mask : forall big rm sch width b0 b1 n v w, (0 < n)%nat -> (forall s, In s v -> length s = n) ->
  local_value_mask big rm sch width b0 b1 v = Some w ->
  let all := map (nan_to_num big) (List.concat v) in
  let inside x := match rm, sch with
    | true, Deviation => Rabs (x - mean all) < width * deviation all
    | true, _ => percentile b0 all < x < percentile b1 all
    | false, _ => True end in
  exists keep, w = map (map (fun e => (nan_to_num big e, keep e))) v /\ forall e, keep e = true <-> exists x, e = Fin x /\ inside x.
Proof.
  intros big rm sch width b0 b1 n v w N U H all inside. unfold local_value_mask in H.
  assert (UN : forall f : fl -> R, forall s, In s (map (map f) v) -> length s = n).
  { intros f s Hs. apply in_map_iff in Hs as (s0 & <- & Hs). rewrite map_length. apply U, Hs. }
  assert (M : device_mean (map (map (nan_to_num big)) v) = mean all).
  { rewrite (device_mean_uniform n _ N (UN (nan_to_num big))). rewrite concat_mm. reflexivity. }
  assert (D : device_mean (map (map (fun y => Rabs (y - mean all))) (map (map (nan_to_num big)) v)) = deviation all).
  { assert (MM : map (map (fun y => Rabs (y - mean all))) (map (map (nan_to_num big)) v) = map (map (fun e => Rabs (nan_to_num big e - mean all))) v).
    { rewrite map_map. apply map_ext. intros s. exact (map_map (nan_to_num big) (fun y => Rabs (y - mean all)) s). }
    rewrite MM.
    rewrite (device_mean_uniform n _ N (UN (fun e => Rabs (nan_to_num big e - mean all)))). rewrite concat_mm. unfold deviation. rewrite <- (map_map (nan_to_num big) (fun y => Rabs (y - mean all))). reflexivity. }
  destruct rm; [destruct sch|].
  - destruct (ltb 0 width); [|discriminate]. injection H as <-. rewrite M, D. eexists. split; [reflexivity|]. cbn beta.
    intros [x| |p]; cbn [nan_to_num isfinite]; rewrite ?andb_false_r, ?andb_true_r; try (split; [discriminate|intros (y & E & _); discriminate]).
    rewrite window_ltb, ltb_true. split; [intros A; exists x; auto|intros (y & E & A); injection E as ->; exact A].
  - destruct (negb (eqb b0 0) && negb (eqb b1 100)); [|discriminate]. injection H as <-. eexists. split; [reflexivity|]. cbn beta.
    rewrite concat_mm. fold all. intros [x| |p]; cbn [nan_to_num isfinite]; rewrite ?andb_false_r, ?andb_true_r; try (split; [discriminate|intros (y & E & _); discriminate]).
    rewrite andb_true_iff, !ltb_true. split; [intros A; exists x; auto|intros (y & E & A); injection E as ->; exact A].
  - discriminate.
  - injection H as <-. eexists. split; [reflexivity|]. cbn beta. intros [x| |p]; cbn [andb isfinite]; (split; [intros A; try discriminate|intros (y & E & A); discriminate || auto]).
    exists x. split; [reflexivity|exact I].
Qed.
(** The documented setting for "only NaN and inf are outliers" (width 0), and percentile
    bounds at 0 or 100, fail: the mask is never set. *)
Theorem C87_width_zero_refuted : forall big sch width b0 b1 v,
  local_value_mask big true sch width b0 b1 v = None <->
  match sch with Deviation => width <= 0 | Percentile => b0 = 0 \/ b1 = 100 | OtherSchema => True end.
Proof.
  intros big sch width b0 b1 v. unfold local_value_mask. destruct sch.
  - destruct (ltb 0 width) eqn:E; [apply ltb_true in E|apply ltb_false in E]; split; intros; try discriminate; auto; lra.
  - unfold eqb. destruct (Req_EM_T b0 0), (Req_EM_T b1 100); cbn; split; intros; try discriminate; tauto.
  - tauto.
Qed.
(** An infinite local value enters the mean and the deviation (as the largest float): then
    an outlier that would be removed is kept. *)
Theorem C87_infinite_hides_outliers_refuted : exists l : list R,
  (forall big, exists w, local_value_mask big true Deviation 2 0 100 [map Fin l] = Some [w] /\ nth 9 w (0, true) = (1000, false)) /\
  (forall big, 1000000 <= big -> exists w, local_value_mask big true Deviation 2 0 100 [map Fin l ++ [Inf true]] = Some [w] /\ nth 9 w (0, false) = (1000, true)).
Proof.
  exists [0; 0; 0; 0; 0; 0; 0; 0; 0; 1000]. split.
  - intros big. destruct (local_value_mask big true Deviation 2 0 100 [map Fin [0; 0; 0; 0; 0; 0; 0; 0; 0; 1000]]) as [w|] eqn:E;
      [|apply C87_width_zero_refuted in E; lra].
    apply (C87_penalty_mask big true Deviation 2 0 100 10) in E as (keep & -> & K); [|lia|intros s [<-|[]]; reflexivity].
    eexists. split; [reflexivity|]. cbn [map nth nan_to_num]. f_equal. destruct (keep (Fin 1000)) eqn:Q; [|reflexivity]. exfalso.
    apply K in Q as (x & X & Q). injection X as <-. cbn [map List.concat app nan_to_num] in Q.
    assert (M : mean [0; 0; 0; 0; 0; 0; 0; 0; 0; 1000] = 100) by (unfold mean; cbn; lra).
    unfold deviation in Q. rewrite M in Q. cbn [map] in Q. rewrite (Rabs_left (0 - 100)), (Rabs_pos_eq (1000 - 100)) in Q by lra. unfold mean in Q. cbn in Q. lra.
  - intros big B. destruct (local_value_mask big true Deviation 2 0 100 [map Fin [0; 0; 0; 0; 0; 0; 0; 0; 0; 1000] ++ [Inf true]]) as [w|] eqn:E;
      [|apply C87_width_zero_refuted in E; lra].
    apply (C87_penalty_mask big true Deviation 2 0 100 11) in E as (keep & -> & K); [|lia|intros s [<-|[]]; reflexivity].
    eexists. split; [reflexivity|]. cbn [map nth nan_to_num app]. f_equal. apply K. exists 1000. split; [reflexivity|].
    cbn [map List.concat app nan_to_num].
    assert (M : mean [0; 0; 0; 0; 0; 0; 0; 0; 0; 1000; big] = (1000 + big) / 11) by (unfold mean; cbn; lra).
    unfold deviation. rewrite M. cbn [map]. rewrite (Rabs_left (0 - (1000 + big) / 11)), (Rabs_left (1000 - (1000 + big) / 11)), (Rabs_pos_eq (big - (1000 + big) / 11)) by lra. unfold mean. cbn. lra.
Qed.

(** *** Clipping *)
Definition clip_fun (sch : schema) (width b0 b1 : R) (all : list R) (x : R) : R :=
  match sch with
  | Deviation => if ltb 0 width then clip (mean all - width * deviation all) (mean all + width * deviation all) x else x
  | Percentile => if eqb b0 0 && eqb b1 100 then x else clip (percentile b0 all) (percentile b1 all) x
  | OtherSchema => x
  end.
Lemma clip_is sch width b0 b1 n v : (0 < n)%nat -> (forall s, In s v -> length s = n) ->
  local_value_clip sch width b0 b1 v = map (map (clip_fun sch width b0 b1 (List.concat v))) v.
Proof.
  intros N U. unfold local_value_clip, clip_fun. assert (ID : v = map (map (fun x => x)) v).
  { rewrite (map_ext _ (fun s => s)) by (intros; apply map_id). symmetry. apply map_id. }
  destruct sch; [destruct (ltb 0 width)|destruct (eqb b0 0 && eqb b1 100)|]; try exact ID; try reflexivity.
  rewrite (device_mean_uniform n v) by auto. set (m := mean (List.concat v)).
  rewrite (device_mean_uniform n) by (auto; intros s Hs; apply in_map_iff in Hs as (s0 & <- & Hs); rewrite map_length; apply U, Hs).
  rewrite concat_mm. reflexivity.
Qed.
(** Clipping moves a value to the nearest point of the window; with width 0, or bounds 0 and
    100, it does nothing. *)
Theorem C87_penalty_clip : forall sch width b0 b1 n v, (0 < n)%nat -> (forall s, In s v -> length s = n) ->
  let all := List.concat v in
  exists c, local_value_clip sch width b0 b1 v = map (map c) v /\
  match sch with
  | Deviation => (width <= 0 -> forall x, c x = x) /\
      (0 < width -> forall x, let lo := mean all - width * deviation all in let hi := mean all + width * deviation all in
         (x < lo -> c x = lo) /\ (lo <= x <= hi -> c x = x) /\ (hi < x -> c x = hi))
  | Percentile => (b0 = 0 -> b1 = 100 -> forall x, c x = x) /\
      (b0 <> 0 \/ b1 <> 100 -> percentile b0 all <= percentile b1 all -> forall x, let lo := percentile b0 all in let hi := percentile b1 all in
         (x < lo -> c x = lo) /\ (lo <= x <= hi -> c x = x) /\ (hi < x -> c x = hi))
  | OtherSchema => forall x, c x = x
  end.
Proof.
  intros sch width b0 b1 n v N U all. exists (clip_fun sch width b0 b1 all). split; [apply (clip_is sch width b0 b1 n); auto|].
  assert (W : forall lo hi x, lo <= hi -> (x < lo -> clip lo hi x = lo) /\ (lo <= x <= hi -> clip lo hi x = x) /\ (hi < x -> clip lo hi x = hi)).
  { intros lo hi x H. split; [|split]; intros; [apply clip_lo|apply clip_in|apply clip_hi]; lra. }
  unfold clip_fun. destruct sch.
  - split; intros H x.
    + rewrite (proj2 (ltb_false 0 width)) by lra. reflexivity.
    + rewrite (proj2 (ltb_true 0 width)) by lra. cbv zeta. apply W.
      assert (0 <= deviation all). { destruct all as [|a0 all0] eqn:EA; [unfold deviation, mean; cbn; unfold Rdiv; rewrite Rmult_0_l; lra|]. rewrite <- EA. unfold deviation. apply mean_ge; [rewrite EA; discriminate|]. intros. apply Rabs_pos. }
      nra.
  - unfold eqb. split.
    + intros -> -> x. destruct (Req_EM_T 0 0), (Req_EM_T 100 100); try contradiction. reflexivity.
    + intros H L x. destruct (Req_EM_T b0 0), (Req_EM_T b1 100); cbn [andb]; try (apply W, L). exfalso. tauto.
  - reflexivity.
Qed.

(** *** The gradient of an estimate *)
Definition pkept (x : pw) : bool := snd (fst x).
Definition pvalue (x : pw) : R := fst (fst x).
(** Walkers whose derivative is finite too. *)
Definition usable (x : pw) : bool := match snd x with Fin _ => pkept x | _ => false end.
Definition pscore (x : pw) : R := match snd x with Fin y => y | _ => 0 end.
Lemma fscale_finite x v : isfinite (fscale x v) = isfinite v.
Proof. destruct v as [y| |p]; simpl; auto. destruct (total_order_T x 0) as [[|]|]; reflexivity. Qed.
Lemma kept_pairs (l : list pw) : map fst (filter snd (map fst l)) = map pvalue (filter pkept l).
Proof. induction l as [|x l IH]; cbn [map filter]; auto. unfold pkept at 1. destruct (snd (fst x)); cbn [map]; [f_equal|]; exact IH. Qed.
(** The mean over walkers that are not masked and have a finite derivative; the mean value
    subtracted is over all walkers that are not masked. *)
Theorem C87_estimator_gradient : forall big ws, let l := filter pkept (List.concat ws) in let u := filter usable (List.concat ws) in
  (u <> [] -> estimator_grad big ws = Some (average (fun x => (pvalue x - average pvalue l) * pscore x) u)) /\
  (u = [] -> estimator_grad big ws = None).
Proof.
  intros big ws l u. unfold estimator_grad. rewrite pmm, concat_mm, kept_pairs. fold l.
  assert (S : forall m, map fst (filter snd (map (fun x : pw => let g := fscale (fst (fst x) - m) (snd x) in (nan_to_num big g, isfinite g && snd (fst x))) (List.concat ws)))
    = map (fun x => (pvalue x - m) * pscore x) u).
  { intros m. unfold u. induction (List.concat ws) as [|x t IH]; cbn [map filter]; auto. cbv zeta in *. cbn [snd]. rewrite fscale_finite. unfold usable at 1, pkept.
    destruct x as [[v k] [y| |p]]; cbn [isfinite andb snd fst]; auto. destruct k; cbn [map fst]; [f_equal|]; exact IH. }
  assert (UL : u <> [] -> l <> []).
  { intros H Z. apply H. destruct u as [|x t] eqn:E; auto. exfalso. assert (I : In x u) by (rewrite E; left; auto).
    unfold u in I. apply filter_In in I as [I1 I2]. assert (J : In x l). { apply filter_In. split; auto. unfold usable in I2. destruct (snd x); [exact I2|discriminate I2|discriminate I2]. } rewrite Z in J. contradiction. }
  split; intros H.
  - rewrite mean_or_nan_some by (apply map_ne, UL, H). fold (average pvalue l).
    rewrite psm, concat_mm, S. unfold average at 2. apply mean_or_nan_some, map_ne, H.
  - match goal with |- match ?z with _ => _ end = _ => generalize z end. intros [m|]; [|reflexivity]. rewrite psm, concat_mm, S, H. reflexivity.
Qed.
Lemma filter_usable ws : (forall x, In x ws -> pkept x = true -> exists y, snd x = Fin y) -> filter usable ws = filter pkept ws.
Proof.
  intros H. induction ws as [|x t IH]; [reflexivity|]. cbn [filter]. rewrite IH by (intros; apply H; [right|]; auto).
  unfold usable. destruct (pkept x) eqn:K; [destruct (H x (or_introl eq_refl) K) as [y ->]; rewrite ?K; reflexivity|destruct (snd x); rewrite ?K; reflexivity].
Qed.
(** With finite derivatives it is the covariance, whatever the walkers' spread over the
    devices; the same derivative everywhere gives none. *)
Theorem C87_estimator_covariance : forall big ws, let l := filter pkept (List.concat ws) in l <> [] ->
  (forall x, In x l -> exists y, snd x = Fin y) ->
  estimator_grad big ws = Some (covariance pvalue pscore l) /\
  ((exists k, forall x, In x l -> snd x = Fin k) -> estimator_grad big ws = Some 0).
Proof.
  intros big ws l L F. assert (E : filter usable (List.concat ws) = l).
  { apply filter_usable. intros x Hx K. apply F. apply filter_In. auto. }
  assert (G : estimator_grad big ws = Some (covariance pvalue pscore l)).
  { pose proof (C87_estimator_gradient big ws) as [A _]. cbv zeta in A. fold l in A. rewrite E in A. apply A, L. }
  split; [exact G|]. intros [k K]. rewrite G. f_equal. unfold covariance, average at 1, mean. rewrite map_length.
  rewrite (map_ext_in _ (fun x => k * (pvalue x - average pvalue l))) by (intros x Hx; unfold pscore; rewrite (K x Hx); ring).
  rewrite total_scal_f, (total_minus pvalue (fun _ => average pvalue l)), total_const. unfold average, mean. rewrite map_length.
  assert (INR (length l) <> 0) by (apply not_0_INR; destruct l; [congruence|discriminate]). field. exact H.
Qed.

(** *** Derivatives of reweighted estimates *)
Lemma is_derive_total {W} (g : R -> W -> R) (dg : W -> R) t0 ws : (forall w, In w ws -> is_derive (fun t => g t w) t0 (dg w)) ->
  is_derive (fun t => total (map (g t) ws)) t0 (total (map dg ws)).
Proof.
  induction ws as [|w ws IH]; intros H; cbn [map total].
  - apply @is_derive_const.
  - apply @is_derive_plus; [apply H; left; auto|apply IH; intros; apply H; right; auto].
Qed.
Lemma reweighted_derivative {W} (psi f : R -> W -> R) (s df : W -> R) t0 ws : ws <> [] ->
  (forall w, In w ws -> psi t0 w <> 0 /\ is_derive (fun t => psi t w) t0 (psi t0 w * s w) /\ is_derive (fun t => f t w) t0 (df w)) ->
  reweighted psi t0 f ws t0 = average (f t0) ws /\
  is_derive (reweighted psi t0 f ws) t0 (2 * covariance (f t0) s ws + average df ws).
Proof.
  intros N H. assert (L0 : INR (length ws) <> 0) by (apply not_0_INR; destruct ws; [congruence|discriminate]).
  assert (V0 : total (map (fun w => (psi t0 w / psi t0 w) * (psi t0 w / psi t0 w)) ws) = INR (length ws)).
  { rewrite (map_ext_in _ (fun _ => 1)) by (intros w Hw; field; apply (H w Hw)). rewrite total_const. ring. }
  assert (V1 : total (map (fun w => (psi t0 w / psi t0 w) * (psi t0 w / psi t0 w) * f t0 w) ws) = total (map (f t0) ws)).
  { f_equal. apply map_ext_in. intros w Hw. field. apply (H w Hw). }
  split. { unfold reweighted, average, mean. rewrite V0, V1, map_length. reflexivity. }
  assert (Q : forall w, In w ws -> is_derive (fun t => psi t w / psi t0 w * (psi t w / psi t0 w)) t0 (2 * s w)).
  { intros w Hw. destruct (H w Hw) as (Z & D & _).
    assert (D' : is_derive (fun t => psi t w / psi t0 w) t0 (s w)).
    { apply (is_derive_ext (fun t => / psi t0 w * psi t w)); [intros t; apply Rmult_comm|].
      evar_last; [apply (is_derive_scal (fun t => psi t w) t0 (/ psi t0 w) (psi t0 w * s w)); exact D|]. cbv beta. field. exact Z. }
    evar_last.
    - apply (is_derive_mult (fun t => psi t w / psi t0 w) (fun t => psi t w / psi t0 w) t0 (s w) (s w)); [exact D'|exact D'|intros; apply Rmult_comm].
    - unfold plus, mult; cbn. field. exact Z. }
  assert (D1 : is_derive (fun t => total (map (fun w => psi t w / psi t0 w * (psi t w / psi t0 w)) ws)) t0 (total (map (fun w => 2 * s w) ws))).
  { apply (is_derive_total (fun t w => psi t w / psi t0 w * (psi t w / psi t0 w))). exact Q. }
  assert (D2 : is_derive (fun t => total (map (fun w => psi t w / psi t0 w * (psi t w / psi t0 w) * f t w) ws)) t0 (total (map (fun w => 2 * s w * f t0 w + df w) ws))).
  { apply (is_derive_total (fun t w => psi t w / psi t0 w * (psi t w / psi t0 w) * f t w)). intros w Hw. destruct (H w Hw) as (Z & _ & D). evar_last.
    - apply (is_derive_mult (fun t => psi t w / psi t0 w * (psi t w / psi t0 w)) (fun t => f t w) t0 (2 * s w) (df w)); [apply Q, Hw|exact D|intros; apply Rmult_comm].
    - unfold plus, mult; cbn. field. exact Z. }
  evar_last.
  - apply (is_derive_div (fun t => total (map (fun w => psi t w / psi t0 w * (psi t w / psi t0 w) * f t w) ws)) (fun t => total (map (fun w => psi t w / psi t0 w * (psi t w / psi t0 w)) ws))).
    + exact D2.
    + exact D1.
    + rewrite V0. exact L0.
  - rewrite V0, V1. rewrite (total_plus (fun w => 2 * s w * f t0 w) df).
    rewrite (map_ext (fun w => 2 * s w * f t0 w) (fun w => 2 * (s w * f t0 w))) by (intros; ring). rewrite !total_scal_f.
    unfold covariance, average, mean. rewrite !map_length.
    rewrite (map_ext (fun w => (f t0 w - total (map (f t0) ws) / INR (length ws)) * s w) (fun w => s w * f t0 w - total (map (f t0) ws) / INR (length ws) * s w)) by (intros; ring).
    rewrite (total_minus (fun w => s w * f t0 w)), total_scal_f. field. exact L0.
Qed.

(** The energy gradient (no clipping, no walker masked) is half the derivative of the energy
    reweighted from the walkers, the local energies held. *)
Theorem C87_energy_derivative {W} : forall c n (ws : list (list W)) (psi : R -> W -> R) (e s : W -> R) t0,
  c <= 0 -> ws <> [] -> (0 < n)%nat -> (forall d, In d ws -> length d = n) ->
  (forall w, In w (List.concat ws) -> psi t0 w <> 0 /\ is_derive (fun t => psi t w) t0 (psi t0 w * s w)) ->
  exists g, vmc_grad c (map (map (fun w => (e w, true, s w))) ws) = Some g /\
            is_derive (fun t => / 2 * reweighted psi t0 (fun _ => e) (List.concat ws) t) t0 g.
Proof.
  intros c n ws psi e s t0 HC N0 Np U H. exists (covariance e s (List.concat ws)).
  assert (NE : List.concat ws <> []).
  { intros Z. pose proof (len_uniform n ws U) as L. rewrite Z in L. cbn in L. destruct ws; [congruence|cbn in L; lia]. }
  split.
  - rewrite (C87_gradient_all c n).
    + f_equal. unfold covariance, average. rewrite concat_mm, !map_map. reflexivity.
    + exact HC.
    + apply map_ne, N0.
    + exact Np.
    + intros d Hd. apply in_map_iff in Hd as (d0 & <- & Hd). rewrite map_length. apply U, Hd.
    + intros x Hx. rewrite concat_mm in Hx. apply in_map_iff in Hx as (w & <- & _). reflexivity.
  - evar_last.
    + apply (is_derive_scal (reweighted psi t0 (fun _ => e) (List.concat ws)) t0 (/ 2) (2 * covariance e s (List.concat ws) + average (fun _ => 0) (List.concat ws))).
      apply (proj2 (reweighted_derivative psi (fun _ => e) s (fun _ => 0) t0 (List.concat ws) NE
        (fun w Hw => conj (proj1 (H w Hw)) (conj (proj2 (H w Hw)) (is_derive_const (e w) t0))))).
    + cbv beta. unfold average at 1, mean. rewrite total_const, map_length. unfold Rdiv. field.
      apply not_0_INR. destruct (List.concat ws); [congruence|discriminate].
Qed.

(** *** The spin penalty's gradient *)
Lemma combine_mm {A B D} (f : A -> B) (g : B * A -> D) ws :
  map (fun p => map g (combine (fst p) (snd p))) (combine (map (map f) ws) ws) = map (map (fun x => g (f x, x))) ws.
Proof.
  induction ws as [|d ws IH]; cbn [map combine fst snd]; auto. f_equal; [|exact IH].
  induction d as [|x d IHd]; cbn [map combine]; auto. f_equal. exact IHd.
Qed.
Lemma spin_grad_value {W} big cfg n (ws : list (list W)) (keep : W -> bool) (v s dv : W -> R) : (0 < n)%nat -> (forall d, In d ws -> length d = n) ->
  0 < weight cfg -> let l := filter keep (List.concat ws) in l <> [] ->
  let c x := clip_fun (clip_schema cfg) (clip_width cfg) (clip_b0 cfg) (clip_b1 cfg) (map v (List.concat ws)) x in
  spin_grad big cfg (map (map (fun w => (v w, keep w, Fin (s w), Fin (dv w)))) ws)
  = Some (weight cfg * (2 * covariance (fun w => c (v w)) s l + average dv l) * average v l).
Proof.
  intros N U HW l L c. unfold spin_grad. rewrite (proj2 (ltb_true 0 _)) by exact HW.
  set (mk := fun w => (v w, keep w, Fin (s w), Fin (dv w)) : sw).
  change (map (map (fun w => (v w, keep w, Fin (s w), Fin (dv w)))) ws) with (map (map mk) ws).
  assert (MV : map (map (fun x : sw => fst (fst (fst x)))) (map (map mk) ws) = map (map v) ws).
  { rewrite map_map. apply map_ext. intros d. exact (map_map mk (fun x : sw => fst (fst (fst x))) d). }
  rewrite MV. rewrite (clip_is _ _ _ _ n (map (map v) ws)); [|exact N|intros d Hd; apply in_map_iff in Hd as (d0 & <- & Hd); rewrite map_length; apply U, Hd].
  rewrite concat_mm. fold c.
  assert (P1 : map (fun p => map (fun q : R * sw => (fst q, snd (fst (fst (snd q))), snd (fst (snd q)))) (combine (fst p) (snd p))) (combine (map (map c) (map (map v) ws)) (map (map mk) ws))
    = map (map (fun w => (c (v w), keep w, Fin (s w)) : pw)) ws).
  { rewrite <- MV. rewrite (map_map (map (fun x : sw => fst (fst (fst x)))) (map c)).
    rewrite (map_ext (fun x => map c (map (fun x0 : sw => fst (fst (fst x0))) x)) (map (fun x => c (fst (fst (fst x)))))) by (intros d; exact (map_map (fun x0 : sw => fst (fst (fst x0))) c d)).
    rewrite combine_mm. cbn [fst snd]. rewrite map_map. apply map_ext. intros d. exact (map_map mk (fun x : sw => (c (fst (fst (fst x))), snd (fst (fst x)), snd (fst x))) d). }
  assert (FK : forall (g : W -> pw), (forall w, pkept (g w) = keep w) -> forall k, filter pkept (map g k) = map g (filter keep k)).
  { intros g G. induction k as [|w k IH]; cbn [map filter]; auto. rewrite G. destruct (keep w); cbn [map]; [f_equal|]; exact IH. }
  assert (Q1 : estimator_grad big (map (map (fun w => (c (v w), keep w, Fin (s w)) : pw)) ws) = Some (covariance (fun w => c (v w)) s l)).
  { set (g := fun w => (c (v w), keep w, Fin (s w)) : pw).
    pose proof (C87_estimator_covariance big (map (map g) ws)) as A. cbv zeta in A. rewrite concat_mm, (FK g) in A by reflexivity. fold l in A.
    rewrite (proj1 (A (map_ne g l L) ltac:(intros x Hx; apply in_map_iff in Hx as (w & <- & _); eexists; reflexivity))).
    f_equal. unfold covariance, average. rewrite !map_map. reflexivity. }
  assert (KM : forall (f : W -> R) k, map fst (filter snd (map (fun w => (f w, keep w)) k)) = map f (filter keep k)).
  { intros f. induction k as [|w k IH]; cbn [map filter]; auto. cbn [snd]. destruct (keep w); cbn [map fst]; [f_equal|]; exact IH. }
  assert (Q2 : pmean_with_structure_mask (map (map (fun x : sw => (nan_to_num big (snd x), isfinite (snd x) && snd (fst (fst x))))) (map (map mk) ws)) = Some (average dv l)).
  { rewrite psm, !concat_mm. rewrite (map_map mk (fun x : sw => (nan_to_num big (snd x), isfinite (snd x) && snd (fst (fst x))))). unfold mk. cbn [fst snd nan_to_num isfinite andb].
    rewrite (KM dv). apply mean_or_nan_some, map_ne, L. }
  assert (Q3 : pmean_with_mask (map (map (fun x : sw => fst (fst x))) (map (map mk) ws)) = Some (average v l)).
  { rewrite pmm, !concat_mm. rewrite (map_map mk (fun x : sw => fst (fst x))). unfold mk. cbn [fst snd].
    rewrite (KM v). apply mean_or_nan_some, map_ne, L. }
  cbv zeta. replace (map (map c) (map (map v) ws)) with (map (map c) (map (map v) ws)) in P1 by reflexivity.
  match goal with |- match estimator_grad big ?z with _ => _ end = _ => replace z with (map (map (fun w => (c (v w), keep w, Fin (s w)) : pw)) ws) by (symmetry; exact P1) end.
  match goal with |- match ?a with _ => _ end = _ => replace a with (Some (covariance (fun w => c (v w)) s l)) by (symmetry; exact Q1) end.
  match goal with |- match ?a with _ => _ end = _ => replace a with (Some (average dv l)) by (symmetry; exact Q2) end.
  match goal with |- match ?a with _ => _ end = _ => replace a with (Some (average v l)) by (symmetry; exact Q3) end.
  reflexivity.
Qed.

(** Unclipped, over the walkers that are not masked, it is the derivative of weight / 2 times
    the square of the reweighted penalty; with weight <= 0 there is none. *)
Theorem C87_spin_derivative {W} : forall big cfg n (ws : list (list W)) (keep : W -> bool) (psi pen : R -> W -> R) (s dpen : W -> R) t0,
  (0 < n)%nat -> (forall d, In d ws -> length d = n) ->
  match clip_schema cfg with Deviation => clip_width cfg <= 0 | Percentile => clip_b0 cfg = 0 /\ clip_b1 cfg = 100 | OtherSchema => True end ->
  let l := filter keep (List.concat ws) in l <> [] ->
  (forall w, In w l -> psi t0 w <> 0 /\ is_derive (fun t => psi t w) t0 (psi t0 w * s w) /\ is_derive (fun t => pen t w) t0 (dpen w)) ->
  let walkers := map (map (fun w => (pen t0 w, keep w, Fin (s w), Fin (dpen w)))) ws in
  (0 < weight cfg -> exists g, spin_grad big cfg walkers = Some g /\
     is_derive (fun t => weight cfg / 2 * (reweighted psi t0 pen l t * reweighted psi t0 pen l t)) t0 g) /\
  (weight cfg <= 0 -> spin_grad big cfg walkers = Some 0).
Proof.
  intros big cfg n ws keep psi pen s dpen t0 N U HC l L H walkers. split; intros HW.
  - eexists. split; [apply (spin_grad_value big cfg n ws keep (pen t0) s dpen N U HW L)|]. fold l.
    assert (ID : forall w, clip_fun (clip_schema cfg) (clip_width cfg) (clip_b0 cfg) (clip_b1 cfg) (map (pen t0) (List.concat ws)) (pen t0 w) = pen t0 w).
    { intros w. unfold clip_fun. destruct (clip_schema cfg).
      - rewrite (proj2 (ltb_false _ _)) by exact HC. reflexivity.
      - destruct HC as [-> ->]. unfold eqb. destruct (Req_EM_T 0 0), (Req_EM_T 100 100); try contradiction. reflexivity.
      - reflexivity. }
    assert (CV : covariance (fun w => clip_fun (clip_schema cfg) (clip_width cfg) (clip_b0 cfg) (clip_b1 cfg) (map (pen t0) (List.concat ws)) (pen t0 w)) s l = covariance (pen t0) s l).
    { match goal with |- covariance ?a _ _ = _ => set (cl := a) end.
      assert (A : average cl l = average (pen t0) l) by (unfold average; f_equal; apply map_ext; exact ID).
      unfold covariance. rewrite A. unfold average at 1 3. f_equal. apply map_ext. intros w. unfold cl. rewrite ID. reflexivity. }
    cbv beta. rewrite CV. destruct (reweighted_derivative psi pen s dpen t0 l L H) as [V D]. evar_last.
    + apply (is_derive_scal (fun t => reweighted psi t0 pen l t * reweighted psi t0 pen l t) t0 (weight cfg / 2)).
      apply (is_derive_mult (reweighted psi t0 pen l) (reweighted psi t0 pen l) t0); [exact D|exact D|intros; apply Rmult_comm].
    + unfold plus, mult; cbn. rewrite V. field.
  - unfold spin_grad. rewrite (proj2 (ltb_false _ _)) by exact HW. reflexivity.
Qed.
(** Where the penalty vanishes there is no force. *)
Theorem C87_spin_at_zero {W} : forall big cfg n (ws : list (list W)) (keep : W -> bool) (v s dv : W -> R), (0 < n)%nat -> (forall d, In d ws -> length d = n) ->
  let l := filter keep (List.concat ws) in l <> [] -> average v l = 0 ->
  spin_grad big cfg (map (map (fun w => (v w, keep w, Fin (s w), Fin (dv w)))) ws) = Some 0.
Proof.
  intros big cfg n ws keep v s dv N U l L Z. destruct (Rlt_dec 0 (weight cfg)) as [HW|HW].
  - rewrite (spin_grad_value big cfg n ws keep v s dv N U HW L). fold l. rewrite Z, Rmult_0_r. reflexivity.
  - unfold spin_grad. rewrite (proj2 (ltb_false _ _)) by lra. reflexivity.
Qed.
