(** C48: the mixed estimator. *)
From Coq Require Import Reals List Arith Bool Lia Lra.
From Verif Require Import Dmc_Model Dmc_Spec.
Import ListNotations.
Open Scope R_scope.

Lemma skipn_skipn {A} a : forall b (l : list A), skipn a (skipn b l) = skipn (b + a) l.
Proof. intros b. induction b as [|b IH]; intros l; [reflexivity|]. destruct l as [|x l]; [destruct a; reflexivity|]. cbn [skipn Nat.add]. apply IH. Qed.
Lemma push_lastn n (l : list R) x : push n (lastn n l) x = lastn n (l ++ [x]).
Proof.
  unfold push, lastn. rewrite !app_length, skipn_length. cbn [length]. rewrite !skipn_app, skipn_length.
  destruct (le_lt_dec n (length l)) as [L|L].
  - rewrite skipn_skipn. f_equal; f_equal; lia.
  - replace (length l - n)%nat with 0%nat by lia. cbn [skipn]. f_equal; f_equal; lia.
Qed.
Lemma lastn_map {A B} (f : A -> B) n l : lastn n (map f l) = map f (lastn n l).
Proof.
  unfold lastn. rewrite map_length. generalize (length l - n)%nat as k. intros k. revert l. induction k as [|k IH]; intros [|x l]; cbn; auto.
Qed.
Lemma lastn_length {A} n (l : list A) : length (lastn n l) = Nat.min n (length l). Proof. unfold lastn. rewrite skipn_length. lia. Qed.
Lemma lastn_combine {A B} n : forall (a : list A) (b : list B), length a = length b -> combine (lastn n a) (lastn n b) = lastn n (combine a b).
Proof.
  intros a b E. unfold lastn. rewrite combine_length, <- E, Nat.min_id. generalize (length a - n)%nat as k. intros k. revert a b E. induction k as [|k IH]; intros a b E; [reflexivity|]. destruct a as [|x a], b as [|y b]; try discriminate; cbn [skipn combine]; [reflexivity|]. apply IH. cbn in E. lia.
Qed.

(** feeding a history to the calculator *)
Definition feed1 (o : option (mixed * R)) (x : entry) : option (mixed * R) := match o with Some (c, _) => mixed_run c (off x) (en x) (wt x) (dt x) | None => None end.
Definition feed (M window : nat) (h : list entry) : option (mixed * R) := fold_left feed1 h (Some (mixed_new M window, 0)).
Fixpoint pilogs (M : nat) (before h : list entry) : list R :=
  match h with [] => [] | x :: h' => - dt x * sum (lastn M (map off (before ++ [x]))) :: pilogs M (before ++ [x]) h' end.
Lemma pilogs_snoc M : forall h before x, pilogs M before (h ++ [x]) = pilogs M before h ++ [- dt x * sum (lastn M (map off ((before ++ h) ++ [x])))].
Proof. induction h as [|y h IH]; intros before x; cbn [app pilogs]; [rewrite app_nil_r; reflexivity|]. rewrite IH, <- (app_assoc before [y] h). reflexivity. Qed.
Lemma pilogs_length M : forall h before, length (pilogs M before h) = length h. Proof. induction h; intros; cbn; auto. Qed.
Lemma terms_pilogs M : forall h before, terms M before h = map (fun x => (fst (fst x), snd (fst x) * exp (snd x))) (combine (combine (map en h) (map wt h)) (pilogs M before h)).
Proof. induction h as [|x h IH]; intros before; [reflexivity|]. cbn [terms map combine pilogs fst snd]. f_equal. apply IH. Qed.

Lemma fold_max_ge : forall l x, x <= fold_left Rmax l x /\ forall y, In y l -> y <= fold_left Rmax l x.
Proof.
  induction l as [|z l IH]; intros x; cbn [fold_left]; [split; [lra|intros y []]|]. destruct (IH (Rmax x z)) as [A B]. split; [eapply Rle_trans; [apply Rmax_l|exact A]|]. intros y [<-|I]; [eapply Rle_trans; [apply Rmax_r|exact A]|auto].
Qed.
Lemma fold_max_in : forall l x, fold_left Rmax l x = x \/ In (fold_left Rmax l x) l.
Proof.
  induction l as [|z l IH]; intros x; cbn [fold_left]; [left; reflexivity|]. destruct (IH (Rmax x z)) as [E|I]; [|right; right; exact I]. rewrite E. unfold Rmax. destruct (Rle_dec x z); [right; left; reflexivity|left; reflexivity].
Qed.
Lemma maximum_spec l mx : maximum l = Some mx -> In mx l /\ forall y, In y l -> y <= mx.
Proof.
  destruct l as [|x l]; [discriminate|]. cbn. intros E. injection E as <-. destruct (fold_max_ge l x) as [A B]. split; [|intros y [<-|I]; auto]. destruct (fold_max_in l x) as [E|I]; [left; symmetry; exact E|right; exact I].
Qed.

Lemma feed_inv M window : forall h, (0 < window)%nat -> exists c r, feed M window h = Some (c, r) /\
  m_steps c = M /\ m_window c = window /\ m_energy c = lastn window (map en h) /\ m_pilog c = lastn window (pilogs M [] h) /\ m_weight c = lastn window (map wt h) /\ m_offset c = lastn M (map off h).
Proof.
  intros h WP. induction h as [|x h IH] using rev_ind; [exists (mixed_new M window), 0; cbn; unfold lastn; cbn; auto 9|].
  destruct IH as [c [r [F [A [B [C [D [E G]]]]]]]]. unfold feed in *. rewrite fold_left_app, F. cbn [fold_left feed1]. unfold mixed_run. rewrite A, B, C, D, E, G, !push_lastn.
  assert (Q : lastn window (pilogs M [] h ++ [- dt x * sum (lastn M (map off h ++ [off x]))]) = lastn window (pilogs M [] (h ++ [x]))) by (rewrite pilogs_snoc, map_app; reflexivity).
  rewrite Q. unfold normalized. destruct (maximum (lastn window (pilogs M [] (h ++ [x])))) as [mx|] eqn:MX.
  - eexists. eexists. split; [reflexivity|]. cbn. rewrite !map_app. auto 9.
  - exfalso. destruct (lastn window (pilogs M [] (h ++ [x]))) as [|a l] eqn:L; [|discriminate]. apply (f_equal (@length R)) in L. rewrite lastn_length, pilogs_length, app_length in L. cbn in L. lia.
Qed.
(** the scaled sums *)
Lemma sums_scaled mx : forall es ws ps, length es = length ws -> length es = length ps ->
  numerator ws (map (fun p => exp (p - mx)) ps) es = exp (- mx) * fold_right (fun x acc => fst x * snd x + acc) 0 (map (fun x => (fst (fst x), snd (fst x) * exp (snd x))) (combine (combine es ws) ps)) /\
  denominator ws (map (fun p => exp (p - mx)) ps) = exp (- mx) * fold_right (fun x acc => snd x + acc) 0 (map (fun x => (fst (fst x), snd (fst x) * exp (snd x))) (combine (combine es ws) ps)).
Proof.
  unfold numerator, denominator. induction es as [|e es IH]; intros [|w ws] [|p ps] A B; try discriminate; [cbn; lra|]. cbn in A, B. destruct (IH ws ps ltac:(lia) ltac:(lia)) as [H1 H2].
  cbn [map combine fst snd fold_right dot sum]. unfold sum in H1. rewrite H1, H2. replace (p - mx) with (p + - mx) by ring. rewrite exp_plus. split; ring.
Qed.
Definition positive (h : list entry) : Prop := forall x, In x h -> 0 < wt x.
Lemma terms_positive M : forall h before x, positive h -> In x (terms M before h) -> 0 < snd x.
Proof.
  induction h as [|y h IH]; intros before x P I; [destruct I|]. destruct I as [<-|I]; [cbn; apply Rmult_lt_0_compat; [apply P; left; auto|apply exp_pos]|]. apply (IH (before ++ [y])); [|exact I]. intros z Z. apply P. right. exact Z.
Qed.
Lemma lastn_In {A} n (l : list A) x : In x (lastn n l) -> In x l.
Proof. unfold lastn. intros H. rewrite <- (firstn_skipn (length l - n) l). apply in_or_app. right. exact H. Qed.
Lemma sum_pos : forall (l : list (R * R)), l <> [] -> (forall x, In x l -> 0 < snd x) -> 0 < fold_right (fun x acc => snd x + acc) 0 l.
Proof.
  assert (N : forall (l : list (R * R)), (forall x, In x l -> 0 < snd x) -> 0 <= fold_right (fun x acc => snd x + acc) 0 l).
  { induction l as [|x l IH]; intros H; cbn; [lra|]. pose proof (H x (or_introl eq_refl)). assert (0 <= fold_right (fun x acc => snd x + acc) 0 l) by (apply IH; intros y I; apply H; right; exact I). lra. }
  intros [|x l] NE H; [contradiction|]. cbn. pose proof (H x (or_introl eq_refl)). assert (0 <= fold_right (fun x acc => snd x + acc) 0 l) by (apply N; intros y I; apply H; right; exact I). lra.
Qed.

(** ** Theorems *)
(** For every history the reported estimate is the weighted average over the window with the
    unscaled weights: subtracting the largest exponent changes nothing. *)
Theorem C48_value : forall M window h x, (0 < window)%nat -> positive (h ++ [x]) -> exists c, feed M window (h ++ [x]) = Some (c, mixed_estimate M window (h ++ [x])).
Proof.
  intros M window h x WP P. destruct (feed_inv M window h WP) as [c [r [F [A [B [C [D [E G]]]]]]]]. unfold feed in *. rewrite fold_left_app, F. cbn [fold_left feed1]. unfold mixed_run. rewrite A, B, C, D, E, G, !push_lastn.
  replace (lastn window (pilogs M [] h ++ [- dt x * sum (lastn M (map off h ++ [off x]))])) with (lastn window (pilogs M [] (h ++ [x]))) by (rewrite pilogs_snoc, map_app; reflexivity).
  replace (map en h ++ [en x]) with (map en (h ++ [x])) by (rewrite map_app; reflexivity). replace (map wt h ++ [wt x]) with (map wt (h ++ [x])) by (rewrite map_app; reflexivity).
  set (l := h ++ [x]) in *. assert (NE : (0 < length l)%nat) by (unfold l; rewrite app_length; cbn; lia). unfold normalized.
  destruct (maximum (lastn window (pilogs M [] l))) as [mx|] eqn:MX.
  - eexists. apply (f_equal Some). apply f_equal2; [reflexivity|]. 
    destruct (sums_scaled mx (lastn window (map en l)) (lastn window (map wt l)) (lastn window (pilogs M [] l))) as [S1 S2]; [rewrite !lastn_length, !map_length; lia|rewrite !lastn_length, !map_length, pilogs_length; lia|].
    rewrite S1, S2. rewrite (lastn_combine window (map en l) (map wt l)) by (rewrite !map_length; reflexivity). rewrite lastn_combine by (rewrite combine_length, !map_length, pilogs_length; lia). rewrite <- lastn_map, <- terms_pilogs.
    unfold mixed_estimate, weighted_average. assert (PS : 0 < fold_right (fun x acc => snd x + acc) 0 (lastn window (terms M [] l))).
    { apply sum_pos; [|intros y I; eapply terms_positive; [exact P|eapply lastn_In; exact I]]. intros Z. apply (f_equal (@length (R * R))) in Z. rewrite lastn_length, terms_pilogs, map_length, !combine_length, !map_length, pilogs_length in Z. cbn in Z. lia. }
    pose proof (exp_pos (- mx)). field. lra.
  - exfalso. destruct (lastn window (pilogs M [] l)) as [|a q] eqn:L; [|discriminate]. apply (f_equal (@length R)) in L. rewrite lastn_length, pilogs_length in L. cbn in L. lia.
Qed.
Lemma average_bounds lo hi : forall l, l <> [] -> (forall x, In x l -> lo <= fst x <= hi /\ 0 < snd x) -> lo <= weighted_average l <= hi.
Proof.
  intros l NE H. unfold weighted_average. pose proof (sum_pos l NE (fun x I => proj2 (H x I))) as PS. set (d := fold_right (fun x acc => snd x + acc) 0 l) in *.
  assert (B : lo * d <= fold_right (fun x acc => fst x * snd x + acc) 0 l <= hi * d).
  { unfold d. clear PS d NE. induction l as [|x l IH]; cbn; [lra|]. destruct (H x (or_introl eq_refl)) as [E P]. assert (I : forall y, In y l -> lo <= fst y <= hi /\ 0 < snd y) by (intros y Y; apply H; right; exact Y). specialize (IH I). nra. }
  split; [apply Rmult_le_reg_r with d; [exact PS|]|apply Rmult_le_reg_r with d; [exact PS|]]; unfold Rdiv; rewrite Rmult_assoc, Rinv_l by lra; lra.
Qed.
Lemma terms_fst M : forall h before, map fst (terms M before h) = map en h. Proof. induction h as [|x h IH]; intros before; cbn; [reflexivity|rewrite IH; reflexivity]. Qed.
(** It lies between the smallest and the largest energy of the window. *)
Theorem C48_bounds : forall M window h x lo hi, (0 < window)%nat -> positive (h ++ [x]) -> (forall e, In e (lastn window (map en (h ++ [x]))) -> lo <= e <= hi) ->
  exists c r, feed M window (h ++ [x]) = Some (c, r) /\ lo <= r <= hi.
Proof.
  intros M window h x lo hi WP P B. destruct (C48_value M window h x WP P) as [c F]. exists c. eexists. split; [exact F|]. unfold mixed_estimate. apply average_bounds.
  - intros Z. apply (f_equal (@length (R * R))) in Z. rewrite lastn_length, terms_pilogs, map_length, !combine_length, !map_length, pilogs_length, app_length in Z. cbn in Z. lia.
  - intros y I. split; [|eapply terms_positive; [exact P|eapply lastn_In; exact I]]. apply B. rewrite <- (terms_fst M (h ++ [x]) []), lastn_map. apply in_map. exact I.
Qed.
(** No overflow: the scaled factors are at most 1 and one of them is 1, so the denominator is at
    least the smallest total weight of the window. *)
Theorem C48_stable : forall pilog pi, normalized pilog = Some pi -> (forall p, In p pi -> 0 < p <= 1) /\ In 1 pi.
Proof.
  intros pilog pi H. unfold normalized in H. destruct (maximum pilog) as [mx|] eqn:MX; [|discriminate]. injection H as <-. apply maximum_spec in MX as [I G]. split.
  - intros p J. apply in_map_iff in J as [q [<- Q]]. split; [apply exp_pos|]. rewrite <- exp_0. destruct (Rle_lt_or_eq_dec _ _ (G q Q)) as [L|L]; [left; apply exp_increasing; lra|right; f_equal; lra].
  - apply in_map_iff. exists mx. split; [|exact I]. rewrite Rminus_diag_eq by reflexivity. apply exp_0.
Qed.
(** Only the window counts: histories that agree on their last [window + M] iterations give the
    same estimate. *)
Lemma lastn_app_le {A} n (a b : list A) : (n <= length b)%nat -> lastn n (a ++ b) = lastn n b.
Proof. intros H. unfold lastn. rewrite app_length, skipn_app. rewrite skipn_all2 by lia. cbn. f_equal. lia. Qed.
Lemma lastn_take {A} n (a b : list A) : (length b <= n)%nat -> lastn n (a ++ b) = lastn (n - length b) a ++ b.
Proof. intros H. unfold lastn. rewrite app_length, skipn_app. replace (length a + length b - n)%nat with (length a - (n - length b))%nat by lia. f_equal. replace (length a - (n - length b) - length a)%nat with 0%nat by lia. reflexivity. Qed.
Lemma terms_length M : forall h b, length (terms M b h) = length h. Proof. induction h; intros; cbn; auto. Qed.
Lemma terms_app M : forall a b before, terms M before (a ++ b) = terms M before a ++ terms M (before ++ a) b.
Proof. induction a as [|x a IH]; intros b before; cbn [app terms]; [rewrite app_nil_r; reflexivity|]. rewrite IH, <- app_assoc. reflexivity. Qed.
Lemma terms_ext M : forall h b1 b2, (forall x n, (n <= M)%nat -> lastn n (map off (b1 ++ [x])) = lastn n (map off (b2 ++ [x]))) -> terms M b1 h = terms M b2 h.
Proof.
  induction h as [|y h IH]; intros b1 b2 H; [reflexivity|]. cbn [terms]. unfold Pi. rewrite (H y M) by lia. f_equal. apply IH. intros x n L. rewrite !(map_app _ _ [x]). cbn [map]. destruct n as [|n]; [unfold lastn; rewrite !Nat.sub_0_r, !skipn_all; reflexivity|].
  rewrite !lastn_take by (cbn; lia). cbn [length]. rewrite (H y) by lia. reflexivity.
Qed.
Lemma estimate_window : forall M window h1 h2 tail, (window + M <= length tail)%nat -> mixed_estimate M window (h1 ++ tail) = mixed_estimate M window (h2 ++ tail).
Proof.
  intros M window h1 h2 tail L. unfold mixed_estimate. f_equal. rewrite <- (firstn_skipn (length tail - window) tail). set (p := firstn (length tail - window) tail). set (q := skipn (length tail - window) tail).
  assert (LP : (M <= length p)%nat) by (unfold p; rewrite firstn_length; lia). assert (LQ : length q = window) by (unfold q; rewrite skipn_length; lia).
  rewrite !app_assoc, !(terms_app M (_ ++ p) q). rewrite !lastn_app_le by (rewrite terms_length; lia). f_equal. cbn [app]. apply terms_ext. intros x n LN.
  rewrite <- !app_assoc, !(map_app _ _ (p ++ [x])). rewrite !lastn_app_le; [reflexivity|rewrite map_length, app_length; lia|rewrite map_length, app_length; lia].
Qed.
Theorem C48_window : forall M window h1 h2 tail x, (0 < window)%nat -> (window + M <= length (tail ++ [x]))%nat -> positive (h1 ++ tail ++ [x]) -> positive (h2 ++ tail ++ [x]) ->
  exists c1 c2 r, feed M window (h1 ++ tail ++ [x]) = Some (c1, r) /\ feed M window (h2 ++ tail ++ [x]) = Some (c2, r).
Proof.
  intros M window h1 h2 tail x WP L P1 P2. pose proof (estimate_window M window h1 h2 (tail ++ [x]) L) as E. rewrite !app_assoc in *.
  destruct (C48_value M window (h1 ++ tail) x WP P1) as [c1 F1]. destruct (C48_value M window (h2 ++ tail) x WP P2) as [c2 F2]. exists c1, c2. eexists. split; [exact F1|]. rewrite E. exact F2.
Qed.
(** A window of size zero fails on the first iteration. *)
Theorem C48_empty_window : forall M x h, feed M 0 (x :: h) = None.
Proof.
  intros M x h. unfold feed. cbn [fold_left feed1]. assert (E : feed1 (Some (mixed_new M 0, 0)) x = None).
  { unfold feed1, mixed_run, mixed_new, normalized, push. cbn. reflexivity. }
  cbn [feed1] in E. rewrite E. induction h as [|y h IH]; [reflexivity|exact IH].
Qed.
(** one accepted iteration: the estimate is its energy *)
Example C48_one : forall M off0 e w d, 0 < w -> exists c, feed M 3 [{| off := off0; en := e; wt := w; dt := d |}] = Some (c, e).
Proof.
  intros M o e w d W. destruct (C48_bounds M 3 [] {| off := o; en := e; wt := w; dt := d |} e e) as [c [r [F B]]]; [lia|intros x [<-|[]]; exact W|intros x [<-|[]]; cbn; lra|]. cbn [app] in F. exists c. rewrite F. repeat f_equal. lra.
Qed.
(** the hypotheses of C48_value and C48_bounds are met by a three-step history *)
Example C48_positive : positive [{| off := -1; en := -2; wt := 10; dt := 1/100 |}; {| off := -3/2; en := -1; wt := 12; dt := 1/100 |}; {| off := -1; en := -3; wt := 9; dt := 1/100 |}].
Proof. intros x [<-|[<-|[<-|[]]]]; cbn; lra. Qed.
Print Assumptions C48_value. Print Assumptions C48_bounds. Print Assumptions C48_stable. Print Assumptions C48_window. Print Assumptions C48_empty_window.
