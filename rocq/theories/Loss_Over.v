(** C87: the overlap penalty and the loss factory. *)
From Coq Require Import Reals List Bool Arith ZArith String Lra Lia Permutation.
From Coquelicot Require Import Coquelicot.
From Verif Require Import Est_Model Est_Props Clip_Props Loss_Spec Loss_Model Loss_Props Loss_Pen.
Import ListNotations.
Open Scope R_scope.
Open Scope list_scope.
Local Notation length := List.length.

(** *** Ratios *)
(** The walkers at which both wavefunctions have a finite logarithm, and psi_1 / psi_2 there. *)
Definition both (p : wf * wf) : bool := isfinite (fsub (snd (fst p)) (snd (snd p))).
Definition ratio (p : wf * wf) : R :=
  match snd (fst p), snd (snd p) with Fin a, Fin b => fst (fst p) * fst (snd p) * exp (a - b) | _, _ => fst (fst p) * fst (snd p) end.
Lemma combine_mm2 {A B D E} (f : A -> B) (h : A -> D) (g : B * D -> E) ws :
  map (fun p => map g (combine (fst p) (snd p))) (combine (map (map f) ws) (map (map h) ws)) = map (map (fun x => g (f x, h x))) ws.
Proof.
  induction ws as [|d ws IH]; cbn [map combine fst snd]; auto. f_equal; [|exact IH].
  induction d as [|x d IHd]; cbn [map combine]; auto. f_equal. exact IHd.
Qed.
Lemma fsub_fin a b x : fsub a b = Fin x -> exists y z, a = Fin y /\ b = Fin z /\ x = y - z.
Proof.
  destruct a as [y| |p], b as [z| |q]; cbn; try discriminate.
  - intros H. injection H as <-. eauto.
  - destruct (Bool.eqb p q); discriminate.
Qed.
Lemma div_in_dist_value big ws : div_in_dist big 0 100 ws =
  (mean_or_nan (map ratio (filter both (List.concat ws))), map (map (fun p => (ratio p, both p))) ws).
Proof.
  unfold div_in_dist, local_value_clip. assert (T : eqb 0 0 && eqb 100 100 = true) by (unfold eqb; destruct (Req_EM_T 0 0), (Req_EM_T 100 100); try contradiction; reflexivity).
  rewrite T. set (ld := map (map (fun d => nan_to_num big d * b2r (isfinite d))) (map (map (fun p : wf * wf => fsub (snd (fst p)) (snd (snd p)))) ws)).
  set (m := list_max (map list_max ld)). clearbody m.
  assert (L : ld = map (map (fun p : wf * wf => nan_to_num big (fsub (snd (fst p)) (snd (snd p))) * b2r (both p))) ws).
  { unfold ld. rewrite map_map. apply map_ext. intros d. exact (map_map (fun p : wf * wf => fsub (snd (fst p)) (snd (snd p))) (fun d => nan_to_num big d * b2r (isfinite d)) d). }
  assert (MK : map (map isfinite) (map (map (fun p : wf * wf => fsub (snd (fst p)) (snd (snd p)))) ws) = map (map both) ws).
  { rewrite map_map. apply map_ext. intros d. exact (map_map (fun p : wf * wf => fsub (snd (fst p)) (snd (snd p))) isfinite d). }
  rewrite MK, L, combine_mm. cbn [fst snd].
  set (res := fun p : wf * wf => fst (fst p) * fst (snd p) * exp (nan_to_num big (fsub (snd (fst p)) (snd (snd p))) * b2r (both p) - m)).
  assert (R0 : forall p, res p * exp m = ratio p).
  { intros p. unfold res, ratio, both. unfold Rminus. rewrite exp_plus, exp_Ropp. pose proof (exp_pos m).
    destruct (snd (fst p)) as [a| |q], (snd (snd p)) as [b| |q']; cbn [fsub nan_to_num isfinite b2r]; try (destruct (Bool.eqb q q'); cbn [nan_to_num isfinite b2r]); rewrite ?Rmult_0_r, ?exp_0, ?Rmult_1_r; unfold Rminus; try (field; lra). }
  rewrite !combine_mm2. cbn [fst snd]. f_equal.
  - rewrite pmm, concat_mm. rewrite <- (map_ext _ _ R0).
    assert (K : forall l, map fst (filter snd (map (fun p => (res p, both p)) l)) = map res (filter both l)).
    { induction l as [|p l IH]; cbn [map filter snd]; auto. destruct (both p); cbn [map fst]; [f_equal|]; exact IH. }
    rewrite K. destruct (filter both (List.concat ws)) as [|p l]; [reflexivity|].
    unfold mean_or_nan. cbn [map option_map]. f_equal. unfold mean. cbn [List.length]. rewrite !map_length.
    change (res p :: map res l) with (map res (p :: l)). change (res p * exp m :: map (fun a => res a * exp m) l) with (map (fun a => res a * exp m) (p :: l)).
    rewrite (map_ext (fun a => res a * exp m) (fun a => exp m * res a)) by (intros; ring). rewrite total_scal_f.
    assert (INR (S (length l)) <> 0) by (apply not_0_INR; discriminate). field. exact H.
  - apply map_ext. intros d. apply map_ext. intros p. rewrite R0. reflexivity.
Qed.
(** The mean is that of psi_1 / psi_2 over the walkers where both are finite: subtracting the
    largest logarithm leaves no trace. *)
Theorem C87_ratio_mean : forall big ws, let l := filter both (List.concat ws) in
  (l <> [] -> fst (div_in_dist big 0 100 ws) = Some (average ratio l)) /\ (l = [] -> fst (div_in_dist big 0 100 ws) = None).
Proof.
  intros big ws l. rewrite div_in_dist_value. cbn [fst]. fold l. split; intros H.
  - apply mean_or_nan_some, map_ne, H.
  - rewrite H. reflexivity.
Qed.
(** A nonzero amplitude as sign and logarithm. *)
Definition of_real (x : R) : wf := (if Rlt_dec x 0 then -1 else 1, Fin (ln (Rabs x))).
Lemma ratio_real x y : x <> 0 -> y <> 0 -> ratio (of_real x, of_real y) = x / y.
Proof.
  intros X Y. unfold ratio, of_real. cbn [fst snd]. unfold Rminus. rewrite exp_plus, exp_Ropp, !exp_ln by (apply Rabs_pos_lt; auto).
  assert (SX : x = (if Rlt_dec x 0 then -1 else 1) * Rabs x) by (destruct (Rlt_dec x 0); [rewrite Rabs_left by lra|rewrite Rabs_pos_eq by lra]; ring).
  assert (SY : (if Rlt_dec y 0 then -1 else 1) / Rabs y = / y).
  { destruct (Rlt_dec y 0); [rewrite Rabs_left by lra|rewrite Rabs_pos_eq by lra]; field; lra. }
  rewrite SX at 3. unfold Rdiv at 1. rewrite <- SY. unfold Rdiv. ring.
Qed.

(** Walkers of the current state and of a target with the amplitudes of both. *)
Definition current {W} (psi tgt : W -> R) (ws : list (list W)) : list (list (wf * wf)) := map (map (fun w => (of_real (tgt w), of_real (psi w)))) ws.
Definition fixed {W} (psi tgt : W -> R) (ws : list (list W)) : list (list (wf * wf)) := map (map (fun w => (of_real (psi w), of_real (tgt w)))) ws.
Lemma aux_value {W} big (psi tgt : W -> R) fs cs : List.concat fs <> [] -> List.concat cs <> [] ->
  (forall w, In w (List.concat fs) \/ In w (List.concat cs) -> psi w <> 0 /\ tgt w <> 0) ->
  overlap_aux big 0 100 (fixed psi tgt fs, current psi tgt cs) =
  (Some (average (fun w => psi w / tgt w) (List.concat fs) * average (fun w => tgt w / psi w) (List.concat cs)),
   Some (average (fun w => psi w / tgt w) (List.concat fs)),
   map (map (fun w => (ratio (of_real (tgt w), of_real (psi w)), true))) cs).
Proof.
  intros NF NC H. unfold overlap_aux. cbn [fst snd]. rewrite !div_in_dist_value. cbn [fst snd].
  assert (F : forall (g : W -> wf * wf), (forall w, both (g w) = true) -> forall ws, filter both (List.concat (map (map g) ws)) = map g (List.concat ws)).
  { intros g G ws. rewrite concat_mm. induction (List.concat ws) as [|w l IH]; cbn [map filter]; auto. rewrite G. f_equal. exact IH. }
  unfold fixed, current. rewrite !F by reflexivity. rewrite !map_map.
  rewrite !mean_or_nan_some by (apply map_ne; auto).
  assert (E1 : mean (map (fun w => ratio (of_real (psi w), of_real (tgt w))) (List.concat fs)) = average (fun w => psi w / tgt w) (List.concat fs)).
  { unfold average. f_equal. apply map_ext_in. intros w Hw. apply ratio_real; apply H; auto. }
  assert (E2 : mean (map (fun w => ratio (of_real (tgt w), of_real (psi w))) (List.concat cs)) = average (fun w => tgt w / psi w) (List.concat cs)).
  { unfold average. f_equal. apply map_ext_in. intros w Hw. apply ratio_real; apply H; auto. }
  rewrite E1, E2. cbn [nmap2]. f_equal. apply map_ext. intros d.
  exact (map_map (fun w => (of_real (tgt w), of_real (psi w))) (fun p : wf * wf => (ratio p, both p)) d).
Qed.
(** The reported overlap is the product of the two mean ratios; it does not depend on the
    norms or the signs of the wavefunctions. *)
Theorem C87_overlap {W} : forall big (psi tgt : W -> R) fs cs, List.concat fs <> [] -> List.concat cs <> [] ->
  (forall w, In w (List.concat fs) \/ In w (List.concat cs) -> psi w <> 0 /\ tgt w <> 0) ->
  let overlap a b := fst (fst (overlap_aux big 0 100 (fixed a b fs, current a b cs))) in
  overlap psi tgt = Some (average (fun w => psi w / tgt w) (List.concat fs) * average (fun w => tgt w / psi w) (List.concat cs)) /\
  forall j k, j <> 0 -> k <> 0 -> overlap (fun w => j * psi w) (fun w => k * tgt w) = overlap psi tgt.
Proof.
  intros big psi tgt fs cs NF NC H overlap. unfold overlap. rewrite (aux_value big psi tgt) by auto. cbn [fst]. split; [reflexivity|].
  intros j k J K. rewrite (aux_value big (fun w => j * psi w) (fun w => k * tgt w)); auto.
  2:{ intros w Hw. destruct (H w Hw). split; nra. }
  cbn [fst]. f_equal. unfold average, mean. rewrite !map_length.
  rewrite (map_ext_in (fun w => j * psi w / (k * tgt w)) (fun w => j / k * (psi w / tgt w))) by (intros w Hw; field; split; [apply H; auto|auto]).
  rewrite (map_ext_in (fun w => k * tgt w / (j * psi w)) (fun w => k / j * (tgt w / psi w))) by (intros w Hw; field; split; [apply H; auto|auto]).
  rewrite !total_scal_f. field. repeat split; auto; apply not_0_INR; [destruct (List.concat cs)|destruct (List.concat fs)]; (congruence || discriminate).
Qed.

(** *** Gradient: over exactly sampling walkers it is the derivative of weight / 2 times the
    squared overlap <psi|tgt>^2 / (<psi|psi> <tgt|tgt>) *)
Definition inner {W} (points : list W) (a b : W -> R) : R := total (map (fun x => a x * b x) points).
Lemma one_grad_value {W} big (psi tgt s : W -> R) fs cs wt : List.concat fs <> [] -> List.concat cs <> [] ->
  (forall w, In w (List.concat fs) \/ In w (List.concat cs) -> psi w <> 0 /\ tgt w <> 0) ->
  one_overlap_grad big (map (map (fun w => Fin (s w))) cs) (overlap_aux big 0 100 (fixed psi tgt fs, current psi tgt cs)) wt
  = Some (wt * average (fun w => psi w / tgt w) (List.concat fs) * covariance (fun w => tgt w / psi w) s (List.concat cs)).
Proof.
  intros NF NC H. unfold one_overlap_grad. rewrite aux_value by auto. cbn [fst snd].
  set (g := fun w => (ratio (of_real (tgt w), of_real (psi w)), true, Fin (s w)) : pw).
  assert (G : map (fun p => combine (fst p) (snd p)) (combine (map (map (fun w => (ratio (of_real (tgt w), of_real (psi w)), true))) cs) (map (map (fun w => Fin (s w))) cs)) = map (map g) cs).
  { clear. induction cs as [|d cs IH]; cbn [map combine fst snd]; auto. f_equal; [|exact IH]. clear. induction d as [|x d IH]; cbn [map combine]; auto. f_equal. exact IH. }
  rewrite G.
  assert (FK : filter pkept (List.concat (map (map g) cs)) = map g (List.concat cs)).
  { rewrite concat_mm. clear. induction (List.concat cs) as [|w l IH]; cbn [map filter]; auto. change (pkept (g w)) with true. cbv iota. f_equal. exact IH. }
  pose proof (C87_estimator_covariance big (map (map g) cs)) as A. cbv zeta in A. rewrite FK in A.
  rewrite (proj1 (A (map_ne g _ NC) ltac:(intros x Hx; apply in_map_iff in Hx as (w & <- & _); eexists; reflexivity))). cbn [nmap2]. do 2 f_equal.
  unfold covariance, average. rewrite !map_map.
  assert (E : map (fun x => pvalue (g x)) (List.concat cs) = map (fun w => tgt w / psi w) (List.concat cs)).
  { apply map_ext_in. intros w Hw. unfold g, pvalue. cbn [fst snd]. apply ratio_real; apply H; auto. }
  rewrite E. f_equal. apply map_ext_in. intros w Hw. unfold g, pvalue, pscore. cbn [fst snd]. rewrite ratio_real by (apply H; auto). reflexivity.
Qed.
Theorem C87_overlap_derivative {W} : forall big (points : list W) (psi : R -> W -> R) (tgt s : W -> R) t0 fs cs wt,
  points <> [] -> (forall x, In x points -> psi t0 x <> 0 /\ tgt x <> 0 /\ is_derive (fun t => psi t x) t0 (psi t0 x * s x)) ->
  List.concat fs <> [] -> List.concat cs <> [] ->
  (forall w, In w (List.concat fs) \/ In w (List.concat cs) -> psi t0 w <> 0 /\ tgt w <> 0) ->
  samples (List.concat cs) (fun x => psi t0 x * psi t0 x) points -> samples (List.concat fs) (fun x => tgt x * tgt x) points ->
  let squared_overlap t := inner points (psi t) tgt * inner points (psi t) tgt / (inner points (psi t) (psi t) * inner points tgt tgt) in
  let aux := overlap_aux big 0 100 (fixed (psi t0) tgt fs, current (psi t0) tgt cs) in
  fst (fst aux) = Some (squared_overlap t0) /\
  exists g, overlap_grad big (map (map (fun w => Fin (s w))) cs) [aux] [wt] = Some (Some g) /\
            is_derive (fun t => wt / 2 * squared_overlap t) t0 g.
Proof.
  intros big points psi tgt s t0 fs cs wt NP HP NF NC HW SC SF O aux.
  set (A := inner points (psi t0) tgt). set (N := inner points (psi t0) (psi t0)). set (T := inner points tgt tgt).
  assert (POS : forall f : W -> R, (forall x, In x points -> f x <> 0) -> 0 < inner points f f).
  { intros f F. unfold inner. clear -NP F. destruct points as [|x l]; [congruence|]. cbn [map total].
    assert (0 <= total (map (fun x => f x * f x) l)) by (apply total_nonneg, Forall_map, Forall_forall; intros; apply Rle_0_sqr).
    assert (0 < f x * f x) by (apply Rsqr_pos_lt, F; left; auto). lra. }
  assert (N0 : 0 < N) by (apply POS; intros; apply HP; auto). assert (T0 : 0 < T) by (apply POS; intros; apply HP; auto).
  assert (MF : average (fun w => psi t0 w / tgt w) (List.concat fs) = A / T).
  { rewrite (SF _). unfold expectation. f_equal. unfold A, inner. f_equal. apply map_ext_in. intros x Hx. field. apply HP, Hx. }
  assert (MC : average (fun w => tgt w / psi t0 w) (List.concat cs) = A / N).
  { rewrite (SC _). unfold expectation. f_equal. unfold A, inner. f_equal. apply map_ext_in. intros x Hx. field. apply HP, Hx. }
  split.
  - unfold aux. rewrite (proj1 (C87_overlap big (psi t0) tgt fs cs NF NC HW)), MF, MC. f_equal. unfold O. fold A N T. field. lra.
  - eexists. split.
    { unfold overlap_grad. cbn [overlap_rest]. unfold aux. rewrite one_grad_value by auto. reflexivity. }
    set (B := total (map (fun x => psi t0 x * s x * tgt x) points)). set (Q := total (map (fun x => psi t0 x * psi t0 x * s x) points)).
    assert (CV : covariance (fun w => tgt w / psi t0 w) s (List.concat cs) = B / N - A / N * (Q / N)).
    { unfold covariance. rewrite MC, (SC _). unfold expectation. change (total (map (fun x => psi t0 x * psi t0 x) points)) with N.
      rewrite (map_ext_in (fun x => psi t0 x * psi t0 x * ((tgt x / psi t0 x - A / N) * s x)) (fun x => psi t0 x * s x * tgt x - A / N * (psi t0 x * psi t0 x * s x))) by (intros x Hx; field; split; [lra|apply HP, Hx]).
      rewrite (total_minus (fun x => psi t0 x * s x * tgt x)), total_scal_f. fold B Q. field. lra. }
    rewrite MF, CV.
    assert (DA : is_derive (fun t => inner points (psi t) tgt) t0 B).
    { apply (is_derive_total (fun t x => psi t x * tgt x) (fun x => psi t0 x * s x * tgt x)). intros x Hx.
      apply (is_derive_ext (fun t => tgt x * psi t x)); [intros; apply Rmult_comm|].
      evar_last; [apply (is_derive_scal (fun t => psi t x) t0 (tgt x) (psi t0 x * s x)); apply HP, Hx|]. cbv beta. ring. }
    assert (DN : is_derive (fun t => inner points (psi t) (psi t)) t0 (2 * Q)).
    { unfold Q. rewrite <- total_scal_f. apply (is_derive_total (fun t x => psi t x * psi t x) (fun x => 2 * (psi t0 x * psi t0 x * s x))). intros x Hx. evar_last.
      - apply (is_derive_mult (fun t => psi t x) (fun t => psi t x) t0 (psi t0 x * s x) (psi t0 x * s x)); [apply HP, Hx|apply HP, Hx|intros; apply Rmult_comm].
      - unfold plus, mult; cbn. ring. }
    unfold O. evar_last.
    + apply (is_derive_scal (fun t => inner points (psi t) tgt * inner points (psi t) tgt / (inner points (psi t) (psi t) * T)) t0 (wt / 2)).
      apply (is_derive_div (fun t => inner points (psi t) tgt * inner points (psi t) tgt) (fun t => inner points (psi t) (psi t) * T)).
      * apply (is_derive_mult (fun t => inner points (psi t) tgt) (fun t => inner points (psi t) tgt) t0 B B); [exact DA|exact DA|intros; apply Rmult_comm].
      * apply (is_derive_ext (fun t => T * inner points (psi t) (psi t))); [intros; apply Rmult_comm|]. apply (is_derive_scal (fun t => inner points (psi t) (psi t)) t0 T (2 * Q)). exact DN.
      * fold N. nra.
    + unfold plus, mult; cbn. fold A N. field. lra.
Qed.

(** Several targets: the gradients add up, over as many as there are targets and weights; no
    target, or no weight, is an error. *)
Lemma rest_sum big sc aux w acc g : nmap2 Rplus acc (Some 0) = acc ->
  (forall k a x, nth_error aux k = Some a -> nth_error w k = Some x -> one_overlap_grad big sc a x = Some (g a x)) -> forall v, acc = Some v ->
  overlap_rest big sc aux w acc = Some (v + total (map (fun p => g (fst p) (snd p)) (combine aux w))).
Proof.
  intros _. revert w acc. induction aux as [|a aux IH]; intros w acc H v V; subst acc; destruct w as [|x w]; cbn [overlap_rest combine map total]; rewrite ?Rplus_0_r; try reflexivity.
  rewrite (H O a x eq_refl eq_refl). cbn [nmap2]. rewrite (IH w _ (fun k a' x' A B => H (S k) a' x' A B) (v + g a x) eq_refl). cbn [fst snd]. f_equal. lra.
Qed.
Theorem C87_overlap_targets : forall big sc aux w g,
  (forall k a x, nth_error aux k = Some a -> nth_error w k = Some x -> one_overlap_grad big sc a x = Some (g a x)) ->
  (aux <> [] -> w <> [] -> overlap_grad big sc aux w = Some (Some (total (map (fun p => g (fst p) (snd p)) (combine aux w))))) /\
  (aux = [] \/ w = [] -> overlap_grad big sc aux w = None).
Proof.
  intros big sc aux w g H. split.
  - intros A B. destruct aux as [|a aux]; [congruence|]. destruct w as [|x w]; [congruence|]. cbn [overlap_grad combine map total fst snd].
    rewrite (H O a x eq_refl eq_refl). f_equal. apply (rest_sum big sc aux w (Some (g a x)) g); [cbn; f_equal; ring|exact (fun k a' x' A B => H (S k) a' x' A B)|reflexivity].
  - intros [-> | ->]; [reflexivity|destruct aux; reflexivity].
Qed.
(** A target without a weight is left out silently. *)
Theorem C87_missing_weight_refuted : forall big sc aux w, aux <> [] -> w <> [] ->
  overlap_grad big sc aux w = overlap_grad big sc (firstn (length w) aux) w.
Proof.
  intros big sc aux w A B. destruct aux as [|a aux]; [congruence|]. destruct w as [|x w]; [congruence|]. cbn [overlap_grad List.length firstn]. f_equal.
  generalize (one_overlap_grad big sc a x). clear. revert w. induction aux as [|a aux IH]; intros [|x w] o; cbn [overlap_rest List.length firstn]; auto.
Qed.

(** *** The factory *)
Section F.
Context {K D St Aux : Type}.
Variable split : K -> K * K.
Variables vmc spin overlap : D -> option St -> K -> R * (option St * Aux).
Lemma eqb_names a b : String.eqb a b = true <-> a = b. Proof. apply String.eqb_eq. Qed.
(** Each component gets its own key and its own part of the state; the energy part does not
    depend on which penalties are on; the returned state and auxiliary data hold the enabled
    components and nothing else. *)
Theorem C87_factory : forall (with_spin with_overlap : bool) d st key,
  let k1 := split key in let k2 := split (fst k1) in let ko := if with_spin then split (fst k2) else k2 in
  let v := vmc d (st "vmc"%string) (snd k1) in
  let s := spin d (st "spin"%string) (snd k2) in
  let o := overlap d (st "overlap"%string) (snd ko) in
  let out := total_loss split (all_components vmc spin overlap with_spin with_overlap) d st key in
  fst out = fst v + (if with_spin then fst s else 0) + (if with_overlap then fst o else 0) /\
  (forall name, fst (snd out) name = if String.eqb name "vmc" then fst (snd v) else if String.eqb name "spin" then (if with_spin then fst (snd s) else None)
                                     else if String.eqb name "overlap" then (if with_overlap then fst (snd o) else None) else None) /\
  (forall name, snd (snd out) name = if String.eqb name "vmc" then Some (snd (snd v)) else if String.eqb name "spin" then (if with_spin then Some (snd (snd s)) else None)
                                     else if String.eqb name "overlap" then (if with_overlap then Some (snd (snd o)) else None) else None).
Proof.
  intros ws wo d st key k1 k2 ko v s o out.
  assert (NM : forall name, (String.eqb "vmc" name = String.eqb name "vmc") /\ (String.eqb "spin" name = String.eqb name "spin") /\ (String.eqb "overlap" name = String.eqb name "overlap"))
    by (intros; repeat split; apply String.eqb_sym).
  unfold out, total_loss, all_components, ko in *. destruct ws, wo; cbn [app run_components fst snd find_name find option_map];
    (split; [subst v s o k2 k1; cbn; ring|]); split; intros name; unfold find_name; cbn [find fst snd]; destruct (NM name) as (E1 & E2 & E3); rewrite ?E1, ?E2, ?E3;
    repeat (match goal with |- context [String.eqb ?a ?b] => destruct (String.eqb_spec a b) end; subst; cbn [option_map fst snd find]);
    try discriminate; try reflexivity; try (destruct (snd v); reflexivity); try (destruct (snd s); reflexivity); try (destruct (snd o); reflexivity).
Qed.
(** The penalties return 0 (see C87_step_not_counted): the loss is the energy. *)
Theorem C87_loss_is_energy : (forall d st k, fst (spin d st k) = 0) -> (forall d st k, fst (overlap d st k) = 0) ->
  forall with_spin with_overlap d st key, fst (total_loss split (all_components vmc spin overlap with_spin with_overlap) d st key) = fst (vmc d (st "vmc"%string) (snd (split key))).
Proof.
  intros HS HO ws wo d st key. pose proof (C87_factory ws wo d st key) as [H _]. cbv zeta in H. rewrite H, HS, HO. destruct ws, wo; lra.
Qed.
End F.
(** A component gets exactly the keyword arguments of its own signature. *)
Theorem C87_kwargs {V} : forall (all : list (string * V)) args k v, In (k, v) (relevant_kwargs all args) <-> In (k, v) all /\ In k args.
Proof.
  intros all args k v. unfold relevant_kwargs. rewrite filter_In. cbn [fst]. split; intros [A B]; split; auto.
  - apply existsb_exists in B as (x & X & E). apply String.eqb_eq in E. subst. exact X.
  - apply existsb_exists. exists k. split; auto. apply String.eqb_refl.
Qed.
(** A keyword that no component knows is dropped without a word. *)
Theorem C87_unknown_kwarg_refuted {V} : forall (a b : list (string * V)) k v args, ~ In k args -> relevant_kwargs (a ++ (k, v) :: b) args = relevant_kwargs (a ++ b) args.
Proof.
  intros a b k v args N. unfold relevant_kwargs. rewrite !filter_app. f_equal. cbn [filter fst]. destruct (existsb (String.eqb k) args) eqn:E; [|reflexivity].
  exfalso. apply N. apply existsb_exists in E as (x & X & E). apply String.eqb_eq in E. subst. exact X.
Qed.

(** Example: two points of equal weight, sampled exactly. *)
Example C87_sampling_example : samples [0%nat; 1%nat] (fun x => (INR x - 1 / 2) * (INR x - 1 / 2)) [0%nat; 1%nat] /\ samples [0%nat; 1%nat] (fun _ => 1 * 1) [0%nat; 1%nat].
Proof. split; intros f; unfold average, mean, expectation; cbn; field. Qed.
