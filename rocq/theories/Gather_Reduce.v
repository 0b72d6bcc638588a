(** C91, continued: maxima and minima over axes. *)
From Coq Require Import Reals ZArith List Arith Bool Lra Lia.
From Verif Require Import Lin Shape Jet Lap_Spec Lap_Lang Lap_Model Lap_Props Sparse_Model Sparse_Spec Sparse_Lemmas Sparse_Layout Sparse_Rules Sparse_Props Attn_Spec Gather_Model Gather_Spec Gather_Lemmas Gather_Props.
Import ListNotations.
Open Scope R_scope.

(** ** Sparse against dense: also at ties *)
Theorem C91_reduce : forall b sh best axes x, NoDup axes -> wf_value b sh x ->
  let y := handle_reduce best axes b sh x in
  wf_value b (sum_shape axes sh) y /\ agree (b_n b) (size (sum_shape axes sh)) (densify b (sum_shape axes sh) y) (dense_reduce best axes sh (densify b sh x)).
Proof.
  intros b sh best axes x ND [P W]. cbv zeta. fold (good b (sum_shape axes sh) (handle_reduce best axes b sh x) (dense_reduce best axes sh (densify b sh x))).
  pose proof (sum_size_pos axes sh P) as PO. unfold handle_reduce. destruct x as [a|t|t]; try (apply good_dense; exact PO). destruct W as [S F].
  assert (TW : forall (f : arr) o, lsum (fun m => f m * tie_weight best axes sh (sx t) m) (sum_elems axes sh o) = lsum (fun m => f m * hit best axes sh (sx t) m) (sum_elems axes sh o) / ties best axes sh (sx t) o).
  { intros f o. unfold Rdiv. rewrite (Rmult_comm (lsum _ _)), <- lsum_scal. apply lsum_ext. intros m I. apply sum_elems_spec in I as [_ E]. unfold tie_weight, Rdiv. rewrite E. ring. }
  assert (TL : forall (f : arr) o, lsum (fun m => tie_weight best axes sh (sx t) m * f m) (sum_elems axes sh o) = lsum (fun m => f m * hit best axes sh (sx t) m) (sum_elems axes sh o) / ties best axes sh (sx t) o).
  { intros f o. rewrite <- TW. apply lsum_ext. intros m _. ring. }
  cbn [densify dense_reduce lx jac lapl]. destruct (map_roles (reduce_role axes) (owners t)) as [ow|] eqn:M.
  2:{ split; [split; [exact PO|exact I]|]. cbn. split; [reflexivity|]. split; intros; [apply TW|apply TL]. }
  apply map_roles_spec in M as [L M].
  assert (H : forall s, (s < slots t)%nat -> wf_role (b_N b) (sum_shape axes sh) (nth s ow role0) /\ forall m, (m < size sh)%nat -> owner_id (sum_shape axes sh) (nth s ow role0) (sum_dest axes sh m) = owner_id sh (owner t s) m).
  { intros s Hs. apply reduce_follows; auto; [apply (owner_wf b); auto|apply M; exact Hs]. }
  apply good_sparse; cbn [sx owners sl lx jac lapl]; auto.
  - unfold slots in *. cbn [owners]. rewrite L. exact S.
  - apply Forall_slots. intros s Hs. apply H. unfold slots. lia.
  - intros k o K O. rewrite to_dense_spread. unfold slots. cbn [owners blk]. rewrite L, <- TW.
    rewrite (spread_lsum b (length (owners t)) _ (fun m s c => blk t s c m * tie_weight best axes sh (sx t) m)). apply lsum_ext. intros m Im. apply sum_elems_spec in Im as [Hm <-].
    rewrite spread_scale. f_equal. rewrite to_dense_spread. apply spread_ext; [|reflexivity]. intros s Hs. apply H; auto.
Qed.

(** ** The value is the extreme of the window *)
Lemma in_window_elems axes sh o m : (o < size (sum_shape axes sh))%nat -> in_window axes sh o m <-> In m (sum_elems axes sh o).
Proof.
  intros O. rewrite sum_elems_spec. unfold in_window. fold (sum_shape axes sh). split.
  - intros [M H]. split; [exact M|]. unfold sum_dest. transitivity (ravel (sum_shape axes sh) (unravel (sum_shape axes sh) o)); [|apply ravel_unravel; exact O]. f_equal. apply (nth_ext _ _ 0%nat 0%nat).
    + rewrite map_length, length_unravel. unfold sum_shape. rewrite map_length. reflexivity.
    + rewrite map_length. intros j J. rewrite nth_map by exact J. symmetry. apply (H j J).
  - intros [M <-]. split; [exact M|]. intros j J. unfold sum_dest. rewrite unravel_ravel by (apply sum_idx_inside; exact M). unfold at_ at 1. rewrite nth_map by exact J. reflexivity.
Qed.
Lemma window_nonempty axes sh o : NoDup axes -> (0 < size sh)%nat -> (o < size (sum_shape axes sh))%nat -> exists m, In m (sum_elems axes sh o).
Proof.
  intros ND P O. pose proof (unravel_inside _ _ O) as [LO IN]. set (oi := unravel (sum_shape axes sh) o) in *.
  set (ix := map (fun a => if mem a axes then 0%nat else at_ oi (a - count_below a axes)) (seq 0 (length sh))).
  assert (I : inside sh ix).
  { split; [unfold ix; rewrite map_length, seq_length; reflexivity|]. intros a A. unfold ix. rewrite nth_map_seq by exact A. destruct (mem a axes) eqn:E; [apply size_pos_nth; assumption|].
    destruct (kept_pos axes (length sh) a ND A E) as [K1 K2]. unfold at_. assert (K : (a - count_below a axes < length (sum_shape axes sh))%nat) by (unfold sum_shape; rewrite map_length; exact K1).
    specialize (IN _ K). assert (NS : nth (a - count_below a axes) (sum_shape axes sh) 0%nat = nth a sh 0%nat) by (unfold sum_shape; rewrite nth_map, K2 by exact K1; reflexivity). rewrite NS in IN. exact IN. }
  exists (ravel sh ix). apply sum_elems_spec. split; [apply ravel_lt; exact I|]. unfold sum_dest. rewrite unravel_ravel by exact I. transitivity (ravel (sum_shape axes sh) oi); [|apply ravel_unravel; exact O]. f_equal.
  apply (nth_ext _ _ 0%nat 0%nat); [rewrite map_length; unfold sum_shape in LO; rewrite map_length in LO; congruence|]. rewrite map_length. intros j J. rewrite nth_map by exact J.
  assert (Ia : In (nth j (kept axes (length sh)) 0%nat) (kept axes (length sh))) by (apply nth_In; exact J). set (a := nth j (kept axes (length sh)) 0%nat) in *. apply kept_In in Ia as [A1 A2]. apply mem_not in A2.
  unfold ix, at_ at 1. rewrite nth_map_seq, A2 by exact A1. destruct (kept_pos axes (length sh) a ND A1 A2) as [K1 K2]. unfold at_. f_equal. apply (proj1 (NoDup_nth _ 0%nat) (kept_NoDup axes (length sh))); auto.
Qed.
Lemma fold_max l : forall a, (a = fold_left Rmax l a \/ In (fold_left Rmax l a) l) /\ a <= fold_left Rmax l a /\ forall x, In x l -> x <= fold_left Rmax l a.
Proof.
  induction l as [|c l IH]; intros a; cbn [fold_left]; [split; [left; reflexivity|]; split; [lra|intros x []]|].
  destruct (IH (Rmax a c)) as (I1 & I2 & I3). pose proof (Rmax_l a c). pose proof (Rmax_r a c). split; [|split; [lra|]].
  - destruct I1 as [E|I1]; [|right; right; exact I1]. unfold Rmax in E at 1. destruct (Rle_dec a c); [right; left; exact E|left; exact E].
  - intros x [->|I]; [lra|apply I3; exact I].
Qed.
Lemma fold_min l : forall a, (a = fold_left Rmin l a \/ In (fold_left Rmin l a) l) /\ fold_left Rmin l a <= a /\ forall x, In x l -> fold_left Rmin l a <= x.
Proof.
  induction l as [|c l IH]; intros a; cbn [fold_left]; [split; [left; reflexivity|]; split; [lra|intros x []]|].
  destruct (IH (Rmin a c)) as (I1 & I2 & I3). pose proof (Rmin_l a c). pose proof (Rmin_r a c). split; [|split; [lra|]].
  - destruct I1 as [E|I1]; [|right; right; exact I1]. unfold Rmin in E at 1. destruct (Rle_dec a c); [left; exact E|right; left; exact E].
  - intros x [->|I]; [lra|apply I3; exact I].
Qed.
Theorem C91_reduce_value : forall axes sh (a : arr) o, NoDup axes -> (0 < size sh)%nat -> (o < size (sum_shape axes sh))%nat ->
  ((exists m, in_window axes sh o m /\ a m = reduced Rmax axes sh a o) /\ forall m, in_window axes sh o m -> a m <= reduced Rmax axes sh a o) /\
  ((exists m, in_window axes sh o m /\ a m = reduced Rmin axes sh a o) /\ forall m, in_window axes sh o m -> reduced Rmin axes sh a o <= a m).
Proof.
  intros axes sh a o ND P O. destruct (window_nonempty axes sh o ND P O) as [m0 I0].
  assert (W : forall m, in_window axes sh o m <-> In m (sum_elems axes sh o)) by (intros; apply in_window_elems; exact O).
  unfold reduced. destruct (sum_elems axes sh o) as [|m1 l] eqn:E; [destruct I0|]. cbn [map extreme].
  destruct (fold_max (map a l) (a m1)) as (A1 & A2 & A3). destruct (fold_min (map a l) (a m1)) as (B1 & B2 & B3).
  split; split.
  - destruct A1 as [A1|A1]; [exists m1; split; [apply W; left; reflexivity|exact A1]|]. apply in_map_iff in A1 as (m & A1 & I). exists m. split; [apply W; right; exact I|exact A1].
  - intros m I. apply W in I as [->|I]; [exact A2|apply A3, in_map; exact I].
  - destruct B1 as [B1|B1]; [exists m1; split; [apply W; left; reflexivity|exact B1]|]. apply in_map_iff in B1 as (m & B1 & I). exists m. split; [apply W; right; exact I|exact B1].
  - intros m I. apply W in I as [->|I]; [exact B2|apply B3, in_map; exact I].
Qed.

(** ** Derivatives where the extreme element is unique *)
Definition ahead (top : bool) (x y : R) : Prop := if top then y < x else x < y.
Definition best_of (top : bool) : R -> R -> R := if top then Rmax else Rmin.
Lemma best_pick top x y : best_of top x y = x \/ best_of top x y = y.
Proof. destruct top; cbn; [unfold Rmax|unfold Rmin]; destruct (Rle_dec x y); auto. Qed.
Lemma best_ahead top x y : ahead top x y -> best_of top x y = x /\ best_of top y x = x.
Proof. destruct top; cbn; intros H; [rewrite Rmax_left, Rmax_right by lra|rewrite Rmin_left, Rmin_right by lra]; auto. Qed.
Lemma fold_best top v l : (forall x, In x l -> x = v \/ ahead top v x) -> forall a, (a = v \/ ahead top v a) -> (a = v \/ In v l) -> fold_left (best_of top) l a = v.
Proof.
  induction l as [|c l IH]; intros Hl a Ha Hv; cbn [fold_left]; [destruct Hv as [Hv|[]]; exact Hv|].
  assert (Q : best_of top v v = v) by (destruct (best_pick top v v); assumption).
  assert (Hc : c = v \/ ahead top v c) by (apply Hl; left; reflexivity). apply IH; [intros; apply Hl; right; assumption| |].
  - destruct (best_pick top a c) as [-> | ->]; assumption.
  - destruct Hv as [->|[->|I]]; [| |right; exact I]; left.
    + destruct Hc as [->|Hc]; [exact Q|apply best_ahead; exact Hc].
    + destruct Ha as [->|Ha]; [exact Q|apply best_ahead; exact Ha].
Qed.
Lemma reduced_unique top axes sh a o m : In m (sum_elems axes sh o) -> (forall m', In m' (sum_elems axes sh o) -> m' <> m -> ahead top (a m) (a m')) -> reduced (best_of top) axes sh a o = a m.
Proof.
  intros I H. unfold reduced. assert (W : forall m', In m' (sum_elems axes sh o) -> a m' = a m \/ ahead top (a m) (a m')) by (intros m' I'; destruct (Nat.eq_dec m' m) as [->|N]; [left; reflexivity|right; apply H; assumption]).
  destruct (sum_elems axes sh o) as [|m1 l]; [destruct I|]. cbn [map extreme]. apply fold_best.
  - intros x Ix. apply in_map_iff in Ix as (m' & <- & Im). apply W. right. exact Im.
  - apply W. left. reflexivity.
  - destruct I as [->|I]; [left; reflexivity|right; apply in_map; exact I].
Qed.
Lemma lsum_only {A} (f : A -> R) x l : NoDup l -> In x l -> (forall y, In y l -> y <> x -> f y = 0) -> lsum f l = f x.
Proof.
  induction l as [|y l IH]; intros ND I H; [destruct I|]. inversion ND as [|? ? Ny ND']; subst. unfold lsum. cbn [fold_right]. fold (lsum f l). destruct I as [->|I].
  - rewrite (lsum_ext f (fun _ => 0 * 0)); [rewrite lsum_scal; ring|]. intros z Iz. rewrite H; [ring|right; exact Iz|]. intros ->. contradiction.
  - rewrite (H y); [rewrite IH; [ring|exact ND'|exact I|]|left; reflexivity|intros ->; contradiction]. intros z Iz. apply H. right. exact Iz.
Qed.
Lemma sum_elems_NoDup axes sh o : NoDup (sum_elems axes sh o).
Proof. apply NoDup_filter, seq_NoDup. Qed.
Theorem C91_reduce_exact : forall b sh top axes x w p F, NoDup axes -> wf_value b sh x -> exact b w p sh F x ->
  (forall o, (o < size (sum_shape axes sh))%nat -> exists m, in_window axes sh o m /\ forall m', in_window axes sh o m' -> m' <> m -> ahead top (F p m) (F p m')) ->
  exact b w p (sum_shape axes sh) (fun q => reduced (best_of top) axes sh (F q)) (handle_reduce (best_of top) axes b sh x).
Proof.
  intros b sh top axes x w p F ND W E U. eapply exact_good; [apply (C91_reduce b sh (best_of top) axes x ND W)|]. intros o O.
  destruct (U o O) as (m & Im & Hm). apply in_window_elems in Im; [|exact O].
  assert (Hw : forall m', In m' (sum_elems axes sh o) -> m' <> m -> ahead top (F p m) (F p m')) by (intros m' I' N; apply Hm; [apply in_window_elems; assumption|exact N]). clear Hm.
  assert (LT : forall m', In m' (sum_elems axes sh o) -> (m' < size sh)%nat) by (intros m' I'; apply sum_elems_spec in I'; apply I').
  assert (G : forall m', In m' (sum_elems axes sh o) -> gradient_and_laplacian (b_n b) w p (fun q => F q m') (primal (densify b sh x) m') (fun k => jac_of (densify b sh x) k m') (lapl_of (densify b sh x) m')) by (intros m' I'; apply exact_densify; auto).
  assert (V : forall m', In m' (sum_elems axes sh o) -> primal (densify b sh x) m' = F p m') by (intros m' I'; apply (gl_value _ _ _ _ _ _ _ (G m' I'))).
  assert (N : forall k, (k < b_n b)%nat -> near (fun s => forall m', In m' (sum_elems axes sh o) -> m' <> m -> ahead top (F (line p w k s) m) (F (line p w k s) m'))).
  { intros k K. apply near_list. intros m' I'. destruct (Nat.eq_dec m' m) as [->|D]; [apply near_all; intros s C; congruence|]. specialize (Hw m' I' D).
    assert (A : forall e, 0 < e -> near (fun s => Rabs (F (line p w k s) m - F p m) < e /\ Rabs (F (line p w k s) m' - F p m') < e)).
    { intros e Pe. rewrite <- (V m Im), <- (V m' I'). apply near_and; [eapply (gl_near _ _ _ _ _ _ _ e k K (G m Im)); exact Pe|eapply (gl_near _ _ _ _ _ _ _ e k K (G m' I')); exact Pe]. }
    assert (P : 0 < Rabs (F p m - F p m') / 2) by (assert (0 < Rabs (F p m - F p m')) by (apply Rabs_pos_lt; destruct top; cbn in Hw; lra); lra).
    apply (near_imp (fun s => Rabs (F (line p w k s) m - F p m) < Rabs (F p m - F p m') / 2 /\ Rabs (F (line p w k s) m' - F p m') < Rabs (F p m - F p m') / 2)); [|apply A; exact P].
    intros s [A1 A2] _. apply abs_near in A1, A2. destruct top; cbn in *; [rewrite (Rabs_right (F p m - F p m')) in * by lra|rewrite (Rabs_left (F p m - F p m')) in * by lra]; lra. }
  assert (Q : forall a : arr, (forall m', In m' (sum_elems axes sh o) -> m' <> m -> ahead top (a m) (a m')) ->
      reduced (best_of top) axes sh a o = a m /\ forall f, lsum (fun m => f m * hit (best_of top) axes sh a m) (sum_elems axes sh o) / ties (best_of top) axes sh a o = f m).
  { intros a Ha. pose proof (reduced_unique top axes sh a o m Im Ha) as R. split; [exact R|].
    assert (HT : forall m', In m' (sum_elems axes sh o) -> hit (best_of top) axes sh a m' = if Nat.eq_dec m' m then 1 else 0).
    { intros m' I'. unfold hit. pose proof I' as D. apply sum_elems_spec in D as [_ ->]. rewrite R. destruct (Nat.eq_dec m' m) as [->|N'].
      - destruct (Req_EM_T (a m) (a m)); [reflexivity|congruence].
      - specialize (Ha m' I' N'). destruct (Req_EM_T (a m') (a m)); [destruct top; cbn in Ha; lra|reflexivity]. }
    assert (ONE : forall f, lsum (fun m => f m * hit (best_of top) axes sh a m) (sum_elems axes sh o) = f m).
    { intros f. rewrite (lsum_only _ m _ (sum_elems_NoDup axes sh o) Im).
      - rewrite HT by exact Im. destruct (Nat.eq_dec m m); [ring|congruence].
      - intros y Iy Ny. rewrite HT by exact Iy. destruct (Nat.eq_dec y m); [congruence|ring]. }
    intros f. rewrite ONE. unfold ties. rewrite (lsum_ext _ (fun m => 1 * hit (best_of top) axes sh a m)) by (intros; ring). rewrite (ONE (fun _ => 1)). field. }
  assert (HP : forall m', In m' (sum_elems axes sh o) -> m' <> m -> ahead top (primal (densify b sh x) m) (primal (densify b sh x) m')) by (intros m' I' D; rewrite !V by assumption; apply Hw; assumption).
  destruct (Q _ HP) as [Q1 Q2]. destruct (Q (F p) Hw) as [Q3 _].
  apply (gl_local _ _ _ (fun q => F q m)).
  - eapply gl_eq; [apply (G m Im)| | |].
    + destruct (densify b sh x); cbn [dense_reduce primal lx] in *; symmetry; exact Q1.
    + intros k K. destruct (densify b sh x); cbn [dense_reduce primal jac_of lx jac] in *; [reflexivity|symmetry; apply (Q2 (jac t k))].
    + destruct (densify b sh x); cbn [dense_reduce primal lapl_of lx lapl] in *; [reflexivity|symmetry; apply (Q2 (lapl t))].
  - symmetry. exact Q3.
  - intros k K. apply (near_imp _ _) with (2 := N k K). intros s Hs. symmetry. apply (Q (F (line p w k s)) Hs).
Qed.

(** At a tie the rule averages the derivatives of the winners: the gradient of |x| at 0 is then
    0, but the Laplacian of max(x^2, 0) = x^2, which is smooth, comes out as 1 instead of 2. *)
Theorem C91_tie_unsound : let b := basis_of [] 1 [] in let F := fun (q : vec) (o : nat) => if Nat.eqb o 0 then q 0%nat * q 0%nat else 0 in
  let x := SSparse {| sx := fun _ => 0; owners := [mk_role None [0%nat]]; blk := fun _ _ _ => 0; sl := fun o => if Nat.eqb o 0 then 2 else 0 |} in
  let p := fun _ : nat => 0 in
  wf_value b [2%nat] x /\ exact b (fun _ => 1) p [2%nat] F x /\
  (forall q, reduced Rmax [0%nat] [2%nat] (F q) 0%nat = q 0%nat * q 0%nat) /\
  laplacian_of (handle_reduce Rmax [0%nat] b [2%nat] x) 0%nat = 1 /\
  ~ exact b (fun _ => 1) p [] (fun q => reduced Rmax [0%nat] [2%nat] (F q)) (handle_reduce Rmax [0%nat] b [2%nat] x).
Proof.
  intros b F x p. assert (RV : forall q, reduced Rmax [0%nat] [2%nat] (F q) 0%nat = q 0%nat * q 0%nat).
  { intros q. unfold reduced, F. cbn. apply Rmax_left. nra. }
  assert (SQ : gradient_and_laplacian 1 (fun _ => 1) p (fun q => q 0%nat * q 0%nat) 0 (fun _ => 0) 2).
  { pose proof (gl_mult 1 (fun _ => 1) p (fun q => q 0%nat) (fun q => q 0%nat) 0 (fun _ => 1) 0 0 (fun _ => 1) 0) as M.
    assert (I : gradient_and_laplacian 1 (fun _ => 1) p (fun q => q 0%nat) 0 (fun _ => 1) 0).
    { split; [reflexivity|]. exists (fun _ => 0). split; [|cbn; ring]. intros k K. assert (k = 0%nat) as -> by lia. apply (jet_ext (fun s => 0 + 1 * s)); [intros t; unfold line, p; cbn; ring|apply jet_line]. }
    eapply gl_eq; [apply (M I I)|ring|intros; cbn beta; ring|cbn; ring]. }
  assert (L : laplacian_of (handle_reduce Rmax [0%nat] b [2%nat] x) 0%nat = 1).
  { cbn. unfold tie_weight, ties, hit, reduced, sum_dest. cbn. rewrite Rmax_left by lra. destruct (Req_EM_T 0 0) as [_|N]; [field|congruence]. }
  split; [|split; [|split; [exact RV|split; [exact L|]]]].
  - split; [cbn; lia|]. split; [left; reflexivity|]. constructor; [|constructor]. split; [reflexivity|repeat constructor].
  - intros o O. cbn in O. change (b_n b) with 1%nat. cbn [x value_of jacobian_of laplacian_of sx sl]. unfold F. destruct o as [|[|o]]; [| |lia]; cbn [Nat.eqb].
    + eapply gl_eq; [apply SQ|reflexivity| |reflexivity]. intros k K. cbn. ring.
    + eapply gl_eq; [apply gl_const|reflexivity| |reflexivity]. intros k K. cbn. ring.
  - intros E. specialize (E 0%nat ltac:(cbn; lia)). change (b_n b) with 1%nat in E. rewrite L in E. destruct (C38_gradient_is_unique _ _ _ _ _ _ E) as [_ U].
    specialize (U (fun _ t => 2 * t) (fun _ => 2)). cbn [sum] in U. assert (1 = 0 + 2 -> False) by lra. apply H. rewrite <- U; [lra|].
    intros k K. assert (k = 0%nat) as -> by lia. split.
    + apply near_all. intros t. apply (derivable_ext (fun s => s * s)).
      * intros y. rewrite RV. unfold p. cbn. ring.
      * apply (derivable_eq _ _ (1 * t + t * 1)); [ring|]. apply (derivable_pt_lim_mult id id); apply derivable_pt_lim_id.
    + apply (derivable_eq _ _ (0 * 0 + 2 * 1)); [ring|]. apply (derivable_pt_lim_mult (fun _ => 2) id); [apply derivable_pt_lim_const|apply derivable_pt_lim_id].
Qed.
