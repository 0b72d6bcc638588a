(** Calculus of second-order jets in one variable. *)
From Coq Require Import Reals List Arith Lra Lia.
From Verif Require Import Lin Lap_Spec.
Import ListNotations.
Open Scope R_scope.

Lemma near_and P Q : near P -> near Q -> near (fun t => P t /\ Q t).
Proof.
  intros (e & E & H) (e' & E' & H'). exists (Rmin e e'). split; [apply Rmin_glb_lt; auto|]. intros t T.
  pose proof (Rmin_l e e'). pose proof (Rmin_r e e'). split; [apply H|apply H']; lra.
Qed.
Lemma near_imp (P Q : R -> Prop) : (forall t, P t -> Q t) -> near P -> near Q.
Proof. intros I (e & E & H). exists e. auto. Qed.
Lemma near_all (P : R -> Prop) : (forall t, P t) -> near P.
Proof. exists 1. split; [lra|auto]. Qed.
Lemma near_0 (P : R -> Prop) : near P -> P 0.
Proof. intros (e & E & H). apply H. rewrite Rabs_R0. exact E. Qed.
(** around every point near 0 it still holds in a neighbourhood *)
Lemma near_open (P : R -> Prop) : near P -> near (fun t => exists e, 0 < e /\ forall s, Rabs (s - t) < e -> P s).
Proof.
  intros (e & E & H). exists (e / 2). split; [lra|]. intros t T. exists (e / 2). split; [lra|]. intros s S. apply H.
  replace s with (s - t + t) by ring. pose proof (Rabs_triang (s - t) t). lra.
Qed.
Lemma near_sum n (P : nat -> R -> Prop) : (forall i, (i < n)%nat -> near (P i)) -> near (fun t => forall i, (i < n)%nat -> P i t).
Proof.
  induction n as [|n IH]; intros H.
  - apply near_all. intros; lia.
  - assert (A : near (fun t => forall i, (i < n)%nat -> P i t)) by (apply IH; intros; apply H; lia).
    pose proof (near_and _ _ A (H n ltac:(lia))) as B. revert B. apply near_imp. intros t [X Y] i Hi.
    destruct (Nat.eq_dec i n) as [->|]; auto. apply X. lia.
Qed.

Lemma derivable_local f g x l : derivable_pt_lim f x l -> (exists e, 0 < e /\ forall y, Rabs (y - x) < e -> f y = g y) -> derivable_pt_lim g x l.
Proof.
  intros D (e & E & H) eps EPS. destruct (D eps EPS) as [d Hd]. assert (P : 0 < Rmin d e) by (apply Rmin_glb_lt; [apply cond_pos|auto]).
  exists (mkposreal _ P). intros h NH BH. cbn in BH. pose proof (Rmin_l d e). pose proof (Rmin_r d e).
  rewrite <- !H; [apply Hd; auto; lra| |].
  - replace (x - x) with 0 by ring. rewrite Rabs_R0. lra.
  - replace (x + h - x) with h by ring. lra.
Qed.
Lemma derivable_ext f g x l : (forall y, f y = g y) -> derivable_pt_lim f x l -> derivable_pt_lim g x l.
Proof. intros H D. apply (derivable_local f); auto. exists 1. split; [lra|auto]. Qed.
Lemma derivable_eq f x l l' : l = l' -> derivable_pt_lim f x l -> derivable_pt_lim f x l'.
Proof. intros ->. auto. Qed.
Lemma derivable_continuous_at f x l : derivable_pt_lim f x l -> forall e, 0 < e -> exists d, 0 < d /\ forall y, Rabs (y - x) < d -> Rabs (f y - f x) < e.
Proof.
  intros D e E. destruct (D 1 ltac:(lra)) as [d Hd]. pose proof (cond_pos d).
  assert (A : 0 < e / (Rabs l + 1)) by (apply Rdiv_lt_0_compat; auto; pose proof (Rabs_pos l); lra).
  exists (Rmin d (e / (Rabs l + 1))). split; [apply Rmin_glb_lt; auto|]. intros y Y.
  pose proof (Rmin_l d (e / (Rabs l + 1))). pose proof (Rmin_r d (e / (Rabs l + 1))).
  destruct (Req_dec y x) as [->|N]; [replace (f x - f x) with 0 by ring; rewrite Rabs_R0; auto|].
  specialize (Hd (y - x) ltac:(lra) ltac:(lra)). replace (x + (y - x)) with y in Hd by ring.
  assert (Q : Rabs ((f y - f x) / (y - x)) < Rabs l + 1).
  { replace ((f y - f x) / (y - x)) with ((f y - f x) / (y - x) - l + l) by ring.
    pose proof (Rabs_triang ((f y - f x) / (y - x) - l) l). lra. }
  replace (f y - f x) with ((f y - f x) / (y - x) * (y - x)) by (field; lra). rewrite Rabs_mult.
  assert (0 < Rabs (y - x)) by (apply Rabs_pos_lt; lra). pose proof (Rabs_pos l).
  apply Rlt_le_trans with ((Rabs l + 1) * Rabs (y - x)); [apply Rmult_lt_compat_r; lra|].
  apply Rle_trans with ((Rabs l + 1) * (e / (Rabs l + 1))); [apply Rmult_le_compat_l; lra|]. right. field. lra.
Qed.

Lemma jet_value u a b c : jet u a b c -> u 0 = a.
Proof. intros [H _]. exact H. Qed.
Lemma jet_derivable u a b c : jet u a b c -> derivable_pt_lim u 0 b.
Proof. intros (_ & d & N & <- & _). exact (near_0 _ N). Qed.
Lemma jet_near u a b c e : jet u a b c -> 0 < e -> near (fun t => Rabs (u t - a) < e).
Proof.
  intros J E. destruct (derivable_continuous_at u 0 b (jet_derivable _ _ _ _ J) e E) as (d & D & H). exists d. split; auto. intros t T.
  rewrite <- (jet_value _ _ _ _ J). apply H. replace (t - 0) with t by ring. exact T.
Qed.
Lemma jet_eq u a b c a' b' c' : jet u a b c -> a = a' -> b = b' -> c = c' -> jet u a' b' c'.
Proof. intros J -> -> ->. exact J. Qed.
Lemma jet_local u v a b c : jet u a b c -> near (fun t => u t = v t) -> jet v a b c.
Proof.
  intros (A & d & N & B & C) L. split; [rewrite <- (near_0 _ L); exact A|]. exists d. split; [|auto].
  pose proof (near_and _ _ N (near_open _ L)) as X. revert X. apply near_imp. intros t [D E]. apply (derivable_local u); auto.
Qed.
Lemma jet_ext u v a b c : (forall t, u t = v t) -> jet u a b c -> jet v a b c.
Proof. intros H J. apply (jet_local u); auto. apply near_all. exact H. Qed.
Lemma jet_const a : jet (fun _ => a) a 0 0.
Proof. split; auto. exists (fun _ => 0). split; [apply near_all; intros; apply derivable_pt_lim_const|]. split; auto. apply derivable_pt_lim_const. Qed.
Lemma jet_line a w : jet (fun s => a + w * s) a w 0.
Proof.
  split; [ring|]. exists (fun _ => w). split; [|split; auto; apply derivable_pt_lim_const]. apply near_all. intros t.
  apply (derivable_eq _ _ (0 + w * 1)); [ring|]. apply (derivable_pt_lim_plus (fun _ => a) (fun s => w * s)); [apply derivable_pt_lim_const|].
  apply (derivable_pt_lim_scal id w). apply derivable_pt_lim_id.
Qed.
Lemma jet_plus u v a b c a' b' c' : jet u a b c -> jet v a' b' c' -> jet (fun t => u t + v t) (a + a') (b + b') (c + c').
Proof.
  intros (A & d & N & B & C) (A' & d' & N' & B' & C'). split; [rewrite A, A'; reflexivity|]. exists (fun t => d t + d' t).
  split; [|split; [rewrite B, B'; reflexivity|apply (derivable_pt_lim_plus d d'); auto]].
  pose proof (near_and _ _ N N') as X. revert X. apply near_imp. intros t [P Q]. apply (derivable_pt_lim_plus u v); auto.
Qed.
Lemma jet_mult u v a b c a' b' c' : jet u a b c -> jet v a' b' c' -> jet (fun t => u t * v t) (a * a') (b * a' + a * b') (c * a' + a * c' + 2 * (b * b')).
Proof.
  intros (A & d & N & B & C) (A' & d' & N' & B' & C'). split; [rewrite A, A'; reflexivity|]. exists (fun t => d t * v t + u t * d' t).
  split; [|split; [rewrite A, A', B, B'; reflexivity|]].
  - pose proof (near_and _ _ N N') as X. revert X. apply near_imp. intros t [P Q]. apply (derivable_pt_lim_mult u v); auto.
  - pose proof (near_0 _ N) as U. pose proof (near_0 _ N') as V. cbn beta in U, V.
    apply (derivable_eq _ _ ((c * v 0 + d 0 * d' 0) + (d 0 * d' 0 + u 0 * c'))); [rewrite A, A', B, B'; ring|].
    apply (derivable_pt_lim_plus (fun t => d t * v t) (fun t => u t * d' t)).
    + apply (derivable_pt_lim_mult d v); auto.
    + apply (derivable_pt_lim_mult u d'); auto.
Qed.
Lemma jet_scal k u a b c : jet u a b c -> jet (fun t => k * u t) (k * a) (k * b) (k * c).
Proof. intros J. eapply jet_eq; [apply (jet_mult _ _ _ _ _ _ _ _ (jet_const k) J)| | |]; ring. Qed.
Lemma jet_opp u a b c : jet u a b c -> jet (fun t => - u t) (- a) (- b) (- c).
Proof. intros J. apply (jet_ext (fun t => -1 * u t)); [intros; ring|]. eapply jet_eq; [apply (jet_scal (-1) _ _ _ _ J)| | |]; ring. Qed.
Lemma jet_minus u v a b c a' b' c' : jet u a b c -> jet v a' b' c' -> jet (fun t => u t - v t) (a - a') (b - b') (c - c').
Proof. intros J K. exact (jet_plus _ _ _ _ _ _ _ _ J (jet_opp _ _ _ _ K)). Qed.
Lemma jet_comp f f1 f2 D u a b c : open1 D -> (forall x, D x -> derivable_pt_lim f x (f1 x)) -> (forall x, D x -> derivable_pt_lim f1 x (f2 x)) ->
  D a -> jet u a b c -> jet (fun t => f (u t)) (f a) (f1 a * b) (f1 a * c + f2 a * (b * b)).
Proof.
  intros O D1 D2 DA J. destruct (O a DA) as (e & E & H). pose proof (jet_near _ _ _ _ e J E) as NR. destruct J as (A & d & N & B & C).
  split; [rewrite A; reflexivity|]. exists (fun t => f1 (u t) * d t). split; [|split; [rewrite A, B; reflexivity|]].
  - pose proof (near_and _ _ N NR) as X. revert X. apply near_imp. intros t [P Q]. apply (derivable_pt_lim_comp u f); auto.
  - pose proof (near_0 _ N) as U. cbn beta in U.
    apply (derivable_eq _ _ ((f2 (u 0) * d 0) * d 0 + f1 (u 0) * c)); [rewrite A, B; ring|].
    apply (derivable_pt_lim_mult (fun t => f1 (u t)) d); auto. apply (derivable_pt_lim_comp u f1); auto. rewrite A. auto.
Qed.
Lemma jet_list {A} (f : A -> R -> R) (a b c : A -> R) : forall l, (forall x, In x l -> jet (f x) (a x) (b x) (c x)) ->
  jet (fun t => fold_right (fun x s => f x t + s) 0 l) (fold_right (fun x s => a x + s) 0 l) (fold_right (fun x s => b x + s) 0 l) (fold_right (fun x s => c x + s) 0 l).
Proof.
  induction l as [|x l IH]; intros H; cbn [fold_right]; [apply jet_const|]. apply (jet_plus (f x)); [apply H; left; reflexivity|]. apply IH. intros y Hy. apply H. right. exact Hy.
Qed.

(** ** Several variables *)
Lemma sum_abs n f : Rabs (sum n f) <= sum n (fun i => Rabs (f i)).
Proof. induction n; simpl; [rewrite Rabs_R0; lra|]. pose proof (Rabs_triang (sum n f) (f n)). lra. Qed.
Lemma finite_pos n (P : nat -> R -> Prop) : (forall i e e', P i e -> 0 < e' <= e -> P i e') -> (forall i, (i < n)%nat -> exists e, 0 < e /\ P i e) ->
  exists e, 0 < e /\ forall i, (i < n)%nat -> P i e.
Proof.
  intros M. induction n as [|n IH]; intros H.
  - exists 1. split; [lra|intros; lia].
  - destruct IH as (e & E & X); [intros; apply H; lia|]. destruct (H n ltac:(lia)) as (e' & E' & Y).
    assert (0 < Rmin e e') by (apply Rmin_glb_lt; auto). exists (Rmin e e'). split; auto. intros i Hi. pose proof (Rmin_l e e'). pose proof (Rmin_r e e').
    destruct (Nat.eq_dec i n) as [->|]; [apply (M n e'); auto; lra|]. apply (M i e); [apply X; lia|lra].
Qed.
(** f depends on the first m coordinates only *)
Lemma total_ext m f v g w : total m f v g -> (forall a, (a < m)%nat -> w a = v a) -> f w = f v.
Proof.
  intros T E. destruct (T 1 ltac:(lra)) as (dd & DD & HD). specialize (HD w).
  rewrite (sum_0 m (fun a => g a * (w a - v a))) in HD by (intros i Hi; rewrite (E i Hi); ring).
  rewrite (sum_0 m (fun a => Rabs (w a - v a))) in HD by (intros i Hi; rewrite (E i Hi); replace (v i - v i) with 0 by ring; apply Rabs_R0).
  assert (X : Rabs (f w - f v - 0) <= 1 * 0) by (apply HD; intros a Ha; rewrite (E a Ha); replace (v a - v a) with 0 by ring; rewrite Rabs_R0; exact DD).
  replace (f w - f v - 0) with (f w - f v) in X by ring. pose proof (Rabs_pos (f w - f v)).
  destruct (Req_dec (f w - f v) 0) as [Z|NZ]; [lra|]. pose proof (Rabs_pos_lt _ NZ). lra.
Qed.
Lemma total_chain m f v g (u : nat -> R -> R) (d : nat -> R) t : (forall a, (a < m)%nat -> u a t = v a) -> total m f v g ->
  (forall a, (a < m)%nat -> derivable_pt_lim (u a) t (d a)) ->
  derivable_pt_lim (fun s => f (fun a => u a s)) t (sum m (fun a => g a * d a)).
Proof.
  intros V T D eps EPS. set (M := sum m (fun a => Rabs (d a) + 1)). set (K := sum m (fun a => Rabs (g a))).
  assert (M0 : 0 <= M) by (apply sum_nonneg; intros; pose proof (Rabs_pos (d i)); lra).
  assert (K0 : 0 <= K) by (apply sum_nonneg; intros; apply Rabs_pos).
  set (e1 := eps / (4 * (M + 1))). assert (E1 : 0 < e1) by (apply Rdiv_lt_0_compat; lra).
  set (e2 := Rmin 1 (eps / (4 * (K + 1)))). assert (E2 : 0 < e2) by (apply Rmin_glb_lt; [lra|apply Rdiv_lt_0_compat; lra]).
  destruct (T e1 E1) as (del & DEL & HT).
  destruct (finite_pos m (fun a e => forall h, h <> 0 -> Rabs h < e -> Rabs ((u a (t + h) - u a t) / h - d a) < e2 /\ Rabs (u a (t + h) - u a t) < del)) as (eta & ETA & HE).
  { intros i e e' H L h NH BH. apply H; auto; lra. }
  { intros a Ha. destruct (D a Ha e2 E2) as [q Q]. destruct (derivable_continuous_at (u a) t (d a) (D a Ha) del DEL) as (r & R0 & R1).
    exists (Rmin q r). pose proof (cond_pos q). split; [apply Rmin_glb_lt; auto|]. intros h NH BH. pose proof (Rmin_l q r). pose proof (Rmin_r q r). split.
    - apply Q; auto; lra.
    - apply R1. replace (t + h - t) with h by ring. lra. }
  exists (mkposreal eta ETA). intros h NH BH. cbn in BH.
  set (W := fun a => u a (t + h)). 
  assert (HP : 0 < Rabs h) by (apply Rabs_pos_lt; auto).
  assert (FV : f (fun a => u a t) = f v) by (apply (total_ext m f v g); auto).
  assert (A : Rabs (f W - f v - sum m (fun a => g a * (W a - v a))) <= e1 * sum m (fun a => Rabs (W a - v a))).
  { apply HT. intros a Ha. unfold W. rewrite <- (V a Ha). apply HE; auto. }
  assert (B : sum m (fun a => Rabs (W a - v a)) <= M * Rabs h).
  { unfold M. rewrite <- sum_scal_r. apply sum_le. intros a Ha. unfold W. rewrite <- (V a Ha). destruct (HE a Ha h NH BH) as [X _].
    replace (u a (t + h) - u a t) with ((u a (t + h) - u a t) / h * h) by (field; auto). rewrite Rabs_mult. apply Rmult_le_compat_r; [lra|].
    replace ((u a (t + h) - u a t) / h) with ((u a (t + h) - u a t) / h - d a + d a) by ring.
    pose proof (Rabs_triang ((u a (t + h) - u a t) / h - d a) (d a)). pose proof (Rmin_l 1 (eps / (4 * (K + 1)))). fold e2 in H0. lra. }
  assert (C : Rabs (sum m (fun a => g a * (W a - v a)) - sum m (fun a => g a * d a) * h) <= e2 * K * Rabs h).
  { rewrite <- sum_scal_r, <- sum_minus. eapply Rle_trans; [apply sum_abs|]. unfold K. rewrite Rmult_assoc, (Rmult_comm (sum m _)), <- Rmult_assoc, <- sum_scal_l.
    apply sum_le. intros a Ha. unfold W. rewrite <- (V a Ha). destruct (HE a Ha h NH BH) as [X _].
    replace (g a * (u a (t + h) - u a t) - g a * d a * h) with (g a * (((u a (t + h) - u a t) / h - d a) * h)) by (field; auto). rewrite !Rabs_mult.
    pose proof (Rabs_pos (g a)). replace (e2 * Rabs h * Rabs (g a)) with (Rabs (g a) * (e2 * Rabs h)) by ring. apply Rmult_le_compat_l; auto. apply Rmult_le_compat_r; lra. }
  assert (TOT : Rabs (f W - f v - sum m (fun a => g a * d a) * h) <= (e1 * M + e2 * K) * Rabs h).
  { replace (f W - f v - sum m (fun a => g a * d a) * h) with ((f W - f v - sum m (fun a => g a * (W a - v a))) + (sum m (fun a => g a * (W a - v a)) - sum m (fun a => g a * d a) * h)) by ring.
    eapply Rle_trans; [apply Rabs_triang|]. assert (e1 * sum m (fun a => Rabs (W a - v a)) <= e1 * (M * Rabs h)) by (apply Rmult_le_compat_l; lra). lra. }
  fold W. rewrite FV. replace ((f W - f v) / h - sum m (fun a => g a * d a)) with ((f W - f v - sum m (fun a => g a * d a) * h) / h) by (field; auto).
  unfold Rdiv at 1. rewrite Rabs_mult, Rabs_inv by auto. apply Rle_lt_trans with (e1 * M + e2 * K).
  - apply Rmult_le_reg_r with (Rabs h); auto. rewrite Rmult_assoc, Rinv_l, Rmult_1_r by lra. exact TOT.
  - assert (S1 : e1 * M <= eps / 4).
    { unfold e1. replace (eps / 4) with (eps / (4 * (M + 1)) * (M + 1)) by (field; lra). apply Rmult_le_compat_l; [fold e1; lra|lra]. }
    assert (S2 : e2 * K <= eps / 4).
    { apply Rle_trans with (eps / (4 * (K + 1)) * K); [apply Rmult_le_compat_r; auto; apply Rmin_r|].
      replace (eps / 4) with (eps / (4 * (K + 1)) * (K + 1)) by (field; lra). apply Rmult_le_compat_l; [|lra]. left. apply Rdiv_lt_0_compat; lra. }
    lra.
Qed.
Lemma derivable_sum m (f : nat -> R -> R) (l : nat -> R) t : (forall a, (a < m)%nat -> derivable_pt_lim (f a) t (l a)) ->
  derivable_pt_lim (fun s => sum m (fun a => f a s)) t (sum m l).
Proof.
  induction m as [|m IH]; intros H; cbn [sum]; [apply derivable_pt_lim_const|].
  apply (derivable_pt_lim_plus (fun s => sum m (fun a => f a s)) (f m)); [apply IH; intros; apply H; lia|apply H; lia].
Qed.
Lemma finite_choice {A} (x0 : A) m (P : nat -> A -> Prop) : (forall a, (a < m)%nat -> exists x, P a x) -> exists F, forall a, (a < m)%nat -> P a (F a).
Proof.
  induction m as [|m IH]; intros H; [exists (fun _ => x0); intros; lia|]. destruct IH as [F HF]; [intros; apply H; lia|]. destruct (H m ltac:(lia)) as [x X].
  exists (fun a => if Nat.eqb a m then x else F a). intros a Ha. destruct (Nat.eqb_spec a m) as [->|]; auto. apply HF. lia.
Qed.
Lemma jet_general m f (g : vec -> vec) (h : mat) D (u : nat -> R -> R) (v b c : vec) :
  openn m D -> (forall w, D w -> total m f w (g w)) -> D v -> (forall a, (a < m)%nat -> total m (fun w => g w a) v (h a)) ->
  (forall a, (a < m)%nat -> jet (u a) (v a) (b a) (c a)) ->
  jet (fun t => f (fun a => u a t)) (f v) (sum m (fun a => g v a * b a)) (sum m (fun a => g v a * c a) + sum m (fun x => sum m (fun y => h x y * (b x * b y)))).
Proof.
  intros O T DV H J.
  destruct (finite_choice (fun _ : R => 0) m (fun a d => near (fun t => derivable_pt_lim (u a) t (d t)) /\ d 0 = b a /\ derivable_pt_lim d 0 (c a))) as [d Hd].
  { intros a Ha. exact (proj2 (J a Ha)). }
  assert (U0 : forall a, (a < m)%nat -> u a 0 = v a) by (intros a Ha; apply (jet_value _ _ _ _ (J a Ha))).
  assert (EXT : forall w w', D w -> (forall a, (a < m)%nat -> w' a = w a) -> f w' = f w) by (intros w w' DW E; apply (total_ext m f w (g w)); auto).
  split; [apply EXT; auto|]. exists (fun t => sum m (fun a => g (fun a => u a t) a * d a t)). destruct (O v DV) as (e & E & HO). split; [|split].
  - assert (N1 : near (fun t => forall a, (a < m)%nat -> derivable_pt_lim (u a) t (d a t))) by (apply near_sum; intros a Ha; apply (Hd a Ha)).
    assert (N2 : near (fun t => forall a, (a < m)%nat -> Rabs (u a t - v a) < e)) by (apply near_sum; intros a Ha; apply (jet_near _ _ _ _ e (J a Ha) E)).
    pose proof (near_and _ _ N1 N2) as X. revert X. apply near_imp. intros t [P Q].
    apply (total_chain m f (fun a => u a t) (g (fun a => u a t))); auto.
  - apply sum_ext. intros a Ha. destruct (Hd a Ha) as (_ & -> & _). f_equal.
    apply (total_ext m (fun w => g w a) v (h a)); auto.
  - assert (EG : forall a, (a < m)%nat -> g (fun a0 => u a0 0) a = g v a) by (intros a Ha; apply (total_ext m (fun w => g w a) v (h a)); auto).
    apply (derivable_eq _ _ (sum m (fun a => sum m (fun y => h a y * b y) * b a + g v a * c a))).
    + rewrite sum_plus, Rplus_comm. f_equal. apply sum_ext. intros x Hx. rewrite <- sum_scal_r. apply sum_ext. intros y Hy. ring.
    + apply derivable_sum. intros a Ha. destruct (Hd a Ha) as (N & B & C).
      apply (derivable_eq _ _ (sum m (fun y => h a y * b y) * d a 0 + g (fun a0 => u a0 0) a * c a)); [rewrite B, (EG a Ha); reflexivity|].
      apply (derivable_pt_lim_mult (fun t => g (fun a => u a t) a) (d a)); auto.
      apply (total_chain m (fun w => g w a) v (h a) u b 0); auto. intros y Hy. apply (jet_derivable _ _ _ _ (J y Hy)).
Qed.
