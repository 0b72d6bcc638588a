(** Lemmas for branching: sorting, sums under updates, means of step functions. *)
From Coq Require Import Reals List Arith Bool Lra Lia Permutation.
From Coquelicot Require Import Coquelicot.
From Verif Require Import Lin Branch_Model Branch_Spec.
Import ListNotations.
Open Scope R_scope.

Lemma rltb_true x y : rltb x y = true <-> x < y.
Proof. unfold rltb. destruct (Rlt_dec x y); split; intros; try lra; discriminate. Qed.
Lemma rltb_false x y : rltb x y = false <-> y <= x.
Proof. unfold rltb. destruct (Rlt_dec x y); split; intros; try lra; discriminate. Qed.
Lemma rleb_true x y : rleb x y = true <-> x <= y.
Proof. unfold rleb. destruct (Rle_dec x y); split; intros; try lra; discriminate. Qed.

(** ** order *)
Lemma place_perm b i : forall l, Permutation (place b i l) (i :: l).
Proof. induction l as [|j l IH]; cbn; [auto|]. destruct (b i j); [auto|]. eapply perm_trans; [apply perm_skip, IH|apply perm_swap]. Qed.
Lemma fold_perm b : forall l, Permutation (fold_right (place b) [] l) l.
Proof. induction l as [|i l IH]; cbn; [auto|]. eapply perm_trans; [apply place_perm|auto]. Qed.
Lemma order_perm b n : Permutation (order b n) (seq 0 n).
Proof. apply fold_perm. Qed.
Lemma order_length b n : length (order b n) = n.
Proof. rewrite (Permutation_length (order_perm b n)). apply seq_length. Qed.
Lemma NoDup_firstn {T} (l : list T) : forall k, NoDup l -> NoDup (firstn k l).
Proof.
  induction l as [|x l IH]; intros [|k] H; cbn; try constructor; inversion H; subst; auto.
  intros I. apply H2. rewrite <- (firstn_skipn k l). apply in_or_app. auto.
Qed.
Lemma firstn_In {T} (l : list T) k x : In x (firstn k l) -> In x l.
Proof. intros I. rewrite <- (firstn_skipn k l). apply in_or_app. auto. Qed.
Lemma order_first b n k : NoDup (firstn k (order b n)) /\ forall i, In i (firstn k (order b n)) -> (i < n)%nat.
Proof.
  split.
  - apply NoDup_firstn. eapply Permutation_NoDup; [apply Permutation_sym, order_perm|apply seq_NoDup].
  - intros i I. apply firstn_In in I. eapply Permutation_in in I; [|apply order_perm]. apply in_seq in I. lia.
Qed.
Lemma smallest_ok w k : NoDup (smallest w k) /\ forall i, In i (smallest w k) -> (i < length w)%nat.
Proof. apply order_first. Qed.
Lemma largest_ok w k : NoDup (largest w k) /\ forall i, In i (largest w k) -> (i < length w)%nat.
Proof. apply order_first. Qed.
Lemma largest_length w k : (k <= length w)%nat -> length (largest w k) = k.
Proof. intros H. unfold largest. apply firstn_length_le. rewrite order_length. exact H. Qed.
Lemma smallest_length w k : (k <= length w)%nat -> length (smallest w k) = k.
Proof. intros H. unfold smallest. apply firstn_length_le. rewrite order_length. exact H. Qed.

(** ** pairs *)
Definition ends (ps : list (nat * nat)) : list nat := flat_map (fun p => [fst p; snd p]) ps.
Lemma ends_pair_up : forall m l, length l = (2 * m)%nat -> ends (pair_up l) = l /\ length (pair_up l) = m.
Proof.
  induction m as [|m IH]; intros l H; [destruct l; [auto|discriminate]|].
  destruct l as [|a [|b l]]; cbn in H; try lia. cbn [pair_up ends flat_map app length fst snd]. destruct (IH l) as [E L]; [lia|].
  unfold ends in E. rewrite E, L. auto.
Qed.
Lemma ends_cons p ps : ends (p :: ps) = fst p :: snd p :: ends ps. Proof. reflexivity. Qed.

(** ** sums *)
Lemma put_same {T} (f : nat -> T) i v : put f i v i = v.
Proof. unfold put. rewrite Nat.eqb_refl. reflexivity. Qed.
Lemma put_other {T} (f : nat -> T) i j v : j <> i -> put f i v j = f j.
Proof. intros H. unfold put. destruct (Nat.eqb_spec j i); congruence. Qed.
Lemma sum_put n f i v : (i < n)%nat -> sum n (put f i v) = sum n f + v - f i.
Proof.
  intros H. induction n as [|n IH]; [lia|]. cbn [sum]. destruct (Nat.eq_dec i n) as [->|N].
  - rewrite put_same. rewrite (sum_ext n (put f n v) f); [ring|]. intros j J. apply put_other. lia.
  - rewrite put_other by lia. rewrite IH by lia. ring.
Qed.
Definition lsum (f : nat -> R) (l : list nat) : R := fold_right (fun i s => f i + s) 0 l.
Lemma lsum_ext f g l : (forall i, In i l -> f i = g i) -> lsum f l = lsum g l.
Proof. induction l as [|x l IH]; intros H; [reflexivity|]. change (f x + lsum f l = g x + lsum g l). rewrite (H x) by (left; auto). rewrite IH; [reflexivity|]. intros i I. apply H. right. auto. Qed.
Lemma lsum_app f l1 l2 : lsum f (l1 ++ l2) = lsum f l1 + lsum f l2.
Proof. induction l1 as [|x l IH]; [change (lsum f l2 = 0 + lsum f l2); ring|]. change (f x + lsum f (l ++ l2) = f x + lsum f l + lsum f l2). rewrite IH. ring. Qed.
Lemma sum_seq f n : lsum f (seq 0 n) = sum n f.
Proof.
  assert (G : forall k s, lsum f (seq s k) = sum k (fun i => f (s + i)%nat)).
  { induction k as [|k IH]; intros s; [reflexivity|]. rewrite seq_S. cbn [sum]. rewrite <- IH, lsum_app. cbn. ring. }
  rewrite G. reflexivity.
Qed.
Lemma total_map f n : total (map f (seq 0 n)) = sum n f.
Proof. rewrite <- sum_seq. induction (seq 0 n) as [|x l IH]; [reflexivity|]. change (f x + total (map f l) = f x + lsum f l). rewrite IH. reflexivity. Qed.
Lemma weighted_map f g : forall l, weighted (map f l) (map g l) = lsum (fun i => f i * g i) l.
Proof. induction l as [|x l IH]; [reflexivity|]. change (f x * g x + weighted (map f l) (map g l) = f x * g x + lsum (fun i => f i * g i) l). rewrite IH. reflexivity. Qed.
Lemma list_map_nth (a : list R) : a = map (fun i => nth i a 0) (seq 0 (length a)).
Proof. apply nth_ext with 0 (nth 0 a 0); [rewrite map_length, seq_length; auto|]. intros i H. rewrite (map_nth (fun i => nth i a 0)), seq_nth by auto. reflexivity. Qed.
Lemma total_at w : total w = sum (length w) (at_ w).
Proof. rewrite <- total_map. f_equal. apply list_map_nth. Qed.
Lemma weighted_at w a : length a = length w -> weighted w a = sum (length w) (fun i => at_ w i * nth i a 0).
Proof. intros L. rewrite (list_map_nth w) at 1. rewrite (list_map_nth a) at 1. rewrite L, weighted_map, sum_seq. reflexivity. Qed.
Lemma lsum_repeat f i k : lsum f (repeat i k) = INR k * f i.
Proof. induction k as [|k IH]; [cbn; ring|]. rewrite S_INR. cbn [repeat]. change (f i + lsum f (repeat i k) = (INR k + 1) * f i). rewrite IH. ring. Qed.
Lemma lsum_repeated f rep n : lsum f (repeated rep n) = sum n (fun i => INR (rep i) * f i).
Proof.
  rewrite <- sum_seq. unfold repeated. induction (seq 0 n) as [|x l IH]; [reflexivity|]. cbn [flat_map]. rewrite lsum_app, IH, lsum_repeat. reflexivity.
Qed.
Lemma repeated_lt rep n s : In s (repeated rep n) -> (s < n)%nat.
Proof. intros H. apply in_flat_map in H as [i [I R]]. apply repeat_spec in R. subst. apply in_seq in I. lia. Qed.

(** ** means *)
Lemma step_mean (g : R -> R) t a b : 0 <= t <= 1 -> (forall u, 0 < u < t -> g u = a) -> (forall u, t < u < 1 -> g u = b) -> is_RInt g 0 1 (t * a + (1 - t) * b).
Proof.
  intros T A B. change (is_RInt g 0 1 (plus (t * a) ((1 - t) * b))). apply (@is_RInt_Chasles R_NormedModule g 0 t 1).
  - apply (@is_RInt_ext R_NormedModule (fun _ => a)). { rewrite Rmin_left, Rmax_right by lra. intros x X. symmetry. apply A. auto. }
    replace (t * a) with (@scal R_AbsRing R_NormedModule (t - 0) a) by (change ((t - 0) * a = t * a); ring). apply (@is_RInt_const R_NormedModule).
  - apply (@is_RInt_ext R_NormedModule (fun _ => b)). { rewrite Rmin_left, Rmax_right by lra. intros x X. symmetry. apply B. auto. }
    change ((1 - t) * b) with (@scal R_AbsRing R_NormedModule (1 - t) b). apply (@is_RInt_const R_NormedModule).
Qed.
Lemma mean_ext : forall n g g' v, (forall us, length us = n -> g us = g' us) -> mean n g v -> mean n g' v.
Proof.
  induction n as [|n IH]; intros g g' v E H; cbn [mean] in *; [rewrite <- E by reflexivity; exact H|].
  destruct H as [h [ex [H I]]]. exists h, ex. split; [|exact I]. intros u U N. apply (IH (fun us => g (u :: us))); [|auto]. intros us L. apply E. cbn. auto.
Qed.
Lemma mean_const : forall n c, mean n (fun _ => c) c.
Proof.
  induction n as [|n IH]; intros c; cbn; [reflexivity|]. exists (fun _ => c), []. split; [intros; apply IH|].
  pose proof (step_mean (fun _ => c) 0 c c ltac:(lra) (fun _ _ => eq_refl) (fun _ _ => eq_refl)) as H. replace (0 * c + (1 - 0) * c) with c in H by ring. exact H.
Qed.
(** one more draw in front, deciding between two continuations *)
Lemma mean_step n g t va vb : 0 <= t <= 1 -> (forall u, 0 < u < t -> mean n (fun us => g (u :: us)) va) -> (forall u, t < u < 1 -> mean n (fun us => g (u :: us)) vb) ->
  mean (S n) g (t * va + (1 - t) * vb).
Proof.
  intros T A B. exists (fun u => if Rlt_dec u t then va else vb), [t]. split.
  - intros u U N. destruct (Rlt_dec u t); [apply A; lra|]. apply B. split; [|lra]. destruct (Rtotal_order u t) as [H|[H|H]]; [lra| |lra]. destruct N. left. auto.
  - apply step_mean; [exact T| |]; intros u U; destruct (Rlt_dec u t); try reflexivity; lra.
Qed.
(** the mean is unique *)
Lemma mean_unique : forall n g v v', mean n g v -> mean n g v' -> v = v'.
Proof.
  induction n as [|n IH]; intros g v v' H H'; cbn [mean] in *; [congruence|].
  destruct H as [h [ex [H I]]]. destruct H' as [h' [ex' [H' I']]].
  assert (K : forall u, 0 < u < 1 -> ~ In u (ex ++ ex') -> h u = h' u).
  { intros u U N. apply (IH (fun us => g (u :: us))); [apply H|apply H']; auto; intros X; apply N; apply in_or_app; auto. }
  assert (Z : forall l d, (forall u, 0 < u < 1 -> ~ In u l -> d u = 0) -> forall a, is_RInt d 0 1 a -> a = 0).
  { clear. intros l d. intros Hd a Ha. destruct (Req_dec a 0) as [|NZ]; [auto|exfalso].
    (* split the interval at the exceptional points *)
    assert (G : forall l x y, 0 <= x <= y -> y <= 1 -> (forall u, x < u < y -> ~ In u l -> d u = 0) -> is_RInt d x y 0).
    { clear - d. induction l as [|p l IH]; intros x y X Y H.
      - apply (@is_RInt_ext R_NormedModule (fun _ => 0)). { rewrite Rmin_left, Rmax_right by lra. intros u U. symmetry. apply H; auto. }
        pose proof (@is_RInt_const R_NormedModule x y 0) as C. change (@scal R_AbsRing R_NormedModule (y - x) 0) with ((y - x) * 0) in C. rewrite Rmult_0_r in C. exact C.
      - destruct (Rlt_dec x p) as [A|A]; [destruct (Rlt_dec p y) as [B|B]|].
        + assert (C : is_RInt d x y (@plus R_NormedModule 0 0)); [|change (@plus R_NormedModule 0 0) with (0 + 0) in C; rewrite Rplus_0_r in C; exact C]. apply (@is_RInt_Chasles R_NormedModule d x p y).
          * apply IH; [lra|lra|]. intros u U N. apply H; [lra|]. intros [E|J]; [subst; lra|auto].
          * apply IH; [lra|lra|]. intros u U N. apply H; [lra|]. intros [E|J]; [subst; lra|auto].
        + apply IH; [lra|lra|]. intros u U N. apply H; [lra|]. intros [E|J]; [subst; lra|auto].
        + apply IH; [lra|lra|]. intros u U N. apply H; [lra|]. intros [E|J]; [subst; lra|auto]. }
    apply NZ. specialize (G l 0 1 ltac:(lra) ltac:(lra) Hd). apply (@is_RInt_unique R_CompleteNormedModule) in G. apply (@is_RInt_unique R_CompleteNormedModule) in Ha. congruence. }
  assert (D : is_RInt (fun u => h u - h' u) 0 1 (v - v')) by (apply (@is_RInt_minus R_NormedModule h h'); auto).
  apply (Z (ex ++ ex')) in D; [lra|]. intros u U N. rewrite (K u U N). ring.
Qed.
