(** Row-major multi-indices of arrays of any rank. *)
From Coq Require Import Reals List Arith Lia.
From Verif Require Import Lin.
Import ListNotations.
Local Open Scope nat_scope.

Definition size (s : list nat) : nat := fold_right Nat.mul 1 s.
Fixpoint ravel (s idx : list nat) : nat :=
  match s, idx with
  | _ :: s', i :: idx' => i * size s' + ravel s' idx'
  | _, _ => 0
  end.
Fixpoint unravel (s : list nat) (o : nat) : list nat :=
  match s with
  | [] => []
  | _ :: s' => o / size s' :: unravel s' (o mod size s')
  end.
(** [idx] is a valid index of an array of shape [s] *)
Definition inside (s idx : list nat) : Prop := length idx = length s /\ forall a, a < length s -> nth a idx 0 < nth a s 0.

Lemma inside_nil idx : inside [] idx <-> idx = [].
Proof. split; [intros [L _]; destruct idx; [reflexivity|discriminate]|intros ->; split; [reflexivity|cbn; lia]]. Qed.
Lemma inside_cons d s i idx : inside (d :: s) (i :: idx) <-> i < d /\ inside s idx.
Proof.
  split.
  - intros [L H]. split; [apply (H 0); cbn; lia|]. split; [cbn in L; lia|]. intros a A. apply (H (S a)). cbn. lia.
  - intros [I [L H]]. split; [cbn; lia|]. intros [|a] A; [exact I|]. cbn in *. apply H. lia.
Qed.
Lemma length_unravel s : forall o, length (unravel s o) = length s.
Proof. induction s as [|d s IH]; intros o; cbn; [reflexivity|]. rewrite IH. reflexivity. Qed.
Lemma unravel_inside s : forall o, o < size s -> inside s (unravel s o).
Proof.
  induction s as [|d s IH]; intros o O; [apply inside_nil; reflexivity|]. cbn [size fold_right] in O. fold (size s) in O. cbn [unravel].
  assert (Z : size s <> 0) by (intros E; rewrite E in O; lia). apply inside_cons. split.
  - apply Nat.div_lt_upper_bound; lia.
  - apply IH. apply Nat.mod_upper_bound. exact Z.
Qed.
Lemma ravel_unravel s : forall o, o < size s -> ravel s (unravel s o) = o.
Proof.
  induction s as [|d s IH]; intros o O; cbn in *; [lia|]. fold (size s) in *.
  assert (Z : size s <> 0) by (intros E; rewrite E in O; lia). rewrite IH by (apply Nat.mod_upper_bound; exact Z). rewrite (Nat.div_mod o (size s)) at 3 by exact Z. lia.
Qed.
Lemma ravel_lt s : forall idx, inside s idx -> ravel s idx < size s.
Proof.
  induction s as [|d s IH]; intros idx I; [cbn; lia|]. destruct idx as [|i idx]; [destruct I; discriminate|]. apply inside_cons in I as [I J]. specialize (IH idx J).
  cbn [ravel size fold_right]. fold (size s). nia.
Qed.
Lemma unravel_ravel s : forall idx, inside s idx -> unravel s (ravel s idx) = idx.
Proof.
  induction s as [|d s IH]; intros idx I; [apply inside_nil in I; subst; reflexivity|]. destruct idx as [|i idx]; [destruct I; discriminate|]. apply inside_cons in I as [I J].
  pose proof (ravel_lt s idx J) as L. cbn [ravel unravel]. f_equal.
  - rewrite Nat.div_add_l by lia. rewrite Nat.div_small by exact L. lia.
  - rewrite Nat.add_comm, Nat.mod_add by lia. rewrite Nat.mod_small by exact L. apply IH. exact J.
Qed.
Lemma size_pos_nth s : forall a, 0 < size s -> a < length s -> 0 < nth a s 0.
Proof.
  induction s as [|d s IH]; intros a P A; [cbn in A; lia|]. cbn [size fold_right] in P. fold (size s) in P. destruct a as [|a]; cbn [nth]; [nia|]. apply IH; [nia|cbn in A; lia].
Qed.
Lemma nth_unravel s : forall a o, a < length s -> o < size s -> nth a (unravel s o) 0 = (o / size (skipn (S a) s)) mod nth a s 0.
Proof.
  induction s as [|d s IH]; intros a o A O; [cbn in A; lia|]. cbn [size fold_right] in O. fold (size s) in O.
  assert (Z : size s <> 0) by (intros E; rewrite E in O; lia). destruct a as [|a].
  - cbn [nth unravel skipn]. rewrite Nat.mod_small; [reflexivity|]. apply Nat.div_lt_upper_bound; lia.
  - cbn [unravel nth skipn]. cbn in A. rewrite IH; [|lia|apply Nat.mod_upper_bound; exact Z].
    (* size s = (leading * d) * trailing *)
    set (T := size (skipn (S a) s)). set (d' := nth a s 0).
    assert (E : exists L, size s = L * d' * T).
    { unfold T, d'. clear -A. assert (A' : a < length s) by lia. clear A. revert a A'. induction s as [|x s IHs]; intros a A'; [cbn in A'; lia|]. destruct a as [|a].
      - exists 1. cbn. fold (size s). lia.
      - destruct (IHs a) as [L HL]; [cbn in A'; lia|]. exists (x * L). cbn [size fold_right nth skipn] in *. fold (size s) in *. rewrite HL. fold (size (skipn (S a) s)). cbn [skipn]. destruct s; cbn in *; try lia; ring. }
    destruct E as [L E]. assert (T0 : T <> 0) by (intros Q; rewrite Q in E; lia). assert (D0 : d' <> 0) by (intros Q; rewrite Q in E; lia).
    assert (L0 : L <> 0) by (intros Q; rewrite Q in E; lia).
    rewrite E. replace (L * d' * T) with (T * (d' * L)) by ring.
    rewrite Nat.mod_mul_r by lia. rewrite (Nat.mul_comm T). rewrite Nat.div_add by lia. rewrite (Nat.div_small (o mod T)) by (apply Nat.mod_upper_bound; lia). rewrite Nat.add_0_l.
    rewrite Nat.mod_mul_r by lia. rewrite (Nat.mul_comm d'). rewrite Nat.mod_add by lia. apply Nat.mod_mod. lia.
Qed.

Lemma sum_app n m f : (sum (n + m) f = sum n f + sum m (fun i => f (n + i)%nat))%R.
Proof. induction m as [|m IH]; cbn; [rewrite Nat.add_0_r; ring|]. rewrite Nat.add_succ_r. cbn. rewrite IH. ring. Qed.
Lemma sum_prod a b f : (sum (a * b) f = sum a (fun i => sum b (fun j => f (i * b + j)%nat)))%R.
Proof. induction a as [|a IH]; cbn; [reflexivity|]. rewrite Nat.add_comm, sum_app, IH. reflexivity. Qed.
