(** C47: checkpoint clean-up. *)
From Coq Require Import List Arith Bool Lia Permutation.
From Verif Require Import Clean_Model Clean_Spec.
Import ListNotations.

Section Props.
Variables (P : Type) (index_of : P -> option nat).
Local Notation insert := (insert P).
Local Notation sort_desc := (sort_desc P).
Lemma insert_perm x l : Permutation (insert x l) (x :: l).
Proof. induction l as [|y l IH]; cbn [Clean_Model.insert]; [reflexivity|]. destruct (Nat.ltb (fst y) (fst x)); [reflexivity|]. rewrite IH. apply perm_swap. Qed.
Lemma fold_perm : forall l acc, Permutation (fold_left (fun acc x => insert x acc) l acc) (l ++ acc).
Proof. induction l as [|x l IH]; intros acc; cbn [fold_left]; [reflexivity|]. rewrite IH, insert_perm. cbn. symmetry. apply Permutation_middle. Qed.
Lemma sort_perm l : Permutation (sort_desc l) l.
Proof. unfold Clean_Model.sort_desc. rewrite fold_perm, app_nil_r. reflexivity. Qed.
(** decreasing: every element is at least as large as those after it *)
Fixpoint desc (l : list (nat * P)) : Prop := match l with [] => True | x :: l' => (forall y, In y l' -> fst y <= fst x) /\ desc l' end.
Lemma insert_desc x l : desc l -> desc (insert x l).
Proof.
  induction l as [|y l IH]; cbn [Clean_Model.insert]; [intros _; split; [intros z []|exact I]|]. intros [A B]. destruct (Nat.ltb_spec (fst y) (fst x)) as [L|L].
  - split; [|split; auto]. intros z [<-|H]; [lia|]. specialize (A z H). lia.
  - split; [|auto]. intros z H. apply (Permutation_in _ (insert_perm x l)) in H as [<-|H]; auto.
Qed.
Lemma sort_is_desc l : desc (sort_desc l).
Proof. unfold Clean_Model.sort_desc. assert (H : forall l acc, desc acc -> desc (fold_left (fun acc x => insert x acc) l acc)) by (induction l0 as [|x l0 IH]; intros acc D; cbn [fold_left]; [exact D|apply IH, insert_desc, D]). apply H. exact I. Qed.
Definition above (k : nat) (l : list (nat * P)) : nat := length (filter (fun y => Nat.ltb k (fst y)) l).
Lemma above_perm k l l' : Permutation l l' -> above k l = above k l'.
Proof.
  unfold above. induction 1 as [|x l l' H IH|x y l|l1 l2 l3 H1 IH1 H2 IH2]; cbn [filter].
  - reflexivity.
  - destruct (Nat.ltb k (fst x)); cbn [length]; congruence.
  - destruct (Nat.ltb k (fst x)), (Nat.ltb k (fst y)); reflexivity.
  - congruence.
Qed.
Lemma above_zero k l : (forall y, In y l -> fst y <= k) -> above k l = 0.
Proof. unfold above. induction l as [|y l IH]; intros H; cbn [filter]; [reflexivity|]. destruct (Nat.ltb_spec k (fst y)) as [L|L]; [specialize (H y (or_introl eq_refl)); lia|]. apply IH. intros z I. apply H. right. exact I. Qed.
(** in a strictly decreasing list the position of an element is the number of larger ones *)
Lemma skipn_above : forall l keep x, desc l -> NoDup (map fst l) -> In x l -> (In x (skipn keep l) <-> keep <= above (fst x) l).
Proof.
  induction l as [|y l IH]; intros keep x D N I; [destruct I|]. destruct D as [D1 D2]. cbn [map] in N. apply NoDup_cons_iff in N as [N1 N2].
  destruct keep as [|keep]; [split; [lia|intros _; exact I]|]. cbn [skipn].
  destruct I as [->|I].
  - assert (Z : above (fst x) (x :: l) = 0) by (apply above_zero; intros z [->|H]; [lia|apply D1, H]). rewrite Z. split; [|lia].
    intros H. exfalso. apply N1. apply in_map. rewrite <- (firstn_skipn keep l). apply in_or_app. right. exact H.
  - rewrite IH by auto. unfold above. cbn [filter]. destruct (Nat.ltb_spec (fst x) (fst y)) as [L|L]; [cbn [length]; lia|].
    exfalso. apply N1. specialize (D1 x I). replace (fst y) with (fst x) by lia. apply in_map. exact I.
Qed.

Definition indexed (dir : list P) : list (nat * P) := flat_map (fun p => match index_of p with Some k => [(k, p)] | None => [] end) dir.
Lemma indexed_In dir k p : In (k, p) (indexed dir) <-> In p dir /\ index_of p = Some k.
Proof.
  unfold indexed. rewrite in_flat_map. split.
  - intros [q [I H]]. destruct (index_of q) as [j|] eqn:E; [|destruct H]. destruct H as [H|[]]. injection H as <- <-. auto.
  - intros [I E]. exists p. split; [auto|]. rewrite E. left. reflexivity.
Qed.
Lemma indexed_newer dir k : above k (indexed dir) = newer P index_of dir k.
Proof.
  unfold above, newer, indexed. induction dir as [|p dir IH]; [reflexivity|]. cbn [flat_map filter]. destruct (index_of p) as [j|]; [|exact IH]. cbn [app filter fst]. destruct (Nat.ltb k j); cbn [length]; auto.
Qed.
Lemma indexed_NoDup dir : distinct P index_of dir -> NoDup (map fst (indexed dir)).
Proof.
  intros [ND D]. induction dir as [|p dir IH]; [constructor|]. apply NoDup_cons_iff in ND as [N1 N2]. unfold indexed. cbn [flat_map]. fold (indexed dir).
  assert (T : NoDup (map fst (indexed dir))) by (apply IH; [exact N2|]; intros a b k A B; apply D; right; auto).
  destruct (index_of p) as [k|] eqn:E; [|exact T]. cbn. constructor; [|exact T]. intros H. apply in_map_iff in H as [[j q] [J I]]. cbn in J. subst j. apply indexed_In in I as [I F].
  apply N1. rewrite (D p q k); auto; [left; auto|right; auto].
Qed.

(** ** Theorems *)
(** Whatever the directory and the arguments, the function returns (the loop terminates) and the
    list of paths to remove is empty: ... *)
Theorem C47_nothing_removed : forall dir keep N, (exists r, to_remove P index_of dir keep N r) /\ forall r, to_remove P index_of dir keep N r -> r = [].
Proof.
  intros dir keep N. split.
  - exists []. exists []. split; [apply Stop; cbn; lia|]. unfold select, pairs, Clean_Model.sort_desc. cbn. destruct keep; reflexivity.
  - intros r [l [L ->]]. inversion L as [i l' H|i l' p l'' H|i l' p k l'' H]; subst; try discriminate. unfold select, pairs, Clean_Model.sort_desc. cbn. destruct keep; reflexivity.
Qed.
(** ... so clean-up leaves every file in place.  The part of the policy about files to keep holds. *)
Theorem C47_keeps_partial : forall dir keep N after, clean_up P index_of dir keep N after ->
  (forall p, In p after <-> In p dir) /\ forall p, In p dir -> to_keep P index_of dir keep N p -> In p after.
Proof.
  intros dir keep N after [r [R A]]. apply C47_nothing_removed in R. subst r. assert (Q : forall p, In p after <-> In p dir) by (intros p; rewrite A; cbn; tauto). split; [exact Q|]. intros p I _. apply Q. exact I.
Qed.
(** With the collected pairs under their own name the function implements the policy in full. *)
Theorem C47_repaired : forall dir keep N p, distinct P index_of dir -> 0 < N ->
  (In p (to_remove_repaired P index_of dir keep N) <-> In p dir /\ ~ to_keep P index_of dir keep N p).
Proof.
  intros dir keep N p D NP. unfold to_remove_repaired, select. fold (indexed dir). set (l := indexed dir). pose proof (sort_perm l) as PM.
  assert (ND : NoDup (map fst (sort_desc l))) by (eapply Permutation_NoDup; [apply Permutation_map, Permutation_sym, PM|apply indexed_NoDup, D]).
  assert (DIV : forall k, k mod N = 0 <-> Nat.divide N k) by (intros k; apply Nat.mod_divide; lia).
  rewrite in_map_iff. split.
  - intros [[k q] [E H]]. cbn in E. subst q. apply filter_In in H as [H M]. assert (I : In (k, p) (sort_desc l)) by (rewrite <- (firstn_skipn keep (sort_desc l)); apply in_or_app; right; exact H).
    apply (skipn_above _ keep (k, p) (sort_is_desc l) ND I) in H. cbn [fst] in H, M. rewrite (above_perm _ _ _ PM) in H. unfold l in H. rewrite indexed_newer in H.
    apply (Permutation_in _ PM) in I. apply indexed_In in I as [I E]. split; [exact I|]. intros K. destruct (K k E) as [L|L]; [lia|]. apply DIV in L. rewrite L in M. discriminate.
  - intros [I NK]. destruct (index_of p) as [k|] eqn:E; [|exfalso; apply NK; intros k E'; congruence].
    assert (IL : In (k, p) (sort_desc l)) by (apply (Permutation_in _ (Permutation_sym PM)); apply indexed_In; auto).
    exists (k, p). split; [reflexivity|]. apply filter_In. split.
    + apply (skipn_above _ keep (k, p) (sort_is_desc l) ND IL). cbn [fst]. rewrite (above_perm _ _ _ PM). unfold l. rewrite indexed_newer.
      destruct (le_lt_dec keep (newer P index_of dir k)) as [L|L]; [exact L|]. exfalso. apply NK. intros j J. replace j with k by congruence. left. exact L.
    + cbn [fst]. destruct (Nat.eqb_spec (k mod N) 0) as [Z|Z]; [|reflexivity]. exfalso. apply NK. intros j J. replace j with k by congruence. right. apply DIV, Z.
Qed.
End Props.

(** Full statement, false of the code: a data file that the policy does not keep is removed. *)
Theorem C47_removes_refuted : ~ (forall (P : Type) (index_of : P -> option nat) dir keep N after p, distinct P index_of dir -> 0 < N -> clean_up P index_of dir keep N after -> In p dir -> ~ to_keep P index_of dir keep N p -> ~ In p after).
Proof.
  intros H. apply (H nat Some [1; 2; 3] 1 10 [1; 2; 3] 1).
  - split; [repeat constructor; cbn; intuition lia|]. intros p q k _ _ A B. congruence.
  - lia.
  - exists []. split; [exact (let (r, R) := proj1 (C47_nothing_removed nat Some [1; 2; 3] 1 10) in eq_ind r (to_remove nat Some [1; 2; 3] 1 10) R [] (proj2 (C47_nothing_removed nat Some [1; 2; 3] 1 10) r R))|]. intros p. cbn. tauto.
  - left. reflexivity.
  - intros K. destruct (K 1 eq_refl) as [L|[q L]]; [cbn in L; lia|lia].
  - left. reflexivity.
Qed.
Example repaired_example : to_remove_repaired nat Some [3; 20; 1; 7; 40; 9] 2 20 = [9; 7; 3; 1]. Proof. reflexivity. Qed.
Example repaired_other_files : to_remove_repaired (option nat) (fun x => x) [Some 3; None; Some 5; Some 4] 1 10 = [Some 4; Some 3]. Proof. reflexivity. Qed.
Print Assumptions C47_nothing_removed. Print Assumptions C47_keeps_partial. Print Assumptions C47_repaired. Print Assumptions C47_removes_refuted.
