(** Lemmas for C91: gathers read inside the operand; owner roles and blocks follow a gather. *)
From Coq Require Import Reals ZArith List Arith Bool Lra Lia.
From Verif Require Import Lin Shape Lap_Spec Lap_Lang Lap_Model Sparse_Model Sparse_Spec Sparse_Lemmas Sparse_Layout Sparse_Rules Gather_Model Gather_Spec.
Import ListNotations.
Open Scope nat_scope.

Lemma index_of_nth l : NoDup l -> forall i, i < length l -> index_of (nth i l 0) l = i.
Proof.
  induction 1 as [|x l X N IH]; intros i I; [cbn in I; lia|]. destruct i as [|i]; cbn; [rewrite Nat.eqb_refl; reflexivity|]. cbn in I.
  destruct (Nat.eqb_spec x (nth i l 0)) as [E|E]; [exfalso; apply X; rewrite E; apply nth_In; lia|]. rewrite IH by lia. reflexivity.
Qed.
Lemma index_of_at l i : NoDup l -> i < length l -> index_of (at_ l i) l = i.
Proof. intros N I. apply index_of_nth; auto. Qed.
Lemma kept_length dims rank : NoDup dims -> (forall a, In a dims -> a < rank) -> length (kept dims rank) = rank - length dims.
Proof.
  intros N B. unfold kept. destruct (count_below_seq dims rank N) as [E _]. rewrite E. f_equal. unfold count_below.
  assert (X : filter (fun d => Nat.ltb d rank) dims = dims); [|rewrite X; reflexivity]. clear E N. induction dims as [|a l IH]; [reflexivity|]. cbn [filter].
  replace (Nat.ltb a rank) with true by (symmetry; apply Nat.ltb_lt, B; left; reflexivity). f_equal. apply IH. intros b I. apply B. right. exact I.
Qed.
Section one_gather.
Variables (g : gather) (sh : list nat).
Hypothesis OK : gather_ok g sh.
Notation out := (g_shape g sh).
Lemma out_length : length out = out_rank g.
Proof. unfold g_shape. rewrite map_length, seq_length. reflexivity. Qed.
Lemma out_offset i : i < length (retained g (length sh)) -> at_ (offset_dims (g_dims g)) i < out_rank g /\ at_ out (at_ (offset_dims (g_dims g)) i) = at_ (slices g) (at_ (retained g (length sh)) i).
Proof.
  destruct OK as (ND & B & L & _). intros I. rewrite <- L in I. assert (X : In (at_ (offset_dims (g_dims g)) i) (offset_dims (g_dims g))) by (apply nth_In; exact I). pose proof (B _ X) as Y. split; [exact Y|].
  unfold g_shape. unfold at_ at 1. rewrite nth_map_seq by exact Y. apply mem_In in X. rewrite X. rewrite index_of_at by auto. reflexivity.
Qed.
Lemma out_batch i : i < length (i_shape g) - 1 -> at_ (batch_axes g) i < out_rank g /\ at_ out (at_ (batch_axes g) i) = at_ (i_shape g) i.
Proof.
  destruct OK as (ND & B & L & _). intros I. assert (LB : length (batch_axes g) = length (i_shape g) - 1) by (unfold batch_axes; rewrite kept_length by auto; unfold out_rank; lia).
  assert (X : In (at_ (batch_axes g) i) (batch_axes g)) by (apply nth_In; lia). apply kept_In in X as [X1 X2]. split; [exact X1|].
  unfold g_shape. unfold at_ at 1. rewrite nth_map_seq by exact X1. apply mem_not in X2. rewrite X2. rewrite index_of_at; [reflexivity|apply kept_NoDup|lia].
Qed.
Lemma retained_not a : In a (retained g (length sh)) <-> a < length sh /\ ~ In a (collapsed (g_dims g)) /\ ~ In a (op_batch (g_dims g)).
Proof. unfold retained. rewrite kept_In, in_app_iff. tauto. Qed.
Lemma read_coord oi d : inside out oi -> d < length sh -> window_start g sh oi d + window_offset g sh oi d < at_ sh d.
Proof.
  intros [LO IN] D. destruct OK as (ND & B & L & SL & CB & NB & DJ & BT). destruct (SL d D) as [S1 S2].
  assert (OFF : window_offset g sh oi d < at_ (slices g) d).
  { unfold window_offset. destruct (mem d (retained g (length sh))) eqn:M; [|lia]. apply mem_In in M. destruct (index_of_spec _ _ M) as [I1 I2].
    destruct (out_offset _ I1) as [O1 O2]. unfold at_ in *. rewrite <- out_length in O1. specialize (IN _ O1). rewrite O2, I2 in IN. exact IN. }
  unfold window_start. destruct (mem d (index_map (g_dims g))) eqn:M1.
  - unfold room. lia.
  - destruct (mem d (op_batch (g_dims g))) eqn:M2; [|lia]. apply mem_In in M2. destruct (index_of_spec _ _ M2) as [I1 I2].
    assert (Z : window_offset g sh oi d = 0) by (unfold at_ in *; rewrite (CB d (or_intror M2)) in OFF; lia). rewrite Z. destruct (BT _ I1) as [T1 T2]. destruct (out_batch _ T1) as [O1 O2].
    rewrite <- out_length in O1. specialize (IN _ O1). unfold at_ in *. rewrite O2, T2, I2 in IN. lia.
Qed.
Lemma read_inside oi : inside out oi -> inside sh (map (fun d => window_start g sh oi d + window_offset g sh oi d) (seq 0 (length sh))).
Proof. intros I. split; [rewrite map_length, seq_length; reflexivity|]. intros d D. rewrite nth_map_seq by exact D. apply read_coord; auto. Qed.
Lemma g_src_lt o m : o < size out -> g_src g sh o = Some m -> m < size sh.
Proof. intros O E. unfold g_src in E. destruct (match g_mode g with FillOrDrop => _ | _ => _ end); [discriminate|]. injection E as <-. apply ravel_lt, read_inside, unravel_inside, O. Qed.
Lemma g_src_coord o m d : o < size out -> g_src g sh o = Some m -> d < length sh -> nth d (unravel sh m) 0 = window_start g sh (unravel out o) d + window_offset g sh (unravel out o) d.
Proof.
  intros O E D. unfold g_src in E. destruct (match g_mode g with FillOrDrop => _ | _ => _ end); [discriminate|]. injection E as <-. rewrite unravel_ravel by (apply read_inside, unravel_inside, O). rewrite nth_map_seq by exact D. reflexivity.
Qed.
End one_gather.

(** ** Factorised labels *)
Lemma in_labels out (labels : nat -> option nat) p : In p (flat_map (fun o => label_list (labels o)) (seq 0 (size out))) <-> exists o, o < size out /\ labels o = Some p.
Proof.
  rewrite in_flat_map. split.
  - intros (o & O & I). apply in_seq in O. exists o. destruct (labels o) as [q|]; cbn in I; [|destruct I]. destruct I as [->|[]]. split; [lia|reflexivity].
  - intros (o & O & E). exists o. rewrite in_seq, E. split; [lia|left; reflexivity].
Qed.
Lemma in_row out (labels : nat -> option nat) a i p :
  In p (flat_map (fun o => if Nat.eqb (nth a (unravel out o) 0) i then label_list (labels o) else []) (seq 0 (size out))) <-> exists o, o < size out /\ nth a (unravel out o) 0 = i /\ labels o = Some p.
Proof.
  rewrite in_flat_map. split.
  - intros (o & O & I). apply in_seq in O. exists o. destruct (Nat.eqb_spec (nth a (unravel out o) 0) i) as [E|E]; [|destruct I]. destruct (labels o) as [q|]; cbn in I; [|destruct I]. destruct I as [->|[]]. repeat split; auto; lia.
  - intros (o & O & E & L). exists o. rewrite in_seq, E, Nat.eqb_refl, L. split; [lia|left; reflexivity].
Qed.
Lemma list_max_In l : l <> [] -> In (list_max l) l.
Proof.
  induction l as [|x l IH]; intros N; [congruence|]. destruct l as [|y l']; [left; cbn; lia|]. change (list_max (x :: y :: l')) with (Nat.max x (list_max (y :: l'))). destruct (Nat.max_spec x (list_max (y :: l'))) as [[_ E]|[_ E]]; rewrite E; [right; apply IH; discriminate|left; reflexivity].
Qed.
Lemma list_max_const l p : l <> [] -> (forall q, In q l -> q = p) -> list_max l = p.
Proof. intros N H. apply H, list_max_In, N. Qed.
Lemma factorize_sound N out labels q : 0 < N -> 0 < size out -> (forall o p, o < size out -> labels o = Some p -> p < N) -> factorize out labels = Some q ->
  wf_role N out q /\ forall o p, o < size out -> labels o = Some p -> owner_id out q o = p.
Proof.
  intros NP P B E. unfold factorize in E. destruct (existsb (Nat.eqb 0) out); [discriminate|].
  pose proof (in_labels out labels) as IL. pose proof (in_row out labels) as IR.
  destruct (flat_map (fun o => label_list (labels o)) (seq 0 (size out))) as [|p0 ids] eqn:EI.
  { injection E as <-. split; [split; [reflexivity|repeat constructor; exact NP]|]. intros o p O L. exfalso. apply (proj2 (IL p)). eauto. }
  destruct (proj1 (IL p0) (or_introl eq_refl)) as (o0 & O0 & L0). pose proof (B _ _ O0 L0) as B0.
  destruct (forallb (Nat.eqb p0) (p0 :: ids)) eqn:F.
  { injection E as <-. split; [split; [reflexivity|repeat constructor; exact B0]|]. intros o p O L. rewrite forallb_forall in F. assert (I : In p (p0 :: ids)) by (apply IL; eauto). apply F, Nat.eqb_eq in I. exact I. }
  clear EI IL F ids. set (row := fun a i => flat_map (fun o => if Nat.eqb (nth a (unravel out o) 0) i then label_list (labels o) else []) (seq 0 (size out))) in *.
  set (value := fun a i => match row a i with [] => p0 | l => list_max l end) in *. cbv zeta in E. fold row in E. fold value in E.
  change (match find (fun a => forallb (fun i => forallb (Nat.eqb (value a i)) (row a i)) (seq 0 (at_ out a))) (seq 0 (length out)) with
          | Some a => Some (mk_role (Some a) (map (value a) (seq 0 (at_ out a)))) | None => None end = Some q) in E.
  destruct (find _ (seq 0 (length out))) as [a|] eqn:FD; [|discriminate]. injection E as <-. apply find_some in FD as [A C]. apply in_seq in A. rewrite forallb_forall in C.
  assert (LV : length (map (value a) (seq 0 (at_ out a))) = nth a out 0) by (rewrite map_length, seq_length; reflexivity).
  split.
  - apply mk_role_wf; [lia|exact LV|]. apply Forall_forall. intros v I. apply in_map_iff in I as (i & <- & _). unfold value. destruct (row a i) as [|y l] eqn:R; [exact B0|].
    assert (X : In (list_max (y :: l)) (row a i)) by (rewrite R; apply list_max_In; discriminate). apply IR in X as (o & O & _ & L). eapply B; eassumption.
  - intros o p O L. rewrite mk_role_id by (auto; lia). set (i := nth a (unravel out o) 0). assert (I : i < at_ out a) by (apply (unravel_inside out o O); lia).
    rewrite nth_map_seq by exact I. assert (R : In p (row a i)) by (apply IR; eauto). assert (X : In i (seq 0 (at_ out a))) by (apply in_seq; lia). apply C in X. rewrite forallb_forall in X. apply X in R. apply Nat.eqb_eq in R. exact R.
Qed.
(** it fails only when no single axis explains the labels *)
Lemma factorize_complete N out labels q : 0 < size out -> wf_role N out q -> (forall o p, o < size out -> labels o = Some p -> owner_id out q o = p) -> factorize out labels <> None.
Proof.
  intros P W H. unfold factorize.
  assert (NZ : existsb (Nat.eqb 0) out = false).
  { destruct (existsb (Nat.eqb 0) out) eqn:X; [|reflexivity]. exfalso. apply existsb_exists in X as (x & I & E). apply Nat.eqb_eq in E. subst x. apply (In_nth _ _ 0) in I as (a & A & E). pose proof (size_pos_nth out a P A). lia. }
  rewrite NZ. pose proof (in_labels out labels) as IL. pose proof (in_row out labels) as IR.
  destruct (flat_map (fun o => label_list (labels o)) (seq 0 (size out))) as [|p0 ids] eqn:EI; [discriminate|].
  destruct (proj1 (IL p0) (or_introl eq_refl)) as (o0 & O0 & L0).
  destruct (forallb (Nat.eqb p0) (p0 :: ids)) eqn:F; [discriminate|].
  destruct (ax q) as [a|] eqn:AX.
  2:{ exfalso. assert (T : forallb (Nat.eqb p0) (p0 :: ids) = true); [|congruence]. apply forallb_forall. intros p I. apply IL in I as (o & O & L). apply Nat.eqb_eq.
      rewrite <- (H _ _ O0 L0), <- (H _ _ O L). unfold owner_id. rewrite AX. reflexivity. }
  destruct (wf_some _ _ _ _ W AX) as (A & _ & _). cbv zeta.
  set (row := fun a i => flat_map (fun o => if Nat.eqb (nth a (unravel out o) 0) i then label_list (labels o) else []) (seq 0 (size out))) in *.
  set (value := fun a i => match row a i with [] => p0 | l => list_max l end) in *.
  change (match find (fun a => forallb (fun i => forallb (Nat.eqb (value a i)) (row a i)) (seq 0 (at_ out a))) (seq 0 (length out)) with
          | Some a => Some (mk_role (Some a) (map (value a) (seq 0 (at_ out a)))) | None => None end <> None).
  destruct (find _ (seq 0 (length out))) as [a'|] eqn:FD; [discriminate|]. exfalso.
  pose proof (find_none _ _ FD a ltac:(apply in_seq; lia)) as C. cbv beta in C.
  assert (T : forallb (fun i => forallb (Nat.eqb (value a i)) (row a i)) (seq 0 (at_ out a)) = true); [|congruence].
  apply forallb_forall. intros i I. apply forallb_forall. intros p R. apply Nat.eqb_eq.
  assert (U : forall p', In p' (row a i) -> p' = nth i (vals q) 0).
  { intros p' R'. apply IR in R' as (o & O & EI' & L). rewrite <- (H _ _ O L). unfold owner_id. rewrite AX, EI'. reflexivity. }
  rewrite (U p R). unfold value. destruct (row a i) as [|y l] eqn:RR; [destruct R|]. apply list_max_const; [discriminate|exact U].
Qed.

(** ** Owner roles follow a gather *)
Lemma gather_follows N g sh concrete r q : gather_ok g sh -> 0 < size sh -> 0 < size (g_shape g sh) -> wf_role N sh r -> gather_role g sh concrete r = Some q ->
  wf_role N (g_shape g sh) q /\ forall o m, o < size (g_shape g sh) -> g_src g sh o = Some m -> owner_id (g_shape g sh) q o = owner_id sh r m.
Proof.
  intros OK P PO W E. assert (NP : 0 < N) by (pose proof (owner_id_lt N sh r 0 W P P); lia). unfold gather_role in E. destruct concrete.
  - destruct (ax r) as [a|] eqn:AX.
    + assert (B : forall o p, o < size (g_shape g sh) -> gather_arr g sh None (fun m => Some (owner_id sh r m)) o = Some p -> p < N).
      { intros o p O L. unfold gather_arr in L. destruct (g_src g sh o) as [m|] eqn:S; [|discriminate]. injection L as <-. apply owner_id_lt; auto. eapply g_src_lt; eassumption. }
      destruct (factorize_sound N _ _ _ NP PO B E) as [F1 F2]. split; [exact F1|]. intros o m O S. apply F2; [exact O|]. unfold gather_arr. rewrite S. reflexivity.
    + injection E as <-. split; [|intros o m _ _; unfold owner_id; rewrite AX; reflexivity]. destruct W as [W F]. rewrite AX in W. split; [rewrite AX; exact W|exact F].
  - destruct (Nat.eqb_spec (length (vals r)) 0) as [Z|Z]; [discriminate|].
    assert (K : forall w, vals r = w -> wf_role N (g_shape g sh) (mk_role None (firstn 1 w)) /\ forall o, owner_id (g_shape g sh) (mk_role None (firstn 1 w)) o = nth 0 w 0).
    { intros w Ew. destruct w as [|v l]; [rewrite Ew in Z; cbn in Z; lia|]. split; [|reflexivity]. split; [reflexivity|]. cbn. constructor; [|constructor]. destruct W as [_ F]. rewrite Ew in F. inversion F; assumption. }
    destruct (K _ eq_refl) as [K1 K2].
    destruct (ax r) as [a|] eqn:AX.
    2:{ injection E as <-. split; [exact K1|]. intros o m O S. rewrite K2. unfold owner_id. rewrite AX. reflexivity. }
    destruct (wf_some _ _ _ _ W AX) as (A & L & L1). destruct W as [_ F].
    destruct (all_equal (vals r)) eqn:AE.
    { injection E as <-. split; [exact K1|]. intros o m O S. rewrite K2. unfold owner_id. rewrite AX. symmetry. apply all_equal_nth; [exact AE|]. rewrite L. apply (unravel_inside sh m); [eapply g_src_lt; eassumption|exact A]. }
    destruct (mem a (index_map (g_dims g))) eqn:M1; [discriminate|]. destruct (mem a (op_batch (g_dims g))) eqn:M2; [discriminate|].
    assert (CO : forall o m, o < size (g_shape g sh) -> g_src g sh o = Some m -> nth a (unravel sh m) 0 = window_offset g sh (unravel (g_shape g sh) o) a).
    { intros o m O S. rewrite (g_src_coord g sh OK o m a O S A). unfold window_start. rewrite M1, M2. reflexivity. }
    destruct (mem a (collapsed (g_dims g))) eqn:M3.
    { injection E as <-. split; [exact K1|]. intros o m O S. rewrite K2. unfold owner_id. rewrite AX, (CO o m O S). unfold window_offset.
      replace (mem a (retained g (length sh))) with false; [reflexivity|]. symmetry. apply mem_not. rewrite retained_not. apply mem_In in M3. tauto. }
    injection E as <-. assert (RT : In a (retained g (length sh))) by (apply retained_not; apply mem_not in M2, M3; auto).
    destruct (index_of_spec _ _ RT) as [I1 I2]. destruct (out_offset g sh OK _ I1) as [O1 O2]. fold (at_ (retained g (length sh)) (index_of a (retained g (length sh)))) in I2. rewrite I2 in O2.
    set (a' := at_ (offset_dims (g_dims g)) (index_of a (retained g (length sh)))) in *.
    assert (SL : at_ (slices g) a <= length (vals r)) by (rewrite L; apply OK; exact A).
    assert (LV : length (firstn (at_ (slices g) a) (vals r)) = nth a' (g_shape g sh) 0) by (rewrite firstn_length, Nat.min_l by exact SL; symmetry; exact O2).
    assert (A' : a' < length (g_shape g sh)) by (rewrite out_length; exact O1).
    split.
    + apply mk_role_wf; auto. apply Forall_forall. intros v I. rewrite Forall_forall in F. apply F. rewrite <- (firstn_skipn (at_ (slices g) a) (vals r)). apply in_or_app. left. exact I.
    + intros o m O S. rewrite mk_role_id by auto. unfold owner_id. rewrite AX, (CO o m O S). unfold window_offset. apply mem_In in RT. rewrite RT. fold a'.
      assert (J : nth a' (unravel (g_shape g sh) o) 0 < at_ (slices g) a) by (rewrite <- O2; apply (unravel_inside _ o O); exact A').
      unfold at_ at 2. rewrite <- (firstn_skipn (at_ (slices g) a) (vals r)) at 2. rewrite app_nth1; [reflexivity|]. rewrite firstn_length, Nat.min_l by exact SL. exact J.
Qed.

(** ** Blocks follow a gather *)
Lemma mem_shift2 a l : mem (a + 2) (shift2 l) = mem a l.
Proof. unfold mem, shift2. induction l as [|x l IH]; [reflexivity|]. cbn. rewrite IH. f_equal. destruct (Nat.eqb_spec a x), (Nat.eqb_spec (a + 2) (x + 2)); try lia; reflexivity. Qed.
Lemma mem_shift2_small a l : a < 2 -> mem a (shift2 l) = false.
Proof. intros A. apply mem_not. unfold shift2. rewrite in_map_iff. intros (x & E & _). lia. Qed.
Lemma index_shift2 a l : index_of (a + 2) (shift2 l) = index_of a l.
Proof. unfold shift2. induction l as [|x l IH]; [reflexivity|]. cbn. rewrite IH. destruct (Nat.eqb_spec (x + 2) (a + 2)), (Nat.eqb_spec x a); try lia; reflexivity. Qed.
Lemma at_shift2 l i : i < length l -> at_ (shift2 l) i = at_ l i + 2.
Proof. intros I. unfold at_, shift2. rewrite nth_map by exact I. reflexivity. Qed.
Lemma at_SS x y l i : at_ (x :: y :: l) (Datatypes.S (Datatypes.S i)) = at_ l i.
Proof. reflexivity. Qed.
Lemma at_plus2 x y l i : at_ (x :: y :: l) (i + 2) = at_ l i.
Proof. replace (i + 2) with (Datatypes.S (Datatypes.S i)) by lia. reflexivity. Qed.
Lemma index_SS a l : index_of (a + 2) (0 :: 1 :: shift2 l) = Datatypes.S (Datatypes.S (index_of a l)).
Proof.
  cbn [index_of]. replace (Nat.eqb 0 (a + 2)) with false by (symmetry; apply Nat.eqb_neq; lia). replace (Nat.eqb 1 (a + 2)) with false by (symmetry; apply Nat.eqb_neq; lia). rewrite index_shift2. reflexivity.
Qed.
Lemma mem_SS a l : mem (a + 2) (0 :: 1 :: shift2 l) = mem a l.
Proof.
  unfold mem at 1. cbn [existsb]. fold (mem (a + 2) (shift2 l)). rewrite mem_shift2. replace (Nat.eqb (a + 2) 0) with false by (symmetry; apply Nat.eqb_neq; lia). replace (Nat.eqb (a + 2) 1) with false by (symmetry; apply Nat.eqb_neq; lia). reflexivity.
Qed.
Lemma seq_shift2 n : forall s, seq (s + 2) n = map (fun a => a + 2) (seq s n).
Proof. induction n as [|n IH]; intros s; [reflexivity|]. cbn. f_equal. apply (IH (S s)). Qed.
Lemma filter_map {A B} (f : A -> B) P l : filter P (map f l) = map f (filter (fun x => P (f x)) l).
Proof. induction l as [|x l IH]; [reflexivity|]. cbn. destruct (P (f x)); cbn; rewrite IH; reflexivity. Qed.
Lemma kept_shift2 l r : kept (shift2 l) (2 + r) = 0 :: 1 :: shift2 (kept l r).
Proof.
  unfold kept. cbn [plus seq filter]. rewrite !mem_shift2_small by lia. cbn [negb]. do 2 f_equal. change 2 with (0 + 2). rewrite seq_shift2, filter_map. unfold shift2. f_equal.
  apply filter_ext. intros a. fold (shift2 l). rewrite mem_shift2. reflexivity.
Qed.
Lemma kept_shift2' l r : kept (0 :: 1 :: shift2 l) (2 + r) = shift2 (kept l r).
Proof.
  unfold kept. cbn [plus seq filter]. cbn [mem existsb Nat.eqb orb negb]. change 2 with (0 + 2). rewrite seq_shift2, filter_map. unfold shift2 at 2. f_equal.
  apply filter_ext. intros a. fold (shift2 l). unfold mem at 1. cbn [existsb]. fold (mem (a + 2) (shift2 l)). rewrite mem_shift2. replace (Nat.eqb (a + 2) 0) with false by (symmetry; apply Nat.eqb_neq; lia).
  replace (Nat.eqb (a + 2) 1) with false by (symmetry; apply Nat.eqb_neq; lia). reflexivity.
Qed.
Section blocks.
Variables (g : gather) (sh : list nat) (S C : nat).
Hypothesis OK : gather_ok g sh.
Notation bg := (block_gather g S C).
Notation bsh := (S :: C :: sh).
Notation out := (g_shape g sh).
Lemma bg_rank : out_rank bg = 2 + out_rank g.
Proof. unfold out_rank. cbn. unfold shift2. rewrite map_length. lia. Qed.
Lemma bg_batch : batch_axes bg = shift2 (batch_axes g).
Proof. unfold batch_axes. rewrite bg_rank. apply kept_shift2'. Qed.
Lemma bg_retained : retained bg (length bsh) = 0 :: 1 :: shift2 (retained g (length sh)).
Proof. unfold retained. cbn [g_dims block_gather collapsed op_batch length]. replace (shift2 (collapsed (g_dims g)) ++ shift2 (op_batch (g_dims g))) with (shift2 (collapsed (g_dims g) ++ op_batch (g_dims g))) by apply map_app. apply kept_shift2. Qed.
Lemma bg_shape : g_shape bg bsh = S :: C :: out.
Proof.
  destruct OK as (ND & B & L & _). unfold g_shape at 1. rewrite bg_rank. cbn [plus seq map]. rewrite bg_retained, bg_batch. cbn [block_gather g_dims offset_dims slices i_shape].
  change (mem 0 (0 :: 1 :: shift2 (offset_dims (g_dims g)))) with true. change (mem 1 (0 :: 1 :: shift2 (offset_dims (g_dims g)))) with true. f_equal. f_equal.
  change (seq 2 (out_rank g)) with (seq (0 + 2) (out_rank g)). rewrite seq_shift2, map_map. unfold g_shape. apply map_ext_in. intros a I. apply in_seq in I.
  rewrite mem_SS. destruct (mem a (offset_dims (g_dims g))) eqn:M.
  - apply mem_In in M. destruct (index_of_spec _ _ M) as [I1 I2]. rewrite index_SS, at_SS, at_shift2, at_plus2 by (rewrite <- L; exact I1). reflexivity.
  - rewrite index_shift2. reflexivity.
Qed.
Lemma bg_index oi s c j : index_at bg (s :: c :: oi) j = index_at g oi j.
Proof.
  unfold index_at. rewrite bg_batch. cbn [block_gather indices i_shape]. do 3 f_equal. unfold shift2. rewrite map_map. apply map_ext. intros a. replace (a + 2) with (Datatypes.S (Datatypes.S a)) by lia. reflexivity.
Qed.
Lemma bg_room d : room bg bsh (d + 2) = room g sh d.
Proof. unfold room. replace (d + 2) with (Datatypes.S (Datatypes.S d)) by lia. reflexivity. Qed.
Lemma bg_bounds oi s c : in_bounds bg bsh (s :: c :: oi) = in_bounds g sh oi.
Proof.
  unfold in_bounds. cbn [block_gather g_dims index_map]. set (f := fun d => _). set (h := fun d => _). assert (H : forall l, (forall d, In d l -> f (d + 2) = h d) -> forallb f (shift2 l) = forallb h l).
  { induction l as [|d l IH]; intros E; [reflexivity|]. cbn. rewrite E by (left; reflexivity). f_equal. apply IH. intros x I. apply E. right. exact I. }
  apply H. intros d _. unfold f, h. cbv zeta. rewrite index_shift2, bg_index, bg_room. reflexivity.
Qed.
Lemma bg_read oi s c : (forall i, i < length (op_batch (g_dims g)) -> at_ (idx_batch (g_dims g)) i < length (batch_axes g)) ->
  map (fun d => window_start bg bsh (s :: c :: oi) d + window_offset bg bsh (s :: c :: oi) d) (seq 0 (length bsh)) =
  s :: c :: map (fun d => window_start g sh oi d + window_offset g sh oi d) (seq 0 (length sh)).
Proof.
  intros BT. destruct OK as (ND & B & L & _). cbn [length seq map]. f_equal; [|f_equal].
  - unfold window_start, window_offset. cbn [block_gather g_dims index_map op_batch]. rewrite !mem_shift2_small by lia. rewrite bg_retained. cbn [mem existsb Nat.eqb orb]. reflexivity.
  - unfold window_start, window_offset. cbn [block_gather g_dims index_map op_batch]. rewrite !mem_shift2_small by lia. rewrite bg_retained. cbn [mem existsb Nat.eqb orb]. reflexivity.
  - change (seq 2 (length sh)) with (seq (0 + 2) (length sh)). rewrite seq_shift2, map_map. apply map_ext_in. intros d I. apply in_seq in I. f_equal.
    + unfold window_start. cbn [block_gather g_dims index_map op_batch idx_batch slices]. rewrite !mem_shift2, !index_shift2, bg_index, bg_room. destruct (mem d (index_map (g_dims g))); [reflexivity|].
      destruct (mem d (op_batch (g_dims g))) eqn:M; [|reflexivity]. apply mem_In in M. destruct (index_of_spec _ _ M) as [I1 I2]. rewrite bg_batch, at_shift2, at_plus2 by (apply BT; exact I1). reflexivity.
    + unfold window_offset. rewrite bg_retained, mem_SS, index_SS. cbn [block_gather g_dims offset_dims].
      destruct (mem d (retained g (length sh))) eqn:M; [|reflexivity]. apply mem_In in M. destruct (index_of_spec _ _ M) as [I1 I2]. rewrite at_SS, at_shift2, at_plus2 by (rewrite L; exact I1). reflexivity.
Qed.
Lemma blocks_follow (blk : nat -> nat -> arr) s c o : s < S -> c < C -> o < size out ->
  gather_arr bg bsh 0%R (block_array S C sh blk) (ravel (g_shape bg bsh) (s :: c :: unravel out o)) = gather_arr g sh 0%R (blk s c) o.
Proof.
  intros Hs Hc O. unfold gather_arr, g_src. rewrite bg_shape. assert (IO : inside (S :: C :: out) (s :: c :: unravel out o)) by (apply inside_cons; split; [exact Hs|]; apply inside_cons; split; [exact Hc|apply unravel_inside; exact O]).
  rewrite unravel_ravel by exact IO. rewrite bg_bounds. cbn [block_gather g_mode].
  destruct (match g_mode g with FillOrDrop => _ | _ => _ end); [reflexivity|]. change (Datatypes.S (Datatypes.S (length sh))) with (length bsh). rewrite bg_read.
  2:{ destruct OK as (ND & B & L & SL & CB & NB & DJ & BT). intros i I. unfold batch_axes. rewrite kept_length by auto. destruct (BT i I). unfold out_rank. lia. }
  pose proof (read_inside g sh OK _ (unravel_inside out o O)) as RI. set (ix := map _ (seq 0 (length sh))) in *.
  assert (IB : inside bsh (s :: c :: ix)) by (apply inside_cons; split; [exact Hs|]; apply inside_cons; split; [exact Hc|exact RI]).
  unfold block_array. cbv zeta. rewrite (unravel_ravel bsh) by exact IB. reflexivity.
Qed.
End blocks.
Lemma coord_lt b k : wf_basis b -> k < b_n b -> crd b k < b_C b.
Proof.
  intros W K. destruct (Nat.lt_ge_cases (crd b k) (b_C b)) as [H|H]; [exact H|]. exfalso.
  specialize (W (fun _ c => if Nat.ltb c (b_C b) then 0%R else 1%R)). cbv beta in W.
  assert (Z : sum (b_N b) (fun p => sum (b_C b) (fun c => if Nat.ltb c (b_C b) then 0%R else 1%R)) = 0%R).
  { apply sum_0. intros p _. apply sum_0. intros c Hc. replace (Nat.ltb c (b_C b)) with true by (symmetry; apply Nat.ltb_lt; exact Hc). reflexivity. }
  rewrite Z in W.
  assert (G : forall (n : nat) (f : nat -> R), (forall i, i < n -> (0 <= f i)%R) -> k < n -> (f k <= sum n f)%R).
  { clear. induction n as [|n IH]; intros f F Hk; [lia|]. cbn [sum].
    assert (F0 : forall m, m <= n -> (0 <= sum m f)%R). { induction m as [|m IHm]; intros M; cbn [sum]; [lra|]. assert (0 <= f m)%R by (apply F; lia). assert (0 <= sum m f)%R by (apply IHm; lia). lra. }
    destruct (Nat.eq_dec k n) as [->|N]. { specialize (F0 n (Nat.le_refl n)). lra. }
    assert (f k <= sum n f)%R by (apply IH; [intros; apply F; lia|lia]). assert (0 <= f n)%R by (apply F; lia). lra. }
  specialize (G (b_n b) (fun k => if Nat.ltb (crd b k) (b_C b) then 0%R else 1%R)). cbv beta in G. rewrite W in G.
  replace (Nat.ltb (crd b k) (b_C b)) with false in G by (symmetry; apply Nat.ltb_ge; exact H).
  assert (1 <= 0)%R; [|lra]. apply G; [|exact K]. intros i _. destruct (Nat.ltb (crd b i) (b_C b)); lra.
Qed.
