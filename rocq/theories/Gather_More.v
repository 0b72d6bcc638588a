(** C91, continued: splits, rounding, remainders and powers. *)
From Coq Require Import Reals ZArith List Arith Bool Lra Lia.
From Verif Require Import Lin Shape Jet Lap_Spec Lap_Lang Lap_Model Lap_Props Sparse_Model Sparse_Spec Sparse_Lemmas Sparse_Layout Sparse_Dot Sparse_Rules Sparse_Props Attn_Spec Gather_Model Gather_Spec Gather_Lemmas Gather_Props.
Import ListNotations.
Open Scope R_scope.

(** ** split *)
Lemma piece_shape sh axis start len : (axis < length sh)%nat -> out_shape (piece_layout sh axis start len) sh = replace_at sh axis len.
Proof.
  intros A. cbn [piece_layout out_shape]. apply (nth_ext _ _ 0%nat 0%nat); [rewrite map_length, seq_length, replace_at_length; reflexivity|]. rewrite map_length, seq_length. intros a Ha.
  rewrite nth_map_seq by exact Ha. unfold at_. rewrite !replace_at_nth by (rewrite ?repeat_length; exact Ha).
  assert (RP : forall v, nth a (repeat v (length sh)) 0%nat = v) by (intros v; rewrite (nth_indep _ 0%nat v) by (rewrite repeat_length; exact Ha); apply nth_repeat).
  rewrite !RP. unfold cdiv. rewrite Nat.div_1_r. destruct (Nat.eqb a axis); lia.
Qed.
Lemma piece_src sh axis start len o : (axis < length sh)%nat -> src (piece_layout sh axis start len) sh o = split_src sh axis start len o.
Proof.
  intros A. change (src (piece_layout sh axis start len) sh o) with (ravel sh (map (src_coord (piece_layout sh axis start len) sh (unravel (out_shape (piece_layout sh axis start len) sh) o)) (seq 0 (length sh)))).
  rewrite piece_shape by exact A. unfold split_src. f_equal. apply map_ext_in. intros a Ia. apply in_seq in Ia. cbn [piece_layout src_coord]. unfold at_ at 1 3. rewrite replace_at_nth by (rewrite repeat_length; lia).
  assert (RP : forall v, nth a (repeat v (length sh)) 0%nat = v) by (intros v; rewrite (nth_indep _ 0%nat v) by (rewrite repeat_length; lia); apply nth_repeat).
  rewrite !RP. destruct (Nat.eqb a axis); lia.
Qed.
Lemma piece_ok sh axis start len : (axis < length sh)%nat -> (0 < size sh)%nat -> (0 < len)%nat -> (start + len <= nth axis sh 0)%nat -> layout_ok (piece_layout sh axis start len) sh.
Proof.
  intros A P L E. cbn [piece_layout layout_ok]. rewrite !replace_at_length, !repeat_length. repeat (split; [reflexivity|]). intros a Ha.
  assert (RP : forall v, nth a (repeat v (length sh)) 0%nat = v) by (intros v; rewrite (nth_indep _ 0%nat v) by (rewrite repeat_length; exact Ha); apply nth_repeat).
  rewrite !replace_at_nth, !RP by (rewrite ?repeat_length; exact Ha). pose proof (size_pos_nth sh a P Ha). unfold at_. destruct (Nat.eqb_spec a axis) as [->|]; lia.
Qed.
Lemma piece_role_some sh axis start len r : layout_role (piece_layout sh axis start len) sh r <> None.
Proof. unfold layout_role. destruct (ax r); cbn [piece_layout]; discriminate. Qed.
Lemma map_roles_some f l : (forall r, f r <> None) -> map_roles f l <> None.
Proof. intros H. induction l as [|r l IH]; cbn [map_roles]; [discriminate|]. specialize (H r). destruct (f r); [|congruence]. destruct (map_roles f l); congruence. Qed.
Lemma piece_good b sh axis start len x : (axis < length sh)%nat -> (0 < len)%nat -> (start + len <= nth axis sh 0)%nat -> wf_value b sh x ->
  good b (replace_at sh axis len)
    (match x with
     | SSparse t => match apply_layout (piece_layout sh axis start len) sh t with
                    | Some t' => SSparse {| sx := fun o => sx t (split_src sh axis start len o); owners := owners t'; blk := blk t'; sl := fun o => sl t (split_src sh axis start len o) |}
                    | None => embed (dense_piece sh axis start len (densify b sh x)) end
     | _ => embed (dense_piece sh axis start len (densify b sh x)) end) (dense_piece sh axis start len (densify b sh x)).
Proof.
  intros A L E W. pose proof W as [P _]. pose proof (piece_ok sh axis start len A P L E) as OK. pose proof (out_shape_pos _ _ OK P) as PO. rewrite piece_shape in PO by exact A.
  destruct x as [a|t|t]; try (apply good_dense; exact PO). destruct (apply_layout (piece_layout sh axis start len) sh t) as [t'|] eqn:AL; [|apply good_dense; exact PO].
  pose proof (layout_good b _ sh t t' W OK AL) as G. rewrite piece_shape in G by exact A. destruct G as [[_ W'] [_ [G2 _]]]. cbn in W'. destruct W' as [S F]. cbn [densify dense_piece].
  apply good_sparse; cbn [sx owners sl lx jac lapl]; auto.
  intros k o K O. specialize (G2 k o K O). cbn [densify jac] in G2. rewrite piece_src in G2 by exact A. exact G2.
Qed.
(** Piece [j] is the slice that starts where the previous pieces end. *)
Theorem C91_split : forall b sh axis sizes x, (axis < length sh)%nat -> (forall len, In len sizes -> (0 < len)%nat) -> fold_right Nat.add 0%nat sizes = nth axis sh 0%nat -> wf_value b sh x ->
  length (handle_split b sh axis 0 sizes x) = length sizes /\
  forall j, (j < length sizes)%nat -> let out := replace_at sh axis (nth j sizes 0%nat) in let y := nth j (handle_split b sh axis 0 sizes x) (SPlain (fun _ => 0)) in
    wf_value b out y /\ agree (b_n b) (size out) (densify b out y) (dense_piece sh axis (piece_start sizes j) (nth j sizes 0%nat) (densify b sh x)) /\
    (is_sparse x = true -> is_sparse y = true).
Proof.
  intros b sh axis sizes x A PS SUM W.
  assert (Gen : forall sizes start, (forall len, In len sizes -> (0 < len)%nat) -> (start + fold_right Nat.add 0 sizes <= nth axis sh 0)%nat ->
     length (handle_split b sh axis start sizes x) = length sizes /\
     forall j, (j < length sizes)%nat -> let out := replace_at sh axis (nth j sizes 0%nat) in let y := nth j (handle_split b sh axis start sizes x) (SPlain (fun _ => 0)) in
       wf_value b out y /\ agree (b_n b) (size out) (densify b out y) (dense_piece sh axis (start + piece_start sizes j) (nth j sizes 0%nat) (densify b sh x)) /\ (is_sparse x = true -> is_sparse y = true)).
  { clear sizes PS SUM. induction sizes as [|len sizes IH]; intros start PS SUM; [split; [reflexivity|cbn; lia]|]. cbn [fold_right] in SUM. destruct (IH (start + len)%nat) as [IL IJ]; [intros; apply PS; right; assumption|lia|].
    cbn [handle_split length]. split; [f_equal; exact IL|]. intros [|j] J.
    - cbn [nth]. unfold piece_start. cbn [firstn fold_right]. rewrite Nat.add_0_r. destruct (piece_good b sh axis start len x A (PS len (or_introl eq_refl)) ltac:(lia) W) as [G1 G2].
      split; [exact G1|]. split; [exact G2|]. destruct x as [a|t|t]; try discriminate. intros _. unfold apply_layout.
      pose proof (map_roles_some (layout_role (piece_layout sh axis start len) sh) (owners t) (piece_role_some sh axis start len)) as N. destruct (map_roles (layout_role (piece_layout sh axis start len) sh) (owners t)); [reflexivity|congruence].
    - cbn [nth]. specialize (IJ j ltac:(lia)). cbv zeta in IJ. replace (start + piece_start (len :: sizes) (S j))%nat with (start + len + piece_start sizes j)%nat by (unfold piece_start; cbn [firstn fold_right]; lia). exact IJ. }
  destruct (Gen sizes 0%nat PS) as [G1 G2]; [lia|]. split; [exact G1|exact G2].
Qed.
(** Every element of the operand is in exactly one piece, at one place. *)
Theorem C91_split_covers : forall sh axis sizes m, (axis < length sh)%nat -> (forall len, In len sizes -> (0 < len)%nat) -> fold_right Nat.add 0%nat sizes = nth axis sh 0%nat -> (m < size sh)%nat ->
  exists! jo : nat * nat, (fst jo < length sizes)%nat /\ (snd jo < size (replace_at sh axis (nth (fst jo) sizes 0%nat)))%nat /\
    split_src sh axis (piece_start sizes (fst jo)) (nth (fst jo) sizes 0%nat) (snd jo) = m.
Proof.
  intros sh axis sizes m A PS SUM M. pose proof (unravel_inside sh m M) as [LM IM]. set (mi := unravel sh m) in *.
  assert (Step : forall j, (j < length sizes)%nat -> piece_start sizes (S j) = (piece_start sizes j + nth j sizes 0)%nat).
  { clear. unfold piece_start. induction sizes as [|a l IH]; intros j J; [cbn in J; lia|]. destruct j as [|j]; [cbn; lia|]. cbn [length] in J. specialize (IH j ltac:(lia)). cbn [firstn fold_right nth] in *. lia. }
  assert (Mono : forall i j, (i <= j)%nat -> (j <= length sizes)%nat -> (piece_start sizes i <= piece_start sizes j)%nat).
  { intros i j I J. induction I as [|j I IH]; [lia|]. rewrite Step by lia. specialize (IH ltac:(lia)). lia. }
  assert (All : piece_start sizes (length sizes) = nth axis sh 0%nat) by (unfold piece_start; rewrite firstn_all; exact SUM).
  assert (Find : forall n, (n <= length sizes)%nat -> (nth axis mi 0 < piece_start sizes n)%nat -> exists j, (j < n)%nat /\ (piece_start sizes j <= nth axis mi 0 < piece_start sizes j + nth j sizes 0)%nat).
  { induction n as [|n IH]; intros N L; [unfold piece_start in L; cbn in L; lia|]. destruct (le_lt_dec (piece_start sizes n) (nth axis mi 0%nat)) as [G|G].
    - exists n. split; [lia|]. rewrite Step in L by lia. lia.
    - destruct (IH ltac:(lia) G) as (j & J1 & J2). exists j. split; [lia|exact J2]. }
  destruct (Find (length sizes) (le_n _)) as (j & J & JB); [rewrite All; apply IM; exact A|].
  assert (Src : forall j o, (j < length sizes)%nat -> (o < size (replace_at sh axis (nth j sizes 0%nat)))%nat ->
     let oi := unravel (replace_at sh axis (nth j sizes 0%nat)) o in let ix := map (fun a => if Nat.eqb a axis then (piece_start sizes j + at_ oi a)%nat else at_ oi a) (seq 0 (length sh)) in
     inside sh ix /\ inside (replace_at sh axis (nth j sizes 0%nat)) oi /\ split_src sh axis (piece_start sizes j) (nth j sizes 0%nat) o = ravel sh ix).
  { intros j' o' J' O' oi ix. pose proof (unravel_inside _ _ O') as IO. split; [|split; [exact IO|reflexivity]]. destruct IO as [LO IO]. rewrite replace_at_length in LO, IO. split; [unfold ix; rewrite map_length, seq_length; reflexivity|].
    intros a Ha. unfold ix. rewrite nth_map_seq by exact Ha. specialize (IO a Ha). rewrite replace_at_nth in IO by exact Ha. fold oi in IO. unfold at_. destruct (Nat.eqb_spec a axis) as [Ea|Na]; [rewrite Ea in *|exact IO].
    pose proof (Mono (S j') (length sizes) ltac:(lia) (le_n _)) as Q. rewrite Step in Q by exact J'. lia. }
  set (ji := map (fun a => if Nat.eqb a axis then (nth a mi 0 - piece_start sizes j)%nat else nth a mi 0%nat) (seq 0 (length sh))).
  assert (IJ : inside (replace_at sh axis (nth j sizes 0%nat)) ji).
  { split; [unfold ji; rewrite map_length, seq_length, replace_at_length; reflexivity|]. rewrite replace_at_length. intros a Ha. unfold ji. rewrite nth_map_seq, replace_at_nth by exact Ha. destruct (Nat.eqb_spec a axis) as [->|]; [lia|apply IM; exact Ha]. }
  exists (j, ravel (replace_at sh axis (nth j sizes 0%nat)) ji). split; cbn beta; cbn [fst snd].
  - cbn [fst snd]. split; [exact J|]. pose proof (ravel_lt _ _ IJ) as O. split; [exact O|]. destruct (Src j _ J O) as (_ & _ & ->). rewrite unravel_ravel by exact IJ. rewrite <- (ravel_unravel sh m M). f_equal. fold mi.
    apply (nth_ext _ _ 0%nat 0%nat); [rewrite map_length, seq_length; congruence|]. rewrite map_length, seq_length. intros a Ha. rewrite nth_map_seq by exact Ha. unfold at_, ji. rewrite nth_map_seq by exact Ha. destruct (Nat.eqb_spec a axis) as [->|]; [lia|reflexivity].
  - intros [j' o']. cbn [fst snd]. intros (J' & O' & E). destruct (Src j' o' J' O') as (I1 & I2 & E2). rewrite E2 in E.
    assert (U : mi = map (fun a => if Nat.eqb a axis then (piece_start sizes j' + at_ (unravel (replace_at sh axis (nth j' sizes 0%nat)) o') a)%nat else at_ (unravel (replace_at sh axis (nth j' sizes 0%nat)) o') a) (seq 0 (length sh))) by (unfold mi; rewrite <- E; apply unravel_ravel; exact I1).
    assert (JJ : j' = j).
    { assert (UA : nth axis mi 0%nat = (piece_start sizes j' + at_ (unravel (replace_at sh axis (nth j' sizes 0%nat)) o') axis)%nat) by (rewrite U, nth_map_seq, Nat.eqb_refl by exact A; reflexivity).
      destruct I2 as [_ I2]. specialize (I2 axis ltac:(rewrite replace_at_length; exact A)). rewrite replace_at_nth, Nat.eqb_refl in I2 by exact A. unfold at_ in UA.
      destruct (lt_eq_lt_dec j' j) as [[L|L]|L]; [|exact L|].
      - pose proof (Mono (S j') j L ltac:(lia)) as Q. rewrite Step in Q by exact J'. lia.
      - pose proof (Mono (S j) j' L ltac:(lia)) as Q. rewrite Step in Q by exact J. lia. }
    subst j'. f_equal. rewrite <- (ravel_unravel _ o' O'). f_equal. apply (nth_ext _ _ 0%nat 0%nat); [rewrite length_unravel, replace_at_length; unfold ji; rewrite map_length, seq_length; reflexivity|].
    unfold ji at 1. rewrite map_length, seq_length. intros a Ha. unfold ji. rewrite nth_map_seq by exact Ha. rewrite U, nth_map_seq by exact Ha. unfold at_. destruct (Nat.eqb_spec a axis) as [->|]; [lia|reflexivity].
Qed.
Theorem C91_split_exact : forall b sh axis sizes x w p F, (axis < length sh)%nat -> (forall len, In len sizes -> (0 < len)%nat) -> fold_right Nat.add 0%nat sizes = nth axis sh 0%nat -> wf_value b sh x -> exact b w p sh F x ->
  forall j, (j < length sizes)%nat ->
    exact b w p (replace_at sh axis (nth j sizes 0%nat)) (fun q o => F q (split_src sh axis (piece_start sizes j) (nth j sizes 0%nat) o)) (nth j (handle_split b sh axis 0 sizes x) (SPlain (fun _ => 0))).
Proof.
  intros b sh axis sizes x w p F A PS SUM W E j J. destruct (C91_split b sh axis sizes x A PS SUM W) as [_ G]. specialize (G j J). cbv zeta in G. destruct G as (G1 & G2 & _).
  eapply exact_good; [split; [exact G1|exact G2]|]. intros o O. destruct W as [P _].
  assert (PE : (piece_start sizes j + nth j sizes 0 <= nth axis sh 0)%nat).
  { rewrite <- SUM. clear - J. unfold piece_start. revert j J. induction sizes as [|a l IH]; intros [|j] J; cbn in *; try lia. specialize (IH j ltac:(lia)). lia. }
  pose proof (piece_ok sh axis (piece_start sizes j) (nth j sizes 0%nat) A P (PS _ (nth_In _ _ J)) PE) as OK.
  pose proof (src_lt _ sh o OK P) as L. rewrite piece_shape, piece_src in L by exact A. specialize (L O). pose proof (exact_densify b w p sh F x _ E L) as Q.
  destruct (densify b sh x); cbn [dense_piece primal jac_of lapl_of lx jac lapl] in *; exact Q.
Qed.
