(** C91: gathers, extremes over axes, splits, rounding, remainders and powers keep sparse
    derivatives equal to dense ones and to the derivatives of the function. *)
From Coq Require Import Reals ZArith List Arith Bool Lra Lia.
From Verif Require Import Lin Shape Jet Lap_Spec Lap_Lang Lap_Model Lap_Props Sparse_Model Sparse_Spec Sparse_Lemmas Sparse_Layout Sparse_Dot Sparse_Rules Sparse_Props Attn_Spec Gather_Model Gather_Spec Gather_Lemmas.
Import ListNotations.
Open Scope R_scope.

(** ** From dense values to exact derivatives *)
Lemma exact_good b w p out F v r : good b out v r ->
  (forall o, (o < size out)%nat -> gradient_and_laplacian (b_n b) w p (fun q => F q o) (primal r o) (fun k => jac_of r k o) (lapl_of r o)) -> exact b w p out F v.
Proof.
  intros [_ A] G o O. eapply gl_eq; [apply (G o O)| | |]; destruct v, r; cbn in A; try contradiction; cbn [primal jac_of lapl_of value_of jacobian_of laplacian_of].
  all: try (destruct A as (A1 & A2 & A3)); intros; try symmetry; auto.
Qed.
Lemma exact_densify b w p sh F v o : exact b w p sh F v -> (o < size sh)%nat ->
  gradient_and_laplacian (b_n b) w p (fun q => F q o) (primal (densify b sh v) o) (fun k => jac_of (densify b sh v) k o) (lapl_of (densify b sh v) o).
Proof. intros E O. specialize (E o O). destruct v; exact E. Qed.

(** ** Gathers *)
Theorem C91_gather : forall b sh g concrete fill x, wf_basis b -> gather_ok g sh -> (0 < size (g_shape g sh))%nat -> wf_value b sh x ->
  let y := handle_gather g concrete fill b sh x in
  wf_value b (g_shape g sh) y /\
  agree (b_n b) (size (g_shape g sh)) (densify b (g_shape g sh) y) (dense_gather g sh fill (densify b sh x)).
Proof.
  intros b sh g concrete fill x WB OK PO [P W]. cbv zeta. fold (good b (g_shape g sh) (handle_gather g concrete fill b sh x) (dense_gather g sh fill (densify b sh x))).
  unfold handle_gather. destruct x as [a|t|t]; try (apply good_dense; exact PO). destruct W as [S F].
  destruct (map_roles (gather_role g sh concrete) (owners t)) as [ow|] eqn:M; [|apply good_dense; exact PO]. apply map_roles_spec in M as [L M].
  assert (H : forall s, (s < slots t)%nat -> wf_role (b_N b) (g_shape g sh) (nth s ow role0) /\ forall o m, (o < size (g_shape g sh))%nat -> g_src g sh o = Some m -> owner_id (g_shape g sh) (nth s ow role0) o = owner_id sh (owner t s) m).
  { intros s Hs. eapply gather_follows; eauto. apply (owner_wf b); auto. }
  cbn [densify dense_gather]. apply good_sparse; cbn [sx owners sl lx jac lapl]; auto.
  - unfold slots in *. cbn [owners]. rewrite L. exact S.
  - apply Forall_slots. intros s Hs. apply H. unfold slots. lia.
  - intros k o K O. rewrite to_dense_spread. unfold slots at 1. cbn [owners blk]. rewrite L. fold (slots t). unfold spread.
    rewrite (sum_ext _ _ (fun s => ind (owner_id (g_shape g sh) (nth s ow role0) o) (own b k) * gather_arr g sh 0 (blk t s (crd b k)) o)).
    2:{ intros s Hs. f_equal. unfold gathered_blocks. apply blocks_follow; auto. apply coord_lt; auto. }
    unfold gather_arr. destruct (g_src g sh o) as [m|] eqn:E.
    + unfold to_dense. apply sum_ext. intros s Hs. destruct (H s Hs) as [_ H2]. rewrite (H2 o m O E). reflexivity.
    + apply sum_0. intros s Hs. ring.
Qed.

(** Exact derivatives in, exact derivatives out; a dropped window has the constant fill value. *)
Theorem C91_gather_exact : forall b sh g concrete fill x w p F, wf_basis b -> gather_ok g sh -> (0 < size (g_shape g sh))%nat -> wf_value b sh x ->
  exact b w p sh F x -> exact b w p (g_shape g sh) (fun q => gather_arr g sh fill (F q)) (handle_gather g concrete fill b sh x).
Proof.
  intros b sh g concrete fill x w p F WB OK PO W E. eapply exact_good; [apply (C91_gather b sh g concrete fill x WB OK PO W)|]. intros o O.
  destruct (g_src g sh o) as [m|] eqn:S.
  - pose proof (exact_densify b w p sh F x m E (g_src_lt g sh OK o m O S)) as G. destruct (densify b sh x); cbn [dense_gather primal jac_of lapl_of lx jac lapl] in *; unfold gather_arr; rewrite S; exact G.
  - destruct (densify b sh x); cbn [dense_gather primal jac_of lapl_of lx jac lapl] in *; unfold gather_arr; rewrite S; apply gl_const.
Qed.

(** With indices known at trace time, the result is dense only if no owner layout fits. *)
Theorem C91_gather_stays_sparse : forall b sh g fill t, gather_ok g sh -> (0 < size (g_shape g sh))%nat -> wf_value b sh (SSparse t) ->
  (forall r, In r (owners t) -> exists q, wf_role (b_N b) (g_shape g sh) q /\
     forall o m, (o < size (g_shape g sh))%nat -> g_src g sh o = Some m -> owner_id (g_shape g sh) q o = owner_id sh r m) ->
  is_sparse (handle_gather g true fill b sh (SSparse t)) = true.
Proof.
  intros b sh g fill t OK PO [P [S F]] H. cbn [handle_gather].
  assert (X : forall l, (forall r, In r l -> exists q, wf_role (b_N b) (g_shape g sh) q /\ forall o m, (o < size (g_shape g sh))%nat -> g_src g sh o = Some m -> owner_id (g_shape g sh) q o = owner_id sh r m) ->
     map_roles (gather_role g sh true) l <> None).
  { induction l as [|r l IH]; intros Hl; [discriminate|]. cbn [map_roles]. assert (R : gather_role g sh true r <> None).
    { destruct (Hl r (or_introl eq_refl)) as (q & WQ & Q). unfold gather_role. destruct (ax r); [|discriminate]. eapply factorize_complete; [exact PO|exact WQ|].
      intros o i O L. unfold gather_arr in L. destruct (g_src g sh o) as [m|] eqn:E; [|discriminate]. injection L as <-. apply Q; auto. }
    destruct (gather_role g sh true r); [|congruence]. destruct (map_roles (gather_role g sh true) l) eqn:M; [discriminate|]. exfalso. apply IH; [|reflexivity]. intros r' I. apply Hl. right. exact I. }
  specialize (X (owners t) H). destruct (map_roles (gather_role g sh true) (owners t)); [reflexivity|congruence].
Qed.

(** The gather of [x[..., idx, ...]] reads the listed positions of that axis. *)
Lemma replace_at_length l a v : length (replace_at l a v) = length l.
Proof. unfold replace_at. rewrite map_length, seq_length. reflexivity. Qed.
Lemma replace_at_nth l a v i : (i < length l)%nat -> nth i (replace_at l a v) 0%nat = if Nat.eqb i a then v else nth i l 0%nat.
Proof. intros I. unfold replace_at. rewrite nth_map_seq by exact I. reflexivity. Qed.
Lemma other_axes rank axis : (axis < rank)%nat ->
  length (filter (fun a => negb (Nat.eqb a axis)) (seq 0 rank)) = (rank - 1)%nat /\ filter (fun a => negb (Nat.eqb a axis)) (seq 0 rank) = kept [axis] rank.
Proof.
  intros A. assert (E : filter (fun a => negb (Nat.eqb a axis)) (seq 0 rank) = kept [axis] rank).
  { unfold kept. apply filter_ext. intros a. unfold mem. cbn [existsb]. rewrite orb_false_r. reflexivity. }
  split; [|exact E]. rewrite E, kept_length; [reflexivity|constructor; [intros []|constructor]|]. intros a [->|[]]. exact A.
Qed.
Lemma kept_other rank axis : (axis < rank)%nat -> kept (kept [axis] rank) rank = [axis].
Proof.
  intros A. unfold kept at 1. rewrite (filter_ext_in _ (fun a => Nat.eqb a axis)).
  - replace rank with (axis + S (rank - axis - 1))%nat by lia. rewrite seq_app, filter_app. cbn [seq filter plus]. rewrite Nat.eqb_refl.
    assert (Z : forall s n, (forall a, In a (seq s n) -> a <> axis) -> filter (fun a => Nat.eqb a axis) (seq s n) = []).
    { clear. intros s n. revert s. induction n as [|n IH]; intros s H; [reflexivity|]. cbn [seq filter]. replace (Nat.eqb s axis) with false by (symmetry; apply Nat.eqb_neq; apply H; left; reflexivity). apply IH. intros a I. apply H. right. exact I. }
    rewrite Z, Z; [reflexivity| |]; intros a I; apply in_seq in I; lia.
  - intros a I. apply in_seq in I. destruct (Nat.eqb_spec a axis) as [->|N].
    + apply negb_true_iff, mem_not. rewrite kept_In. cbn. tauto.
    + apply negb_false_iff, mem_In, kept_In. cbn. split; [lia|]. intros [E|[]]. congruence.
Qed.
Theorem C91_take : forall sh axis k idx mode, (axis < length sh)%nat -> (0 < size sh)%nat ->
  (forall i, (i < k)%nat -> (0 <= idx i < Z.of_nat (nth axis sh 0%nat))%Z) ->
  let g := take sh axis k idx mode in
  gather_ok g sh /\ g_shape g sh = replace_at sh axis k /\
  forall o, (o < size (g_shape g sh))%nat -> let oi := unravel (g_shape g sh) o in
    g_src g sh o = Some (ravel sh (replace_at oi axis (Z.to_nat (idx (nth axis oi 0%nat))))).
Proof.
  intros sh axis k idx mode A P IX g. destruct (other_axes (length sh) axis A) as [LF EF].
  assert (OR : out_rank g = length sh) by (unfold out_rank; cbn; rewrite LF; lia).
  assert (RT : retained g (length sh) = kept [axis] (length sh)) by reflexivity.
  assert (BA : batch_axes g = [axis]) by (unfold batch_axes; rewrite OR; cbn [g take g_dims offset_dims]; rewrite EF; apply kept_other; exact A).
  assert (OK : gather_ok g sh).
  { unfold gather_ok. cbn [g take g_dims offset_dims collapsed op_batch index_map idx_batch slices i_shape]. rewrite OR, RT, EF. split; [apply kept_NoDup|]. split; [intros a I; apply kept_In in I; apply I|]. split; [reflexivity|].
    split; [|split; [|split; [constructor|split; [intros a []|cbn; lia]]]].
    - intros a Ha. unfold at_. rewrite replace_at_nth by exact Ha. pose proof (size_pos_nth sh a P Ha). destruct (Nat.eqb a axis); lia.
    - intros a [[<-|[]]|[]]. unfold at_. rewrite replace_at_nth, Nat.eqb_refl by exact A. reflexivity. }
  assert (SHP : g_shape g sh = replace_at sh axis k).
  { apply (nth_ext _ _ 0%nat 0%nat); [rewrite out_length, OR, replace_at_length; reflexivity|]. rewrite out_length, OR. intros a Ha. rewrite replace_at_nth by exact Ha.
    unfold g_shape. rewrite OR, nth_map_seq by exact Ha. cbn [g take g_dims offset_dims slices]. rewrite EF, RT, BA. cbn [i_shape g take].
    destruct (Nat.eqb_spec a axis) as [->|N].
    - replace (mem axis (kept [axis] (length sh))) with false by (symmetry; apply mem_not; rewrite kept_In; cbn; tauto). cbn [index_of]. rewrite Nat.eqb_refl. reflexivity.
    - assert (I : In a (kept [axis] (length sh))) by (apply kept_In; cbn; split; [exact Ha|]; intros [E|[]]; congruence). pose proof I as I'. apply mem_In in I'. rewrite I'. destruct (index_of_spec _ _ I) as [I1 I2]. unfold at_ at 2. rewrite I2.
      unfold at_. rewrite replace_at_nth by exact Ha. destruct (Nat.eqb_spec a axis); [congruence|reflexivity]. }
  split; [exact OK|]. split; [exact SHP|]. intros o O oi. pose proof (unravel_inside _ _ O) as [LO IN]. fold oi in LO, IN. rewrite out_length, OR in LO.
  assert (IK : (nth axis oi 0 < k)%nat).
  { specialize (IN axis ltac:(rewrite out_length, OR; exact A)). rewrite SHP, replace_at_nth, Nat.eqb_refl in IN by exact A. exact IN. }
  assert (AT : index_at g oi 0 = idx (nth axis oi 0%nat)).
  { unfold index_at. rewrite BA. cbn [g take indices i_shape map app ravel size fold_right]. unfold at_. f_equal. lia. }
  specialize (IX _ IK). assert (RM : room g sh axis = (Z.of_nat (nth axis sh 0%nat) - 1)%Z) by (unfold room; cbn [g take slices]; unfold at_; rewrite replace_at_nth, Nat.eqb_refl by exact A; reflexivity).
  assert (BD : in_bounds g sh oi = true).
  { unfold in_bounds. cbn [g take g_dims index_map forallb index_of]. rewrite Nat.eqb_refl. change (take sh axis k idx mode) with g. rewrite AT, RM. apply andb_true_iff. split; [|reflexivity]. apply andb_true_iff. split; apply Z.leb_le; lia. }
  unfold g_src. cbv zeta. fold oi. rewrite BD. cbn [negb]. assert (M : match g_mode g with FillOrDrop => false | _ => false end = false) by (destruct (g_mode g); reflexivity). rewrite M. do 2 f_equal.
  apply (nth_ext _ _ 0%nat 0%nat); [rewrite map_length, seq_length, replace_at_length; congruence|]. rewrite map_length, seq_length. intros d D. rewrite nth_map_seq, replace_at_nth by (congruence || exact D).
  unfold window_start, window_offset. rewrite RT. cbn [g take g_dims index_map op_batch offset_dims]. rewrite EF. destruct (Nat.eqb_spec d axis) as [->|N].
  - replace (mem axis (kept [axis] (length sh))) with false by (symmetry; apply mem_not; rewrite kept_In; cbn; tauto).
    replace (mem axis [axis]) with true by (symmetry; apply mem_In; left; reflexivity). cbn [index_of]. rewrite Nat.eqb_refl. change (take sh axis k idx mode) with g. rewrite AT, RM. rewrite Z.min_l, Z.max_r by lia. lia.
  - replace (mem d [axis]) with false by (symmetry; apply mem_not; cbn; intros [E|[]]; congruence). cbn [mem existsb].
    assert (I : In d (kept [axis] (length sh))) by (apply kept_In; cbn; split; [exact D|]; intros [E|[]]; congruence). pose proof I as I'. apply mem_In in I'. fold (mem d (kept [axis] (length sh))). rewrite I'. destruct (index_of_spec _ _ I) as [I1 I2].
    unfold at_ at 2. rewrite I2. reflexivity.
Qed.
