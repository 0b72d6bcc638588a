(** Lemmas for C39: owner roles under dot_general and concatenate. *)
From Coq Require Import Reals List Arith Bool Lra Lia.
From Verif Require Import Lin Shape Lap_Spec Lap_Lang Lap_Model Sparse_Model Sparse_Spec Sparse_Lemmas Sparse_Layout.
Import ListNotations.
Open Scope nat_scope.

(** ** dot_general: one operand *)
Definition out_axis (batch frees : list nat) (offset a : nat) : nat := if mem a batch then index_of a batch else offset + index_of a frees.
Definition dot_elem (batch contract frees : list nat) (offset : nat) (sh idx kappa : list nat) : nat :=
  ravel sh (map (dot_coord batch contract frees offset idx kappa) (seq 0 (length sh))).
Section side.
  Variables (batch contract sh out : list nat) (offset : nat).
  Let frees := free batch contract (length sh).
  Hypothesis AX : axes_ok batch contract sh.
  Hypothesis POS : 0 < size sh.
  Hypothesis OUT : forall a, a < length sh -> ~ In a contract -> out_axis batch frees offset a < length out /\ nth (out_axis batch frees offset a) out 0 = nth a sh 0.
  Lemma dot_inside o kappa : o < size out -> (forall a, In a contract -> nth (index_of a contract) kappa 0 < nth a sh 0) ->
    inside sh (map (dot_coord batch contract frees offset (unravel out o) kappa) (seq 0 (length sh))).
  Proof.
    intros O K. split; [rewrite map_length, seq_length; reflexivity|]. intros a A. rewrite nth_map_seq by exact A. unfold dot_coord. destruct (mem a contract) eqn:M; [apply K, mem_In, M|].
    apply mem_not in M. destruct (OUT a A M) as [U V]. pose proof (proj2 (unravel_inside out o O) _ U) as W. rewrite V in W. unfold out_axis in W. unfold at_. destruct (mem a batch); exact W.
  Qed.
  Lemma dot_follows N r q : wf_role N sh r -> dot_role batch contract frees offset (length sh) r = Some q ->
    wf_role N out q /\ forall o kappa, o < size out -> (forall a, In a contract -> nth (index_of a contract) kappa 0 < nth a sh 0) ->
      owner_id out q o = owner_id sh r (dot_elem batch contract frees offset sh (unravel out o) kappa).
  Proof.
    intros W E. unfold dot_role in E. destruct (reduce_role contract r) as [q0|] eqn:R; [|discriminate].
    assert (NDc : NoDup contract) by (destruct AX as [ND _]; clear -ND; induction batch; [exact ND|inversion ND; auto]).
    unfold reduce_role in R. destruct (ax r) as [a|] eqn:AR.
    2:{ injection R as <-. rewrite AR in E. injection E as <-. split; [|intros; unfold owner_id; rewrite AR; reflexivity]. destruct W as [W F]. rewrite AR in W. split; [rewrite AR; exact W|exact F]. }
    destruct (wf_some _ _ _ _ W AR) as (A & L & L1). destruct W as [_ F]. pose proof (size_pos_nth sh a POS A) as Pa. destruct (mem a contract) eqn:M.
    - destruct (all_equal (vals r)) eqn:Q; [|discriminate]. injection R as <-. destruct (vals r) as [|v0 v] eqn:V; [cbn in L; lia|]. cbn in E. injection E as <-. split.
      + split; [reflexivity|]. constructor; [inversion F; assumption|constructor].
      + intros o kappa O K. unfold owner_id at 2. rewrite AR, V. rewrite (all_equal_nth (v0 :: v)); [reflexivity|exact Q|]. rewrite L.
        assert (X : dot_elem batch contract frees offset sh (unravel out o) kappa < size sh) by (apply ravel_lt, dot_inside; auto). apply (unravel_inside sh _ X). exact A.
    - injection R as <-. destruct (kept_pos contract (length sh) a NDc A M) as [C D].
      assert (X : ax (mk_role (Some (a - count_below a contract)) (vals r)) = Some (a - count_below a contract)) by (unfold mk_role; destruct (Nat.eqb_spec (length (vals r)) 1); [congruence|reflexivity]).
      rewrite X in E. replace (a - count_below a contract <? length (kept contract (length sh))) with true in E by (symmetry; apply Nat.ltb_lt; exact C). rewrite D in E.
      replace (vals (mk_role (Some (a - count_below a contract)) (vals r))) with (vals r) in E by reflexivity. fold (out_axis batch frees offset a) in E. injection E as <-.
      apply mem_not in M. destruct (OUT a A M) as [U V]. split; [apply mk_role_wf; auto; congruence|]. intros o kappa O K. rewrite mk_role_id by (auto; congruence).
      unfold owner_id. rewrite AR. unfold dot_elem. rewrite unravel_ravel by (apply dot_inside; auto). rewrite nth_map_seq by exact A. unfold dot_coord.
      destruct (mem a contract) eqn:M'; [exfalso; apply M, mem_In, M'|]. unfold out_axis. destruct (mem a batch); reflexivity.
  Qed.
End side.

Lemma dot_pairs_spec lc rc lb rb shl shr o ml mr : In (ml, mr) (dot_pairs lc rc lb rb shl shr o) ->
  exists kappa, inside (map (at_ shl) lc) kappa /\
    ml = dot_elem lb lc (free lb lc (length shl)) (length lb) shl (unravel (dot_shape lc rc lb rb shl shr) o) kappa /\
    mr = dot_elem rb rc (free rb rc (length shr)) (length lb + length (free lb lc (length shl))) shr (unravel (dot_shape lc rc lb rb shl shr) o) kappa.
Proof.
  intros I. unfold dot_pairs in I. apply in_map_iff in I as (q & E & Q). apply in_seq in Q. injection E as <- <-. exists (unravel (map (at_ shl) lc) q).
  split; [apply unravel_inside; lia|]. split; reflexivity.
Qed.
Section dot.
  Variables lc rc lb rb shl shr : list nat.
  Hypothesis OK : dot_ok lc rc lb rb shl shr.
  Let out := dot_shape lc rc lb rb shl shr.
  Let lf := free lb lc (length shl).
  Let rf := free rb rc (length shr).
  Lemma left_axes a : a < length shl -> ~ In a lc -> out_axis lb lf (length lb) a < length out /\ nth (out_axis lb lf (length lb) a) out 0 = nth a shl 0.
  Proof.
    intros A M. unfold out, dot_shape, out_axis. rewrite !app_length, !map_length. fold lf. destruct (mem a lb) eqn:B.
    - apply mem_In, index_of_spec in B as [B1 B2]. split; [lia|]. rewrite app_nth1 by (rewrite map_length; exact B1). rewrite nth_map, B2 by exact B1. reflexivity.
    - assert (I : In a lf) by (unfold lf, free; apply kept_In; split; [exact A|]; rewrite in_app_iff; apply mem_not in B; tauto). apply index_of_spec in I as [I1 I2].
      split; [lia|]. rewrite app_nth2; rewrite map_length; [|lia]. replace (length lb + index_of a lf - length lb) with (index_of a lf) by lia.
      rewrite app_nth1 by (rewrite map_length; exact I1). rewrite nth_map, I2 by exact I1. reflexivity.
  Qed.
  Lemma right_axes a : a < length shr -> ~ In a rc -> out_axis rb rf (length lb + length lf) a < length out /\ nth (out_axis rb rf (length lb + length lf) a) out 0 = nth a shr 0.
  Proof.
    destruct OK as (_ & _ & _ & EB). intros A M. unfold out, dot_shape, out_axis. rewrite !app_length, !map_length. fold lf rf. destruct (mem a rb) eqn:B.
    - apply mem_In, index_of_spec in B as [B1 B2]. assert (L : length lb = length rb) by (apply (f_equal (@length nat)) in EB; rewrite !map_length in EB; exact EB).
      split; [lia|]. rewrite EB. rewrite app_nth1 by (rewrite map_length; exact B1). rewrite nth_map, B2 by exact B1. reflexivity.
    - assert (I : In a rf) by (unfold rf, free; apply kept_In; split; [exact A|]; rewrite in_app_iff; apply mem_not in B; tauto). apply index_of_spec in I as [I1 I2].
      split; [lia|]. rewrite app_assoc, app_nth2; rewrite app_length, !map_length; fold lf; [|lia]. replace (length lb + length lf + index_of a rf - (length lb + length lf)) with (index_of a rf) by lia.
      rewrite nth_map, I2 by exact I1. reflexivity.
  Qed.
  Lemma kappa_left kappa : inside (map (at_ shl) lc) kappa -> forall a, In a lc -> nth (index_of a lc) kappa 0 < nth a shl 0.
  Proof. intros [L K] a I. apply index_of_spec in I as [I1 I2]. rewrite map_length in K. specialize (K _ I1). rewrite nth_map, I2 in K by exact I1. exact K. Qed.
  Lemma kappa_right kappa : inside (map (at_ shl) lc) kappa -> forall a, In a rc -> nth (index_of a rc) kappa 0 < nth a shr 0.
  Proof.
    destruct OK as (_ & _ & EC & _). rewrite EC. intros [L K] a I. apply index_of_spec in I as [I1 I2]. rewrite map_length in K. specialize (K _ I1). rewrite nth_map, I2 in K by exact I1. exact K.
  Qed.
  Lemma dot_pairs_lt o ml mr : 0 < size shl -> 0 < size shr -> o < size out -> In (ml, mr) (dot_pairs lc rc lb rb shl shr o) -> ml < size shl /\ mr < size shr.
  Proof.
    intros PL PR O I. apply dot_pairs_spec in I as (kappa & K & -> & ->). split; apply ravel_lt.
    - apply dot_inside; auto; [exact left_axes|]. apply kappa_left. exact K.
    - apply dot_inside; auto; [exact right_axes|]. apply kappa_right. exact K.
  Qed.
  Lemma left_follows N r q : 0 < size shl -> wf_role N shl r -> dot_role lb lc lf (length lb) (length shl) r = Some q ->
    wf_role N out q /\ forall o ml mr, o < size out -> In (ml, mr) (dot_pairs lc rc lb rb shl shr o) -> owner_id out q o = owner_id shl r ml.
  Proof.
    intros P W E. destruct OK as (A1 & A2 & _). destruct (dot_follows lb lc shl out (length lb) A1 P left_axes N r q W E) as [W' H]. split; [exact W'|].
    intros o ml mr O I. apply dot_pairs_spec in I as (kappa & K & -> & _). apply H; [exact O|]. apply kappa_left. exact K.
  Qed.
  Lemma right_follows N r q : 0 < size shr -> wf_role N shr r -> dot_role rb rc rf (length lb + length lf) (length shr) r = Some q ->
    wf_role N out q /\ forall o ml mr, o < size out -> In (ml, mr) (dot_pairs lc rc lb rb shl shr o) -> owner_id out q o = owner_id shr r mr.
  Proof.
    intros P W E. destruct OK as (A1 & A2 & _). destruct (dot_follows rb rc shr out (length lb + length lf) A2 P right_axes N r q W E) as [W' H]. split; [exact W'|].
    intros o ml mr O I. apply dot_pairs_spec in I as (kappa & K & _ & ->). apply H; [exact O|]. apply kappa_right. exact K.
  Qed.
End dot.
Lemma size_pos_all l : (forall x, In x l -> 0 < x) -> 0 < size l.
Proof.
  induction l as [|x l IH]; intros H; [cbn; lia|]. change (0 < x * size l). apply Nat.mul_pos_pos; [apply H; left; reflexivity|]. apply IH. intros y I. apply H. right. exact I.
Qed.
Lemma in_size_pos l x : 0 < size l -> In x l -> 0 < x.
Proof. intros P I. apply In_nth with (d := 0) in I as (a & A & <-). apply size_pos_nth; auto. Qed.
Lemma dot_shape_pos lc rc lb rb shl shr : dot_ok lc rc lb rb shl shr -> 0 < size shl -> 0 < size shr -> 0 < size (dot_shape lc rc lb rb shl shr).
Proof.
  intros ((_ & A) & (_ & B) & _) PL PR. apply size_pos_all. intros x I. unfold dot_shape in I. rewrite !in_app_iff, !in_map_iff in I.
  destruct I as [(a & <- & I)|[(a & <- & I)|(a & <- & I)]]; apply size_pos_nth; auto.
  - apply A. apply in_app_iff. auto.
  - unfold free in I. apply kept_In in I. apply I.
  - unfold free in I. apply kept_In in I. apply I.
Qed.
Lemma out_shape_pos l sh : layout_ok l sh -> 0 < size sh -> 0 < size (out_shape l sh).
Proof.
  intros K P. destruct l as [perm|dims|dims|start stop stride|shape dims|new]; cbn [out_shape layout_ok] in *.
  - apply size_pos_all. intros x I. apply in_map_iff in I as (a & <- & I). apply size_pos_nth; auto. apply K. exact I.
  - apply size_pos_all. intros x I. apply in_map_iff in I as (a & <- & I). apply kept_In in I. apply size_pos_nth; tauto.
  - exact P.
  - apply size_pos_all. intros x I. apply in_map_iff in I as (a & <- & I). apply in_seq in I. destruct K as (_ & _ & _ & K). destruct (K a) as (K1 & K2 & K3); [lia|]. unfold at_. apply cdiv_pos; lia.
  - apply K.
  - lia.
Qed.

Lemma nth_repeat_lt (a : nat) m : forall n, n < m -> nth n (repeat a m) 0 = a.
Proof. induction m as [|m IH]; intros n H; [lia|]. destruct n as [|n]; [reflexivity|]. cbn. apply IH. lia. Qed.
(** ** concatenate *)
Definition total_ (l : list nat) : nat := fold_right Nat.add 0 l.
Lemma locate_spec sizes : forall i, i < total_ sizes -> let (j, k) := locate sizes i in j < length sizes /\ k < nth j sizes 0.
Proof.
  induction sizes as [|d sizes IH]; intros i I; cbn in I; [lia|]. fold (total_ sizes) in I. cbn [locate]. destruct (Nat.ltb_spec i d) as [H|H]; [cbn; lia|].
  specialize (IH (i - d) ltac:(lia)). destruct (locate sizes (i - d)) as [j k]. cbn. lia.
Qed.
Lemma locate_concat (ls : list (list nat)) : forall i, i < total_ (map (@length nat) ls) ->
  let (j, k) := locate (map (@length nat) ls) i in nth i (List.concat ls) 0 = nth k (nth j ls []) 0.
Proof.
  induction ls as [|l ls IH]; intros i I; cbn in I; [lia|]. fold (total_ (map (@length nat) ls)) in I. cbn [map locate List.concat]. destruct (Nat.ltb_spec i (length l)) as [H|H].
  - cbn. apply app_nth1. exact H.
  - specialize (IH (i - length l) ltac:(lia)). destruct (locate (map (@length nat) ls) (i - length l)) as [j k]. cbn [nth]. rewrite app_nth2 by exact H. exact IH.
Qed.
Lemma length_concat (ls : list (list nat)) : length (List.concat ls) = total_ (map (@length nat) ls).
Proof. induction ls as [|l ls IH]; cbn; [reflexivity|]. rewrite app_length, IH. reflexivity. Qed.

Section cat.
  Variables (axis : nat) (shs : list (list nat)).
  Hypothesis OK : concat_ok axis shs.
  Hypothesis POS : forall sh, In sh shs -> 0 < size sh.
  Let out := cat_shape axis shs.
  Let sizes := map (fun sh => at_ sh axis) shs.
  Let sh0 := nth 0 shs [].
  Lemma cat_rank sh : In sh shs -> length sh = length out.
  Proof. intros I. unfold out, cat_shape. rewrite map_length, seq_length. apply OK. exact I. Qed.
  Lemma sh0_in : In sh0 shs.
  Proof. destruct OK as [N _]. unfold sh0. destruct shs; [congruence|left; reflexivity]. Qed.
  Lemma cat_axis : axis < length out.
  Proof. rewrite <- (cat_rank sh0 sh0_in). apply (proj2 OK sh0 sh0_in). Qed.
  Lemma out_axis_total : nth axis out 0 = total_ sizes.
  Proof. pose proof cat_axis as A. unfold out, cat_shape in *. rewrite map_length, seq_length in A. rewrite nth_map_seq, Nat.eqb_refl by exact A. reflexivity. Qed.
  Lemma out_off_axis sh a : In sh shs -> a < length out -> a <> axis -> nth a out 0 = nth a sh 0.
  Proof.
    intros I A N. pose proof (cat_rank sh I) as R. rewrite (proj2 (proj2 (proj2 OK sh I)) a) by (auto; lia). unfold out, cat_shape in *. rewrite map_length, seq_length in A. rewrite nth_map_seq by exact A.
    destruct (Nat.eqb_spec a axis); [congruence|reflexivity].
  Qed.
  Lemma cat_pos : 0 < size out.
  Proof.
    apply size_pos_all. intros x I. apply In_nth with (d := 0) in I as (a & A & <-). destruct (Nat.eq_dec a axis) as [->|N].
    - rewrite out_axis_total. unfold sizes. pose proof sh0_in as S0. pose proof (size_pos_nth sh0 axis (POS sh0 S0)) as S1. rewrite (cat_rank sh0 S0) in S1. specialize (S1 cat_axis). unfold sh0 in *.
      destruct shs as [|s l]; [destruct S0|]. cbn in *. unfold at_ in *. lia.
    - rewrite (out_off_axis sh0 a sh0_in A N). apply size_pos_nth; [apply POS, sh0_in|]. rewrite (cat_rank sh0 sh0_in). exact A.
  Qed.
  (** where output element [o] comes from *)
  Lemma cat_src_spec o : o < size out -> let (j, m) := cat_src axis shs o in
    j < length shs /\ m < size (nth j shs []) /\ let (j', k) := locate sizes (nth axis (unravel out o) 0) in
    j' = j /\ nth axis (unravel (nth j shs []) m) 0 = k /\ forall a, a < length out -> a <> axis -> nth a (unravel (nth j shs []) m) 0 = nth a (unravel out o) 0.
  Proof.
    intros O. unfold cat_src. fold out. fold sizes. pose proof (unravel_inside out o O) as [LI I]. pose proof (I axis cat_axis) as IA. rewrite out_axis_total in IA. pose proof (locate_spec sizes _ IA) as LS.
    unfold at_ at 1. destruct (locate sizes (nth axis (unravel out o) 0)) as [j k]. destruct LS as [J K]. unfold sizes in J, K. rewrite map_length in J.
    rewrite (nth_indep _ 0 (at_ [] axis)) in K by (rewrite map_length; exact J). rewrite (map_nth (fun sh => at_ sh axis)) in K. set (sh := nth j shs []) in *. assert (IN : In sh shs) by (apply nth_In; exact J).
    set (c := map _ _). assert (LC : length c = length sh) by (unfold c; rewrite map_length, seq_length, length_unravel; symmetry; apply cat_rank; exact IN).
    assert (C : forall a, a < length sh -> nth a c 0 = if a =? axis then k else nth a (unravel out o) 0).
    { intros a A. unfold c. rewrite nth_map_seq; [reflexivity|]. rewrite length_unravel, <- (cat_rank sh IN). exact A. }
    assert (IC : inside sh c).
    { split; [exact LC|]. intros a A. rewrite C by exact A. destruct (Nat.eqb_spec a axis) as [->|N]; [exact K|]. rewrite <- (out_off_axis sh a IN); [|rewrite <- (cat_rank sh IN); exact A|exact N].
      apply I. rewrite <- (cat_rank sh IN). exact A. }
    split; [exact J|]. split; [apply ravel_lt; exact IC|]. split; [reflexivity|]. rewrite unravel_ravel by exact IC. split.
    - rewrite C by (rewrite (cat_rank sh IN); exact cat_axis). rewrite Nat.eqb_refl. reflexivity.
    - intros a A N. rewrite C by (rewrite (cat_rank sh IN); exact A). destruct (Nat.eqb_spec a axis); [congruence|reflexivity].
  Qed.
  Lemma concat_follows N rs q : length rs = length shs -> (forall j, j < length shs -> wf_role N (nth j shs []) (nth j rs role0)) -> concat_role axis sizes rs = Some q ->
    wf_role N out q /\ forall o, o < size out -> let (j, m) := cat_src axis shs o in owner_id out q o = owner_id (nth j shs []) (nth j rs role0) m.
  Proof.
    intros L W E. assert (NE : 0 < length shs) by (destruct OK as [X _]; destruct shs; [congruence|cbn; lia]).
    assert (IN0 : forall j, j < length shs -> In (nth j shs []) shs) by (intros; apply nth_In; assumption).
    assert (EQ : forall j, forallb (role_eqb (nth 0 rs role0)) rs = true -> j < length shs -> nth j rs role0 = nth 0 rs role0).
    { intros j F J. rewrite forallb_forall in F. symmetry. apply role_eqb_eq. apply F. apply nth_In. lia. }
    unfold concat_role in E. set (r0 := nth 0 rs role0) in *.
    destruct (forallb (fun r => match ax r with None => true | Some _ => false end) rs && forallb (role_eqb r0) rs)%bool eqn:B1.
    - injection E as <-. apply andb_true_iff in B1 as [B1 B2]. assert (X : ax r0 = None).
      { rewrite forallb_forall in B1. specialize (B1 r0). assert (In r0 rs) by (apply nth_In; lia). specialize (B1 H). destruct (ax r0); [discriminate|reflexivity]. }
      split.
      + destruct (W 0 NE) as [W1 W2]. fold r0 in W1, W2. rewrite X in W1. split; [rewrite X; exact W1|exact W2].
      + intros o O. pose proof (cat_src_spec o O) as S. destruct (cat_src axis shs o) as [j m]. destruct S as (J & _). rewrite (EQ j B2 J). unfold owner_id. rewrite X. reflexivity.
    - destruct (forallb (fun r => (match ax r with None => true | Some _ => false end) || (match ax r with Some a => a =? axis | None => false end))%bool rs) eqn:B2.
      + injection E as <-. set (f := fun q : role * nat => if match ax (fst q) with Some a => a =? axis | None => false end then vals (fst q) else repeat (nth 0 (vals (fst q)) 0) (snd q)).
        set (ls := map f (combine rs sizes)).
        assert (LL : length ls = length shs) by (unfold ls, sizes; rewrite map_length, combine_length, map_length; lia).
        assert (NL : forall j, j < length shs -> nth j ls [] = f (nth j rs role0, at_ (nth j shs []) axis)).
        { intros j J. unfold ls. rewrite (nth_indep _ [] (f (role0, at_ [] axis))) by (rewrite map_length, combine_length; unfold sizes; rewrite map_length; lia).
          rewrite map_nth. f_equal. rewrite combine_nth by (unfold sizes; rewrite map_length; exact L). f_equal. unfold sizes. apply (map_nth (fun sh => at_ sh axis)). }
        assert (RA : forall j, j < length shs -> ax (nth j rs role0) = None \/ ax (nth j rs role0) = Some axis).
        { intros j J. rewrite forallb_forall in B2. specialize (B2 (nth j rs role0)). assert (In (nth j rs role0) rs) as I by (apply nth_In; lia). specialize (B2 I).
          destruct (ax (nth j rs role0)) as [a|]; [|left; reflexivity]. cbn in B2. apply Nat.eqb_eq in B2. subst. right. reflexivity. }
        assert (LEN : forall j, j < length shs -> length (nth j ls []) = at_ (nth j shs []) axis).
        { intros j J. rewrite NL by exact J. unfold f. cbn [fst snd]. destruct (RA j J) as [X|X]; rewrite X; [apply repeat_length|]. rewrite Nat.eqb_refl. apply (wf_some _ _ _ _ (W j J) X). }
        assert (MS : map (@length nat) ls = sizes).
        { apply (nth_ext _ _ 0 0); [unfold sizes; rewrite !map_length; exact LL|]. intros j J. rewrite map_length, LL in J. unfold sizes.
          rewrite (nth_indep _ 0 (length (@nil nat))) by (rewrite map_length; lia). rewrite map_nth, LEN by exact J.
          rewrite (nth_indep _ 0 (at_ [] axis)) by (rewrite map_length; lia). rewrite (map_nth (fun sh => at_ sh axis)). reflexivity. }
        assert (LC : length (List.concat ls) = nth axis out 0) by (rewrite length_concat, MS, out_axis_total; reflexivity).
        assert (FC : Forall (fun p => p < N) (List.concat ls)).
        { apply Forall_forall. intros p I. apply in_concat in I as (l & I & P). apply In_nth with (d := []) in I as (j & J & <-). rewrite LL in J. rewrite NL in P by exact J. destruct (W j J) as [W1 W2]. rewrite Forall_forall in W2.
          unfold f in P. cbn [fst snd] in P. destruct (RA j J) as [X|X]; rewrite X in P, W1.
          - apply repeat_spec in P. subst p. apply W2. apply nth_In. lia.
          - rewrite Nat.eqb_refl in P. apply W2. exact P. }
        split; [apply mk_role_wf; auto; exact cat_axis|]. intros o O. pose proof (cat_src_spec o O) as S. destruct (cat_src axis shs o) as [j m]. destruct S as (J & M & S).
        rewrite mk_role_id by (auto; exact cat_axis). set (i := nth axis (unravel out o) 0) in *. pose proof (proj2 (unravel_inside out o O) axis cat_axis) as IA. fold i in IA. rewrite out_axis_total, <- MS in IA.
        pose proof (locate_concat ls i IA) as LCs. rewrite MS in LCs. rewrite MS in IA. destruct (locate sizes i) as [j' k]. destruct S as (-> & S1 & S2).
        match goal with |- nth i ?v 0 = _ => change v with (List.concat ls) end. rewrite LCs. rewrite NL by exact J. unfold f, owner_id. cbn [fst snd]. destruct (RA j J) as [X|X]; rewrite X.
        * apply nth_repeat_lt. pose proof (LEN j J) as LJ. rewrite <- S1. apply (unravel_inside _ m M). rewrite (cat_rank _ (IN0 j J)). exact cat_axis.
        * rewrite Nat.eqb_refl, S1. reflexivity.
      + destruct (forallb (fun r => negb (match ax r with Some a => a =? axis | None => false end)) rs) eqn:B3; [|discriminate]. destruct (forallb (role_eqb r0) rs) eqn:B4; [|discriminate]. injection E as <-.
        assert (X : ax r0 <> Some axis).
        { rewrite forallb_forall in B3. specialize (B3 r0). assert (In r0 rs) as I by (apply nth_In; lia). specialize (B3 I). intros Q. rewrite Q, Nat.eqb_refl in B3. discriminate. }
        pose proof (W 0 NE) as W0. fold r0 in W0. destruct (ax r0) as [a|] eqn:AR.
        * destruct (wf_some _ _ _ _ W0 AR) as (A & LA & L1). assert (AN : a <> axis) by congruence. assert (AO : a < length out) by (rewrite <- (cat_rank _ sh0_in); exact A). split.
          -- destruct W0 as [_ F]. split; [|exact F]. rewrite AR. split; [exact AO|]. split; [|exact L1]. rewrite LA. symmetry. apply out_off_axis; auto using sh0_in.
          -- intros o O. pose proof (cat_src_spec o O) as S. destruct (cat_src axis shs o) as [j m]. destruct S as (J & M & S). destruct (locate sizes _) as [j' k]. destruct S as (-> & _ & S2).
             rewrite (EQ j eq_refl J). unfold owner_id. rewrite AR, S2 by auto. reflexivity.
        * split; [destruct W0 as [W1 F]; rewrite AR in W1; split; [rewrite AR; exact W1|exact F]|]. intros o O. pose proof (cat_src_spec o O) as S. destruct (cat_src axis shs o) as [j m]. destruct S as (J & _).
          rewrite (EQ j eq_refl J). unfold owner_id. rewrite AR. reflexivity.
  Qed.
End cat.
