(** C39: sparse propagation, expanded to dense, is dense propagation. *)
From Coq Require Import Reals List Arith Bool Lra Lia.
From Verif Require Import Lin Shape Lap_Spec Lap_Lang Lap_Model Sparse_Model Sparse_Spec Sparse_Lemmas Sparse_Layout Sparse_Dot Sparse_Rules.
Import ListNotations.
Open Scope R_scope.
Local Notation "a =? b" := (Nat.eqb a b).

(** ** Selection *)
Lemma select_dense b sh t u wl wr k o x l : owners u = owners t ->
  to_dense b sh {| sx := x; owners := owners t; blk := fun s c o => wl o * blk t s c o + wr o * blk u s c o; sl := l |} k o = wl o * to_dense b sh t k o + wr o * to_dense b sh u k o.
Proof.
  intros E. unfold to_dense. cbn [slots owners owner blk]. unfold slots, owner. cbn [owners]. rewrite E. rewrite <- !sum_scal_l, <- sum_plus. apply sum_ext. intros. ring.
Qed.
Definition is_best (better : R -> R -> bool) (best : R -> R -> R) : Prop :=
  forall a c, (better a c = true -> best a c = a) /\ (better a c = false -> best a c = c /\ a <> c).
Lemma max_best : is_best geb Rmax.
Proof. intros a c. unfold geb, Rmax. destruct (Rle_dec c a), (Rle_dec a c); split; intros; try discriminate; try split; try reflexivity; lra. Qed.
Lemma min_best : is_best leb Rmin.
Proof. intros a c. unfold leb, Rmin. destruct (Rle_dec a c); split; intros; try discriminate; try split; try reflexivity; lra. Qed.
Definition rule_best (n : nat) (best : R -> R -> R) (x y : value) : value :=
  match x, y with
  | Plain a, Plain c => Plain (fun o => best (a o) (c o))
  | _, _ =>
      let w := fun o => best (primal x o) (primal y o) in
      Tracked {| lx := w; jac := fun k o => weight (w o) (primal x o) (primal y o) * jac_of x k o + weight (w o) (primal y o) (primal x o) * jac_of y k o;
                 lapl := fun o => weight (w o) (primal x o) (primal y o) * lapl_of x o + weight (w o) (primal y o) (primal x o) * lapl_of y o |}
  end.
Lemma weights better best a c : is_best better best -> a <> c ->
  weight (best a c) a c = (if better a c then 1 else 0) /\ weight (best a c) c a = (if better a c then 0 else 1).
Proof.
  intros B N. destruct (B a c) as [B1 B2]. unfold weight. destruct (better a c).
  - rewrite B1 by reflexivity. destruct (Req_EM_T a a); [|congruence]. destruct (Req_EM_T c a); [congruence|]. auto.
  - destruct B2 as [-> _]; [reflexivity|]. destruct (Req_EM_T a c); [congruence|]. destruct (Req_EM_T c c); [|congruence]. auto.
Qed.
Lemma best_good b sh better best x y dense : is_best better best -> (forall a c, best a c = best c a) -> wf_value b sh x -> wf_value b sh y ->
  (tracked x <> tracked y -> forall o, (o < size sh)%nat -> plain_of x o <> plain_of y o) ->
  good b sh dense (rule_best (b_n b) best (densify b sh x) (densify b sh y)) ->
  good b sh (pointwise_select b x y better best dense) (rule_best (b_n b) best (densify b sh x) (densify b sh y)).
Proof.
  intros B C [P WX] [_ WY] T D. destruct x as [p|tx|l], y as [q|ty|r]; cbn [pointwise_select]; try exact D; cbn [tracked plain_of] in T.
  - destruct WY as [SR FR]. assert (T' : forall o, (o < size sh)%nat -> p o <> sx r o) by (apply T; discriminate). cbn [densify rule_best primal jac_of lapl_of].
    assert (W : forall o, (o < size sh)%nat -> weight (best (p o) (sx r o)) (sx r o) (p o) = (if better (sx r o) (p o) then 1 else 0)).
    { intros o O. rewrite C. apply weights; auto. intros E. apply (T' o O). auto. }
    apply good_sparse; cbn [sx owners sl lx jac lapl]; auto.
    + intros k o K O. rewrite (dense_scale b sh r (fun o => if better (sx r o) (p o) then 1 else 0)), W by exact O. ring.
    + intros o O. rewrite W by exact O. destruct (better (sx r o) (p o)); ring.
  - destruct WX as [SL FL]. assert (T' : forall o, (o < size sh)%nat -> sx l o <> q o) by (apply T; discriminate). cbn [densify rule_best primal jac_of lapl_of].
    assert (W : forall o, (o < size sh)%nat -> weight (best (sx l o) (q o)) (sx l o) (q o) = (if better (sx l o) (q o) then 1 else 0)) by (intros o O; apply weights; auto).
    apply good_sparse; cbn [sx owners sl lx jac lapl]; auto.
    + intros k o K O. rewrite (dense_scale b sh l (fun o => if better (sx l o) (q o) then 1 else 0)), W by exact O. ring.
    + intros o O. rewrite W by exact O. destruct (better (sx l o) (q o)); ring.
  - destruct (roles_eqb (owners l) (owners r)) eqn:RE; [|exact D]. apply roles_eqb_eq in RE. destruct WX as [SL FL]. cbn [densify rule_best primal jac_of lapl_of].
    assert (W : forall o, (if Req_EM_T (sx l o) (sx r o) then / 2 else if better (sx l o) (sx r o) then 1 else 0) = weight (best (sx l o) (sx r o)) (sx l o) (sx r o) /\
                          (if Req_EM_T (sx l o) (sx r o) then / 2 else if better (sx l o) (sx r o) then 0 else 1) = weight (best (sx l o) (sx r o)) (sx r o) (sx l o)).
    { intros o. destruct (Req_EM_T (sx l o) (sx r o)) as [E|N]; [|destruct (weights better best _ _ B N); auto]. rewrite <- E. assert (X : best (sx l o) (sx l o) = sx l o).
      { destruct (B (sx l o) (sx l o)) as [B1 B2]. destruct (better (sx l o) (sx l o)); [auto|]. apply B2. reflexivity. }
      rewrite X. unfold weight. destruct (Req_EM_T (sx l o) (sx l o)); [auto|congruence]. }
    apply good_sparse; cbn [sx owners sl lx jac lapl]; auto.
    + intros k o K O. rewrite (select_dense b sh l r (fun o => if Req_EM_T (sx l o) (sx r o) then / 2 else if better (sx l o) (sx r o) then 1 else 0) (fun o => if Req_EM_T (sx l o) (sx r o) then / 2 else if better (sx l o) (sx r o) then 0 else 1)) by auto.
      destruct (W o) as [-> ->]. reflexivity.
    + intros o O. destruct (W o) as [-> ->]. reflexivity.
Qed.
Lemma select_good b sh c x y dense : wf_value b sh x -> wf_value b sh y ->
  let rv := let p := plain_of c in
    match x, y with
    | SPlain u, SPlain v => Plain (fun o => if Req_EM_T (p o) 0 then u o else v o)
    | _, _ => let X := densify b sh x in let Y := densify b sh y in
        Tracked {| lx := fun o => if Req_EM_T (p o) 0 then primal X o else primal Y o; jac := fun k o => if Req_EM_T (p o) 0 then jac_of X k o else jac_of Y k o;
                   lapl := fun o => if Req_EM_T (p o) 0 then lapl_of X o else lapl_of Y o |}
    end in
  good b sh dense rv -> good b sh (select c x y dense) rv.
Proof.
  intros [P WX] [_ WY] rv D. subst rv. unfold select. destruct x as [p|tx|l], y as [q|ty|r]; cbn [densify primal jac_of lapl_of] in *; try exact D.
  - destruct WY as [S F]. apply good_sparse; cbn [sx owners sl lx jac lapl]; auto. intros k o K O. unfold to_dense, slots, owner. cbn [owners blk]. destruct (Req_EM_T (plain_of c o) 0); [|reflexivity]. apply sum_0. intros. ring.
  - destruct WX as [S F]. apply good_sparse; cbn [sx owners sl lx jac lapl]; auto. intros k o K O. unfold to_dense, slots, owner. cbn [owners blk]. destruct (Req_EM_T (plain_of c o) 0); [reflexivity|]. apply sum_0. intros. ring.
  - destruct (roles_eqb (owners l) (owners r)) eqn:RE; [|exact D]. apply roles_eqb_eq in RE. destruct WX as [S F]. apply good_sparse; cbn [sx owners sl lx jac lapl]; auto.
    intros k o K O. unfold to_dense, slots, owner. cbn [owners blk]. destruct (Req_EM_T (plain_of c o) 0); [|rewrite RE]; reflexivity.
Qed.

(** ** Layout and reductions *)
Lemma lsum_one {A} (f : A -> R) x : lsum f [x] = f x.
Proof. cbn. lra. Qed.
Lemma layout_good b l sh t t' : wf_value b sh (SSparse t) -> layout_ok l sh -> apply_layout l sh t = Some t' ->
  good b (out_shape l sh) (SSparse t') (Tracked {| lx := fun o => sx t (src l sh o); jac := fun k o => to_dense b sh t k (src l sh o); lapl := fun o => sl t (src l sh o) |}).
Proof.
  intros [P [S F]] K E. unfold apply_layout in E. destruct (map_roles (layout_role l sh) (owners t)) as [ow|] eqn:M; [|discriminate]. injection E as <-.
  apply map_roles_spec in M as [L M]. pose proof (out_shape_pos l sh K P) as PO.
  assert (H : forall s, (s < slots t)%nat -> follows (b_N b) sh (out_shape l sh) (owner t s) (nth s ow role0) (src l sh)) by (intros s Hs; apply layout_follows; auto; [apply (owner_wf b); auto|apply M; exact Hs]).
  apply good_sparse; cbn [sx owners sl lx jac lapl]; auto.
  - unfold slots in *. cbn [owners]. rewrite L. exact S.
  - apply Forall_slots. intros s Hs. apply H. unfold slots. lia.
  - intros k o K' O. rewrite !to_dense_spread. unfold slots at 1. cbn [owners]. rewrite L. apply spread_ext; [|reflexivity]. intros s Hs. apply H; auto.
Qed.
Lemma sum_good b axes sh t : wf_value b sh (SSparse t) -> NoDup axes ->
  let total := fun (f : arr) o => lsum f (sum_elems axes sh o) in
  good b (sum_shape axes sh)
    (match map_roles (reduce_role axes) (owners t) with
     | Some ow => SSparse {| sx := total (sx t); owners := ow; blk := fun s c => total (blk t s c); sl := total (sl t) |}
     | None => SDense {| lx := total (sx t); jac := fun k => total (to_dense b sh t k); lapl := total (sl t) |}
     end)
    (Tracked {| lx := total (sx t); jac := fun k => total (to_dense b sh t k); lapl := total (sl t) |}).
Proof.
  intros [P [S F]] ND total. pose proof (sum_size_pos axes sh P) as PO. destruct (map_roles (reduce_role axes) (owners t)) as [ow|] eqn:M; [|split; [split; [exact PO|exact I]|apply agree_refl]].
  apply map_roles_spec in M as [L M].
  assert (H : forall s, (s < slots t)%nat -> wf_role (b_N b) (sum_shape axes sh) (nth s ow role0) /\ forall m, (m < size sh)%nat -> owner_id (sum_shape axes sh) (nth s ow role0) (sum_dest axes sh m) = owner_id sh (owner t s) m).
  { intros s Hs. apply reduce_follows; auto; [apply (owner_wf b); auto|apply M; exact Hs]. }
  apply good_sparse; cbn [sx owners sl lx jac lapl]; auto.
  - unfold slots in *. cbn [owners]. rewrite L. exact S.
  - apply Forall_slots. intros s Hs. apply H. unfold slots. lia.
  - intros k o K O. unfold total. rewrite to_dense_spread. unfold slots. cbn [owners blk]. rewrite L.
    rewrite (spread_lsum b (length (owners t)) _ (fun m s c => blk t s c m)). apply lsum_ext. intros m Im. apply sum_elems_spec in Im as [Hm <-]. rewrite to_dense_spread.
    apply spread_ext; [|reflexivity]. intros s Hs. apply H; auto.
Qed.

(** ** dot_general *)
Definition rule_dot (n : nat) (c : nat -> list (nat * nat)) (x y : value) : value := eval_eqn n (fun v => if v =? 0 then x else y) (Dot c 0 1).
Lemma fits_slots m : match m_owners m with [_] | [_; _] => true | _ => false end = true -> length (m_owners m) = 1%nat \/ length (m_owners m) = 2%nat.
Proof. destruct (m_owners m) as [|q1 [|q2 [|q3 l]]]; intros E; try discriminate; auto. Qed.
Lemma lsum_pairs_scale {A} (f g : A -> R) c l : (forall x, In x l -> f x = g x * c) -> lsum f l = lsum g l * c.
Proof. intros H. rewrite (lsum_ext f (fun x => c * g x)) by (intros x I; rewrite H by exact I; ring). rewrite lsum_scal. ring. Qed.
Lemma dot_good b lc rc lb rb shl shr x y dense : wf_basis b -> dot_ok lc rc lb rb shl shr -> wf_value b shl x -> wf_value b shr y ->
  let out := dot_shape lc rc lb rb shl shr in let pairs := dot_pairs lc rc lb rb shl shr in
  good b out dense (rule_dot (b_n b) pairs (densify b shl x) (densify b shr y)) ->
  good b out (dot_rule b lc rc lb rb shl shr x y dense) (rule_dot (b_n b) pairs (densify b shl x) (densify b shr y)).
Proof.
  intros WB OK [PL WX] [PR WY] out pairs D. pose proof (dot_shape_pos _ _ _ _ _ _ OK PL PR) as PO. fold out in PO.
  set (lrole := dot_role lb lc (free lb lc (length shl)) (length lb) (length shl)).
  set (rrole := dot_role rb rc (free rb rc (length shr)) (length lb + length (free lb lc (length shl))) (length shr)).
  assert (HL : forall l ls, wf_value b shl (SSparse l) -> map_roles lrole (owners l) = Some ls ->
     length ls = slots l /\ Forall (wf_role (b_N b) out) ls /\ forall s o t, (s < slots l)%nat -> (o < size out)%nat -> In t (pairs o) -> owner_id out (nth s ls role0) o = owner_id shl (owner l s) (fst t)).
  { intros l ls [_ [SL FL]] M. apply map_roles_spec in M as [L M].
    assert (Q : forall s, (s < slots l)%nat -> wf_role (b_N b) out (nth s ls role0) /\ forall o ml mr, (o < size out)%nat -> In (ml, mr) (pairs o) -> owner_id out (nth s ls role0) o = owner_id shl (owner l s) ml).
    { intros s S. apply (left_follows lc rc lb rb shl shr OK (b_N b) (owner l s)); auto; [apply (owner_wf b); auto|apply M; exact S]. }
    split; [exact L|]. split; [apply Forall_slots; intros s S; apply Q; unfold slots; lia|]. intros s o [ml mr] S O I. apply (proj2 (Q s S) o ml mr O I). }
  assert (HR : forall r rs, wf_value b shr (SSparse r) -> map_roles rrole (owners r) = Some rs ->
     length rs = slots r /\ Forall (wf_role (b_N b) out) rs /\ forall s o t, (s < slots r)%nat -> (o < size out)%nat -> In t (pairs o) -> owner_id out (nth s rs role0) o = owner_id shr (owner r s) (snd t)).
  { intros r rs [_ [SR FR]] M. apply map_roles_spec in M as [L M].
    assert (Q : forall s, (s < slots r)%nat -> wf_role (b_N b) out (nth s rs role0) /\ forall o ml mr, (o < size out)%nat -> In (ml, mr) (pairs o) -> owner_id out (nth s rs role0) o = owner_id shr (owner r s) mr).
    { intros s S. apply (right_follows lc rc lb rb shl shr OK (b_N b) (owner r s)); auto; [apply (owner_wf b); auto|apply M; exact S]. }
    split; [exact L|]. split; [apply Forall_slots; intros s S; apply Q; unfold slots; lia|]. intros s o [ml mr] S O I. apply (proj2 (Q s S) o ml mr O I). }
  (* expansion of one operand's contribution *)
  assert (DL : forall l ls p k o, wf_value b shl (SSparse l) -> map_roles lrole (owners l) = Some ls -> (o < size out)%nat ->
     spread b (length ls) (fun s => owner_id out (nth s ls role0) o) (fun s c => lsum (fun t => blk l s c (fst t) * p (snd t)) (pairs o)) k = lsum (fun t => to_dense b shl l k (fst t) * p (snd t)) (pairs o)).
  { intros l ls p k o W M O. destruct (HL l ls W M) as (L & _ & Q). rewrite L. rewrite (spread_lsum b (slots l) _ (fun t s c => blk l s c (fst t) * p (snd t))). apply lsum_ext. intros t It.
    rewrite (spread_scale b (slots l) _ (fun s c => blk l s c (fst t)) (p (snd t))). f_equal. rewrite to_dense_spread. apply spread_ext; [|reflexivity]. intros s S. apply (Q s o t S O It). }
  assert (DR : forall r rs p k o, wf_value b shr (SSparse r) -> map_roles rrole (owners r) = Some rs -> (o < size out)%nat ->
     spread b (length rs) (fun s => owner_id out (nth s rs role0) o) (fun s c => lsum (fun t => p (fst t) * blk r s c (snd t)) (pairs o)) k = lsum (fun t => p (fst t) * to_dense b shr r k (snd t)) (pairs o)).
  { intros r rs p k o W M O. destruct (HR r rs W M) as (L & _ & Q). rewrite L. rewrite (spread_lsum b (slots r) _ (fun t s c => p (fst t) * blk r s c (snd t))). apply lsum_ext. intros t It.
    rewrite (spread_ext b (slots r) _ (fun s => owner_id shr (owner r s) (snd t)) _ (fun s c => blk r s c (snd t) * p (fst t))); [|intros s S; apply (Q s o t S O It)|intros; ring].
    rewrite (spread_scale b (slots r) _ (fun s c => blk r s c (snd t)) (p (fst t))). rewrite to_dense_spread. ring. }
  unfold dot_rule. fold out lrole rrole pairs. destruct x as [p|tx|l], y as [q|ty|r]; try exact D.
  - (* plain . sparse *) destruct (map_roles rrole (owners r)) as [rs|] eqn:M; [|exact D]. pose proof (merge_roles_spec [] rs) as (_ & G & FM). destruct (merge_roles [] rs) as [ow ls' rs'] eqn:EM. cbn [m_owners m_lhs m_rhs] in *.
    destruct (match ow with [_] | [_; _] => true | _ => false end) eqn:FT; [|exact D]. assert (W : wf_value b shr (SSparse r)) by (split; auto). destruct (HR r rs W M) as (L & FR & _).
    unfold rule_dot, eval_eqn. cbn [operands existsb densify is_tracked Nat.eqb orb rule]. apply good_sparse; cbn [sx owners sl lx jac lapl prim primal]; auto.
    + unfold slots. cbn [owners]. apply (fits_slots {| m_owners := ow; m_lhs := ls'; m_rhs := rs' |}). exact FT.
    + intros k o K O. rewrite to_dense_spread. unfold slots, owner. cbn [owners blk].
      rewrite (spread_put b rs ow rs' (fun q => owner_id out q o) (fun i c o => lsum (fun t => p (fst t) * blk r i c (snd t)) (pairs o)) o k G). apply DR; auto.
  - (* sparse . plain *) destruct (map_roles lrole (owners l)) as [ls|] eqn:M; [|exact D]. pose proof (merge_roles_spec ls []) as (G & _ & FM). destruct (merge_roles ls []) as [ow ls' rs'] eqn:EM. cbn [m_owners m_lhs m_rhs] in *.
    destruct (match ow with [_] | [_; _] => true | _ => false end) eqn:FT; [|exact D]. assert (W : wf_value b shl (SSparse l)) by (split; auto). destruct (HL l ls W M) as (L & FL & _).
    unfold rule_dot, eval_eqn. cbn [operands existsb densify is_tracked Nat.eqb orb rule]. apply good_sparse; cbn [sx owners sl lx jac lapl prim primal]; auto.
    + unfold slots. cbn [owners]. apply (fits_slots {| m_owners := ow; m_lhs := ls'; m_rhs := rs' |}). exact FT.
    + intros k o K O. rewrite to_dense_spread. unfold slots, owner. cbn [owners blk].
      rewrite (spread_put b ls ow ls' (fun q => owner_id out q o) (fun i c o => lsum (fun t => blk l i c (fst t) * q (snd t)) (pairs o)) o k G). apply DL; auto.
  - (* sparse . sparse *) destruct (map_roles lrole (owners l)) as [ls|] eqn:ML; [|exact D]. destruct (map_roles rrole (owners r)) as [rs|] eqn:MR; [|exact D].
    pose proof (merge_roles_spec ls rs) as (G1 & G2 & FM). destruct (merge_roles ls rs) as [ow ls' rs'] eqn:EM. cbn [m_owners m_lhs m_rhs] in *.
    destruct (match ow with [_] | [_; _] => true | _ => false end) eqn:FT; [|exact D]. assert (W1 : wf_value b shl (SSparse l)) by (split; auto). assert (W2 : wf_value b shr (SSparse r)) by (split; auto).
    destruct (HL l ls W1 ML) as (L1 & FL & QL). destruct (HR r rs W2 MR) as (L2 & FR & QR).
    unfold rule_dot, eval_eqn. cbn [operands existsb densify is_tracked Nat.eqb orb rule]. apply good_sparse; cbn [sx owners sl lx jac lapl prim primal]; auto.
    + unfold slots. cbn [owners]. apply (fits_slots {| m_owners := ow; m_lhs := ls'; m_rhs := rs' |}). exact FT.
    + intros k o K O. rewrite to_dense_spread. unfold slots, owner. cbn [owners blk].
      etransitivity; [apply (merge_dense b {| m_owners := ow; m_lhs := ls'; m_rhs := rs' |} ls rs (fun q => owner_id out q o) (fun i c o => lsum (fun t => blk l i c (fst t) * sx r (snd t)) (pairs o)) (fun j c o => lsum (fun t => sx l (fst t) * blk r j c (snd t)) (pairs o)) o k G1 G2)|].
      rewrite (DL l ls) by auto. rewrite (DR r rs) by auto. reflexivity.
    + intros o O. f_equal. f_equal. destruct G1 as [LG1 G1], G2 as [LG2 G2]. rewrite LG1, LG2, L1, L2. rewrite L1 in G1. rewrite L2 in G2.
      assert (CS : forall t, In t (pairs o) -> sum (b_n b) (fun k => to_dense b shl l k (fst t) * to_dense b shr r k (snd t)) =
        sum (slots l) (fun s => sum (slots r) (fun s' => if owner_id out (nth s ls role0) o =? owner_id out (nth s' rs role0) o then sum (b_C b) (fun c => blk l s c (fst t) * blk r s' c (snd t)) else 0))).
      { intros t It. rewrite (sum_ext _ _ (fun k => spread b (slots l) (fun s => owner_id out (nth s ls role0) o) (fun s c => blk l s c (fst t)) k * spread b (slots r) (fun s => owner_id out (nth s rs role0) o) (fun s c => blk r s c (snd t)) k)).
        - apply cross_spread; auto; intros s S; apply owner_id_lt with (sh := out); auto; [rewrite Forall_forall in FL; apply FL, nth_In; lia|rewrite Forall_forall in FR; apply FR, nth_In; lia].
        - intros k _. f_equal; rewrite to_dense_spread; apply spread_ext; try reflexivity; intros s S; symmetry; [apply (QL s o t S O It)|apply (QR s o t S O It)]. }
      rewrite (lsum_ext _ _ (pairs o) CS). rewrite lsum_sum. apply sum_ext. intros s S. rewrite lsum_sum. apply sum_ext. intros s' S'. unfold same_ids.
      rewrite (proj2 (G1 s S)), (proj2 (G2 s' S')). destruct (owner_id out (nth s ls role0) o =? owner_id out (nth s' rs role0) o); [reflexivity|].
      symmetry. clear. induction (pairs o) as [|t l' IH]; cbn; [reflexivity|]. fold (lsum (fun _ : nat * nat => 0) l'). rewrite IH. lra.
Qed.

(** ** concatenate *)
Lemma go_spec (role_at : nat -> option role) k : forall s ow,
  (fix go s k := match k with
                 | 0 => Some []
                 | S k' => match role_at s with None => None | Some q => match go (S s) k' with None => None | Some m => Some (q :: m) end end
                 end%nat) s k = Some ow -> length ow = k /\ forall i, (i < k)%nat -> role_at (s + i)%nat = Some (nth i ow role0).
Proof.
  induction k as [|k IH]; intros s ow E; [injection E as <-; split; [reflexivity|lia]|]. destruct (role_at s) as [q|] eqn:R; [|discriminate].
  match type of E with match ?g with _ => _ end = _ => destruct g as [m|] eqn:G; [|discriminate] end. injection E as <-. apply IH in G as [L H]. split; [cbn; lia|].
  intros [|i] I; cbn [nth]; [rewrite Nat.add_0_r; exact R|]. rewrite <- H by lia. f_equal. lia.
Qed.
Lemma concat_good b sh e axis xs dense : wf_basis b -> (forall v, wf_value b (sh v) (e v)) -> concat_ok axis (map sh xs) -> safe sh e (SConcat axis xs) ->
  let out := cat_shape axis (map sh xs) in
  let r := eval_eqn (b_n b) (fun v => densify b (sh v) (e v)) (Linear xs (fun o => let (j, m) := cat_src axis (map sh xs) o in [((nth j xs 0%nat, m), 1)])) in
  good b out dense r -> exists v, concat sh e axis xs dense = Some v /\ good b out v r.
Proof.
  intros WB WE OK SF out r D. assert (POS : forall s, In s (map sh xs) -> (0 < size s)%nat) by (intros s I; apply in_map_iff in I as (x & <- & _); apply WE).
  unfold concat. destruct (existsb (fun x => is_dense (e x)) xs) eqn:ED; [exists dense; auto|]. destruct (find (fun x => is_sparse (e x)) xs) as [x0|] eqn:FS; [|exists dense; auto].
  apply find_some in FS as [I0 S0]. destruct (e x0) as [?|?|t0] eqn:E0; try discriminate. destruct (forallb _ xs) eqn:FM; [|exists dense; auto].
  set (roles_of := fun x => match e x with SSparse t => owners t | _ => owners t0 end).
  match goal with |- exists v, match ?g with _ => _ end = _ /\ _ => destruct g as [ow|] eqn:G; [|exists dense; auto] end.
  apply go_spec in G as [LO G]. fold out. cbn [Nat.add] in G.
  assert (ND : forall x, In x xs -> is_dense (e x) = false).
  { intros x I. destruct (is_dense (e x)) eqn:Q; [|reflexivity]. exfalso. assert (existsb (fun x => is_dense (e x)) xs = true) by (apply existsb_exists; exists x; auto). congruence. }
  assert (SL : forall x t, In x xs -> e x = SSparse t -> slots t = slots t0).
  { intros x t I E. rewrite forallb_forall in FM. specialize (FM x I). rewrite E in FM. apply Nat.eqb_eq. exact FM. }
  assert (NX : forall j, (j < length xs)%nat -> nth j (map sh xs) [] = sh (nth j xs 0%nat)).
  { intros j J. rewrite (nth_indep _ [] (sh 0%nat)) by (rewrite map_length; exact J). apply map_nth. }
  destruct (WE x0) as [P0 W0]. rewrite E0 in W0. destruct W0 as [S0' F0].
  assert (SHR : forall x, In x xs -> length (sh x) = length (sh x0) /\ forall a, (a < length (sh x))%nat -> a <> axis -> nth a (sh x) 0%nat = nth a (sh x0) 0%nat).
  { intros x I. destruct OK as [_ OK]. destruct (OK (sh x) (in_map sh _ _ I)) as (_ & Lx & Ox). destruct (OK (sh x0) (in_map sh _ _ I0)) as (_ & Lx0 & Ox0). split; [congruence|].
    intros a A N. rewrite Ox, Ox0 by (auto; congruence). reflexivity. }
  assert (WR : forall s j, (s < slots t0)%nat -> (j < length xs)%nat -> wf_role (b_N b) (sh (nth j xs 0%nat)) (nth s (roles_of (nth j xs 0%nat)) role0)).
  { intros s j S J. assert (I : In (nth j xs 0%nat) xs) by (apply nth_In; exact J). unfold roles_of. set (x := nth j xs 0%nat) in *. destruct (WE x) as [Px Wx].
    destruct (e x) as [p|t|t] eqn:Ex.
    - pose proof (owner_wf b (sh x0) t0 s F0 S) as W. fold (owner t0 s). destruct (SHR x I) as [R1 R2]. destruct (ax (owner t0 s)) as [a|] eqn:AX.
      + destruct (wf_some _ _ _ _ W AX) as (A & L & L1). destruct W as [_ F]. split; [|exact F]. rewrite AX. split; [lia|]. split; [|exact L1]. rewrite L.
        destruct (Nat.eq_dec a axis) as [->|N]; [|symmetry; apply R2; [lia|exact N]].
        symmetry. apply (SF x x0 t0 (owner t0 s)); auto; [rewrite Ex; reflexivity|]. apply nth_In. exact S.
      + destruct W as [W F]. split; [rewrite AX in *; exact W|exact F].
    - pose proof (ND x I) as Q. rewrite Ex in Q. discriminate.
    - destruct Wx as [Sx Fx]. apply (owner_wf b (sh x) t s Fx). rewrite (SL x t I Ex). exact S. }
  assert (FOL : forall s, (s < slots t0)%nat -> wf_role (b_N b) out (nth s ow role0) /\ forall o, (o < size out)%nat -> let (j, m) := cat_src axis (map sh xs) o in
      owner_id out (nth s ow role0) o = owner_id (sh (nth j xs 0%nat)) (nth s (roles_of (nth j xs 0%nat)) role0) m).
  { intros s S. specialize (G s S). pose proof (concat_follows axis (map sh xs) OK POS (b_N b) (map (fun x => nth s (roles_of x) role0) xs) (nth s ow role0)) as C. rewrite map_map in C.
    assert (NR : forall j, (j < length xs)%nat -> nth j (map (fun x => nth s (roles_of x) role0) xs) role0 = nth s (roles_of (nth j xs 0%nat)) role0).
    { intros j J. rewrite (nth_indep _ role0 (nth s (roles_of 0%nat) role0)) by (rewrite map_length; exact J). apply (map_nth (fun x => nth s (roles_of x) role0)). }
    destruct C as [C1 C2]; [rewrite !map_length; reflexivity| |exact G|].
    { intros j J. rewrite map_length in J. rewrite NX, NR by exact J. apply WR; auto. }
    split; [exact C1|]. intros o O. specialize (C2 o O). pose proof (cat_src_spec axis (map sh xs) OK POS o O) as CS. destruct (cat_src axis (map sh xs) o) as [j m]. destruct CS as (J & _). rewrite map_length in J.
    rewrite NX, NR in C2 by exact J. exact C2. }
  assert (FW : Forall (wf_role (b_N b) out) ow) by (apply Forall_slots; intros s S; apply FOL; lia).
  replace (forallb (fun r => match ax r with None => true | Some a => length (vals r) =? at_ out a end) ow) with true.
  2:{ symmetry. apply forallb_forall. intros q Q. rewrite Forall_forall in FW. specialize (FW q Q). destruct (ax q) as [a|] eqn:AX; [|reflexivity]. apply Nat.eqb_eq. apply (wf_some _ _ _ _ FW AX). }
  eexists. split; [reflexivity|]. assert (TR : existsb (fun v => is_tracked (densify b (sh v) (e v))) xs = true) by (apply existsb_exists; exists x0; split; [exact I0|]; rewrite E0; reflexivity).
  unfold r, eval_eqn. cbn [operands]. rewrite TR. cbn [rule]. apply good_sparse; cbn [sx owners sl lx jac lapl prim].
  - apply (cat_pos axis (map sh xs) OK POS).
  - unfold slots in *. cbn [owners]. rewrite LO. exact S0'.
  - exact FW.
  - intros o O. destruct (cat_src axis (map sh xs) o) as [j m]. rewrite lsum_one. destruct (e (nth j xs 0%nat)); cbn; ring.
  - intros k o K O. pose proof (cat_src_spec axis (map sh xs) OK POS o O) as CS. unfold to_dense, slots at 1. cbn [owners blk]. rewrite LO.
    destruct (cat_src axis (map sh xs) o) as [j m] eqn:EC. destruct CS as (J & M & _). rewrite map_length in J. rewrite lsum_one. assert (I : In (nth j xs 0%nat) xs) by (apply nth_In; exact J).
    set (x := nth j xs 0%nat) in *. destruct (e x) as [p|t|t] eqn:Ex; cbn [densify jac_of jac].
    + rewrite Rmult_0_r. apply sum_0. intros. ring.
    + pose proof (ND x I) as Q. rewrite Ex in Q. discriminate.
    + rewrite Rmult_1_l. unfold to_dense. rewrite (SL x t I Ex). apply sum_ext. intros s S. f_equal. unfold selector. cbn [owner owners]. destruct (FOL s S) as [_ H]. specialize (H o O). rewrite EC in H. fold x in H.
      unfold owner at 1. cbn [owners]. rewrite H. unfold roles_of. rewrite Ex. reflexivity.
  - intros o O. destruct (cat_src axis (map sh xs) o) as [j m] eqn:EC. rewrite lsum_one. pose proof (cat_src_spec axis (map sh xs) OK POS o O) as CS. rewrite EC in CS. destruct CS as (J & _). rewrite map_length in J.
    assert (I : In (nth j xs 0%nat) xs) by (apply nth_In; exact J). set (x := nth j xs 0%nat) in *. destruct (e x) as [p|t|t] eqn:Ex; cbn [densify lapl_of lapl]; try ring.
    pose proof (ND x I) as Q. rewrite Ex in Q. discriminate.
Qed.

(** ** One equation *)
Theorem C39_equation : forall b sh e i len, wf_basis b -> (forall v, wf_value b (sh v) (e v)) -> fits len sh i -> safe sh e i ->
  exists v, eval_sparse b sh e i = Some v /\ wf_value b (shape_of sh i) v /\
    agree (b_n b) (size (shape_of sh i)) (densify b (shape_of sh i) v) (eval_eqn (b_n b) (fun v => densify b (sh v) (e v)) (lower sh i)).
Proof.
  intros b sh e i len WB WE FT SF. change (exists v, eval_sparse b sh e i = Some v /\ good b (shape_of sh i) v (eval_eqn (b_n b) (fun v => densify b (sh v) (e v)) (lower sh i))).
  assert (PS : forall v, (0 < size (sh v))%nat) by (intros v; apply WE).
  assert (PO : (0 < size (shape_of sh i))%nat).
  { destruct i; cbn [shape_of fits] in *; auto; try tauto.
    - apply sum_size_pos. apply PS.
    - apply out_shape_pos; [tauto|apply PS].
    - apply cat_pos; [tauto|]. intros s I. apply in_map_iff in I as (x & <- & _). apply PS.
    - apply dot_shape_pos; [tauto|apply PS|apply PS]. }
  assert (D : good b (shape_of sh i) (dense_path b sh e i) (eval_eqn (b_n b) (fun v => densify b (sh v) (e v)) (lower sh i))) by (apply good_dense; exact PO).
  unfold eval_sparse. set (dense := dense_path b sh e i) in *. clearbody dense.
  destruct i as [f x|x|x y out|x y out|x y out|x y out|x|x y|x y|c x y|axes x|l x|axis xs|lc rc lb rb x y|i out]; cbn [shape_of lower fits safe] in *.
  - (* unary *) pose proof (WE x) as [P W]. destruct (e x) as [p|t|t] eqn:E; eexists; (split; [reflexivity|]); try exact D. clear D. destruct W as [S F].
    unfold eval_eqn. cbn [operands existsb]. rewrite E. cbn [densify is_tracked orb rule]. rewrite E. apply good_sparse; cbn [sx owners sl lx jac lapl prim primal densify jac_of lapl_of]; auto.
    + intros o O. cbn. rewrite E. reflexivity.
    + intros k o K O. rewrite (dense_scale b (sh x) t (fun o => sf1 f (sx t o))). ring.
    + intros o O. rewrite (trace_spread b (sh x) t o) by auto. reflexivity.
  - (* neg *) pose proof (WE x) as [P W]. destruct (e x) as [p|t|t] eqn:E; eexists; (split; [reflexivity|]); try exact D. clear D. destruct W as [S F].
    unfold eval_eqn. cbn [operands existsb]. rewrite E. cbn [densify is_tracked orb rule]. apply good_sparse; cbn [sx owners sl lx jac lapl prim]; auto.
    + intros o O. rewrite lsum_one, E. cbn. ring.
    + intros k o K O. rewrite lsum_one, E. rewrite (dense_scale b (sh x) t (fun _ => -1)). cbn. ring.
    + intros o O. rewrite lsum_one, E. cbn. ring.
  - (* add *) destruct FT as (_ & _ & P & BX & BY). eexists. split; [reflexivity|].
    assert (A : agree (b_n b) (size out) (rule_add (b_n b) 1 (bsrc (sh x) out) (bsrc (sh y) out) (densify b (sh x) (e x)) (densify b (sh y) (e y)))
                  (eval_eqn (b_n b) (fun v => densify b (sh v) (e v)) (Add (bsrc (sh x) out) (bsrc (sh y) out) x y))).
    { unfold eval_eqn. cbn [operands existsb]. destruct (densify b (sh x) (e x)) as [a|t] eqn:EX, (densify b (sh y) (e y)) as [a'|t'] eqn:EY; cbn [is_tracked orb rule rule_add agree prim lx jac lapl]; rewrite ?EX, ?EY; cbn [primal jac_of lapl_of]; repeat split; intros; ring. }
    eapply good_trans; [apply (add_good b out (sh x) (sh y)); auto; eapply good_trans; [exact D|apply agree_sym; exact A]|exact A].
  - (* sub *) destruct FT as (_ & _ & P & BX & BY). eexists. split; [reflexivity|].
    assert (A : agree (b_n b) (size out) (rule_add (b_n b) (-1) (bsrc (sh x) out) (bsrc (sh y) out) (densify b (sh x) (e x)) (densify b (sh y) (e y)))
                  (eval_eqn (b_n b) (fun v => densify b (sh v) (e v)) (Sub (bsrc (sh x) out) (bsrc (sh y) out) x y))).
    { unfold eval_eqn. cbn [operands existsb]. destruct (densify b (sh x) (e x)) as [a|t] eqn:EX, (densify b (sh y) (e y)) as [a'|t'] eqn:EY; cbn [is_tracked orb rule rule_add agree prim lx jac lapl]; rewrite ?EX, ?EY; cbn [primal jac_of lapl_of]; repeat split; intros; ring. }
    eapply good_trans; [apply (add_good b out (sh x) (sh y)); auto; eapply good_trans; [exact D|apply agree_sym; exact A]|exact A].
  - (* mul *) destruct FT as (_ & _ & P & BX & BY). eexists. split; [reflexivity|].
    apply (mul_good b out (sh x) (sh y) WB P BX BY (e x) (e y) dense (WE x) (WE y)). exact D.
  - (* div *) destruct FT as (_ & _ & P & BX & BY). eexists. split; [reflexivity|].
    apply (div_good b out (sh x) (sh y) WB P BX BY (e x) (e y) dense (WE x) (WE y) SF). exact D.
  - (* abs *) pose proof (WE x) as [P W]. destruct (e x) as [p|t|t] eqn:E; eexists; (split; [reflexivity|]); try exact D. clear D. destruct W as [S F]. cbn [tracked plain_of] in SF. specialize (SF eq_refl).
    unfold eval_eqn. cbn [operands existsb]. rewrite E. cbn [densify is_tracked orb rule].
    assert (SG : forall o, (o < size (sh x))%nat -> (if Rle_dec 0 (sx t o) then 1 else -1) = sgn (sx t o)).
    { intros o O. specialize (SF o O). unfold sgn. destruct (Rle_dec 0 (sx t o)), (Rlt_dec 0 (sx t o)), (Rlt_dec (sx t o) 0); lra. }
    apply good_sparse; cbn [sx owners sl lx jac lapl prim]; rewrite ?E; cbn [densify primal jac_of lapl_of lx jac lapl]; auto.
    + intros k o K O. rewrite (dense_scale b (sh x) t (fun o => if Rle_dec 0 (sx t o) then 1 else -1)), SG by exact O. ring.
    + intros o O. rewrite SG by exact O. reflexivity.
  - (* max *) destruct FT as (_ & _ & ES). eexists. split; [reflexivity|].
    assert (A : agree (b_n b) (size (sh x)) (rule_best (b_n b) Rmax (densify b (sh x) (e x)) (densify b (sh x) (e y))) (eval_eqn (b_n b) (fun v => densify b (sh v) (e v)) (Max (fun o => o) (fun o => o) x y))).
    { unfold eval_eqn. cbn [operands existsb]. rewrite <- ES. destruct (densify b (sh x) (e x)) as [a|t] eqn:EX, (densify b (sh x) (e y)) as [a'|t'] eqn:EY; cbn [is_tracked orb rule rule_best agree prim lx jac lapl]; rewrite <- ?ES, ?EX, ?EY; cbn [primal jac_of lapl_of]; repeat split; intros; ring. }
    eapply good_trans; [apply best_good; auto; [exact max_best|exact Rmax_comm|rewrite ES; apply WE|eapply good_trans; [exact D|apply agree_sym; exact A]]|exact A].
  - (* min *) destruct FT as (_ & _ & ES). eexists. split; [reflexivity|].
    assert (A : agree (b_n b) (size (sh x)) (rule_best (b_n b) Rmin (densify b (sh x) (e x)) (densify b (sh x) (e y))) (eval_eqn (b_n b) (fun v => densify b (sh v) (e v)) (Min (fun o => o) (fun o => o) x y))).
    { unfold eval_eqn. cbn [operands existsb]. rewrite <- ES. destruct (densify b (sh x) (e x)) as [a|t] eqn:EX, (densify b (sh x) (e y)) as [a'|t'] eqn:EY; cbn [is_tracked orb rule rule_best agree prim lx jac lapl]; rewrite <- ?ES, ?EX, ?EY; cbn [primal jac_of lapl_of]; repeat split; intros; ring. }
    eapply good_trans; [apply best_good; auto; [exact min_best|exact Rmin_comm|rewrite ES; apply WE|eapply good_trans; [exact D|apply agree_sym; exact A]]|exact A].
  - (* select *) destruct FT as (_ & _ & _ & ES' & ES). eexists. split; [reflexivity|].
    assert (PC : forall o, primal (densify b (sh c) (e c)) o = plain_of (e c) o) by (intros o; destruct (e c); reflexivity).
    assert (A : agree (b_n b) (size (sh x))
      (let p := plain_of (e c) in
       match e x, e y with
       | SPlain u, SPlain v => Plain (fun o => if Req_EM_T (p o) 0 then u o else v o)
       | _, _ => let X := densify b (sh x) (e x) in let Y := densify b (sh x) (e y) in
          Tracked {| lx := fun o => if Req_EM_T (p o) 0 then primal X o else primal Y o; jac := fun k o => if Req_EM_T (p o) 0 then jac_of X k o else jac_of Y k o;
                   lapl := fun o => if Req_EM_T (p o) 0 then lapl_of X o else lapl_of Y o |}
       end) (eval_eqn (b_n b) (fun v => densify b (sh v) (e v)) (Select c x y))).
    { unfold eval_eqn. cbn [operands existsb rule prim]. rewrite <- ES. destruct (e x) as [p|t|t] eqn:EX, (e y) as [q|t'|t'] eqn:EY; cbn [densify is_tracked orb]; rewrite ?orb_true_r; try destruct (is_tracked (densify b (sh c) (e c)) || false)%bool;
      cbn [agree lx jac lapl primal jac_of lapl_of orb]; rewrite <- ?ES; repeat split; intros; rewrite ?PC; rewrite ?EX, ?EY; reflexivity. }
    eapply good_trans; [apply select_good; auto; [rewrite ES; apply WE|eapply good_trans; [exact D|apply agree_sym; exact A]]|exact A].
  - (* sum *) destruct FT as (_ & ND & _). pose proof (WE x) as W. destruct (e x) as [p|t|t] eqn:E; try (eexists; split; [reflexivity|exact D]). clear D.
    pose proof (sum_good b axes (sh x) t W ND) as G. cbv zeta in G.
    assert (A : agree (b_n b) (size (sum_shape axes (sh x))) (Tracked {| lx := fun o => lsum (sx t) (sum_elems axes (sh x) o); jac := fun k o => lsum (to_dense b (sh x) t k) (sum_elems axes (sh x) o); lapl := fun o => lsum (sl t) (sum_elems axes (sh x) o) |})
       (eval_eqn (b_n b) (fun v => densify b (sh v) (e v)) (Linear [x] (fun o => map (fun m => ((x, m), 1)) (sum_elems axes (sh x) o))))).
    { unfold eval_eqn. cbn [operands existsb]. rewrite E. cbn [densify is_tracked orb rule agree lx jac lapl prim]. repeat split; intros; rewrite lsum_map; apply lsum_ext; intros m _; rewrite E; cbn; ring. }
    destruct (map_roles (reduce_role axes) (owners t)) as [ow|]; eexists; (split; [reflexivity|]); eapply good_trans; try exact G; exact A.
  - (* layout *) destruct FT as (_ & LK). pose proof (WE x) as W. destruct (e x) as [p|t|t] eqn:E; try (eexists; split; [reflexivity|exact D]).
    destruct (apply_layout l (sh x) t) as [t'|] eqn:AL; eexists; (split; [reflexivity|]); [|exact D]. clear D. eapply good_trans; [apply (layout_good b l (sh x) t t' W LK AL)|].
    unfold eval_eqn. cbn [operands existsb]. rewrite E. cbn [densify is_tracked orb rule agree lx jac lapl prim]. repeat split; intros; rewrite lsum_one, E; cbn; ring.
  - (* concat *) apply concat_good; auto. tauto.
  - (* dot *) eexists. split; [reflexivity|]. apply (dot_good b lc rc lb rb (sh x) (sh y) (e x) (e y) dense WB); auto; tauto.
  - (* other *) exists dense. auto.
Qed.
