(** C39: every sparse rule agrees with the dense rule of the same primitive. *)
From Coq Require Import Reals List Arith Bool Lra Lia.
From Verif Require Import Lin Shape Lap_Spec Lap_Lang Lap_Model Sparse_Model Sparse_Spec Sparse_Lemmas Sparse_Layout Sparse_Dot.
Import ListNotations.
Open Scope R_scope.
Local Notation "a =? b" := (Nat.eqb a b).

Lemma agree_refl n size v : agree n size v v.
Proof. destruct v; cbn; auto. Qed.
Lemma agree_trans n size u v w : agree n size u v -> agree n size v w -> agree n size u w.
Proof.
  destruct u, v, w; cbn; try tauto; intros A B.
  - intros o O. rewrite A, B by exact O. reflexivity.
  - destruct A as (A1 & A2 & A3), B as (B1 & B2 & B3). repeat split; intros; rewrite ?A1, ?A2, ?A3, ?B1, ?B2, ?B3 by assumption; reflexivity.
Qed.
Lemma agree_sym n size u v : agree n size u v -> agree n size v u.
Proof.
  destruct u, v; cbn; try tauto; intros A.
  - intros o O. symmetry. auto.
  - destruct A as (A1 & A2 & A3). repeat split; intros; symmetry; auto.
Qed.
Definition good (b : basis) (out : list nat) (v : sval) (r : value) : Prop := wf_value b out v /\ agree (b_n b) (size out) (densify b out v) r.
Lemma good_trans b out v r r' : good b out v r -> agree (b_n b) (size out) r r' -> good b out v r'.
Proof. intros [A B] C. split; [exact A|]. eapply agree_trans; eassumption. Qed.
Lemma good_dense b out v : (0 < size out)%nat -> good b out (embed v) v.
Proof. intros P. split; [split; [exact P|destruct v; exact I]|]. destruct v; apply agree_refl. Qed.
Lemma good_sparse b out t r : (0 < size out)%nat -> (slots t = 1%nat \/ slots t = 2%nat) -> Forall (wf_role (b_N b) out) (owners t) ->
  (forall o, (o < size out)%nat -> sx t o = lx r o) -> (forall k o, (k < b_n b)%nat -> (o < size out)%nat -> to_dense b out t k o = jac r k o) -> (forall o, (o < size out)%nat -> sl t o = lapl r o) ->
  good b out (SSparse t) (Tracked r).
Proof. intros P S F A B C. split; [split; [exact P|split; assumption]|]. cbn. auto. Qed.

Lemma map_roles_spec f l : forall m, map_roles f l = Some m -> length m = length l /\ forall s, (s < length l)%nat -> f (nth s l role0) = Some (nth s m role0).
Proof.
  induction l as [|r l IH]; intros m E; cbn in E; [injection E as <-; split; [reflexivity|cbn; lia]|]. destruct (f r) as [q|] eqn:F; [|discriminate]. destruct (map_roles f l) as [m'|]; [|discriminate]. injection E as <-.
  destruct (IH m' eq_refl) as [L H]. split; [cbn; lia|]. intros [|s] S; cbn in *; [exact F|apply H; lia].
Qed.
Lemma Forall_slots (P : role -> Prop) l : (forall s, (s < length l)%nat -> P (nth s l role0)) -> Forall P l.
Proof. intros H. apply Forall_forall. intros r I. apply In_nth with (d := role0) in I as (s & S & <-). auto. Qed.

(** ** Broadcast operands *)
Lemma bcast_slots sh out t : slots (bcast sh out t) = slots t.
Proof. unfold slots, bcast. cbn. apply map_length. Qed.
Lemma bcast_owner sh out t s : (s < slots t)%nat -> owner (bcast sh out t) s = bcast_role sh out (owner t s).
Proof. intros S. unfold owner, bcast. cbn [owners]. rewrite (nth_indep _ role0 (bcast_role sh out role0)) by (rewrite map_length; exact S). apply map_nth. Qed.
Lemma bcast_spec b sh out t : broadcasts sh out -> (0 < size sh)%nat -> (0 < size out)%nat -> Forall (wf_role (b_N b) sh) (owners t) ->
  Forall (wf_role (b_N b) out) (owners (bcast sh out t)) /\
  forall k o, (o < size out)%nat -> to_dense b out (bcast sh out t) k o = to_dense b sh t k (bsrc sh out o).
Proof.
  intros B P PO F. assert (H : forall s, (s < slots t)%nat -> follows (b_N b) sh out (owner t s) (bcast_role sh out (owner t s)) (bsrc sh out)).
  { intros s S. apply bcast_follows; auto. apply (owner_wf b); auto. }
  split.
  - apply Forall_slots. intros s S. change (length (owners (bcast sh out t))) with (slots (bcast sh out t)) in S. rewrite bcast_slots in S. fold (owner (bcast sh out t) s). rewrite bcast_owner by exact S. apply H. exact S.
  - intros k o O. rewrite !to_dense_spread, bcast_slots. apply spread_ext; [|reflexivity]. intros s S. rewrite bcast_owner by exact S. apply H; auto.
Qed.

Lemma owner_ids b sh t o : Forall (wf_role (b_N b) sh) (owners t) -> (0 < size sh)%nat -> (o < size sh)%nat -> forall s, (s < slots t)%nat -> (owner_id sh (owner t s) o < b_N b)%nat.
Proof. intros F P O s S. apply owner_id_lt; auto. apply owner_wf; auto. Qed.
Lemma cross_dense b sh l r o : wf_basis b -> Forall (wf_role (b_N b) sh) (owners l) -> Forall (wf_role (b_N b) sh) (owners r) -> (0 < size sh)%nat -> (o < size sh)%nat ->
  cross_trace b sh l r o = sum (b_n b) (fun k => to_dense b sh l k o * to_dense b sh r k o).
Proof.
  intros W FL FR P O. symmetry. apply (cross_spread b (slots l) (fun s => owner_id sh (owner l s) o) (fun s c => blk l s c o) (slots r) (fun s => owner_id sh (owner r s) o) (fun s c => blk r s c o)); auto.
  - apply (owner_ids b); auto.
  - apply (owner_ids b); auto.
Qed.
Lemma dense_scale b sh t f x l k o : to_dense b sh {| sx := x; owners := owners t; blk := scale t f; sl := l |} k o = to_dense b sh t k o * f o.
Proof. apply (spread_scale b (slots t) (fun s => owner_id sh (owner t s) o) (fun s c => blk t s c o) (f o) k). Qed.
Lemma dense_1 b sh t k o : slots t = 1%nat -> to_dense b sh t k o = ind (owner_id sh (owner t 0) o) (own b k) * blk t 0 (crd b k) o.
Proof. intros S. unfold to_dense. rewrite S. cbn [sum]. unfold selector, ind. ring. Qed.
Lemma dense_pair b sh x r q f l k o :
  to_dense b sh {| sx := x; owners := [r; q]; blk := f; sl := l |} k o = ind (owner_id sh r o) (own b k) * f 0%nat (crd b k) o + ind (owner_id sh q o) (own b k) * f 1%nat (crd b k) o.
Proof. unfold to_dense. cbn [slots owners length sum owner nth blk]. unfold selector, ind. ring. Qed.
Lemma slots_1 t : slots t = 1%nat -> owners t = [owner t 0].
Proof. unfold slots, owner. destruct (owners t) as [|r [|q l]]; cbn; intros E; try discriminate. reflexivity. Qed.
Lemma merge2_spec l r m : merge2 l r = Some m -> good_slots l (m_owners m) (m_lhs m) /\ good_slots r (m_owners m) (m_rhs m) /\ length (m_owners m) = 2%nat /\ (forall P, Forall P l -> Forall P r -> Forall P (m_owners m)).
Proof.
  unfold merge2. pose proof (merge_roles_spec l r) as M. cbv zeta in M. destruct (merge_roles l r) as [ow ls rs]. cbn [m_owners m_lhs m_rhs] in *. destruct M as (A & B & C).
  destruct ow as [|q1 [|q2 [|q3 l']]]; intros E; try discriminate; injection E as <-; cbn [m_owners m_lhs m_rhs].
  - split; [apply good_slots_repeat; exact A|]. split; [apply good_slots_repeat; exact B|]. split; [reflexivity|]. intros P FL FR. specialize (C P FL FR). inversion C; subst. constructor; auto.
  - auto.
Qed.
Lemma merge_dense b m l r id f g o k : good_slots l (m_owners m) (m_lhs m) -> good_slots r (m_owners m) (m_rhs m) ->
  spread b (length (m_owners m)) (fun s => id (nth s (m_owners m) role0)) (fun s c => merge_blocks m f g s c o) k =
  spread b (length l) (fun s => id (nth s l role0)) (fun s c => f s c o) k + spread b (length r) (fun s => id (nth s r role0)) (fun s c => g s c o) k.
Proof. intros A B. unfold merge_blocks. rewrite spread_plus, (spread_put b l _ _ id f o k A), (spread_put b r _ _ id g o k B). reflexivity. Qed.

(** ** Multiplication *)
Definition rule_mul (n : nat) (bx by_ : nat -> nat) (x y : value) : value := eval_eqn n (fun v => if v =? 0 then x else y) (Mul bx by_ 0 1).
Section mul.
  Variables (b : basis) (out shx shy : list nat).
  Hypothesis WB : wf_basis b.
  Hypothesis PO : (0 < size out)%nat.
  Hypothesis BX : broadcasts shx out.
  Hypothesis BY : broadcasts shy out.
  Lemma mul_good x y dense : wf_value b shx x -> wf_value b shy y ->
    good b out dense (rule_mul (b_n b) (bsrc shx out) (bsrc shy out) (densify b shx x) (densify b shy y)) ->
    good b out (mul b out x y shx shy dense) (rule_mul (b_n b) (bsrc shx out) (bsrc shy out) (densify b shx x) (densify b shy y)).
  Proof.
    intros WX WY D. destruct WX as [PX WX], WY as [PY WY]. destruct x as [p|tx|l0], y as [q|ty|r0]; cbn [mul]; try exact D.
    - (* plain * sparse *) destruct WY as [SR FR]. destruct (bcast_spec b shy out r0 BY PY PO FR) as [FB DB]. unfold rule_mul, eval_eqn. cbn [operands existsb densify is_tracked Nat.eqb orb rule].
      apply good_sparse; cbn [sx owners sl lx jac lapl prim primal]; auto.
      + change (slots (bcast shy out r0) = 1%nat \/ slots (bcast shy out r0) = 2%nat). rewrite bcast_slots. exact SR.
      + intros o O. cbn. ring.
      + intros k o K O. rewrite (dense_scale b out (bcast shy out r0) (fun o => p (bsrc shx out o))), DB by exact O. ring.
      + intros o O. cbn [sl bcast]. ring.
    - (* sparse * plain *) destruct WX as [SL FL]. destruct (bcast_spec b shx out l0 BX PX PO FL) as [FB DB]. unfold rule_mul, eval_eqn. cbn [operands existsb densify is_tracked Nat.eqb orb rule].
      apply good_sparse; cbn [sx owners sl lx jac lapl prim primal]; auto.
      + change (slots (bcast shx out l0) = 1%nat \/ slots (bcast shx out l0) = 2%nat). rewrite bcast_slots. exact SL.
      + intros k o K O. rewrite (dense_scale b out (bcast shx out l0) (fun o => q (bsrc shy out o))), DB by exact O. ring.
      + intros o O. cbn [sl bcast]. ring.
    - (* sparse * sparse *) destruct WX as [SL FL], WY as [SR FR].
      destruct (bcast_spec b shx out l0 BX PX PO FL) as [FBL DBL]. destruct (bcast_spec b shy out r0 BY PY PO FR) as [FBR DBR].
      set (l := bcast shx out l0) in *. set (r := bcast shy out r0) in *.
      assert (CR : forall o, (o < size out)%nat -> cross_trace b out l r o = sum (b_n b) (fun k => to_dense b shx l0 k (bsrc shx out o) * to_dense b shy r0 k (bsrc shy out o))).
      { intros o O. rewrite cross_dense by auto. apply sum_ext. intros k _. rewrite DBL, DBR by exact O. reflexivity. }
      assert (SX : forall o, sx l o = sx l0 (bsrc shx out o)) by reflexivity. assert (SY : forall o, sx r o = sx r0 (bsrc shy out o)) by reflexivity.
      assert (LX : forall o, sl l o = sl l0 (bsrc shx out o)) by reflexivity. assert (LY : forall o, sl r o = sl r0 (bsrc shy out o)) by reflexivity.
      destruct ((slots l =? 1) && (slots r =? 1))%bool eqn:E1.
      + apply andb_true_iff in E1 as [E1 E2]. apply Nat.eqb_eq in E1, E2.
        assert (C1 : forall o, cross_trace b out l r o = if same_ids out (owner l 0) (owner r 0) o then sum (b_C b) (fun c => blk l 0 c o * blk r 0 c o) else 0).
        { intros o. unfold cross_trace. rewrite E1, E2. cbn [sum]. ring. }
        unfold rule_mul, eval_eqn. cbn [operands existsb densify is_tracked Nat.eqb orb rule]. unfold mul_local1. destruct (roles_eqb (owners l) (owners r)) eqn:RE.
        * apply roles_eqb_eq in RE. assert (OE : owner r 0 = owner l 0) by (unfold owner; rewrite RE; reflexivity).
          apply good_sparse; cbn [sx owners sl lx jac lapl prim primal]; auto.
          -- intros k o K O. rewrite <- (DBL k o O), <- (DBR k o O), <- SX, <- SY.
             rewrite (dense_1 b out l k o E1), (dense_1 b out r k o E2), OE.
             rewrite (dense_1 b out _ k o); [cbn [owner owners blk]; unfold scale|exact E1]. unfold owner at 1. cbn [owners]. fold (owner l 0). ring.
          -- intros o O. rewrite <- (CR o O), (C1 o), OE, <- SX, <- SY, <- LX, <- LY. unfold same_ids. rewrite Nat.eqb_refl. ring.
        * apply good_sparse; cbn [sx owners sl lx jac lapl prim primal]; auto.
          -- pose proof (owner_wf b out l 0 FBL ltac:(lia)). pose proof (owner_wf b out r 0 FBR ltac:(lia)). auto.
          -- intros k o K O. rewrite <- (DBL k o O), <- (DBR k o O), <- SX, <- SY. rewrite dense_pair. cbn [Nat.eqb].
             rewrite (dense_1 b out l k o E1), (dense_1 b out r k o E2). unfold scale. ring.
          -- intros o O. rewrite <- (CR o O), (C1 o), <- SX, <- SY, <- LX, <- LY. ring.
      + destruct ((slots l =? 2) && (slots r =? 2))%bool eqn:E2; [|exact D]. destruct (mul_local2 b out l r) as [t|] eqn:ML; [|exact D].
        unfold mul_local2 in ML. destruct (merge2 (owners l) (owners r)) as [m|] eqn:MM; [|discriminate]. injection ML as <-. apply merge2_spec in MM as (G1 & G2 & LM & FM).
        unfold rule_mul, eval_eqn. cbn [operands existsb densify is_tracked Nat.eqb orb rule]. apply good_sparse; cbn [sx owners sl lx jac lapl prim primal]; auto.
        * intros k o K O. rewrite <- (DBL k o O), <- (DBR k o O), <- SX, <- SY.
          etransitivity; [apply (merge_dense b m (owners l) (owners r) (fun q => owner_id out q o) (scale l (sx r)) (scale r (sx l)) o k G1 G2)|].
          unfold scale. rewrite (spread_scale b _ _ (fun s c => blk l s c o) (sx r o)), (spread_scale b _ _ (fun s c => blk r s c o) (sx l o)). reflexivity.
        * intros o O. rewrite <- (CR o O), <- SX, <- SY, <- LX, <- LY. ring.
  Qed.

  (** ** Division *)
  Definition rule_div (n : nat) (bx by_ : nat -> nat) (x y : value) : value := eval_eqn n (fun v => if v =? 0 then x else y) (Div bx by_ 0 1).
  Lemma reciprocal_good r : wf_value b shy (SSparse r) ->
    good b shy (SSparse (reciprocal b shy r)) (Tracked {| lx := fun o => / sx r o; jac := fun k o => to_dense b shy r k o * - (/ sx r o * / sx r o);
      lapl := fun o => - sl r o * (/ sx r o * / sx r o) + 2 * sum (b_n b) (fun k => to_dense b shy r k o * to_dense b shy r k o) * (/ sx r o * / sx r o * / sx r o) |}).
  Proof.
    intros [P [S F]]. apply good_sparse; cbn [reciprocal sx owners sl lx jac lapl]; auto.
    - intros k o K O. apply (dense_scale b shy r (fun o => - (/ sx r o * / sx r o))).
    - intros o O. rewrite (trace_spread b shy r o) by auto. reflexivity.
  Qed.
  Lemma div_good x y dense : wf_value b shx x -> wf_value b shy y -> (tracked y = true -> forall m, (m < size shy)%nat -> plain_of y m <> 0) ->
    good b out dense (rule_div (b_n b) (bsrc shx out) (bsrc shy out) (densify b shx x) (densify b shy y)) ->
    good b out (div b out x y shx shy dense) (rule_div (b_n b) (bsrc shx out) (bsrc shy out) (densify b shx x) (densify b shy y)).
  Proof.
    intros WX WY NZ D.
    assert (REC : forall r, y = SSparse r -> good b out (mul b out x (SSparse (reciprocal b shy r)) shx shy
       (embed (eval_eqn (b_n b) (fun v => if v =? 0 then densify b shx x else densify b shy (SSparse (reciprocal b shy r))) (Mul (bsrc shx out) (bsrc shy out) 0 1))))
       (rule_div (b_n b) (bsrc shx out) (bsrc shy out) (densify b shx x) (densify b shy y))).
    { intros r ->. destruct (reciprocal_good r WY) as [WR AR]. eapply good_trans; [apply mul_good; auto; apply good_dense; exact PO|].
      cbn [tracked plain_of] in NZ. specialize (NZ eq_refl).
      assert (BL : forall o, (o < size out)%nat -> (bsrc shy out o < size shy)%nat) by (intros o O; apply bsrc_lt; auto; apply WY).
      assert (TR : forall o, (o < size shy)%nat -> trace b shy r o = sum (b_n b) (fun k => to_dense b shy r k o * to_dense b shy r k o)) by (intros o O; destruct WY as [P [S F]]; apply trace_spread; auto).
      assert (DR : forall k o, to_dense b shy (reciprocal b shy r) k o = to_dense b shy r k o * - (/ sx r o * / sx r o)) by (intros k o; apply (dense_scale b shy r (fun o => - (/ sx r o * / sx r o)))).
      unfold rule_mul, rule_div, eval_eqn. cbn [operands existsb Nat.eqb densify].
      destruct (densify b shx x) as [a|t]; cbn [is_tracked orb rule Nat.eqb]; cbn [agree lx jac lapl prim primal]; (split; [|split]).
      - intros o O. reflexivity.
      - intros k o K O. rewrite DR. field. apply NZ; auto.
      - intros o O. specialize (BL o O). specialize (NZ _ BL). cbn [sl reciprocal]. rewrite (TR _ BL). set (s2 := sum _ _). field. exact NZ.
      - intros o O. reflexivity.
      - intros k o K O. rewrite DR. cbn [sx reciprocal]. field. apply NZ; auto.
      - intros o O. specialize (BL o O). specialize (NZ _ BL). cbn [sl sx reciprocal]. rewrite (TR _ BL). set (s2 := sum _ (fun k => to_dense b shy r k (bsrc shy out o) * _)).
        rewrite (sum_ext (b_n b) (fun k => jac t k (bsrc shx out o) * to_dense b shy (reciprocal b shy r) k (bsrc shy out o)) (fun k => jac t k (bsrc shx out o) * to_dense b shy r k (bsrc shy out o) * - (/ sx r (bsrc shy out o) * / sx r (bsrc shy out o)))) by (intros k _; rewrite DR; ring).
        rewrite sum_scal_r. set (s3 := sum _ _). field. exact NZ. }
    destruct x as [p|tx|l0], y as [q|ty|r0]; cbn [div]; try exact D; try (apply (REC r0); reflexivity).
    destruct WX as [PX [SL FL]]. destruct (bcast_spec b shx out l0 BX PX PO FL) as [FB DB]. unfold rule_div, eval_eqn. cbn [operands existsb densify is_tracked Nat.eqb orb rule].
    apply good_sparse; cbn [sx owners sl lx jac lapl prim primal]; auto.
    - change (slots (bcast shx out l0) = 1%nat \/ slots (bcast shx out l0) = 2%nat). rewrite bcast_slots. exact SL.
    - intros k o K O. rewrite (dense_scale b out (bcast shx out l0) (fun o => / q (bsrc shy out o))), DB by exact O. ring.
    - intros o O. cbn [sl bcast]. ring.
  Qed.

  (** ** Addition and subtraction *)
  Definition rule_add (n : nat) (sg : R) (bx by_ : nat -> nat) (x y : value) : value :=
    match x, y with
    | Plain a, Plain c => Plain (fun o => a (bx o) + sg * c (by_ o))
    | _, _ => Tracked {| lx := fun o => primal x (bx o) + sg * primal y (by_ o); jac := fun k o => jac_of x k (bx o) + sg * jac_of y k (by_ o);
                         lapl := fun o => lapl_of x (bx o) + sg * lapl_of y (by_ o) |}
    end.
  Lemma add_good sh e sg x y dense : sh x = shx -> sh y = shy -> sg = 1 \/ sg = -1 -> wf_value b shx (e x) -> wf_value b shy (e y) ->
    good b out dense (rule_add (b_n b) sg (bsrc shx out) (bsrc shy out) (densify b shx (e x)) (densify b shy (e y))) ->
    good b out (add_sub b sh e sg x y out dense) (rule_add (b_n b) sg (bsrc shx out) (bsrc shy out) (densify b shx (e x)) (densify b shy (e y))).
  Proof.
    intros EX EY SG [PX WX] [PY WY] D. unfold add_sub. rewrite EX, EY. destruct (e x) as [p|tx|l0], (e y) as [q|ty|r0]; try exact D.
    - destruct WY as [SR FR]. destruct (bcast_spec b shy out r0 BY PY PO FR) as [FB DB]. cbn [densify rule_add primal jac_of lapl_of].
      apply good_sparse; cbn [sx owners sl lx jac lapl]; auto.
      + change (slots (bcast shy out r0) = 1%nat \/ slots (bcast shy out r0) = 2%nat). rewrite bcast_slots. exact SR.
      + intros k o K O. destruct (Req_EM_T sg 1) as [->|N].
        * rewrite <- (DB k o O). unfold to_dense. cbn [slots owners owner blk]. ring_simplify. apply sum_ext. reflexivity.
        * rewrite (dense_scale b out (bcast shy out r0) (fun _ => -1)), DB by exact O. destruct SG as [->| ->]; [congruence|]. ring.
      + intros o O. cbn [sl bcast]. ring.
    - destruct WX as [SL FL]. destruct (bcast_spec b shx out l0 BX PX PO FL) as [FB DB]. cbn [densify rule_add primal jac_of lapl_of].
      apply good_sparse; cbn [sx owners sl lx jac lapl]; auto.
      + change (slots (bcast shx out l0) = 1%nat \/ slots (bcast shx out l0) = 2%nat). rewrite bcast_slots. exact SL.
      + intros k o K O. rewrite <- (DB k o O). unfold to_dense. cbn [slots owners owner blk]. ring_simplify. apply sum_ext. reflexivity.
      + intros o O. cbn [sl bcast]. ring.
    - destruct WX as [SL FL], WY as [SR FR].
      destruct (bcast_spec b shx out l0 BX PX PO FL) as [FBL DBL]. destruct (bcast_spec b shy out r0 BY PY PO FR) as [FBR DBR].
      set (l := bcast shx out l0) in *. set (r := bcast shy out r0) in *. cbn zeta.
      destruct ((slots l =? 1) && (slots r =? 1))%bool eqn:E1.
      + apply andb_true_iff in E1 as [E1 E2]. apply Nat.eqb_eq in E1, E2. cbn [densify rule_add primal jac_of lapl_of]. unfold add_local1. destruct (roles_eqb (owners l) (owners r)) eqn:RE.
        * apply roles_eqb_eq in RE. assert (OE : owner r 0 = owner l 0) by (unfold owner; rewrite RE; reflexivity). apply good_sparse; cbn [sx owners sl lx jac lapl]; auto.
          intros k o K O. rewrite <- (DBL k o O), <- (DBR k o O). rewrite (dense_1 b out l k o E1), (dense_1 b out r k o E2), OE.
          rewrite (dense_1 b out _ k o); [cbn [owner owners blk]|exact E1]. unfold owner at 1. cbn [owners]. fold (owner l 0). ring.
        * apply good_sparse; cbn [sx owners sl lx jac lapl]; auto.
          -- pose proof (owner_wf b out l 0 FBL ltac:(lia)). pose proof (owner_wf b out r 0 FBR ltac:(lia)). auto.
          -- intros k o K O. rewrite <- (DBL k o O), <- (DBR k o O). rewrite dense_pair. cbn [Nat.eqb]. rewrite (dense_1 b out l k o E1), (dense_1 b out r k o E2). ring.
      + destruct ((slots l =? 2) && (slots r =? 2))%bool eqn:E2; [|exact D]. destruct (add_local2 sg l r) as [t|] eqn:ML; [|exact D].
        unfold add_local2 in ML. destruct (merge2 (owners l) (owners r)) as [m|] eqn:MM; [|discriminate]. injection ML as <-. apply merge2_spec in MM as (G1 & G2 & LM & FM).
        cbn [densify rule_add primal jac_of lapl_of]. apply good_sparse; cbn [sx owners sl lx jac lapl]; auto.
        intros k o K O. rewrite <- (DBL k o O), <- (DBR k o O).
        etransitivity; [apply (merge_dense b m (owners l) (owners r) (fun q => owner_id out q o) (blk l) (fun s c o => sg * blk r s c o) o k G1 G2)|].
        f_equal. rewrite (spread_ext b _ _ (fun s => owner_id out (nth s (owners r) role0) o) _ (fun s c => blk r s c o * sg)) by (intros; try reflexivity; ring).
        rewrite (spread_scale b _ _ (fun s c => blk r s c o) sg). apply Rmult_comm.
  Qed.
End mul.
