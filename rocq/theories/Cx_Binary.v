(** C92: sums, products, quotients and lax.complex of complex values carry exact derivatives. *)
From Coq Require Import Reals ZArith List Arith Bool Lra Lia.
From Coquelicot Require Import Complex.
From Verif Require Import Lin Shape Jet Lap_Spec Lap_Lang Lap_Model Lap_Props Sparse_Model Sparse_Spec Sparse_Lemmas Sparse_Layout Sparse_Rules Gather_Model Fl_Spec Cx_Model Cx_Spec Cx_Lemmas Cx_Props Cx_Holo.
Import ListNotations.
Open Scope C_scope.
Local Notation "a =? b" := (Nat.eqb a b).

(** [v] is well formed and holds the given numbers. *)
Definition holds (b : basis) (sh : list nat) (v : xval) (X : nat -> C) (J : nat -> nat -> C) (L : nat -> C) : Prop :=
  x_wf b sh v /\ forall o, (o < size sh)%nat -> x_value v o = X o /\ (forall k, (k < b_n b)%nat -> x_jacobian b sh v k o = J k o) /\ x_laplacian v o = L o.
Lemma holds_sparse b sh x ow f l X J L : (0 < size sh)%nat -> (length ow = 1%nat \/ length ow = 2%nat) -> Forall (wf_role (b_N b) sh) ow ->
  (forall o, (o < size sh)%nat -> x o = X o) -> (forall k o, (k < b_n b)%nat -> (o < size sh)%nat -> x_to_dense b sh {| xsx := x; xowners := ow; xblk := f; xsl := l |} k o = J k o) ->
  (forall o, (o < size sh)%nat -> l o = L o) -> holds b sh (XSparse {| xsx := x; xowners := ow; xblk := f; xsl := l |}) X J L.
Proof. intros P S F A B D. split; [split; [exact P|]; split; [exact S|exact F]|]. intros o O. cbn. auto. Qed.

Section binary.
  Variables (b : basis) (out shx shy : list nat).
  Hypothesis WB : wf_basis b.
  Hypothesis PO : (0 < size out)%nat.
  Hypothesis BX : broadcasts shx out.
  Hypothesis BY : broadcasts shy out.
  Let bx := bsrc shx out.
  Let by_ := bsrc shy out.

  Lemma add_holds sg x y : sg = 1%R \/ sg = (-1)%R -> x_wf b shx x -> x_wf b shy y ->
    holds b out (x_add b shx shy out sg x y) (fun o => x_value x (bx o) + RtoC sg * x_value y (by_ o))
      (fun k o => x_jacobian b shx x k (bx o) + RtoC sg * x_jacobian b shy y k (by_ o)) (fun o => x_laplacian x (bx o) + RtoC sg * x_laplacian y (by_ o)).
  Proof.
    intros SG [PX WX] [PY WY].
    assert (D : holds b out (x_dense_add shx shy out sg (x_densify b shx x) (x_densify b shy y)) (fun o => x_value x (bx o) + RtoC sg * x_value y (by_ o))
      (fun k o => x_jacobian b shx x k (bx o) + RtoC sg * x_jacobian b shy y k (by_ o)) (fun o => x_laplacian x (bx o) + RtoC sg * x_laplacian y (by_ o))).
    { split.
      - destruct x, y; split; auto; exact I.
      - intros o O. destruct x, y; cbn; refine (conj _ (conj _ _)); intros; ring. }
    destruct x as [p|tx|l0], y as [q|ty|r0]; cbn [x_add]; try exact D.
    - destruct WY as [SR FR]. destruct (x_bcast_spec b shy out r0 BY PY PO FR) as [FB DB]. apply holds_sparse; auto.
      + change (x_slots (x_bcast shy out r0) = 1%nat \/ x_slots (x_bcast shy out r0) = 2%nat). rewrite x_bcast_slots. exact SR.
      + intros k o K O. cbn [x_jacobian]. unfold by_. rewrite <- (DB k o O). destruct (Req_EM_T sg 1) as [->|N].
        * change (x_to_dense b out (x_bcast shy out r0) k o = RtoC 0 + RtoC 1 * x_to_dense b out (x_bcast shy out r0) k o). ring.
        * rewrite (x_dense_scale b out (x_bcast shy out r0) (fun _ => RtoC (-1))). destruct SG as [->| ->]; [congruence|]. ring.
      + intros o O. cbn. ring.
    - destruct WX as [SL FL]. destruct (x_bcast_spec b shx out l0 BX PX PO FL) as [FB DB]. apply holds_sparse; auto.
      + change (x_slots (x_bcast shx out l0) = 1%nat \/ x_slots (x_bcast shx out l0) = 2%nat). rewrite x_bcast_slots. exact SL.
      + intros k o K O. cbn [x_jacobian]. unfold bx. rewrite <- (DB k o O). change (x_to_dense b out (x_bcast shx out l0) k o = x_to_dense b out (x_bcast shx out l0) k o + RtoC sg * RtoC 0). ring.
      + intros o O. cbn. ring.
    - destruct WX as [SL FL], WY as [SR FR].
      destruct (x_bcast_spec b shx out l0 BX PX PO FL) as [FBL DBL]. destruct (x_bcast_spec b shy out r0 BY PY PO FR) as [FBR DBR].
      set (l := x_bcast shx out l0) in *. set (r := x_bcast shy out r0) in *. cbn zeta.
      destruct ((x_slots l =? 1) && (x_slots r =? 1))%bool eqn:E1.
      + apply andb_true_iff in E1 as [E1 E2]. apply Nat.eqb_eq in E1, E2. unfold x_add_local1. destruct (roles_eqb (xowners l) (xowners r)) eqn:RE.
        * apply roles_eqb_eq in RE. assert (OE : x_owner r 0 = x_owner l 0) by (unfold x_owner; rewrite RE; reflexivity). apply holds_sparse; auto.
          intros k o K O. cbn [x_jacobian]. unfold bx, by_. rewrite <- (DBL k o O), <- (DBR k o O). rewrite (x_dense_1 b out l k o E1), (x_dense_1 b out r k o E2), OE.
          rewrite (x_dense_1 b out _ k o); [cbn [x_owner xowners xblk]|exact E1]. unfold x_owner at 1. cbn [xowners]. fold (x_owner l 0). ring.
        * apply holds_sparse; auto.
          -- pose proof (x_owner_wf b out l 0 FBL ltac:(lia)). pose proof (x_owner_wf b out r 0 FBR ltac:(lia)). auto.
          -- intros k o K O. cbn [x_jacobian]. unfold bx, by_. rewrite <- (DBL k o O), <- (DBR k o O). rewrite x_dense_pair. cbn [Nat.eqb]. rewrite (x_dense_1 b out l k o E1), (x_dense_1 b out r k o E2). ring.
      + destruct ((x_slots l =? 2) && (x_slots r =? 2))%bool eqn:E2; [|exact D]. destruct (x_add_local2 sg l r) as [t|] eqn:ML; [|exact D].
        unfold x_add_local2 in ML. destruct (merge2 (xowners l) (xowners r)) as [m|] eqn:MM; [|discriminate]. injection ML as <-. apply merge2_spec in MM as (G1 & G2 & LM & FM).
        apply holds_sparse; auto.
        intros k o K O. cbn [x_jacobian]. unfold bx, by_. rewrite <- (DBL k o O), <- (DBR k o O).
        etransitivity; [apply (x_merge_dense b m (xowners l) (xowners r) (fun q => owner_id out q o) (xblk l) (fun s c o => RtoC sg * xblk r s c o) o k G1 G2)|].
        f_equal. rewrite (xspread_ext b _ _ (fun s => owner_id out (nth s (xowners r) role0) o) _ (fun s c => xblk r s c o * RtoC sg)) by (intros; try reflexivity; ring).
        rewrite (xspread_scale b _ _ (fun s c => xblk r s c o) (RtoC sg)). apply Cmult_comm.
  Qed.

  Let J x := x_jacobian b shx x.
  Lemma mul_holds x y : x_wf b shx x -> x_wf b shy y ->
    holds b out (x_mul b shx shy out x y) (fun o => x_value x (bx o) * x_value y (by_ o))
      (fun k o => x_jacobian b shx x k (bx o) * x_value y (by_ o) + x_jacobian b shy y k (by_ o) * x_value x (bx o))
      (fun o => x_laplacian x (bx o) * x_value y (by_ o) + x_laplacian y (by_ o) * x_value x (bx o) + RtoC 2 * csum (b_n b) (fun k => x_jacobian b shx x k (bx o) * x_jacobian b shy y k (by_ o))).
  Proof.
    intros [PX WX] [PY WY].
    assert (D : holds b out (x_dense_mul b shx shy out (x_densify b shx x) (x_densify b shy y)) (fun o => x_value x (bx o) * x_value y (by_ o))
      (fun k o => x_jacobian b shx x k (bx o) * x_value y (by_ o) + x_jacobian b shy y k (by_ o) * x_value x (bx o))
      (fun o => x_laplacian x (bx o) * x_value y (by_ o) + x_laplacian y (by_ o) * x_value x (bx o) + RtoC 2 * csum (b_n b) (fun k => x_jacobian b shx x k (bx o) * x_jacobian b shy y k (by_ o)))).
    { split.
      - destruct x, y; split; auto; exact I.
      - intros o O. destruct x as [p|tx|l0], y as [q|ty|r0]; cbn; refine (conj _ (conj _ _)); intros; fold bx by_; try ring; try (rewrite (csum_0 (b_n b)) by (intros; cbn beta; ring)); ring. }
    destruct x as [p|tx|l0], y as [q|ty|r0]; cbn [x_mul]; try exact D.
    - destruct WY as [SR FR]. destruct (x_bcast_spec b shy out r0 BY PY PO FR) as [FB DB]. apply holds_sparse; auto.
      + change (x_slots (x_bcast shy out r0) = 1%nat \/ x_slots (x_bcast shy out r0) = 2%nat). rewrite x_bcast_slots. exact SR.
      + intros o O. cbn. fold by_. ring.
      + intros k o K O. rewrite (x_dense_scale b out (x_bcast shy out r0) (fun o => p (bsrc shx out o))), DB by exact O. cbn. fold by_ bx. ring.
      + intros o O. cbn. fold by_ bx. rewrite (csum_0 (b_n b)) by (intros; cbn beta; ring). ring.
    - destruct WX as [SL FL]. destruct (x_bcast_spec b shx out l0 BX PX PO FL) as [FB DB]. apply holds_sparse; auto.
      + change (x_slots (x_bcast shx out l0) = 1%nat \/ x_slots (x_bcast shx out l0) = 2%nat). rewrite x_bcast_slots. exact SL.
      + intros k o K O. rewrite (x_dense_scale b out (x_bcast shx out l0) (fun o => q (bsrc shy out o))), DB by exact O. cbn. fold by_ bx. ring.
      + intros o O. cbn. fold by_ bx. rewrite (csum_0 (b_n b)) by (intros; cbn beta; ring). ring.
    - destruct WX as [SL FL], WY as [SR FR].
      destruct (x_bcast_spec b shx out l0 BX PX PO FL) as [FBL DBL]. destruct (x_bcast_spec b shy out r0 BY PY PO FR) as [FBR DBR].
      cbn [x_jacobian x_value x_laplacian] in *. unfold bx, by_ in *.
      set (l := x_bcast shx out l0) in *. set (r := x_bcast shy out r0) in *. cbn zeta.
      assert (CR : forall o, (o < size out)%nat -> x_cross_trace b out l r o = csum (b_n b) (fun k => x_to_dense b shx l0 k (bsrc shx out o) * x_to_dense b shy r0 k (bsrc shy out o))).
      { intros o O. rewrite x_cross_dense by auto. apply csum_ext. intros k _. rewrite DBL, DBR by exact O. reflexivity. }
      assert (SX : forall o, xsx l o = xsx l0 (bsrc shx out o)) by reflexivity. assert (SY : forall o, xsx r o = xsx r0 (bsrc shy out o)) by reflexivity.
      assert (LX : forall o, xsl l o = xsl l0 (bsrc shx out o)) by reflexivity. assert (LY : forall o, xsl r o = xsl r0 (bsrc shy out o)) by reflexivity.
      destruct ((x_slots l =? 1) && (x_slots r =? 1))%bool eqn:E1.
      + apply andb_true_iff in E1 as [E1 E2]. apply Nat.eqb_eq in E1, E2.
        assert (C1 : forall o, x_cross_trace b out l r o = if same_ids out (x_owner l 0) (x_owner r 0) o then csum (b_C b) (fun c => xblk l 0 c o * xblk r 0 c o) else RtoC 0).
        { intros o. unfold x_cross_trace. rewrite E1, E2. rewrite !csum_1. reflexivity. }
        unfold x_mul_local1. destruct (roles_eqb (xowners l) (xowners r)) eqn:RE.
        * apply roles_eqb_eq in RE. assert (OE : x_owner r 0 = x_owner l 0) by (unfold x_owner; rewrite RE; reflexivity).
          apply holds_sparse; auto.
          -- intros k o K O. rewrite <- (DBL k o O), <- (DBR k o O), <- SX, <- SY.
             rewrite (x_dense_1 b out l k o E1), (x_dense_1 b out r k o E2), OE.
             rewrite (x_dense_1 b out _ k o); [cbn [x_owner xowners xblk]; unfold x_scale|exact E1]. unfold x_owner at 1. cbn [xowners]. fold (x_owner l 0). ring.
          -- intros o O. rewrite <- (CR o O), (C1 o), OE, <- SX, <- SY, <- LX, <- LY. unfold same_ids. rewrite Nat.eqb_refl. ring.
        * apply holds_sparse; auto.
          -- pose proof (x_owner_wf b out l 0 FBL ltac:(lia)). pose proof (x_owner_wf b out r 0 FBR ltac:(lia)). auto.
          -- intros k o K O. rewrite <- (DBL k o O), <- (DBR k o O), <- SX, <- SY. rewrite x_dense_pair. cbn [Nat.eqb].
             rewrite (x_dense_1 b out l k o E1), (x_dense_1 b out r k o E2). unfold x_scale. ring.
          -- intros o O. rewrite <- (CR o O), (C1 o), <- SX, <- SY, <- LX, <- LY. ring.
      + destruct ((x_slots l =? 2) && (x_slots r =? 2))%bool eqn:E2; [|exact D]. destruct (x_mul_local2 b out l r) as [t|] eqn:ML; [|exact D].
        unfold x_mul_local2 in ML. destruct (merge2 (xowners l) (xowners r)) as [m|] eqn:MM; [|discriminate]. injection ML as <-. apply merge2_spec in MM as (G1 & G2 & LM & FM).
        apply holds_sparse; auto.
        * intros k o K O. rewrite <- (DBL k o O), <- (DBR k o O), <- SX, <- SY.
          etransitivity; [apply (x_merge_dense b m (xowners l) (xowners r) (fun q => owner_id out q o) (x_scale l (xsx r)) (x_scale r (xsx l)) o k G1 G2)|].
          unfold x_scale. rewrite (xspread_scale b _ _ (fun s c => xblk l s c o) (xsx r o)), (xspread_scale b _ _ (fun s c => xblk r s c o) (xsx l o)). reflexivity.
        * intros o O. rewrite <- (CR o O), <- SX, <- SY, <- LX, <- LY. ring.
  Qed.
End binary.

Theorem C92_add : forall b shx shy out sg x y w p F G, wf_basis b -> (0 < size out)%nat -> broadcasts shx out -> broadcasts shy out -> sg = 1%R \/ sg = (-1)%R ->
  x_wf b shx x -> x_wf b shy y -> x_exact b w p shx F x -> x_exact b w p shy G y ->
  x_wf b out (x_add b shx shy out sg x y) /\ x_exact b w p out (fun q o => F q (bsrc shx out o) + RtoC sg * G q (bsrc shy out o)) (x_add b shx shy out sg x y).
Proof.
  intros b shx shy out sg x y w p F G WB PO BX BY SG WX WY EX EY. destruct (add_holds b out shx shy PO BX BY sg x y SG WX WY) as [W H]. split; [exact W|].
  intros o O. destruct (H o O) as (HV & HJ & HL).
  pose proof (EX _ (bsrc_lt shx out o BX (proj1 WX) PO O)) as GX. pose proof (EY _ (bsrc_lt shy out o BY (proj1 WY) PO O)) as GY.
  eapply cgl_eq; [exact (cgl_plus _ _ _ _ _ _ _ _ _ _ _ GX (cgl_scal _ _ _ (RtoC sg) _ _ _ _ GY))| | |].
  - symmetry. exact HV.
  - intros k K. symmetry. exact (HJ k K).
  - symmetry. exact HL.
Qed.
Theorem C92_mul : forall b shx shy out x y w p F G, wf_basis b -> (0 < size out)%nat -> broadcasts shx out -> broadcasts shy out ->
  x_wf b shx x -> x_wf b shy y -> x_exact b w p shx F x -> x_exact b w p shy G y ->
  x_wf b out (x_mul b shx shy out x y) /\ x_exact b w p out (fun q o => F q (bsrc shx out o) * G q (bsrc shy out o)) (x_mul b shx shy out x y).
Proof.
  intros b shx shy out x y w p F G WB PO BX BY WX WY EX EY. destruct (mul_holds b out shx shy WB PO BX BY x y WX WY) as [W H]. split; [exact W|].
  intros o O. destruct (H o O) as (HV & HJ & HL).
  pose proof (EX _ (bsrc_lt shx out o BX (proj1 WX) PO O)) as GX. pose proof (EY _ (bsrc_lt shy out o BY (proj1 WY) PO O)) as GY.
  eapply cgl_eq; [exact (cgl_mult _ _ _ _ _ _ _ _ _ _ _ GX GY)| | |].
  - symmetry. exact HV.
  - intros k K. symmetry. exact (HJ k K).
  - symmetry. exact HL.
Qed.

(** ** Division *)
Lemma cgl_inv n w p g x J L : x <> RtoC 0 -> complex_gradient_and_laplacian n w p g x J L ->
  complex_gradient_and_laplacian n w p (fun q => / g q) (/ x) (fun k => - (/ x * / x) * J k) (- (/ x * / x) * L + RtoC 2 * (/ x * / x * / x) * csum n (fun k => J k * J k)).
Proof. intros NZ G. exact (cgl_holo n w p _ _ _ _ _ _ _ _ holomorphic_inv NZ G). Qed.
Lemma reciprocal_exact b sh t w p G : wf_basis b -> x_wf b sh (XSparse t) -> x_exact b w p sh G (XSparse t) -> (forall o, (o < size sh)%nat -> G p o <> RtoC 0) ->
  x_wf b sh (XSparse (x_reciprocal b sh t)) /\ x_exact b w p sh (fun q o => / G q o) (XSparse (x_reciprocal b sh t)).
Proof.
  intros WB W E NZ. split; [exact W|]. intros o O. specialize (E o O). pose proof (cgl_value _ _ _ _ _ _ _ E) as V. cbn [x_value x_jacobian x_laplacian] in *.
  assert (NV : xsx t o <> RtoC 0) by (rewrite V; apply NZ; exact O). destruct W as [P [S FW]].
  eapply cgl_eq; [exact (cgl_inv _ _ _ _ _ _ _ NV E)|reflexivity| |].
  - intros k K. cbn beta. unfold x_reciprocal. cbn zeta. rewrite (x_dense_scale b sh t (fun o => - (/ xsx t o * / xsx t o))). ring.
  - cbn [x_reciprocal xsl]. rewrite (x_trace_T b sh t o WB S FW P O). ring.
Qed.
Theorem C92_div : forall b shx shy out x y w p F G, wf_basis b -> (0 < size out)%nat -> broadcasts shx out -> broadcasts shy out ->
  x_wf b shx x -> x_wf b shy y -> x_exact b w p shx F x -> x_exact b w p shy G y -> (forall o, (o < size shy)%nat -> G p o <> RtoC 0) ->
  x_wf b out (x_div b shx shy out x y) /\ x_exact b w p out (fun q o => F q (bsrc shx out o) / G q (bsrc shy out o)) (x_div b shx shy out x y).
Proof.
  intros b shx shy out x y w p F G WB PO BX BY WX WY EX EY NZ.
  assert (D : x_wf b out (x_dense_div b shx shy out (x_densify b shx x) (x_densify b shy y)) /\ x_exact b w p out (fun q o => F q (bsrc shx out o) / G q (bsrc shy out o)) (x_dense_div b shx shy out (x_densify b shx x) (x_densify b shy y))).
  { split; [destruct x, y; split; auto; exact I|]. intros o O.
    pose proof (EX _ (bsrc_lt shx out o BX (proj1 WX) PO O)) as GX. pose proof (EY _ (bsrc_lt shy out o BY (proj1 WY) PO O)) as GY.
    pose proof (cgl_value _ _ _ _ _ _ _ GY) as V. assert (NV : x_value y (bsrc shy out o) <> RtoC 0) by (rewrite V; apply NZ, bsrc_lt; auto; apply WY).
    pose proof (cgl_mult _ _ _ _ _ _ _ _ _ _ _ GX (cgl_inv _ _ _ _ _ _ _ NV GY)) as M.
    assert (SS : forall a c : nat -> C, csum (b_n b) (fun k => a k * (- (/ x_value y (bsrc shy out o) * / x_value y (bsrc shy out o)) * c k)) = - (/ x_value y (bsrc shy out o) * / x_value y (bsrc shy out o)) * csum (b_n b) (fun k => a k * c k)).
    { intros a c. rewrite <- csum_scal_l. apply csum_ext. intros. ring. }
    cbv beta in M. rewrite SS in M.
    eapply cgl_eq; [exact M| | |]; destruct x as [u|u|u], y as [v|v|v]; cbn [x_dense_div x_densify x_value x_jacobian x_laplacian xdx xdj xdl] in *; try reflexivity;
      try (intros k K); repeat match goal with |- context [csum (b_n b) ?f] => rewrite (csum_0 (b_n b) f) by (intros; cbn beta; ring) end;
      repeat match goal with |- context [csum (b_n b) ?f] => let s := fresh "s" in set (s := csum (b_n b) f) end;
      unfold Cdiv; field; auto. }
  assert (SP : forall r, y = XSparse r -> x_wf b out (x_mul b shx shy out x (XSparse (x_reciprocal b shy r))) /\ x_exact b w p out (fun q o => F q (bsrc shx out o) / G q (bsrc shy out o)) (x_mul b shx shy out x (XSparse (x_reciprocal b shy r)))).
  { intros r ->. destruct (reciprocal_exact b shy r w p G WB WY EY NZ) as [WR ER].
    exact (C92_mul b shx shy out x (XSparse (x_reciprocal b shy r)) w p F (fun q o => / G q o) WB PO BX BY WX WR EX ER). }
  destruct x as [u|u|u], y as [v|v|v]; cbn [x_div]; try exact D; try (apply (SP _ eq_refl)).
  (* sparse / plain *)
  assert (EI : x_exact b w p shy (fun q o => / G q o) (XPlain (fun o => / v o))).
  { intros o O. pose proof (EY o O) as GY. pose proof (cgl_value _ _ _ _ _ _ _ GY) as V. cbn [x_value] in V. assert (NV : v o <> RtoC 0) by (rewrite V; apply NZ; exact O). eapply cgl_eq; [exact (cgl_inv _ _ _ _ _ _ _ NV GY)|reflexivity| |].
    - intros k K. cbn. ring.
    - cbn [x_jacobian x_laplacian]. rewrite (csum_0 (b_n b)) by (intros; cbn beta; ring). ring. }
  exact (C92_mul b shx shy out (XSparse u) (XPlain (fun o => / v o)) w p F (fun q o => / G q o) WB PO BX BY WX (conj (proj1 WY) I) EX EI).
Qed.

(** ** lax.complex of a real and an imaginary part *)
Lemma bc_self sh : broadcasts sh sh.
Proof. split; [lia|]. intros a A. right. f_equal. lia. Qed.
Theorem C92_complex : forall b sh re im w p F G, wf_basis b -> x_wf b sh re -> x_wf b sh im ->
  x_exact b w p sh (fun q o => RtoC (F q o)) re -> x_exact b w p sh (fun q o => RtoC (G q o)) im ->
  x_wf b sh (x_complex b sh re im) /\ x_exact b w p sh (fun q o => (F q o, G q o)) (x_complex b sh re im).
Proof.
  intros b sh re im w p F G WB WR WI ER EI. assert (P : (0 < size sh)%nat) by apply WR.
  assert (BI : broadcasts [] sh) by (split; [cbn; lia|intros a A; cbn in A; lia]).
  assert (E1 : x_exact b w p [] (fun _ _ => Ci) (XPlain (fun _ => Ci))) by (intros o O; apply cgl_const).
  destruct (C92_mul b sh [] sh im (XPlain (fun _ => Ci)) w p _ _ WB P (bc_self sh) BI WI (conj (le_n 1) I) EI E1) as [WM EM].
  destruct (C92_add b sh sh sh 1 re (x_mul b sh [] sh im (XPlain (fun _ => Ci))) w p _ _ WB P (bc_self sh) (bc_self sh) (or_introl eq_refl) WR WM ER EM) as [WA EA].
  assert (VR : forall o, (o < size sh)%nat -> x_value re o = RtoC (F p o)) by (intros o O; exact (cgl_value _ _ _ _ _ _ _ (ER o O))).
  assert (VI : forall o, (o < size sh)%nat -> x_value im o = RtoC (G p o)) by (intros o O; exact (cgl_value _ _ _ _ _ _ _ (EI o O))).
  unfold x_complex, x_convert.
  change (fun o => (fst ((match re with XPlain a => a | XDense t => xdx t | XSparse t => xsx t end) o), fst ((match im with XPlain a => a | XDense t => xdx t | XSparse t => xsx t end) o))) with (fun o => (fst (x_value re o), fst (x_value im o))).
  destruct (x_add b sh sh sh 1 re (x_mul b sh [] sh im (XPlain (fun _ => Ci)))) as [a|t|t]; (split; [exact WA|]); intros o O; specialize (EA o O);
    (assert (FE : forall q, RtoC (F q (bsrc sh sh o)) + RtoC 1 * (RtoC (G q (bsrc sh sh (bsrc sh sh o))) * Ci) = (F q o, G q o)) by (intros q; rewrite !bsrc_same by auto; apply C_ext; cbn; ring));
    (eapply cgl_eq; [eapply cgl_ext; [exact FE|exact EA]| | |]); try reflexivity;
    rewrite (cgl_value _ _ _ _ _ _ _ EA); cbn [x_value xdx xsx]; rewrite (VR o O), (VI o O); exact (FE p).
Qed.

(** ** When the owners survive *)
Theorem C92_stays_sparse : forall b sh t,
  (forall h, exists u, x_unary b sh h (XSparse t) = XSparse u /\ xowners u = xowners t) /\
  (exists u, x_abs b sh (XSparse t) = XSparse u /\ xowners u = xowners t) /\
  (forall f, exists u, x_map f (XSparse t) = XSparse u /\ xowners u = xowners t) /\
  (forall q out sg, let keeps v := exists u, v = XSparse u /\ xowners u = map (bcast_role sh out) (xowners t) in
     forall shq, keeps (x_add b sh shq out sg (XSparse t) (XPlain q)) /\ keeps (x_add b shq sh out sg (XPlain q) (XSparse t)) /\
     keeps (x_mul b sh shq out (XSparse t) (XPlain q)) /\ keeps (x_mul b shq sh out (XPlain q) (XSparse t)) /\
     keeps (x_div b sh shq out (XSparse t) (XPlain q)) /\ keeps (x_div b shq sh out (XPlain q) (XSparse t))).
Proof.
  intros b sh t. split; [intros h; eexists; split; reflexivity|]. split; [eexists; split; reflexivity|]. split; [intros f; eexists; split; reflexivity|].
  intros q out sg keeps shq. repeat (split; [eexists; split; reflexivity|]). eexists. split; reflexivity.
Qed.
