(** C91, continued: rounding, remainders and powers. *)
From Coq Require Import Reals ZArith List Arith Bool Lra Lia.
From Verif Require Import Lin Shape Jet Lap_Spec Lap_Lang Lap_Model Lap_Props Sparse_Model Sparse_Spec Sparse_Lemmas Sparse_Layout Sparse_Rules Sparse_Props Attn_Spec Gather_Model Gather_Spec Gather_Props.
Import ListNotations.
Open Scope R_scope.

(** ** Rounding *)
Lemma floor_local x : (forall z, x <> IZR z) -> exists e, 0 < e /\ forall y, Rabs (y - x) < e -> floor y = floor x.
Proof.
  intros N. pose proof (floor_bounds x) as [B1 B2]. assert (IZR (floor x) <> x) by (intros E; apply (N (floor x)); auto).
  exists (Rmin (x - IZR (floor x)) (IZR (floor x) + 1 - x)). split; [apply Rmin_glb_lt; lra|]. intros y Y. apply floor_unique.
  pose proof (Rmin_l (x - IZR (floor x)) (IZR (floor x) + 1 - x)). pose proof (Rmin_r (x - IZR (floor x)) (IZR (floor x) + 1 - x)). apply abs_near in Y. lra.
Qed.
(** The nearest integer; a half goes away from zero, or to the even neighbour. *)
Theorem C91_round_value : forall h x, exists z : Z, round_half h x = IZR z /\ Rabs (x - IZR z) <= 1 / 2 /\
  (forall z' : Z, z' <> z -> Rabs (x - IZR z') = Rabs (x - IZR z) ->
     match h with AwayFromZero => Rabs (IZR z') < Rabs (IZR z) | ToNearestEven => Z.even z = true /\ Z.even z' = false end).
Proof.
  intros h x. unfold round_half. set (n := floor x). pose proof (floor_bounds x) as B. fold n in B. cbv zeta.
  assert (S1 : IZR (n + 1) = IZR n + 1) by (rewrite plus_IZR; reflexivity).
  destruct (Rlt_dec (x - IZR n) (1 / 2)) as [L|L].
  { exists n. split; [reflexivity|]. split; [rewrite Rabs_right; lra|]. intros z' D E. exfalso. rewrite (Rabs_right (x - IZR n)) in E by lra. destruct (Z_lt_le_dec z' n) as [G|G].
    - assert (G' : (z' + 1 <= n)%Z) by lia. apply IZR_le in G'. rewrite plus_IZR in G'. rewrite Rabs_right in E by lra. lra.
    - assert (G' : (n + 1 <= z')%Z) by lia. apply IZR_le in G'. rewrite S1 in G'. rewrite Rabs_left in E by lra. lra. }
  destruct (Rlt_dec (1 / 2) (x - IZR n)) as [L'|L'].
  { exists (n + 1)%Z. split; [reflexivity|]. rewrite S1. split; [rewrite Rabs_left; lra|]. intros z' D E. exfalso. rewrite (Rabs_left (x - (IZR n + 1))) in E by lra. destruct (Z_lt_le_dec z' (n + 1)) as [G|G].
    - assert (G' : (z' <= n)%Z) by lia. apply IZR_le in G'. rewrite Rabs_right in E by lra. lra.
    - assert (G' : (n + 1 + 1 <= z')%Z) by lia. apply IZR_le in G'. rewrite plus_IZR, S1 in G'. rewrite Rabs_left in E by lra. lra. }
  assert (X : x = IZR n + 1 / 2) by lra.
  assert (TIE : forall z z' : Z, z = n \/ z = (n + 1)%Z -> z' <> z -> Rabs (x - IZR z') = Rabs (x - IZR z) -> z' = (n + (n + 1) - z)%Z).
  { intros z z' [-> | ->] D E; rewrite ?S1 in E.
    - rewrite (Rabs_right (x - IZR n)) in E by lra. destruct (Z_lt_le_dec z' n) as [G|G]; [assert (G' : (z' + 1 <= n)%Z) by lia; apply IZR_le in G'; rewrite plus_IZR in G'; rewrite Rabs_right in E by lra; lra|].
      destruct (Z_lt_le_dec (n + 1) z') as [G2|G2]; [assert (G' : (n + 1 + 1 <= z')%Z) by lia; apply IZR_le in G'; rewrite plus_IZR, S1 in G'; rewrite Rabs_left in E by lra; lra|]. lia.
    - rewrite (Rabs_left (x - (IZR n + 1))) in E by lra. destruct (Z_lt_le_dec z' n) as [G|G]; [assert (G' : (z' + 1 <= n)%Z) by lia; apply IZR_le in G'; rewrite plus_IZR in G'; rewrite Rabs_right in E by lra; lra|].
      destruct (Z_lt_le_dec (n + 1) z') as [G2|G2]; [assert (G' : (n + 1 + 1 <= z')%Z) by lia; apply IZR_le in G'; rewrite plus_IZR, S1 in G'; rewrite Rabs_left in E by lra; lra|]. lia. }
  assert (N1 : Rabs (x - IZR n) <= 1 / 2) by (rewrite Rabs_right; lra). assert (N2 : Rabs (x - IZR (n + 1)) <= 1 / 2) by (rewrite S1, Rabs_left; lra).
  destruct h.
  - destruct (Z.leb_spec 0 n) as [P|P].
    + exists (n + 1)%Z. split; [reflexivity|]. split; [exact N2|]. intros z' D E. rewrite (TIE _ z' (or_intror eq_refl) D E). replace (n + (n + 1) - (n + 1))%Z with n by lia. apply IZR_le in P. rewrite S1, !Rabs_right by lra. lra.
    + exists n. split; [reflexivity|]. split; [exact N1|]. intros z' D E. rewrite (TIE _ z' (or_introl eq_refl) D E). replace (n + (n + 1) - n)%Z with (n + 1)%Z by lia. assert (P' : (n + 1 <= 0)%Z) by lia. apply IZR_le in P'. rewrite S1 in *. rewrite (Rabs_left (IZR n)) by lra. unfold Rabs. destruct (Rcase_abs (IZR n + 1)); lra.
  - destruct (Z.even n) eqn:EV.
    + exists n. split; [reflexivity|]. split; [exact N1|]. intros z' D E. rewrite (TIE _ z' (or_introl eq_refl) D E). split; [exact EV|]. replace (n + (n + 1) - n)%Z with (Z.succ n) by lia. rewrite Z.even_succ, <- Z.negb_even, EV. reflexivity.
    + exists (n + 1)%Z. split; [reflexivity|]. split; [exact N2|]. intros z' D E. rewrite (TIE _ z' (or_intror eq_refl) D E). replace (n + (n + 1) - (n + 1))%Z with n by lia. split; [|exact EV]. change (n + 1)%Z with (Z.succ n). rewrite Z.even_succ, <- Z.negb_even, EV. reflexivity.
Qed.
Lemma round_local h x : (forall z, x <> IZR z + 1 / 2) -> exists e, 0 < e /\ forall y, Rabs (y - x) < e -> round_half h y = round_half h x.
Proof.
  intros N. destruct (floor_local (x + 1 / 2)) as (e & P & H).
  { intros z E. apply (N (z - 1)%Z). rewrite minus_IZR. lra. }
  assert (RF : forall y, (forall z, y <> IZR z + 1 / 2) -> round_half h y = IZR (floor (y + 1 / 2))).
  { intros y Ny. unfold round_half. pose proof (floor_bounds y) as B. cbv zeta. destruct (Rlt_dec (y - IZR (floor y)) (1 / 2)).
    - f_equal. symmetry. apply floor_unique. lra.
    - destruct (Rlt_dec (1 / 2) (y - IZR (floor y))).
      + f_equal. symmetry. apply floor_unique. rewrite plus_IZR. lra.
      + exfalso. apply (Ny (floor y)). lra. }
  set (z := floor (x + 1 / 2)) in *. pose proof (floor_bounds (x + 1 / 2)) as B. fold z in B.
  assert (IZR z <> x + 1 / 2) by (intros E; apply (N (z - 1)%Z); rewrite minus_IZR; lra).
  exists (Rmin e (Rmin (x + 1 / 2 - IZR z) (IZR z + 1 - (x + 1 / 2)))). split; [repeat apply Rmin_glb_lt; lra|]. intros y Y.
  pose proof (Rmin_l e (Rmin (x + 1 / 2 - IZR z) (IZR z + 1 - (x + 1 / 2)))). pose proof (Rmin_r e (Rmin (x + 1 / 2 - IZR z) (IZR z + 1 - (x + 1 / 2)))).
  pose proof (Rmin_l (x + 1 / 2 - IZR z) (IZR z + 1 - (x + 1 / 2))). pose proof (Rmin_r (x + 1 / 2 - IZR z) (IZR z + 1 - (x + 1 / 2))). apply abs_near in Y.
  rewrite !RF; [f_equal; apply H; apply Rabs_def1; lra|exact N|].
  intros w E. assert (z < w + 1 < z + 1)%Z; [|lia]. split; apply lt_IZR; rewrite !plus_IZR; lra.
Qed.
Theorem C91_round : forall b sh h x w p F, wf_value b sh x -> exact b w p sh F x ->
  (forall o, (o < size sh)%nat -> forall z, F p o <> IZR z + 1 / 2) ->
  wf_value b sh (handle_round h x) /\ exact b w p sh (fun q o => round_half h (F q o)) (handle_round h x).
Proof.
  intros b sh h x w p F W E N. split; [destruct x; exact W|]. intros o O. specialize (E o O). pose proof (gl_value _ _ _ _ _ _ _ E) as V.
  apply (gl_local _ _ _ (fun _ => round_half h (F p o))).
  - eapply gl_eq; [apply gl_const| | |].
    + destruct x; cbn in *; rewrite V; reflexivity.
    + intros k K. destruct x; cbn [handle_round jacobian_of]; try reflexivity. rewrite to_dense_spread. unfold spread. symmetry. apply sum_0. intros. cbn [blk]. ring.
    + destruct x; reflexivity.
  - reflexivity.
  - intros k K. destruct (round_local h (F p o) (N o O)) as (e & P & H). rewrite <- V in H. apply (near_imp (fun s => Rabs (F (line p w k s) o - value_of x o) < e)); [|apply (gl_near _ _ _ _ _ _ _ e k K E P)].
    intros s Hs. rewrite <- V. symmetry. apply H. exact Hs.
Qed.

(** ** Remainders *)
Lemma trunc_parts q : (0 <= q -> trunc q = IZR (floor q)) /\ (q < 0 -> trunc q = - IZR (floor (- q))).
Proof. unfold trunc, floor. destruct (Rle_dec 0 q); split; intros; try reflexivity; lra. Qed.
(** The remainder has the dividend's sign, is smaller than the divisor, and differs from the
    dividend by a multiple of it. *)
Theorem C91_rem_value : forall x y, y <> 0 -> (exists z, rem x y = x - y * IZR z) /\ Rabs (rem x y) < Rabs y /\ 0 <= rem x y * x.
Proof.
  intros x y Y. unfold rem. destruct (trunc_parts (x / y)) as [T1 T2]. destruct (Rle_dec 0 (x / y)) as [Q|Q].
  - rewrite T1 by exact Q. pose proof (floor_bounds (x / y)) as B. set (n := floor (x / y)) in *. split; [exists n; reflexivity|].
    assert (E : x - y * IZR n = y * (x / y - IZR n)) by (field; exact Y). assert (Xq : x = y * (x / y)) by (field; exact Y). split.
    + rewrite E, Rabs_mult, (Rabs_right (x / y - IZR n)) by lra. pose proof (Rabs_pos_lt y Y). nra.
    + rewrite E. rewrite Xq at 2. replace (y * (x / y - IZR n) * (y * (x / y))) with (y * y * ((x / y - IZR n) * (x / y))) by ring. apply Rmult_le_pos; [nra|]. apply Rmult_le_pos; lra.
  - rewrite T2 by lra. pose proof (floor_bounds (- (x / y))) as B. set (n := floor (- (x / y))) in *. split; [exists (- n)%Z; rewrite opp_IZR; reflexivity|].
    assert (E : x - y * - IZR n = y * (x / y + IZR n)) by (field; exact Y). assert (Xq : x = y * (x / y)) by (field; exact Y). split.
    + rewrite E, Rabs_mult. pose proof (Rabs_pos_lt y Y). assert (Rabs (x / y + IZR n) < 1) by (apply Rabs_def1; lra). nra.
    + rewrite E. rewrite Xq at 2. replace (y * (x / y + IZR n) * (y * (x / y))) with (y * y * ((- (x / y) - IZR n) * - (x / y))) by ring. apply Rmult_le_pos; [nra|]. apply Rmult_le_pos; lra.
Qed.
Lemma trunc_local q : (forall z, z <> 0%Z -> q <> IZR z) -> exists e, 0 < e /\ forall r, Rabs (r - q) < e -> trunc r = trunc q.
Proof.
  intros N. assert (Small : forall r, -1 < r < 1 -> trunc r = 0).
  { intros r Br. destruct (trunc_parts r) as [T1 T2]. destruct (Rle_dec 0 r).
    - rewrite T1 by assumption. rewrite (floor_unique r 0); [reflexivity|lra].
    - rewrite T2 by lra. rewrite (floor_unique (- r) 0); [lra|lra]. }
  destruct (Rlt_dec (Rabs q) 1) as [S|S].
  { exists (1 - Rabs q). split; [lra|]. intros r Hr. assert (Rabs r < 1) by (replace r with (r - q + q) by ring; pose proof (Rabs_triang (r - q) q); lra). apply Rabs_def2 in H, S. rewrite !Small by lra. reflexivity. }
  assert (NZ : forall z, q <> IZR z).
  { intros z. destruct (Z.eq_dec z 0) as [->|D]; [|apply N; exact D]. intros E. rewrite E, Rabs_R0 in S. lra. }
  destruct (trunc_parts q) as [T1 T2]. destruct (Rle_dec 0 q) as [P|P].
  - destruct (floor_local q NZ) as (e & E & H). rewrite Rabs_right in S by lra. exists (Rmin e 1). split; [apply Rmin_glb_lt; lra|]. intros r Hr. pose proof (Rmin_l e 1). pose proof (Rmin_r e 1).
    destruct (trunc_parts r) as [U1 U2]. assert (B : Rabs (r - q) < 1) by lra. apply abs_near in B. rewrite T1, U1 by lra. f_equal. apply H. lra.
  - destruct (floor_local (- q)) as (e & E & H). { intros z C. apply (NZ (- z)%Z). rewrite opp_IZR. lra. }
    rewrite Rabs_left in S by lra. exists (Rmin e 1). split; [apply Rmin_glb_lt; lra|]. intros r Hr. pose proof (Rmin_l e 1). pose proof (Rmin_r e 1).
    destruct (trunc_parts r) as [U1 U2]. assert (B : Rabs (r - q) < 1) by lra. apply abs_near in B. rewrite T2, U2 by lra. do 2 f_equal. apply H. replace (- r - - q) with (- (r - q)) by ring. rewrite Rabs_Ropp. lra.
Qed.
Section two.
Variables (b : basis) (shx shy out : list nat).
Hypothesis BX : broadcasts shx out.
Hypothesis PO : (0 < size out)%nat.
Lemma rem_good x y : wf_value b shx x -> good b out (handle_rem b shx shy out x y) (dense_rem shx shy out (densify b shx x) (densify b shy y)).
Proof.
  intros [P W]. unfold handle_rem. destruct x as [a|t|t]; try (apply good_dense; exact PO). destruct y as [c|u|u]; try (apply good_dense; exact PO).
  destruct W as [S F]. destruct (bcast_spec b shx out t BX P PO F) as [FW D]. cbn [densify dense_rem primal jac_of lapl_of]. apply good_sparse; auto; cbn [sx owners sl lx jac lapl].
  - rewrite <- (bcast_slots shx out t) in S. exact S.
  - intros k o K O. rewrite Rmult_0_l, Rminus_0_r. rewrite <- D by exact O. reflexivity.
  - intros o O. rewrite Rmult_0_l, Rminus_0_r. reflexivity.
Qed.
Lemma pow_good x (y : arr) : wf_basis b -> wf_value b shx x -> good b out (handle_pow b shx shy out x y) (dense_pow (b_n b) shx shy out (densify b shx x) y).
Proof.
  intros WB [P W]. unfold handle_pow. destruct x as [a|t|t]; try (apply good_dense; exact PO).
  destruct W as [S F]. destruct (bcast_spec b shx out t BX P PO F) as [FW D]. cbn [densify dense_pow]. rewrite <- (bcast_slots shx out t) in S. apply good_sparse; auto; cbn [sx owners sl lx jac lapl].
  - intros k o K O. rewrite dense_scale, D by exact O. apply Rmult_comm.
  - intros o O. f_equal. f_equal. rewrite trace_spread by auto. apply sum_ext. intros k K. rewrite D by exact O. reflexivity.
Qed.
End two.
Theorem C91_rem : forall b shx shy out x y, broadcasts shx out -> (0 < size out)%nat -> wf_value b shx x ->
  let z := handle_rem b shx shy out x y in
  wf_value b out z /\ agree (b_n b) (size out) (densify b out z) (dense_rem shx shy out (densify b shx x) (densify b shy y)).
Proof. intros. apply rem_good; assumption. Qed.
Theorem C91_rem_exact : forall b shx shy out x y w p F G, broadcasts shx out -> broadcasts shy out -> (0 < size out)%nat -> wf_value b shx x -> wf_value b shy y ->
  exact b w p shx F x -> exact b w p shy G y ->
  (forall o, (o < size out)%nat -> let f := F p (bsrc shx out o) in let g := G p (bsrc shy out o) in g <> 0 /\ forall z, z <> 0%Z -> f / g <> IZR z) ->
  exact b w p out (fun q o => rem (F q (bsrc shx out o)) (G q (bsrc shy out o))) (handle_rem b shx shy out x y).
Proof.
  intros b shx shy out x y w p F G BX BY PO WX WY EX EY N. eapply exact_good; [apply rem_good; assumption|]. intros o O. destruct WX as [PX _]. destruct WY as [PY _].
  pose proof (exact_densify b w p shx F x _ EX (bsrc_lt shx out o BX PX PO O)) as GX. pose proof (exact_densify b w p shy G y _ EY (bsrc_lt shy out o BY PY PO O)) as GY.
  destruct (N o O) as [NZ NQ]. set (X := densify b shx x) in *. set (Y := densify b shy y) in *. set (i := bsrc shx out o) in *. set (j := bsrc shy out o) in *. cbv zeta in NZ, NQ.
  pose proof (gl_value _ _ _ _ _ _ _ GX) as VX. pose proof (gl_value _ _ _ _ _ _ _ GY) as VY. cbn beta in VX, VY. rewrite <- VX, <- VY in NQ. rewrite <- VY in NZ.
  apply (gl_local _ _ _ (fun q => F q i - trunc (primal X i / primal Y j) * G q j)).
  - eapply gl_eq; [apply (gl_minus _ _ _ _ _ _ _ _ _ _ _ GX (gl_scal _ _ _ (trunc (primal X i / primal Y j)) _ _ _ _ GY))| | |].
    + destruct X, Y; cbn [dense_rem primal jac_of lapl_of lx jac lapl] in *; fold i j; unfold rem; ring.
    + intros k K. destruct X, Y; cbn [dense_rem primal jac_of lapl_of lx jac lapl] in *; fold i j; ring.
    + destruct X, Y; cbn [dense_rem primal jac_of lapl_of lx jac lapl] in *; fold i j; ring.
  - unfold rem. rewrite VX, VY. ring.
  - intros k K. pose proof (gl_comp _ _ _ Rinv (fun z => - / z ^ 2) (fun z => 2 / z ^ 3) (fun z => z <> 0) _ _ _ _ open_nonzero d_inv d_inv2 NZ GY) as GI.
    pose proof (gl_mult _ _ _ _ _ _ _ _ _ _ _ GX GI) as GQ. destruct (trunc_local _ NQ) as (e & P & H). apply (near_imp (fun s => Rabs (F (line p w k s) i * / G (line p w k s) j - primal X i * / primal Y j) < e)); [|apply (gl_near _ _ _ _ _ _ _ e k K GQ P)].
    intros s Hs. unfold rem. specialize (H _ Hs). unfold Rdiv in *. rewrite H. ring.
Qed.

(** ** Powers with a plain exponent *)
Theorem C91_pow : forall b shx shy out x y, wf_basis b -> broadcasts shx out -> (0 < size out)%nat -> wf_value b shx x ->
  let z := handle_pow b shx shy out x y in
  wf_value b out z /\ agree (b_n b) (size out) (densify b out z) (dense_pow (b_n b) shx shy out (densify b shx x) y).
Proof. intros. apply pow_good; assumption. Qed.
Theorem C91_pow_exact : forall b shx shy out x y w p F, wf_basis b -> broadcasts shx out -> (0 < size out)%nat -> wf_value b shx x -> exact b w p shx F x ->
  (forall o, (o < size out)%nat -> 0 < F p (bsrc shx out o)) ->
  exact b w p out (fun q o => Rpower (F q (bsrc shx out o)) (y (bsrc shy out o))) (handle_pow b shx shy out x y).
Proof.
  intros b shx shy out x y w p F WB BX PO WX EX N. eapply exact_good; [apply pow_good; assumption|]. intros o O. destruct WX as [PX _].
  pose proof (exact_densify b w p shx F x _ EX (bsrc_lt shx out o BX PX PO O)) as GX. specialize (N o O). pose proof (gl_value _ _ _ _ _ _ _ GX) as VX. cbn beta in VX. rewrite <- VX in N.
  set (X := densify b shx x) in *. set (i := bsrc shx out o) in *. set (e := y (bsrc shy out o)).
  assert (OP : open1 (fun z => 0 < z)). { intros z Z. exists z. split; [exact Z|]. intros v V. apply abs_near in V. lra. }
  assert (D1 : forall z, 0 < z -> derivable_pt_lim (fun v => Rpower v e) z (pow1 z e)) by (intros z Z; apply derivable_pt_lim_power; exact Z).
  assert (D2 : forall z, 0 < z -> derivable_pt_lim (fun v => pow1 v e) z (pow2 z e)).
  { intros z Z. unfold pow1, pow2. apply (derivable_pt_lim_scal (fun v => Rpower v (e - 1)) e z). apply derivable_pt_lim_power. exact Z. }
  eapply gl_eq; [apply (gl_comp _ _ _ (fun v => Rpower v e) (fun v => pow1 v e) (fun v => pow2 v e) _ _ _ _ _ OP D1 D2 N GX)| | |].
  - destruct X; cbn [dense_pow primal lx] in *; fold i; reflexivity.
  - intros k K. destruct X; cbn [dense_pow primal jac_of lx jac] in *; fold i; [ring|reflexivity].
  - destruct X; cbn [dense_pow primal lapl_of jac_of lx lapl jac] in *; fold i; [|reflexivity]. rewrite sum_0 by (intros; ring). ring.
Qed.
