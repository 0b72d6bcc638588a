(** C88, determinants and complex components: proofs. *)
From Coq Require Import Reals Arith Lra Lia List Bool.
From Coquelicot Require Import Complex.
From Verif Require Import Lin Lap_Spec Jet Lap_Lang Lap_Model Lap_Props Det Wf_Model Wf_Props Vandermonde Fl_Spec Fl_Det Fl_Model.
Open Scope C_scope.

(** ** Sums and the determinant *)
Lemma csum_cbsum m f : csum m f = cbsum m f.
Proof. induction m as [|m IH]; [reflexivity|]. change (cbsum (S m) f) with (cbsum m f + f m). rewrite <- IH. reflexivity. Qed.
Lemma csum_ext m f g : (forall i, (i < m)%nat -> f i = g i) -> csum m f = csum m g.
Proof. rewrite !csum_cbsum. apply cbsum_ext. Qed.
Lemma rtoc_m1 : RtoC (-1) = - RtoC 1.
Proof. unfold RtoC, Copp; cbn. f_equal; lra. Qed.
Lemma alt_pow i x : alt Copp i x = RtoC ((-1) ^ i) * x.
Proof.
  unfold alt. destruct (Nat.even i) eqn:E.
  - apply Nat.even_spec in E. destruct E as [k ->]. rewrite pow_1_even. ring.
  - assert (O : Nat.odd i = true) by (unfold Nat.odd; rewrite E; reflexivity). apply Nat.odd_spec in O. destruct O as [k ->].
    replace (2 * k + 1)%nat with (S (2 * k)) by lia. rewrite pow_1_odd. rewrite rtoc_m1. ring.
Qed.
Lemma determinant_cdet m : forall a, determinant m a = cdet m a.
Proof.
  induction m as [|m IH]; intros a; [reflexivity|]. rewrite cdet_S. cbn [determinant]. rewrite csum_cbsum. apply cbsum_ext. intros i _.
  rewrite alt_pow, IH. reflexivity.
Qed.

(** ** Complex jets *)
Lemma cjet_split u a b c : cjet u a b c -> u 0%R = a /\ exists d : R -> C, near (fun t => cder u t (d t)) /\ d 0%R = b /\ cder d 0 c.
Proof.
  intros [(A & d & N & B & C0) (A' & d' & N' & B' & C')]. split.
  - rewrite (surjective_pairing (u 0%R)), A, A', <- surjective_pairing. reflexivity.
  - exists (fun t => (d t, d' t)). split; [|split].
    + pose proof (near_and _ _ N N') as X. revert X. apply near_imp. intros t [P Q]. split; auto.
    + rewrite B, B', <- surjective_pairing. reflexivity.
    + split; auto.
Qed.
Lemma cjet_join u a b c d : u 0%R = a -> near (fun t => cder u t (d t)) -> d 0%R = b -> cder d 0 c -> cjet u a b c.
Proof.
  intros A N B [D1 D2]. split.
  - split; [rewrite A; reflexivity|]. exists (fun t => fst (d t)). split; [|split; [rewrite B; reflexivity|exact D1]]. revert N. apply near_imp. intros t [P _]. exact P.
  - split; [rewrite A; reflexivity|]. exists (fun t => snd (d t)). split; [|split; [rewrite B; reflexivity|exact D2]]. revert N. apply near_imp. intros t [_ P]. exact P.
Qed.
Lemma cjet_eq u a b c a' b' c' : cjet u a b c -> a = a' -> b = b' -> c = c' -> cjet u a' b' c'.
Proof. intros J -> -> ->. exact J. Qed.

(** Second-order expansion of the determinant when the first and second derivatives of the
    matrix are A X and A Y. *)
Lemma det_jet n (a : R -> nat -> nat -> C) (A X Y : nat -> nat -> C) :
  (forall r c, (r < n)%nat -> (c < n)%nat -> cjet (fun s => a s r c) (A r c) (mm n A X r c) (mm n A Y r c)) ->
  let g := cbsum n (fun k => X k k) in
  let h := cbsum n (fun k => Y k k) - cbsum n (fun k => cbsum n (fun j => X k j * X j k)) in
  cjet (fun s => cdet n (a s)) (cdet n A) (g * cdet n A) ((h + g * g) * cdet n A).
Proof.
  intros H g h.
  assert (E : exists d : nat -> nat -> R -> C, forall r, (r < n)%nat -> forall c, (c < n)%nat ->
     near (fun t => cder (fun s => a s r c) t (d r c t)) /\ d r c 0%R = mm n A X r c /\ cder (d r c) 0 (mm n A Y r c)).
  { apply (finite_choice (fun (_ : nat) (_ : R) => RtoC 0) n (fun r (dr : nat -> R -> C) => forall c, (c < n)%nat ->
      near (fun t => cder (fun s => a s r c) t (dr c t)) /\ dr c 0%R = mm n A X r c /\ cder (dr c) 0 (mm n A Y r c))). intros r R'.
    apply (finite_choice (fun _ : R => RtoC 0) n (fun c dc => near (fun t => cder (fun s => a s r c) t (dc t)) /\ dc 0%R = mm n A X r c /\ cder dc 0 (mm n A Y r c))).
    intros c C'. destruct (cjet_split _ _ _ _ (H r c R' C')) as [_ D]. exact D. }
  destruct E as [d D].
  assert (V : forall r c, (r < n)%nat -> (c < n)%nat -> a 0%R r c = A r c) by (intros; apply (cjet_split _ _ _ _ (H r c ltac:(auto) ltac:(auto)))).
  apply (cjet_join _ _ _ _ (fun t => cbsum n (fun k => cdet n (with_col k (fun r => d r k t) (a t))))).
  - apply cdet_ext. auto.
  - assert (N : near (fun t => forall r, (r < n)%nat -> forall c, (c < n)%nat -> cder (fun s => a s r c) t (d r c t))).
    { apply (near_sum n (fun r t => forall c, (c < n)%nat -> cder (fun s => a s r c) t (d r c t))). intros r R'.
      apply (near_sum n (fun c t => cder (fun s => a s r c) t (d r c t))). intros c C'. apply (D r R' c C'). }
    revert N. apply near_imp. intros t T. apply (det_der n a (fun r c => d r c t) t). intros. apply T; auto.
  - unfold g. rewrite Cmult_comm, <- cbsum_scal. apply cbsum_ext. intros k K. rewrite Cmult_comm, <- (det_one n k A X K). apply cdet_ext. intros r c R' C'.
    unfold with_col. destruct (Nat.eqb_spec c k) as [->|]; [apply D; auto|apply V; auto].
  - set (B := mm n A X). set (B2 := mm n A Y).
    assert (S2 : forall k, (k < n)%nat -> cder (fun t => cdet n (with_col k (fun r => d r k t) (a t))) 0
        (cbsum n (fun j => cdet n (with_col j (fun r => if Nat.eqb j k then B2 r k else B r j) (with_col k (fun r => d r k 0%R) (a 0%R)))))).
    { intros k K. apply (det_der n (fun t => with_col k (fun r => d r k t) (a t)) (fun r c => if Nat.eqb c k then B2 r k else B r c) 0%R).
      intros r c R' C'. unfold with_col. destruct (Nat.eqb_spec c k) as [->|]; [apply D; auto|]. destruct (D r R' c C') as (N & E & _). pose proof (near_0 _ N) as Q. cbn beta in Q. rewrite E in Q. exact Q. }
    eapply cder_eq; [|apply (cder_sum n (fun k t => cdet n (with_col k (fun r => d r k t) (a t)))); exact S2].
    assert (T : forall k j, (k < n)%nat -> (j < n)%nat ->
       cdet n (with_col j (fun r => if Nat.eqb j k then B2 r k else B r j) (with_col k (fun r => d r k 0%R) (a 0%R))) =
       cdet n A * (X k k * X j j - X k j * X j k + if Nat.eqb j k then Y k k else RtoC 0)).
    { intros k j K J. destruct (Nat.eqb_spec j k) as [->|N].
      - rewrite (cdet_ext n _ (with_col k (fun r => mm n A Y r k) A)); [rewrite det_one by auto; ring|]. intros r c R' C'. unfold with_col. destruct (Nat.eqb_spec c k); [reflexivity|apply V; auto].
      - rewrite (cdet_ext n _ (with_col j (fun r => mm n A X r j) (with_col k (fun r => mm n A X r k) A))); [rewrite det_two by auto; ring|].
        intros r c R' C'. unfold with_col. destruct (Nat.eqb_spec c j); [reflexivity|]. destruct (Nat.eqb_spec c k) as [->|]; [apply D; auto|apply V; auto]. }
    transitivity (cbsum n (fun k => cdet n A * cbsum n (fun j => X k k * X j j - X k j * X j k + (if Nat.eqb j k then Y k k else RtoC 0)))).
    { apply cbsum_ext. intros k K. rewrite <- cbsum_scal. apply cbsum_ext. intros j J. apply T; auto. }
    rewrite cbsum_scal, Cmult_comm. f_equal. unfold h.
    transitivity (cbsum n (fun k => X k k * g + (Copp (cbsum n (fun j => X k j * X j k)) + Y k k))).
    { apply cbsum_ext. intros k K. unfold g. rewrite <- cbsum_scal.
      transitivity (cbsum n (fun j => X k k * X j j) + (cbsum n (fun j => RtoC (-1) * (X k j * X j k)) + cbsum n (fun j => if Nat.eqb j k then Y k k else RtoC 0))).
      { rewrite <- !cbsum_plus. apply cbsum_ext. intros j J. rewrite rtoc_m1. ring. }
      f_equal. f_equal; [rewrite cbsum_scal, rtoc_m1; ring|].
      clear -K. assert (Q : forall i, cbsum i (fun j => if Nat.eqb j k then Y k k else RtoC 0) = if Nat.ltb k i then Y k k else RtoC 0).
      { induction i as [|i IH]; [reflexivity|]. change (cbsum (S i) (fun j => if Nat.eqb j k then Y k k else RtoC 0)) with (cbsum i (fun j => if Nat.eqb j k then Y k k else RtoC 0) + (if Nat.eqb i k then Y k k else RtoC 0)).
        rewrite IH. destruct (Nat.ltb_spec k i), (Nat.ltb_spec k (S i)), (Nat.eqb_spec i k); try lia; ring. }
      rewrite Q. replace (Nat.ltb k n) with true by (symmetry; apply Nat.ltb_lt; auto). reflexivity. }
    rewrite cbsum_plus, cbsum_plus. rewrite (cbsum_ext n (fun k => X k k * g) (fun k => g * X k k)) by (intros; ring). rewrite cbsum_scal. fold g.
    rewrite (cbsum_ext n (fun k => Copp (cbsum n (fun j => X k j * X j k))) (fun k => RtoC (-1) * cbsum n (fun j => X k j * X j k))) by (intros; rewrite rtoc_m1; ring).
    rewrite cbsum_scal, rtoc_m1. ring.
Qed.

(** ** Logarithm and phase *)
Lemma open_positive : open1 (fun x => (0 < x)%R).
Proof. intros x X. exists x. split; auto. intros y Y. apply Rabs_def2 in Y. lra. Qed.
Lemma norm2_pos (z : C) : z <> RtoC 0 -> (0 < fst z * fst z + snd z * snd z)%R.
Proof.
  destruct z as [x y]; cbn. intros H. destruct (Req_dec x 0) as [->|X]; [|nra]. destruct (Req_dec y 0) as [->|Y]; [exfalso; apply H; reflexivity|nra].
Qed.
Lemma ln_Cmod (z : C) : z <> RtoC 0 -> ln (Cmod z) = (/ 2 * ln (fst z * fst z + snd z * snd z))%R.
Proof.
  intros Z. pose proof (norm2_pos z Z) as P. unfold Cmod. replace (fst z ^ 2 + snd z ^ 2)%R with (fst z * fst z + snd z * snd z)%R by ring.
  set (q := (fst z * fst z + snd z * snd z)%R) in *. assert (S : (0 < sqrt q)%R) by (apply sqrt_lt_R0; auto).
  rewrite <- (sqrt_sqrt q) at 2 by lra. rewrite ln_mult by auto. field.
Qed.
Lemma cjet_near_nonzero D a b c : cjet D a b c -> a <> RtoC 0 -> near (fun s => D s <> RtoC 0).
Proof.
  intros [J1 J2] Z. assert (O : fst a <> 0%R \/ snd a <> 0%R).
  { destruct (Req_dec (fst a) 0); [|auto]. right. intros E. apply Z. destruct a as [x y]; cbn in *. subst. reflexivity. }
  destruct O as [O|O].
  - pose proof (jet_near _ _ _ _ (Rabs (fst a)) J1 (Rabs_pos_lt _ O)) as N. revert N. apply near_imp. intros t T E. rewrite E in T. cbn in T. rewrite Rminus_0_l, Rabs_Ropp in T. lra.
  - pose proof (jet_near _ _ _ _ (Rabs (snd a)) J2 (Rabs_pos_lt _ O)) as N. revert N. apply near_imp. intros t T E. rewrite E in T. cbn in T. rewrite Rminus_0_l, Rabs_Ropp in T. lra.
Qed.
Lemma log_jet D D0 g h : cjet D D0 (g * D0) ((h + g * g) * D0) -> D0 <> RtoC 0 -> jet (fun s => ln (Cmod (D s))) (ln (Cmod D0)) (fst g) (fst h).
Proof.
  intros J Z. pose proof (cjet_near_nonzero _ _ _ _ J Z) as NZ. destruct J as [J1 J2]. pose proof (norm2_pos D0 Z) as P.
  pose proof (jet_plus _ _ _ _ _ _ _ _ (jet_mult _ _ _ _ _ _ _ _ J1 J1) (jet_mult _ _ _ _ _ _ _ _ J2 J2)) as JN.
  assert (D1 : forall x, (0 < x)%R -> derivable_pt_lim ln x (/ x)%R) by (intros; apply derivable_pt_lim_ln; auto).
  assert (D2 : forall x, (0 < x)%R -> derivable_pt_lim Rinv x (- / x ^ 2)%R) by (intros; apply d_inv; lra).
  pose proof (jet_scal (/ 2)%R _ _ _ _ (jet_comp ln Rinv (fun x => - / x ^ 2)%R _ _ _ _ _ open_positive D1 D2 P JN)) as L.
  apply (jet_local (fun s => / 2 * ln (fst (D s) * fst (D s) + snd (D s) * snd (D s)))%R).
  - eapply jet_eq; [exact L| | |].
    + symmetry. apply ln_Cmod; auto.
    + destruct g as [g1 g2], D0 as [p q], h as [h1 h2]; cbn in *. field. lra.
    + destruct g as [g1 g2], D0 as [p q], h as [h1 h2]; cbn in *. field. lra.
  - revert NZ. apply near_imp. intros t T. symmetry. apply ln_Cmod; auto.
Qed.
Lemma inv_Cmod (z : C) : z <> RtoC 0 -> z / RtoC (Cmod z) = (fst z * exp (- ln (Cmod z)), snd z * exp (- ln (Cmod z)))%R.
Proof.
  intros Z. pose proof (Cmod_gt_0 z). assert (P : (0 < Cmod z)%R) by (apply Cmod_gt_0; auto). rewrite exp_Ropp, exp_ln by auto.
  destruct z as [x y]. unfold Cdiv, Cmult, Cinv, RtoC; cbn [fst snd]. apply injective_projections; cbn [fst snd]; field; lra.
Qed.
Lemma sign_jet D D0 g h : cjet D D0 (g * D0) ((h + g * g) * D0) -> D0 <> RtoC 0 ->
  let s0 := D0 / RtoC (Cmod D0) in
  cjet (fun s => D s / RtoC (Cmod (D s))) s0 (Ci * s0 * RtoC (snd g)) (s0 * (Ci * RtoC (snd h) - RtoC (snd g * snd g))).
Proof.
  intros J Z s0. pose proof (cjet_near_nonzero _ _ _ _ J Z) as NZ. pose proof (log_jet D D0 g h J Z) as L. destruct J as [J1 J2].
  assert (OT : open1 (fun _ : R => True)) by (intros x _; exists 1%R; split; [lra|auto]).
  assert (DE : forall x, True -> derivable_pt_lim exp x (exp x)) by (intros; apply derivable_pt_lim_exp).
  pose proof (jet_comp exp exp exp (fun _ => True) _ _ _ _ OT DE DE I (jet_opp _ _ _ _ L)) as E.
  assert (S0 : s0 = (fst D0 * exp (- ln (Cmod D0)), snd D0 * exp (- ln (Cmod D0)))%R) by (apply inv_Cmod; auto).
  set (e := exp (- ln (Cmod D0))) in *. rewrite S0. split.
  - apply (jet_local (fun s => fst (D s) * exp (- ln (Cmod (D s))))%R).
    + eapply jet_eq; [exact (jet_mult _ _ _ _ _ _ _ _ J1 E)| | |]; destruct g as [g1 g2], D0 as [p q], h as [h1 h2]; cbn; ring.
    + revert NZ. apply near_imp. intros t T. rewrite inv_Cmod by auto. reflexivity.
  - apply (jet_local (fun s => snd (D s) * exp (- ln (Cmod (D s))))%R).
    + eapply jet_eq; [exact (jet_mult _ _ _ _ _ _ _ _ J2 E)| | |]; destruct g as [g1 g2], D0 as [p q], h as [h1 h2]; cbn; ring.
    + revert NZ. apply near_imp. intros t T. rewrite inv_Cmod by auto. reflexivity.
Qed.

(** ** The rule *)
(** From the entries' gradients and Laplacians to per-coordinate second derivatives. *)
Lemma entries_second n m w p (a : vec -> nat -> nat -> C) x J L :
  (forall r c, (r < m)%nat -> (c < m)%nat -> complex_gradient_and_laplacian n w p (fun q => a q r c) (x r c) (fun k => J k r c) (L r c)) ->
  exists H : nat -> nat -> nat -> C, (forall k r c, (k < n)%nat -> (r < m)%nat -> (c < m)%nat ->
     cjet (fun s => a (line p w k s) r c) (x r c) (J k r c) (H k r c)) /\
   forall r c, (r < m)%nat -> (c < m)%nat -> L r c = csum n (fun k => H k r c).
Proof.
  intros G.
  destruct (finite_choice (fun (_ : nat) (_ : nat) => RtoC 0) m (fun r (Hr : nat -> nat -> C) => forall c, (c < m)%nat ->
     (forall k, (k < n)%nat -> cjet (fun s => a (line p w k s) r c) (x r c) (J k r c) (Hr c k)) /\ L r c = csum n (Hr c))) as [H HH].
  - intros r R'. apply (finite_choice (fun _ : nat => RtoC 0) m (fun c (Hc : nat -> C) => (forall k, (k < n)%nat -> cjet (fun s => a (line p w k s) r c) (x r c) (J k r c) (Hc k)) /\ L r c = csum n Hc)).
    intros c C'. destruct (G r c R' C') as [(A1 & h1 & P1 & S1) (A2 & h2 & P2 & S2)]. exists (fun k => (h1 k, h2 k)). split.
    + intros k K. split; cbn; auto.
    + unfold csum; cbn. rewrite (surjective_pairing (L r c)), S1, S2. reflexivity.
  - exists (fun k r c => H r c k). split; [intros k r c K R' C'; apply HH; auto|]. intros r c R' C'. apply HH; auto.
Qed.
Lemma mm_inverse m A inv M : complex_inverse m A inv -> forall r c, (r < m)%nat -> (c < m)%nat -> mm m A (mm m inv M) r c = M r c.
Proof.
  intros [I1 _] r c R' C'. unfold mm.
  transitivity (cbsum m (fun b => cbsum m (fun j => A r j * inv j b) * M b c)).
  { rewrite (cbsum_ext m (fun j => A r j * cbsum m (fun b => inv j b * M b c)) (fun j => cbsum m (fun b => A r j * (inv j b * M b c)))) by (intros; rewrite cbsum_scal; reflexivity).
    rewrite csum_exch. apply cbsum_ext. intros b B. rewrite Cmult_comm, <- cbsum_scal. apply cbsum_ext. intros. ring. }
  transitivity (cbsum m (fun b => RtoC (delta r b) * M b c)).
  { apply cbsum_ext. intros b B. rewrite <- csum_cbsum, I1 by auto. reflexivity. }
  assert (Q : forall i, cbsum i (fun b => RtoC (delta r b) * M b c) = if Nat.ltb r i then M r c else RtoC 0).
  { induction i as [|i IH]; [reflexivity|]. change (cbsum (S i) (fun b => RtoC (delta r b) * M b c)) with (cbsum i (fun b => RtoC (delta r b) * M b c) + RtoC (delta r i) * M i c).
    rewrite IH. unfold delta. destruct (Nat.eqb_spec r i) as [E|E]; destruct (Nat.ltb_spec r i), (Nat.ltb_spec r (S i)); try lia; [rewrite E; ring|ring|ring]. }
  rewrite Q. replace (Nat.ltb r m) with true by (symmetry; apply Nat.ltb_lt; auto). reflexivity.
Qed.
Lemma csum_fst n f : fst (csum n f) = sum n (fun k => fst (f k)). Proof. reflexivity. Qed.
Lemma csum_snd n f : snd (csum n f) = sum n (fun k => snd (f k)). Proof. reflexivity. Qed.
Lemma cbsum_minus n f g : cbsum n (fun i => f i - g i) = cbsum n f - cbsum n g.
Proof.
  rewrite (cbsum_ext n _ (fun i => f i + RtoC (-1) * g i)) by (intros; rewrite rtoc_m1; ring). rewrite cbsum_plus, cbsum_scal, rtoc_m1. ring.
Qed.

(** The value and derivatives the rule returns for one matrix. *)
Lemma slogdet_jets n m w p (a : vec -> nat -> nat -> C) (x : claptuple (nat * nat)) inv :
  (forall r c, (r < m)%nat -> (c < m)%nat -> complex_gradient_and_laplacian n w p (fun q => a q r c) (c_x x (r, c)) (fun k => c_jac x k (r, c)) (c_lapl x (r, c))) ->
  complex_inverse m (fun r c => c_x x (r, c)) (fun r c => inv (r, c)) -> determinant m (a p) <> RtoC 0 ->
  determinant m (fun r c => c_x x (r, c)) = determinant m (a p) /\
  exists g h : nat -> C,
    (forall k, (k < n)%nat -> g k = full_jac m inv (c_jac x) k /\
       cjet (fun s => determinant m (a (line p w k s))) (determinant m (a p)) (g k * determinant m (a p)) ((h k + g k * g k) * determinant m (a p))) /\
    csum n h = full_lapl_jvp m inv (c_lapl x) + hess_trace n m inv (c_jac x).
Proof.
  intros G I NZ.
  assert (V : forall r c, (r < m)%nat -> (c < m)%nat -> c_x x (r, c) = a p r c).
  { intros r c R' C'. destruct (G r c R' C') as [[A1 _] [A2 _]]. rewrite (surjective_pairing (c_x x (r, c))), A1, A2, <- surjective_pairing. reflexivity. }
  assert (DV : determinant m (fun r c => c_x x (r, c)) = determinant m (a p)) by (rewrite !determinant_cdet; apply cdet_ext; auto).
  split; auto.
  destruct (entries_second n m w p a (fun r c => c_x x (r, c)) (fun k r c => c_jac x k (r, c)) (fun r c => c_lapl x (r, c)) G) as (H & HJ & HL).
  set (A := fun r c => c_x x (r, c)) in *. set (IV := fun r c => inv (r, c)) in *.
  set (X := fun k => mm m IV (fun r c => c_jac x k (r, c))). set (Y := fun k => mm m IV (fun r c => H k r c)).
  exists (fun k => cbsum m (fun b => X k b b)).
  exists (fun k => cbsum m (fun b => Y k b b) - cbsum m (fun b => cbsum m (fun j => X k b j * X k j b))).
  split.
  - intros k K. split.
    + unfold full_jac, ainv_j. rewrite csum_cbsum. apply cbsum_ext. intros b B. rewrite csum_cbsum. reflexivity.
    + rewrite <- DV. rewrite (determinant_cdet m A).
      pose proof (det_jet m (fun s => a (line p w k s)) A (X k) (Y k)) as DJ. cbv zeta in DJ.
      assert (E : cjet (fun s => cdet m (a (line p w k s))) (cdet m A) (cbsum m (fun b => X k b b) * cdet m A)
        ((cbsum m (fun b => Y k b b) - cbsum m (fun b => cbsum m (fun j => X k b j * X k j b)) + cbsum m (fun b => X k b b) * cbsum m (fun b => X k b b)) * cdet m A)).
      { apply DJ. intros r c R' C'. eapply cjet_eq; [exact (HJ k r c K R' C')|reflexivity|symmetry; exact (mm_inverse m A IV (fun r c => c_jac x k (r, c)) I r c R' C')|symmetry; exact (mm_inverse m A IV (fun r c => H k r c) I r c R' C')]. }
      destruct E as [E1 E2]. split; [apply (jet_ext (fun s => fst (cdet m (a (line p w k s)))))|apply (jet_ext (fun s => snd (cdet m (a (line p w k s)))))]; auto; intros; rewrite determinant_cdet; reflexivity.
  - rewrite csum_cbsum, cbsum_minus. unfold full_lapl_jvp, hess_trace. unfold Cminus. f_equal.
    + rewrite csum_exch, csum_cbsum. apply cbsum_ext. intros b B. unfold Y, mm. rewrite csum_exch, csum_cbsum. apply cbsum_ext. intros j Jj. rewrite HL by auto. rewrite csum_cbsum, cbsum_scal. reflexivity.
    + f_equal. rewrite csum_cbsum. apply cbsum_ext. intros k K. rewrite csum_cbsum. apply cbsum_ext. intros b B. rewrite csum_cbsum. apply cbsum_ext. intros j Jj.
      unfold X, ainv_j, mm. rewrite !csum_cbsum. reflexivity.
Qed.

(** ** C88: determinants *)
(** What a value of the interpreter must satisfy to be right for [F]: a tracked value carries
    value, gradient and Laplacian, an untracked one is constant near the point. *)
Definition c_correct {A} (n : nat) (w p : vec) (F : vec -> A -> C) (i : A) (v : cvalue A) : Prop :=
  match v with
  | CPlain a => a i = F p i /\ forall k, (k < n)%nat -> near (fun s => F (line p w k s) i = a i)
  | CTracked t => complex_gradient_and_laplacian n w p (fun q => F q i) (c_x t i) (fun k => c_jac t k i) (c_lapl t i)
  end.
Lemma gl_intro n w p f x J L h : x = f p -> (forall k, (k < n)%nat -> jet (fun s => f (line p w k s)) x (J k) (h k)) -> L = sum n h -> gradient_and_laplacian n w p f x J L.
Proof. intros. split; auto. exists h. auto. Qed.
Definition det_sign (d : C) : C := d / RtoC (Cmod d).
Definition det_log (d : C) : C := RtoC (ln (Cmod d)).

Lemma logdet_correct n m w p (a : vec -> nat -> nat -> C) (x : claptuple (nat * nat)) inv b :
  (forall r c, (r < m)%nat -> (c < m)%nat -> complex_gradient_and_laplacian n w p (fun q => a q r c) (c_x x (r, c)) (fun k => c_jac x k (r, c)) (c_lapl x (r, c))) ->
  complex_inverse m (fun r c => c_x x (r, c)) (fun r c => inv (r, c)) -> determinant m (a p) <> RtoC 0 ->
  c_correct n w p (fun q _ => det_log (determinant m (a q))) tt (snd (handle_slogdet n m b inv x)).
Proof.
  intros G I NZ. destruct (slogdet_jets n m w p a x inv G I NZ) as (DV & g & h & J & S).
  assert (Q : c_correct n w p (fun q _ => det_log (determinant m (a q))) tt (CTracked {| c_x := fun _ : unit => snd (slogdet m (c_x x)); c_jac := fun k _ => RtoC (fst (full_jac m inv (c_jac x) k)); c_lapl := fun _ => RtoC (fst (full_lapl_jvp m inv (c_lapl x)) + fst (hess_trace n m inv (c_jac x))) |})).
  2:{ unfold handle_slogdet. destruct b; exact Q. }
  cbn [c_correct c_x c_jac c_lapl]. unfold slogdet. cbn [snd]. rewrite DV. split.
  - apply (gl_intro _ _ _ _ _ _ _ (fun k => fst (h k))); [reflexivity| |].
    + intros k K. destruct (J k K) as [E Jk]. refine (jet_eq _ _ _ _ _ _ _ (log_jet _ _ _ _ Jk NZ) _ _ _); [reflexivity|rewrite E; reflexivity|reflexivity].
    + rewrite <- (csum_fst n h), S. reflexivity.
  - cbn. apply (gl_eq n w p _ 0%R (fun _ => 0%R) 0%R); [apply gl_const|reflexivity|reflexivity|reflexivity].
Qed.

(** Complex matrices: value, gradient and Laplacian of ln|det| and of the phase det/|det|. *)
Theorem C88_slogdet_of_complex_matrices : forall n m (w p : vec) (a : vec -> nat -> nat -> C) (x : claptuple (nat * nat)) inv,
  (forall r c, (r < m)%nat -> (c < m)%nat -> complex_gradient_and_laplacian n w p (fun q => a q r c) (c_x x (r, c)) (fun k => c_jac x k (r, c)) (c_lapl x (r, c))) ->
  complex_inverse m (fun r c => c_x x (r, c)) (fun r c => inv (r, c)) -> determinant m (a p) <> RtoC 0 ->
  exists sign logdet, handle_slogdet n m true inv x = (CTracked sign, CTracked logdet) /\
    complex_gradient_and_laplacian n w p (fun q => determinant m (a q) / RtoC (Cmod (determinant m (a q)))) (c_x sign tt) (fun k => c_jac sign k tt) (c_lapl sign tt) /\
    complex_gradient_and_laplacian n w p (fun q => RtoC (ln (Cmod (determinant m (a q))))) (c_x logdet tt) (fun k => c_jac logdet k tt) (c_lapl logdet tt).
Proof.
  intros n m w p a x inv G I NZ. eexists. eexists. split; [reflexivity|]. split; [|exact (logdet_correct n m w p a x inv true G I NZ)].
  destruct (slogdet_jets n m w p a x inv G I NZ) as (DV & g & h & J & S). cbn [c_x c_jac c_lapl]. unfold slogdet. cbn [fst]. rewrite DV.
  set (s0 := determinant m (a p) / RtoC (Cmod (determinant m (a p)))).
  set (lp := s0 * (Ci * RtoC (snd (full_lapl_jvp m inv (c_lapl x)) + snd (hess_trace n m inv (c_jac x))) - RtoC (sum n (fun k => snd (full_jac m inv (c_jac x) k) * snd (full_jac m inv (c_jac x) k))%R))).
  assert (L : lp = csum n (fun k => s0 * (Ci * RtoC (snd (h k)) - RtoC (snd (g k) * snd (g k))))).
  { unfold lp. rewrite csum_cbsum, cbsum_scal. f_equal. rewrite cbsum_minus, cbsum_scal. f_equal.
    - f_equal. change (snd (full_lapl_jvp m inv (c_lapl x)) + snd (hess_trace n m inv (c_jac x)))%R with (snd (full_lapl_jvp m inv (c_lapl x) + hess_trace n m inv (c_jac x))). rewrite <- S, <- csum_cbsum. unfold csum, RtoC; cbn. f_equal. symmetry. apply sum_0. auto.
    - rewrite <- csum_cbsum. unfold csum, RtoC; cbn. rewrite (sum_0 n (fun _ => 0%R)) by auto. f_equal. apply sum_ext. intros k K. destruct (J k K) as [E _]. rewrite E. reflexivity. }
  split.
  - apply (gl_intro _ _ _ _ _ _ _ (fun k => fst (s0 * (Ci * RtoC (snd (h k)) - RtoC (snd (g k) * snd (g k)))))); [reflexivity| |rewrite L; reflexivity].
    intros k K. destruct (J k K) as [E Jk]. rewrite <- E. exact (proj1 (sign_jet _ _ _ _ Jk NZ)).
  - apply (gl_intro _ _ _ _ _ _ _ (fun k => snd (s0 * (Ci * RtoC (snd (h k)) - RtoC (snd (g k) * snd (g k)))))); [reflexivity| |rewrite L; reflexivity].
    intros k K. destruct (J k K) as [E Jk]. rewrite <- E. exact (proj2 (sign_jet _ _ _ _ Jk NZ)).
Qed.

(** Real matrices: the sign is returned without derivatives, which is right because it is
    constant near the point. *)
Lemma real_det m (a : nat -> nat -> R) : snd (determinant m (fun r c => RtoC (a r c))) = 0%R.
Proof.
  revert a. induction m as [|m IH]; intros a; [reflexivity|]. cbn [determinant]. rewrite csum_snd. apply sum_0. intros i _.
  specialize (IH (fun r c => a (if Nat.ltb r i then r else S r) (S c))). cbn in *. rewrite IH. ring.
Qed.
Theorem C88_slogdet_of_real_matrices : forall n m (w p : vec) (a : vec -> nat -> nat -> R) (x : claptuple (nat * nat)) inv,
  let det := fun q => determinant m (fun r c => RtoC (a q r c)) in
  (forall r c, (r < m)%nat -> (c < m)%nat -> complex_gradient_and_laplacian n w p (fun q => RtoC (a q r c)) (c_x x (r, c)) (fun k => c_jac x k (r, c)) (c_lapl x (r, c))) ->
  complex_inverse m (fun r c => c_x x (r, c)) (fun r c => inv (r, c)) -> det p <> RtoC 0 ->
  exists sign logdet, handle_slogdet n m false inv x = (CPlain sign, CTracked logdet) /\
    sign tt = det p / RtoC (Cmod (det p)) /\
    (forall k, (k < n)%nat -> near (fun s => det (line p w k s) / RtoC (Cmod (det (line p w k s))) = sign tt)) /\
    complex_gradient_and_laplacian n w p (fun q => RtoC (ln (Cmod (det q)))) (c_x logdet tt) (fun k => c_jac logdet k tt) (c_lapl logdet tt).
Proof.
  intros n m w p a x inv det G I NZ. eexists. eexists. split; [reflexivity|]. cbv beta.
  destruct (slogdet_jets n m w p (fun q r c => RtoC (a q r c)) x inv G I NZ) as (DV & g & h & J & S).
  split; [unfold slogdet; cbn [fst]; rewrite DV; reflexivity|]. split; [|exact (logdet_correct n m w p (fun q r c => RtoC (a q r c)) x inv false G I NZ)].
  intros k K. unfold slogdet. cbn [fst]. rewrite DV. destruct (J k K) as [_ [J1 _]].
  assert (R1 : forall q, det q = RtoC (fst (det q))) by (intros q; rewrite (surjective_pairing (det q)); unfold det; rewrite real_det; reflexivity).
  assert (NZ1 : fst (det p) <> 0%R) by (intros E; apply NZ; rewrite R1, E; reflexivity).
  pose proof (jet_near _ _ _ _ (Rabs (fst (det p))) J1 (Rabs_pos_lt _ NZ1)) as N. revert N. apply near_imp. intros s T.
  fold det. fold (det p) (det (line p w k s)). fold (det (line p w k s)) in T. fold (det p) in T.
  change (determinant m (fun r c => RtoC (a p r c))) with (det p).
  set (u := fst (det (line p w k s))) in *. set (v := fst (det p)) in *.
  rewrite (R1 (line p w k s)), (R1 p). fold u v. rewrite !Cmod_R.
  change (Rabs (u - v) < Rabs v)%R in T.
  assert (SS : (0 < v /\ 0 < u)%R \/ (v < 0 /\ u < 0)%R).
  { destruct (Rlt_le_dec 0 v) as [P|P].
    - rewrite (Rabs_right v) in T by lra. apply Rabs_def2 in T. left. lra.
    - rewrite (Rabs_left v) in T by lra. apply Rabs_def2 in T. right. lra. }
  rewrite <- !RtoC_div.
  - f_equal. destruct SS as [[P Q]|[P Q]]; [rewrite !Rabs_right by lra|rewrite !Rabs_left by lra]; field; lra.
  - apply Rabs_no_R0. auto.
  - apply Rabs_no_R0. destruct SS; lra.
Qed.

(** ** C88: complex components *)
Lemma c_correct_gl {A} n w p (F : vec -> A -> C) i v : c_correct n w p F i v ->
  complex_gradient_and_laplacian n w p (fun q => F q i) (c_primal v i) (fun k => match v with CPlain _ => RtoC 0 | CTracked t => c_jac t k i end) (match v with CPlain _ => RtoC 0 | CTracked t => c_lapl t i end).
Proof.
  destruct v as [a|t]; cbn; [|auto]. intros [E N]. split; cbn.
  - apply (gl_local n w p (fun _ => fst (a i))); [apply gl_const|rewrite E; reflexivity|]. intros k K. generalize (N k K). apply near_imp. intros t H. rewrite H. reflexivity.
  - apply (gl_local n w p (fun _ => snd (a i))); [apply gl_const|rewrite E; reflexivity|]. intros k K. generalize (N k K). apply near_imp. intros t H. rewrite H. reflexivity.
Qed.
Lemma gl_zero n w p f : (forall q, f q = 0%R) -> gradient_and_laplacian n w p f 0%R (fun _ => 0%R) 0%R.
Proof. intros H. apply (gl_ext n w p (fun _ => 0%R)); [intros; symmetry; auto|apply gl_const]. Qed.
(** [lax.real], [lax.imag] and [lax.conj] of right values are right. *)
Theorem C88_real_imag_conj : forall (A : Type) n (w p : vec) (F : vec -> A -> C) i v, c_correct n w p F i v ->
  c_correct n w p (fun q i => RtoC (fst (F q i))) i (handle_real v) /\
  c_correct n w p (fun q i => RtoC (snd (F q i))) i (handle_imag v) /\
  c_correct n w p (fun q i => (fst (F q i), (- snd (F q i))%R)) i (handle_conj v).
Proof.
  intros A n w p F i [a|t]; cbn.
  - intros [E N]. repeat split; try (rewrite E; reflexivity); intros k K; generalize (N k K); apply near_imp; intros s H; rewrite H; reflexivity.
  - intros [H1 H2]. refine (conj (conj _ _) (conj (conj _ _) (conj _ _))); cbn.
    + exact H1.
    + apply gl_zero. auto.
    + exact H2.
    + apply gl_zero. auto.
    + exact H1.
    + cbn. apply (gl_eq n w p _ (-1 * snd (c_x t i))%R (fun k => -1 * snd (c_jac t k i))%R (-1 * snd (c_lapl t i))%R); [|ring|intros; ring|ring].
      apply (gl_ext n w p (fun q => -1 * snd (F q i))%R); [intros; ring|]. apply gl_scal. exact H2.
Qed.
(** [lax.complex] of two right real values is right. *)
Theorem C88_complex_from_parts : forall (A : Type) n (w p : vec) (fr fi : vec -> A -> R) i re im,
  c_correct n w p (fun q i => RtoC (fr q i)) i re -> c_correct n w p (fun q i => RtoC (fi q i)) i im ->
  c_correct n w p (fun q i => (fr q i, fi q i)) i (handle_complex re im).
Proof.
  intros A n w p fr fi i re im H1 H2. destruct re as [a|t], im as [b|u].
  - cbn in *. destruct H1 as [E1 N1], H2 as [E2 N2]. split.
    + rewrite E1, E2. unfold RtoC, Cplus, Cmult, Ci; cbn. f_equal; ring.
    + intros k K. generalize (near_and _ _ (N1 k K) (N2 k K)). apply near_imp. intros s [X Y]. rewrite <- X, <- Y. unfold RtoC, Cplus, Cmult, Ci; cbn. f_equal; ring.
  - destruct (c_correct_gl _ _ _ _ _ _ H1) as [A1 A2], (c_correct_gl _ _ _ _ _ _ H2) as [B1 B2]. cbn in *. split; cbn.
    + apply (gl_eq n w p _ (fst (a i) - snd (c_x u i))%R (fun k => 0 - snd (c_jac u k i))%R (0 - snd (c_lapl u i))%R).
      * apply (gl_ext n w p (fun q => fr q i - 0)%R); [intros; ring|]. exact (gl_minus _ _ _ _ _ _ _ _ _ _ _ A1 B2).
      * pose proof (gl_value _ _ _ _ _ _ _ B2). cbn in *. lra.
      * intros; ring.
      * ring.
    + apply (gl_eq n w p _ (fst (c_x u i)) (fun k => fst (c_jac u k i)) (fst (c_lapl u i))); [exact B1|reflexivity|intros; ring|ring].
  - destruct (c_correct_gl _ _ _ _ _ _ H1) as [A1 A2], (c_correct_gl _ _ _ _ _ _ H2) as [B1 B2]. cbn in *. split; cbn.
    + exact A1.
    + apply (gl_eq n w p _ (snd (c_x t i) + fst (b i))%R (fun k => snd (c_jac t k i) + 0)%R (snd (c_lapl t i) + 0)%R).
      * apply (gl_ext n w p (fun q => 0 + fi q i)%R); [intros; ring|]. exact (gl_plus _ _ _ _ _ _ _ _ _ _ _ A2 B1).
      * pose proof (gl_value _ _ _ _ _ _ _ A2). cbn in *. lra.
      * intros; ring.
      * ring.
  - destruct (c_correct_gl _ _ _ _ _ _ H1) as [A1 A2], (c_correct_gl _ _ _ _ _ _ H2) as [B1 B2]. cbn in *. split; cbn.
    + apply (gl_eq n w p _ (fst (c_x t i) - snd (c_x u i))%R (fun k => fst (c_jac t k i) - snd (c_jac u k i))%R (fst (c_lapl t i) - snd (c_lapl u i))%R).
      * apply (gl_ext n w p (fun q => fr q i - 0)%R); [intros; ring|]. exact (gl_minus _ _ _ _ _ _ _ _ _ _ _ A1 B2).
      * pose proof (gl_value _ _ _ _ _ _ _ B2). cbn in *. lra.
      * intros; ring.
      * ring.
    + apply (gl_eq n w p _ (snd (c_x t i) + fst (c_x u i))%R (fun k => snd (c_jac t k i) + fst (c_jac u k i))%R (snd (c_lapl t i) + fst (c_lapl u i))%R).
      * apply (gl_ext n w p (fun q => 0 + fi q i)%R); [intros; ring|]. exact (gl_plus _ _ _ _ _ _ _ _ _ _ _ A2 B1).
      * pose proof (gl_value _ _ _ _ _ _ _ A2). cbn in *. lra.
      * intros; ring.
      * ring.
Qed.

(** The hypotheses are met: the matrix ((1 + q0, i q1), (q1, 1)) at the origin; the Laplacian of
    ln|det| there is -1 and of the phase is -2i. *)
Lemma gl_affine n w p f x (b : nat -> R) l : x = f p -> l = 0%R -> (forall k s, (k < n)%nat -> f (line p w k s) = (x + b k * s)%R) -> gradient_and_laplacian n w p f x b l.
Proof.
  intros X -> H. apply (gl_intro _ _ _ _ _ _ _ (fun _ => 0%R)); [auto| |symmetry; apply sum_0; auto].
  intros k K. apply (jet_ext (fun s => x + b k * s)%R); [intros; symmetry; auto|]. apply jet_line.
Qed.
Definition example_matrix (q : vec) (r c : nat) : C :=
  match r, c with O, O => RtoC (1 + q 0%nat) | O, _ => (0%R, q 1%nat) | _, O => RtoC (q 1%nat) | _, _ => RtoC 1 end.
Definition example_tuple : claptuple (nat * nat) :=
  {| c_x := fun i => RtoC (delta (fst i) (snd i));
     c_jac := fun k i => match k, i with O, (O, O) => RtoC 1 | S O, (O, S O) => Ci | S O, (S O, O) => RtoC 1 | _, _ => RtoC 0 end;
     c_lapl := fun _ => RtoC 0 |}.
Example slogdet_hypotheses : let w := fun _ => 1%R in let p := fun _ => 0%R in let inv := fun i : nat * nat => RtoC (delta (fst i) (snd i)) in
  (forall r c, (r < 2)%nat -> (c < 2)%nat -> complex_gradient_and_laplacian 2 w p (fun q => example_matrix q r c) (c_x example_tuple (r, c)) (fun k => c_jac example_tuple k (r, c)) (c_lapl example_tuple (r, c))) /\
  complex_inverse 2 (fun r c => c_x example_tuple (r, c)) (fun r c => inv (r, c)) /\ determinant 2 (example_matrix p) <> RtoC 0 /\
  (match handle_slogdet 2 2 true inv example_tuple with (CTracked s, CTracked l) => c_lapl s tt = (0%R, -2) /\ c_lapl l tt = RtoC (-1) | _ => False end)%R.
Proof.
  intros w p inv. split; [|split; [|split]].
  - intros [|[|r]] [|[|c]] H1 H2; try lia; split; apply gl_affine; try reflexivity; try (unfold p; cbn; ring); intros [|[|k]] s K; try lia; unfold line, w, p; cbn; ring.
  - split; intros [|[|r]] [|[|c]] H1 H2; try lia; unfold csum, inv, example_tuple, delta, Cmult, RtoC; cbn; f_equal; ring.
  - unfold p; cbn. unfold csum, Cmult, RtoC; cbn. intros E. apply (f_equal fst) in E. cbn in E. lra.
  - assert (D : determinant 2 (fun r c => c_x example_tuple (r, c)) = RtoC 1) by (cbn; unfold csum, Cmult, RtoC; cbn; f_equal; ring).
    assert (Sg : fst (slogdet 2 (c_x example_tuple)) = RtoC 1) by (unfold slogdet; rewrite D; cbn [fst]; rewrite Cmod_1; unfold Cdiv; rewrite <- RtoC_inv by lra; rewrite <- RtoC_mult; f_equal; field).
    unfold handle_slogdet. rewrite Sg. cbn [negb c_lapl].
    assert (F : full_lapl_jvp 2 inv (c_lapl example_tuple) = RtoC 0) by (unfold full_lapl_jvp, csum, inv, example_tuple, delta, Cmult, RtoC; cbn; f_equal; ring).
    assert (H : hess_trace 2 2 inv (c_jac example_tuple) = (-1, -2)%R) by (unfold hess_trace, ainv_j, csum, inv, example_tuple, delta, Cmult, RtoC, Copp, Ci; cbn; f_equal; ring).
    assert (G : sum 2 (fun k => snd (full_jac 2 inv (c_jac example_tuple) k) * snd (full_jac 2 inv (c_jac example_tuple) k))%R = 0%R) by (unfold full_jac, ainv_j, csum, inv, example_tuple, delta, Cmult, RtoC, Ci; cbn; ring).
    rewrite F, H, G. unfold Cmult, Cminus, Cplus, Copp, Ci, RtoC; cbn. split; f_equal; ring.
Qed.
