(** C95: Jacobian and Hessian entries, mixed dtypes, elementwise functions, and concrete cases. *)
From Coq Require Import Reals List Arith Bool Lra Lia FunctionalExtensionality.
From Coquelicot Require Import Complex Derive.
From Verif Require Import Lin Jet Lap_Spec Lap_Props Fl_Spec Cx_Spec Cx_Lemmas Ad_Model Ad_Spec Ad_Lemmas Ad_Props Ad_Main.
Import ListNotations.
Open Scope R_scope.
Local Notation total := Lap_Spec.total.

Lemma derive_near (a b : R -> R) e : 0 < e -> (forall h, Rabs h < e -> a h = b h) -> Derive a 0 = Derive b 0.
Proof.
  intros E H. apply Derive_ext_loc. exists (mkposreal e E). intros h HH. apply H. unfold Hierarchy.ball in HH. cbn in HH.
  unfold Hierarchy.AbsRing_ball, Hierarchy.abs, Hierarchy.minus, Hierarchy.plus, Hierarchy.opp in HH. cbn in HH. rewrite Ropp_0, Rplus_0_r in HH. exact HH.
Qed.

(** jacrev returns the partial derivatives and hessian the second partial derivatives, for real inputs and
    for complex differentiable functions; a real function of complex inputs gets du/dx - i du/dy. *)
Theorem C95_jacobian : forall n dt m dout D f d r x o i,
  (forall o, (o < m)%nat -> smooth n (fun _ => dt) D (fun y => f y o) (d o)) -> (dout = RE -> forall y o, (o < m)%nat -> snd (f y o) = 0) ->
  D r -> (forall i, (i < n)%nat -> x i = point n (fun _ => dt) r i) -> (o < m)%nat -> (i < n)%nat ->
  (dt = RE \/ (dout = CX /\ cauchy_riemann n D (d o)) ->
     jacrev n (fun _ => dt) m dout f x o i = jvp (fun y => f y o) x (eye i) /\
     forall j, (j < n)%nat -> hessian n (fun _ => dt) m dout f x o i j = jvp (fun y => jvp (fun z => f z o) y (eye i)) x (eye j)) /\
  (dt = CX -> dout = RE -> jacrev n (fun _ => dt) m dout f x o i = (fst (jvp (fun y => f y o) x (eye i)), - fst (jvp (fun y => f y o) x (ieye i)))).
Proof.
  intros n dt m dout D f d r x o i S RO DR X O I. pose proof (S o O) as SO. split.
  - intros C.
    assert (EQ : forall y r', D r' -> (forall i, (i < n)%nat -> y i = point n (fun _ => dt) r' i) -> jacrev n (fun _ => dt) m dout f y o i = jvp (fun y => f y o) y (eye i)).
    { intros y r' D' Y. destruct C as [->|[-> CR]].
      - rewrite (jacrev_re n D m dout f (d o) r' y o i) by auto. rewrite (jvp_eye n _ D (fun y => f y o) (d o) r' y i) by auto. destruct dout; [|reflexivity].
        pose proof (jvp_eye n _ D (fun y => f y o) (d o) r' y i SO D' Y I) as J. pose proof (jvp_real (fun y => f y o) y (eye i) (fun y => RO eq_refl y o O)) as Z. rewrite J in Z. cbn in Z. rewrite Z. reflexivity.
      - destruct dt.
        + rewrite (jacrev_re n D m CX f (d o) r' y o i) by (auto; intros E; discriminate). rewrite (jvp_eye n _ D (fun y => f y o) (d o) r' y i) by auto. reflexivity.
        + rewrite (jacrev_cx n D m CX f (d o) r' y o i) by auto. rewrite (jvp_eye n _ D (fun y => f y o) (d o) r' y i) by auto. destruct (CR r' D') as [G _]. destruct (G i I) as [_ G2]. rewrite G2. f_equal. ring. }
    split; [apply (EQ x r DR X)|]. intros j J. unfold hessian, jacfwd, jvp at 1 2.
    destruct (line_open (2 * n) D r (coords n (eye j)) (proj1 SO) DR) as (e & E & H).
    assert (LOC : forall h, Rabs h < e -> jacrev n (fun _ => dt) m dout f (move x (eye j) h) o i = jvp (fun y => f y o) (move x (eye j) h) (eye i)).
    { intros h HH. apply (EQ _ (fun a => r a + h * coords n (eye j) a)); [apply H; exact HH|]. intros k KK. apply move_point; auto. apply typed_eye. }
    f_equal; apply (derive_near _ _ e E); intros h HH; rewrite LOC by exact HH; reflexivity.
  - intros -> ->. rewrite (jacrev_cx n D m RE f (d o) r x o i) by auto. rewrite (jvp_eye n _ D (fun y => f y o) (d o) r x i), (jvp_ieye n D (fun y => f y o) (d o) r x i) by auto. reflexivity.
Qed.

(** Arrays of different dtypes: the entry for a real input keeps only the real part of the derivative. *)
Theorem C95_mixed_inputs : forall n kind m dout D f d r x o i,
  mixed n kind = true -> (forall o, (o < m)%nat -> smooth n kind D (fun y => f y o) (d o)) -> D r -> (forall i, (i < n)%nat -> x i = point n kind r i) ->
  (o < m)%nat -> (i < n)%nat -> kind i = RE ->
  jacrev n kind m dout f x o i = RtoC (fst (jvp (fun y => f y o) x (eye i))).
Proof.
  intros n kind m dout D f d r x o i MX S DR X O I KI. unfold jacrev. unfold unravel at 1. rewrite MX, KI. f_equal.
  assert (FD : flat_dtype n kind = CX). { unfold flat_dtype. unfold mixed in MX. apply andb_true_iff in MX. destruct MX as [-> _]. reflexivity. }
  rewrite FD. unfold vjp, jax_vjp. cbn [is_cx orb fst]. rewrite (csum_eye m o (fun o => jvp (fun y => f (unravel n kind y) o) x (eye i)) O).
  unfold jvp. cbn [fst]. apply Derive_ext. intros h. destruct (S o O) as (_ & E & _ & _). f_equal. apply E. intros j J. unfold unravel. rewrite MX.
  destruct (kind j) eqn:KJ; [|reflexivity]. unfold move. rewrite (X j J). unfold point. rewrite KJ. unfold eye. destruct (Nat.eqb j i); apply C_ext; cbn; ring.
Qed.

(** ** Functions applied to each entry *)
Lemma holo_line D g g1 g2 z t : holomorphic D g g1 g2 -> D z ->
  Derive (fun h => fst (g (z + RtoC h * t)%C)) 0 = fst (g1 z * t)%C /\ Derive (fun h => snd (g (z + RtoC h * t)%C)) 0 = snd (g1 z * t)%C.
Proof.
  intros [OP H] Dz. destruct (H z Dz) as [T _].
  assert (A : forall (q : C -> C) e, complex_derivative q z e -> Derive (fun h => fst (q (z + RtoC h * t)%C)) 0 = fst (e * t)%C).
  { intros q e TQ. apply is_derive_unique, is_derive_Reals. apply derivative_total in TQ. apply (total_line _ _ _ _ (fun a => if Nat.eqb a 0 then fst t else snd t)) in TQ. cbn [sum Nat.eqb] in TQ.
    eapply derivable_eq; [|eapply derivable_ext; [|exact TQ]].
    - cbn. ring.
    - intros h. cbn beta. f_equal. f_equal. apply C_ext; cbn; ring. }
  split; [apply A; exact T|]. pose proof (derivative_scal (- Ci)%C g z (g1 z) T) as T'. apply A in T'.
  replace (snd (g1 z * t)%C) with (fst (- Ci * g1 z * t)%C) by (cbn; ring). rewrite <- T'. apply Derive_ext. intros h. cbn. ring.
Qed.
Lemma holo_jvp D g g1 g2 x t o : holomorphic D g g1 g2 -> D (x o) -> jvp (fun y => pointwise g y o) x t = (g1 (x o) * t o)%C.
Proof. intros H Dx. destruct (holo_line D g g1 g2 (x o) (t o) H Dx) as [A B]. unfold jvp, pointwise, move. rewrite A, B. destruct (g1 (x o) * t o)%C; reflexivity. Qed.
Lemma csum_only n i z : (i < n)%nat -> (forall o, (o < n)%nat -> o <> i -> z o = RtoC 0) -> csum n z = z i.
Proof.
  intros I Z. rewrite (csum_ext n z (fun s => if Nat.eqb i s then z i else RtoC 0)); [apply csum_pick; exact I|]. intros j J.
  destruct (Nat.eqb_spec i j) as [->|N]; [reflexivity|]. apply Z; auto.
Qed.
(** The elementwise handler, complex differentiable functions of complex entries. *)
Theorem C95_elementwise : forall n K D g g1 g2 w p X x J L, holomorphic D g g1 g2 -> (forall i, (i < n)%nat -> D (x i)) ->
  (forall i, (i < n)%nat -> complex_gradient_and_laplacian K w p (fun q => X q i) (x i) (fun k => J k i) (L i)) -> forall o, (o < n)%nat ->
  elementwise_jac CX CX n g x o = g1 (x o) /\
  complex_gradient_and_laplacian K w p (fun q => g (X q o)) (g (x o)) (fun k => elementwise_grad CX CX n g x J k o) (elementwise_lap CX CX n K g x J L o).
Proof.
  intros n K D g g1 g2 w p X x J L H DX G o O.
  assert (JE : elementwise_jac CX CX n g x o = g1 (x o)).
  { unfold elementwise_jac, vjp, jax_vjp. cbn [is_cx orb].
    assert (Z : forall t, csum n (fun o' => (ones o' * jvp (fun y => pointwise g y o') x t)%C) = csum n (fun o' => (g1 (x o') * t o')%C)).
    { intros t. apply csum_ext. intros a A. rewrite (holo_jvp D g g1 g2) by auto. unfold ones. ring. }
    rewrite !Z.
    assert (OFF : forall a, a <> o -> eye o a = RtoC 0 /\ ieye o a = RtoC 0) by (intros a N; unfold eye, ieye; apply Nat.eqb_neq in N; rewrite N; auto).
    rewrite (csum_only n o (fun o' => (g1 (x o') * eye o o')%C) O), (csum_only n o (fun o' => (g1 (x o') * ieye o o')%C) O).
    2:{ intros a A N. destruct (OFF a N) as [_ ->]. ring. }
    2:{ intros a A N. destruct (OFF a N) as [-> _]. ring. }
    unfold eye, ieye. rewrite Nat.eqb_refl. apply C_ext; cbn; ring. }
  assert (SE : elementwise_second g x o = g2 (x o)).
  { unfold elementwise_second. destruct H as [OP H0]. pose proof (conj OP H0) as H. destruct (OP (x o) (DX o O)) as (e & E & HB).
    assert (LOC : forall h, Rabs h < e -> jvp (fun z => pointwise g z o) (move x ones h) ones = g1 (x o + RtoC h * RtoC 1)%C).
    { intros h HH. rewrite (holo_jvp D g g1 g2); [unfold move, ones; ring|exact H|]. unfold move, ones. apply HB. replace (x o + RtoC h * RtoC 1 - x o)%C with (RtoC h) by ring. rewrite Cmod_R. exact HH. }
    assert (DD : forall (q : C -> C) c, complex_derivative q (x o) c -> Derive (fun h => fst (q (x o + RtoC h * RtoC 1)%C)) 0 = fst c).
    { intros q c TQ. apply is_derive_unique, is_derive_Reals. apply derivative_total in TQ. apply (total_line _ _ _ _ (fun a => if Nat.eqb a 0 then 1 else 0)) in TQ. cbn [sum Nat.eqb] in TQ.
      eapply derivable_eq; [|eapply derivable_ext; [|exact TQ]].
      - cbn. ring.
      - intros h. cbn beta. f_equal. f_equal. apply C_ext; cbn; ring. }
    destruct (H0 (x o) (DX o O)) as [_ T2].
    unfold jvp at 1. apply C_ext; cbn [fst snd].
    - rewrite <- (DD g1 _ T2). apply (derive_near _ _ e E). intros h HH. cbn beta. rewrite LOC by exact HH. reflexivity.
    - replace (snd (g2 (x o))) with (fst (- Ci * g2 (x o))%C) by (cbn; ring). rewrite <- (DD (fun z => - Ci * g1 z)%C _ (derivative_scal (- Ci)%C g1 (x o) (g2 (x o)) T2)).
      apply (derive_near _ _ e E). intros h HH. cbn beta. rewrite LOC by exact HH. cbn. ring. }
  split; [exact JE|]. pose proof (cgl_holo K w p D g g1 g2 (fun q => X q o) (x o) (fun k => J k o) (L o) H (DX o O) (G o O)) as GG.
  eapply cgl_eq; [exact GG|reflexivity| |].
  - intros k KK. unfold elementwise_grad. rewrite JE. reflexivity.
  - unfold elementwise_lap. rewrite JE, SE. reflexivity.
Qed.
(** The same for a function of real entries with real or complex values. *)
Theorem C95_elementwise_real : forall n K dout Dr (g g1 g2 : C -> C) w p X x J L, open1 Dr ->
  (forall u, Dr u -> derivable_pt_lim (fun v => fst (g (RtoC v))) u (fst (g1 (RtoC u))) /\ derivable_pt_lim (fun v => snd (g (RtoC v))) u (snd (g1 (RtoC u))) /\
                     derivable_pt_lim (fun v => fst (g1 (RtoC v))) u (fst (g2 (RtoC u))) /\ derivable_pt_lim (fun v => snd (g1 (RtoC v))) u (snd (g2 (RtoC u)))) ->
  (dout = RE -> forall z, snd (g z) = 0) -> tracked n K w p (fun _ => RE) X x J L -> (forall i, (i < n)%nat -> Dr (fst (x i))) -> forall o, (o < n)%nat ->
  elementwise_jac RE dout n g x o = g1 (x o) /\
  complex_gradient_and_laplacian K w p (fun q => g (X q o)) (g (x o)) (fun k => elementwise_grad RE dout n g x J k o) (elementwise_lap RE dout n K g x J L o).
Proof.
  intros n K dout Dr g g1 g2 w p X x J L OP DG RO (G & TX & Tx & TJ & TL) DX o O.
  assert (RX : forall z : C, snd z = 0 -> z = RtoC (fst z)) by (intros [a b] Z; cbn in *; subst; reflexivity).
  assert (SH : forall (q : R -> R) u c s, derivable_pt_lim q u c -> derivable_pt_lim (fun h => q (u + h * s)) 0 (c * s)).
  { intros q u c s DQ. apply (derivable_pt_lim_comp (fun h => u + h * s) q).
    - apply (derivable_eq _ _ (0 + s * 1)); [ring|]. apply (derivable_pt_lim_plus (fun _ => u) (fun h => h * s)); [apply derivable_pt_lim_const|].
      apply (derivable_ext (fun h => s * h)); [intros; ring|]. apply (derivable_pt_lim_scal id). apply derivable_pt_lim_id.
    - replace (u + 0 * s) with u by ring. exact DQ. }
  assert (JV : forall y t a, snd (y a) = 0 -> snd (t a) = 0 -> Dr (fst (y a)) -> jvp (fun y => pointwise g y a) y t = (g1 (y a) * t a)%C).
  { intros y t a Ya Ta Da. destruct (DG _ Da) as (A & B & _ & _). unfold jvp, pointwise, move. rewrite (RX _ Ya), (RX _ Ta). cbn [fst RtoC]. apply C_ext; cbn [fst snd].
    - transitivity (fst (g1 (RtoC (fst (y a)))) * fst (t a)); [|cbn; ring]. apply is_derive_unique, is_derive_Reals.
      eapply derivable_ext; [|apply (SH _ _ _ (fst (t a)) A)]. intros h. cbn beta. f_equal. f_equal. apply C_ext; cbn; ring.
    - transitivity (snd (g1 (RtoC (fst (y a)))) * fst (t a)); [|cbn; ring]. apply is_derive_unique, is_derive_Reals.
      eapply derivable_ext; [|apply (SH _ _ _ (fst (t a)) B)]. intros h. cbn beta. f_equal. f_equal. apply C_ext; cbn; ring. }
  assert (EYE : forall a b, snd (eye a b) = 0) by (intros a b; unfold eye; destruct (Nat.eqb b a); reflexivity).
  assert (COL : forall (ct : nat -> C), csum n (fun o' => (ct o' * jvp (fun y => pointwise g y o') x (eye o))%C) = (ct o * g1 (x o))%C).
  { intros ct. rewrite (csum_only n o).
    - rewrite JV by auto. unfold eye. rewrite Nat.eqb_refl. ring.
    - exact O.
    - intros a A N. rewrite JV by auto. unfold eye. destruct (Nat.eqb_spec a o); [contradiction|]. ring. }
  assert (JE : elementwise_jac RE dout n g x o = g1 (x o)).
  { unfold elementwise_jac, vjp. destruct dout; cbn [is_cx negb orb].
    - unfold jax_vjp. rewrite (COL ones). unfold ones. apply C_ext; [cbn; ring|]. cbn [RtoC snd].
      pose proof (jvp_real (fun y => pointwise g y o) x (eye o) (fun y => RO eq_refl (y o))) as Z. rewrite JV in Z by auto. unfold eye in Z. rewrite Nat.eqb_refl in Z. cbn in Z. lra.
    - rewrite vjp_rc_eq, (COL ones). unfold ones. ring. }
  assert (SE : elementwise_second g x o = g2 (x o)).
  { unfold elementwise_second. destruct (OP _ (DX o O)) as (e & E & HB). pose proof (Tx o O eq_refl) as Z.
    assert (LOC : forall h, Rabs h < e -> jvp (fun z => pointwise g z o) (move x ones h) ones = g1 (RtoC (fst (x o) + h * 1))).
    { intros h HH. assert (ME : move x ones h o = RtoC (fst (x o) + h * 1)) by (unfold move, ones; apply C_ext; cbn; [ring|rewrite Z; ring]).
      rewrite JV; [rewrite ME; unfold ones; ring|rewrite ME; reflexivity|reflexivity|]. rewrite ME. cbn [fst RtoC]. apply HB. replace (fst (x o) + h * 1 - fst (x o)) with h by ring. exact HH. }
    destruct (DG _ (DX o O)) as (_ & _ & A & B). rewrite (RX _ Z) at 1. unfold jvp at 1. apply C_ext; cbn [fst snd].
    - rewrite (derive_near _ (fun h => fst (g1 (RtoC (fst (x o) + h * 1)))) e E); [|intros h HH; cbn beta; rewrite LOC by exact HH; reflexivity].
      rewrite <- (Rmult_1_r (fst (g2 (RtoC (fst (x o)))))). apply is_derive_unique, is_derive_Reals. apply (SH _ _ _ 1 A).
    - rewrite (derive_near _ (fun h => snd (g1 (RtoC (fst (x o) + h * 1)))) e E); [|intros h HH; cbn beta; rewrite LOC by exact HH; reflexivity].
      rewrite <- (Rmult_1_r (snd (g2 (RtoC (fst (x o)))))). apply is_derive_unique, is_derive_Reals. apply (SH _ _ _ 1 B). }
  split; [exact JE|]. destruct (G o O) as [GR _]. pose proof (Tx o O eq_refl) as Z. pose proof (TL o O eq_refl) as ZL.
  assert (XR : forall q, X q o = RtoC (fst (X q o))) by (intros q; apply RX; apply (TX q o O eq_refl)).
  assert (ZJ : forall k, snd (J k o) = 0) by (intros k; apply (TJ k o O eq_refl)).
  split.
  - pose proof (gl_comp K w p (fun v => fst (g (RtoC v))) (fun v => fst (g1 (RtoC v))) (fun v => fst (g2 (RtoC v))) Dr (fun q => fst (X q o)) (fst (x o)) (fun k => fst (J k o)) (fst (L o)) OP
      (fun u U => proj1 (DG u U)) (fun u U => proj1 (proj2 (proj2 (DG u U)))) (DX o O) GR) as GG.
    eapply gl_eq; [eapply gl_ext; [|exact GG]| | |].
    + intros q. cbn beta. rewrite <- XR. reflexivity.
    + cbn beta. rewrite <- (RX _ Z). reflexivity.
    + intros k KK. unfold elementwise_grad. rewrite JE, (RX _ Z). cbn. rewrite (ZJ k). ring.
    + unfold elementwise_lap. rewrite JE, SE, (RX _ Z), (RX _ ZL). cbn [fst snd RtoC Cmult Cplus csum].
      rewrite (sum_ext K (fun k => fst (J k o) * fst (J k o) - snd (J k o) * snd (J k o)) (fun k => fst (J k o) * fst (J k o))) by (intros; rewrite ZJ; ring).
      rewrite (sum_0 K (fun k => fst (J k o) * snd (J k o) + snd (J k o) * fst (J k o))) by (intros; rewrite ZJ; ring).
      rewrite ?(sum_ext K (fun k => fst (J k o) ^ 2) (fun k => fst (J k o) * fst (J k o))) by (intros; ring). ring.
  - pose proof (gl_comp K w p (fun v => snd (g (RtoC v))) (fun v => snd (g1 (RtoC v))) (fun v => snd (g2 (RtoC v))) Dr (fun q => fst (X q o)) (fst (x o)) (fun k => fst (J k o)) (fst (L o)) OP
      (fun u U => proj1 (proj2 (DG u U))) (fun u U => proj2 (proj2 (proj2 (DG u U)))) (DX o O) GR) as GG.
    eapply gl_eq; [eapply gl_ext; [|exact GG]| | |].
    + intros q. cbn beta. rewrite <- XR. reflexivity.
    + cbn beta. rewrite <- (RX _ Z). reflexivity.
    + intros k KK. unfold elementwise_grad. rewrite JE, (RX _ Z). cbn. rewrite (ZJ k). ring.
    + unfold elementwise_lap. rewrite JE, SE, (RX _ Z), (RX _ ZL). cbn [fst snd RtoC Cmult Cplus csum].
      rewrite (sum_ext K (fun k => fst (J k o) * fst (J k o) - snd (J k o) * snd (J k o)) (fun k => fst (J k o) * fst (J k o))) by (intros; rewrite ZJ; ring).
      rewrite (sum_0 K (fun k => fst (J k o) * snd (J k o) + snd (J k o) * fst (J k o))) by (intros; rewrite ZJ; ring). ring.
Qed.
