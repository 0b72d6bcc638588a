(** C95: the theorems. *)
From Coq Require Import Reals List Arith Bool Lra Lia FunctionalExtensionality.
From Coquelicot Require Import Complex Derive.
From Verif Require Import Lin Jet Lap_Spec Lap_Props Fl_Spec Cx_Lemmas Ad_Model Ad_Spec Ad_Lemmas Ad_Props.
Import ListNotations.
Open Scope R_scope.
Local Notation total := Lap_Spec.total.

Section general.
Variables (n K m : nat) (kind : nat -> dtype) (dout : dtype) (D : vec -> Prop) (f : cvec -> nat -> C) (d : nat -> partials).
Hypotheses (S : forall o, (o < m)%nat -> smooth n kind D (fun y => f y o) (d o)) (RO : real_output m dout f).
Lemma flat_real : real_output m dout (flat_wrap n kind f).
Proof. intros E y o O. unfold flat_wrap. apply (RO E); exact O. Qed.
Lemma jhj_value x jac o : (o < m)%nat -> D (coords n x) -> (forall k, (k < K)%nat -> typed n kind (jac k)) -> typed n kind x ->
  (K <= n)%nat \/ dout = RE \/ (forall i, (i < n)%nat -> kind i = RE) \/ ((forall i, (i < n)%nat -> kind i = CX) /\ cauchy_riemann n D (d o)) ->
  fst (general_jhj n K kind m dout f x jac o) = sum K (fun k => quad n (h_re (d o) (coords n x)) (coords n (jac k))) /\
  snd (general_jhj n K kind m dout f x jac o) = match dout with RE => 0 | CX => sum K (fun k => quad n (h_im (d o) (coords n x)) (coords n (jac k))) end.
Proof.
  intros O DR T TX CASES. pose proof flat_real as FR. remember (flat_dtype n kind) as dt eqn:EDT. pose proof (smooth_flat n kind D (fun y => f y o) (d o) (S o O)) as SF. rewrite <- EDT in SF.
  assert (TF : forall k, (k < K)%nat -> typed n (fun _ => dt) (jac k)) by (intros k KK; rewrite EDT; apply typed_flat; auto).
  assert (X : forall i, (i < n)%nat -> x i = point n (fun _ => dt) (coords n x) i) by (intros i I; symmetry; apply point_coords; [rewrite EDT; apply typed_flat; exact TX|exact I]).
  change (smooth n (fun _ => dt) D (fun y => flat_wrap n kind f y o) (d o)) in SF.
  unfold general_jhj. rewrite <- EDT. destruct (Nat.ltb_spec n K) as [LT|LE].
  - destruct dt; cbn [is_cx andb].
    + pose proof (hessian_re n K m D (flat_wrap n kind f) o (d o) (coords n x) x jac O DR dout SF FR X TF) as H. rewrite H. destruct dout; cbn [fst snd RtoC]; auto.
    + destruct dout; cbn [is_cx negb].
      * cbn [fst snd RtoC]. split; [|reflexivity]. apply (hvp_cx n K m D (flat_wrap n kind f) o (d o) (coords n x) x jac O DR RE SF X).
      * assert (CR : cauchy_riemann n D (d o)).
        { destruct CASES as [L|[E|[E|[_ E]]]]; [lia|discriminate| |auto].
          exfalso. unfold flat_dtype in EDT. destruct (existsb (fun i => is_cx (kind i)) (seq 0 n)) eqn:A; [|discriminate].
          apply existsb_exists in A. destruct A as (i & IN & Z). apply in_seq in IN. rewrite (E i ltac:(lia)) in Z. discriminate. }
        rewrite (hessian_cx n K m D (flat_wrap n kind f) o (d o) (coords n x) x jac O DR CX SF CR X). auto.
  - pose proof (trace_any n K m D (flat_wrap n kind f) o (d o) (coords n x) x jac O DR (fun _ => dt) SF X TF) as H. split; [rewrite H; reflexivity|].
    destruct dout eqn:ED; [|rewrite H; reflexivity].
    unfold JHJ_via_trace. rewrite csum_snd. apply sum_0. intros k _. cbn beta. apply jvp_real. intros y. apply jvp_real. intros z. apply (FR eq_refl). exact O.
Qed.

Variables (w p : vec) (X : vec -> cvec) (x : cvec) (J : nat -> cvec) (L : cvec).
Hypotheses (TR : tracked n K w p kind X x J L) (DX : D (coords n x)).
Lemma tracked_coord a : (a < 2 * n)%nat -> gradient_and_laplacian K w p (fun q => coords n (X q) a) (coords n x a) (fun k => coords n (J k) a) (coords n L a).
Proof.
  intros A. destruct TR as [G _]. unfold coords. destruct (Nat.ltb_spec a n).
  - apply (proj1 (G a ltac:(lia))).
  - apply (proj2 (G (a - n)%nat ltac:(lia))).
Qed.
Lemma part (P : C -> R) (F : cvec -> C) (G : vec -> vec) (H : vec -> mat) : openn (2 * n) D -> 
  (forall x y, (forall i, (i < n)%nat -> x i = y i) -> F x = F y) -> differentiable_twice (2 * n) D (fun r => P (F (point n kind r))) G H ->
  gradient_and_laplacian K w p (fun q => P (F (X q))) (P (F x)) (fun k => sum (2 * n) (fun a => G (coords n x) a * coords n (J k) a))
    (sum (2 * n) (fun a => G (coords n x) a * coords n L a) + sum K (fun k => quad n (H (coords n x)) (coords n (J k)))).
Proof.
  intros OP E A. destruct TR as (_ & TX & Tx & _ & _).
  pose proof (gl_general K w p (2 * n) (fun r => P (F (point n kind r))) G (H (coords n x)) D (fun a q => coords n (X q) a) (coords n x) (fun a k => coords n (J k) a) (coords n L)) as GG.
  eapply gl_eq; [eapply gl_ext; [|apply GG]| | |]; auto.
  - intros q. cbn beta. f_equal. apply E. intros i I. apply point_coords; auto.
  - intros v Dv. apply A. exact Dv.
  - intros a LA. apply A; auto.
  - intros u v UV. f_equal. apply E. intros i I. unfold point. rewrite (UV i ltac:(lia)), (UV (n + i)%nat ltac:(lia)). reflexivity.
  - intros a LA. apply tracked_coord. exact LA.
  - f_equal. apply E. intros i I. apply point_coords; auto.
Qed.
End general.

(** The general handler keeps exact derivatives: real inputs with real or complex outputs, complex
    differentiable functions, real functions of real and complex inputs, whichever strategy the sizes select;
    and any smooth function when there are at most as many coordinates as entries. *)
Theorem C95_general : forall n K m kind dout D f d w p X x J L,
  (forall o, (o < m)%nat -> smooth n kind D (fun y => f y o) (d o)) -> (dout = RE -> forall y o, (o < m)%nat -> snd (f y o) = 0) ->
  tracked n K w p kind X x J L -> D (coords n x) ->
  (K <= n)%nat \/ dout = RE \/ (forall i, (i < n)%nat -> kind i = RE) \/ ((forall i, (i < n)%nat -> kind i = CX) /\ forall o, (o < m)%nat -> cauchy_riemann n D (d o)) ->
  forall o, (o < m)%nat ->
  complex_gradient_and_laplacian K w p (fun q => f (X q) o) (general_value f x o) (fun k => general_grad f x J k o) (general_lap n K kind m dout f x J L o).
Proof.
  intros n K m kind dout D f d w p X x J L S RO TR DX CASES o O. pose proof TR as (G & TX & Tx & TJ & TL). pose proof (S o O) as SO. pose proof SO as (OP & E & A & B).
  assert (X0 : forall i, (i < n)%nat -> x i = point n kind (coords n x) i) by (intros i I; symmetry; apply point_coords; auto).
  assert (C1 : (K <= n)%nat \/ dout = RE \/ (forall i, (i < n)%nat -> kind i = RE) \/ ((forall i, (i < n)%nat -> kind i = CX) /\ cauchy_riemann n D (d o))).
  { destruct CASES as [C|[C|[C|[C C']]]]; [left|right; left|right; right; left|right; right; right; split]; auto. }
  destruct (jhj_value n K m kind dout D f d S RO x J o O DX (fun k _ => TJ k) Tx C1) as [QF QS].
  assert (JG : forall k, general_grad f x J k o = (sum (2 * n) (fun a => g_re (d o) (coords n x) a * coords n (J k) a), sum (2 * n) (fun a => g_im (d o) (coords n x) a * coords n (J k) a))).
  { intros k. unfold general_grad. apply (jvp_smooth n kind D (fun y => f y o)); auto. }
  assert (JL : jvp (fun y => f y o) x L = (sum (2 * n) (fun a => g_re (d o) (coords n x) a * coords n L a), sum (2 * n) (fun a => g_im (d o) (coords n x) a * coords n L a))).
  { apply (jvp_smooth n kind D (fun y => f y o)); auto. }
  split.
  - eapply gl_eq; [apply (part n K kind D w p X x J L TR DX fst (fun y => f y o) (g_re (d o)) (h_re (d o)) OP E A)| | |].
    + reflexivity.
    + intros k KK. cbn beta. rewrite JG. reflexivity.
    + unfold general_lap. rewrite JL. cbn [fst Cplus]. rewrite QF. reflexivity.
  - destruct dout.
    + assert (Z : forall y, snd (f y o) = 0) by (intros y; apply (RO eq_refl); exact O).
      eapply gl_eq; [eapply gl_ext; [|apply (gl_const K w p 0)]| | |].
      * intros q. symmetry. apply Z.
      * symmetry. apply Z.
      * intros k KK. cbn beta. symmetry. unfold general_grad. apply jvp_real. exact Z.
      * unfold general_lap. cbn [snd Cplus]. rewrite QS. unfold jvp. cbn [snd]. rewrite derive_zero; [ring|]. intros h. apply Z.
    + eapply gl_eq; [apply (part n K kind D w p X x J L TR DX snd (fun y => f y o) (g_im (d o)) (h_im (d o)) OP E B)| | |].
      * reflexivity.
      * intros k KK. cbn beta. rewrite JG. reflexivity.
      * unfold general_lap. rewrite JL. cbn [snd Cplus]. rewrite QS. reflexivity.
Qed.

(** Reverse mode: the transpose of the forward derivative in the real pairing, for every dtype; and with
    complex numbers exactly, for real inputs and for complex differentiable functions. *)
Theorem C95_vjp : forall n m kind dt dout D f d r x t ct,
  kind = (fun _ => dt) -> (forall o, (o < m)%nat -> smooth n kind D (fun y => f y o) (d o)) -> (dout = RE -> forall y o, (o < m)%nat -> snd (f y o) = 0) -> (dout = RE -> forall o, (o < m)%nat -> snd (ct o) = 0) ->
  D r -> (forall i, (i < n)%nat -> x i = point n kind r i) -> typed n kind t ->
  let pulled := csum n (fun i => Cmult (vjp dt dout m f x ct i) (t i)) in
  let pushed := csum m (fun o => Cmult (ct o) (jvp (fun y => f y o) x t)) in
  fst pulled = fst pushed /\
  (dt = RE \/ (dout = CX /\ forall o, (o < m)%nat -> cauchy_riemann n D (d o)) -> pulled = pushed).
Proof.
  intros n m kind dt dout D f d r x t ct -> S RO CTR DR X T pulled pushed.
  assert (FWD : forall o, (o < m)%nat -> jvp (fun y => f y o) x t = (sum (2 * n) (fun a => g_re (d o) r a * coords n t a), sum (2 * n) (fun a => g_im (d o) r a * coords n t a))).
  { intros o O. apply (jvp_smooth n (fun _ => dt) D (fun y => f y o)); auto. }
  destruct dt.
  - (* real inputs: equality of complex numbers *)
    assert (EX : pulled = pushed).
    { unfold pulled, pushed.
      assert (PE : forall o, (o < m)%nat -> jvp (fun y => f y o) x t = csum n (fun i => Cmult (jvp (fun y => f y o) x (eye i)) (t i))).
      { intros o O. rewrite (FWD o O). unfold csum. f_equal; rewrite sum_2n.
        - rewrite (sum_0 n (fun i => g_re (d o) r (n + i)%nat * coords n t (n + i)%nat)) by (intros i I; rewrite coords_hi, (T i I eq_refl); ring). rewrite Rplus_0_r. apply sum_ext. intros i I.
          rewrite (jvp_eye n _ D (fun y => f y o) (d o) r x i) by auto. rewrite coords_lo by exact I. cbn. rewrite (T i I eq_refl). ring.
        - rewrite (sum_0 n (fun i => g_im (d o) r (n + i)%nat * coords n t (n + i)%nat)) by (intros i I; rewrite coords_hi, (T i I eq_refl); ring). rewrite Rplus_0_r. apply sum_ext. intros i I.
          rewrite (jvp_eye n _ D (fun y => f y o) (d o) r x i) by auto. rewrite coords_lo by exact I. cbn. rewrite (T i I eq_refl). ring. }
      assert (VE : forall i, (i < n)%nat -> vjp RE dout m f x ct i = csum m (fun o => Cmult (ct o) (jvp (fun y => f y o) x (eye i)))).
      { intros i I. unfold vjp. destruct dout; cbn [is_cx negb orb]; [|apply vjp_rc_eq]. unfold jax_vjp. apply C_ext; [reflexivity|]. cbn [RtoC snd]. symmetry. rewrite csum_snd. apply sum_0. intros o O.
        cbn. rewrite (CTR eq_refl o O). rewrite derive_zero; [ring|]. intros h. apply (RO eq_refl); exact O. }
      rewrite (csum_ext n _ (fun i => csum m (fun o => Cmult (Cmult (ct o) (jvp (fun y => f y o) x (eye i))) (t i)))) by (intros i I; rewrite (VE i I), csum_scal_r; reflexivity).
      rewrite csum_swap. apply csum_ext. intros o O. rewrite (PE o O), <- csum_scal_l. apply csum_ext. intros i I. ring. }
    split; [rewrite EX; reflexivity|auto].
  - assert (VE : forall i, (i < n)%nat -> vjp CX dout m f x ct i =
        (sum m (fun o => fst (ct o) * g_re (d o) r i - snd (ct o) * g_im (d o) r i), - sum m (fun o => fst (ct o) * g_re (d o) r (n + i)%nat - snd (ct o) * g_im (d o) r (n + i)%nat))).
    { intros i I. unfold vjp, jax_vjp. cbn [is_cx orb]. rewrite !csum_fst. f_equal; [|f_equal]; apply sum_ext; intros o O.
      - rewrite (jvp_eye n _ D (fun y => f y o) (d o) r x i) by auto. reflexivity.
      - rewrite (jvp_ieye n D (fun y => f y o) (d o) r x i) by auto. reflexivity. }
    assert (F1 : fst pulled = fst pushed).
    { unfold pulled, pushed. rewrite !csum_fst.
      rewrite (sum_ext n _ (fun i => sum m (fun o => (fst (ct o) * g_re (d o) r i - snd (ct o) * g_im (d o) r i) * fst (t i) + (fst (ct o) * g_re (d o) r (n + i)%nat - snd (ct o) * g_im (d o) r (n + i)%nat) * snd (t i)))).
      2:{ intros i I. rewrite (VE i I). cbn [Cmult fst snd]. rewrite (sum_plus m (fun o => (fst (ct o) * g_re (d o) r i - snd (ct o) * g_im (d o) r i) * fst (t i)) (fun o => (fst (ct o) * g_re (d o) r (n + i)%nat - snd (ct o) * g_im (d o) r (n + i)%nat) * snd (t i))), !sum_scal_r. ring. }
      rewrite sum_swap. apply sum_ext. intros o O. rewrite (FWD o O). cbn [Cmult fst snd]. rewrite !sum_2n, !Rmult_plus_distr_l, <- !sum_scal_l.
      rewrite (sum_ext n _ (fun i => (fst (ct o) * (g_re (d o) r i * coords n t i) + fst (ct o) * (g_re (d o) r (n + i)%nat * coords n t (n + i)%nat)) - (snd (ct o) * (g_im (d o) r i * coords n t i) + snd (ct o) * (g_im (d o) r (n + i)%nat * coords n t (n + i)%nat))))
        by (intros i I; rewrite coords_lo, coords_hi by exact I; ring).
      rewrite sum_minus, !sum_plus. ring. }
    split; [exact F1|]. intros [E|[-> CR]]; [discriminate|]. apply C_ext; [exact F1|].
    unfold pulled, pushed. rewrite !csum_snd.
    rewrite (sum_ext n _ (fun i => sum m (fun o => (fst (ct o) * g_re (d o) r i - snd (ct o) * g_im (d o) r i) * snd (t i) - (fst (ct o) * g_re (d o) r (n + i)%nat - snd (ct o) * g_im (d o) r (n + i)%nat) * fst (t i)))).
    2:{ intros i I. rewrite (VE i I). cbn [Cmult fst snd]. rewrite (sum_minus m (fun o => (fst (ct o) * g_re (d o) r i - snd (ct o) * g_im (d o) r i) * snd (t i)) (fun o => (fst (ct o) * g_re (d o) r (n + i)%nat - snd (ct o) * g_im (d o) r (n + i)%nat) * fst (t i))), !sum_scal_r. ring. }
    rewrite sum_swap. apply sum_ext. intros o O. rewrite (FWD o O). cbn [Cmult fst snd]. rewrite !sum_2n, !Rmult_plus_distr_l, <- !sum_scal_l, <- !sum_plus.
    apply sum_ext. intros i I. rewrite coords_lo, coords_hi by exact I. destruct (CR o O r DR) as [C _]. destruct (C i I) as [C1 C2]. rewrite C2, <- C1. ring.
Qed.
