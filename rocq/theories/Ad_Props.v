(** C95: complex-aware reverse mode, Jacobians and Hessians are the derivatives, and the three
    contraction strategies give the second-order term of the Laplacian. *)
From Coq Require Import Reals List Arith Bool Lra Lia FunctionalExtensionality.
From Coquelicot Require Import Complex Derive.
From Verif Require Import Lin Jet Lap_Spec Lap_Props Fl_Spec Cx_Lemmas Ad_Model Ad_Spec Ad_Lemmas.
Import ListNotations.
Open Scope R_scope.
Local Notation total := Lap_Spec.total.

Lemma derive_zero (f : R -> R) : (forall h, f h = 0) -> Derive f 0 = 0.
Proof. intros Z. rewrite (Derive_ext f (fun _ => 0) 0 Z). apply Derive_const. Qed.
Lemma csum_eye m o z : (o < m)%nat -> csum m (fun o' => (eye o o' * z o')%C) = z o.
Proof.
  intros O. rewrite (csum_ext m _ (fun s => if Nat.eqb o s then z o else RtoC 0)); [apply csum_pick; exact O|].
  intros i _. unfold eye. rewrite (Nat.eqb_sym o i). destruct (Nat.eqb_spec i o); [subst|]; ring.
Qed.

(** ** One forward derivative *)
Lemma jvp_smooth n kind D f d r x t : smooth n kind D f d -> D r -> (forall i, (i < n)%nat -> x i = point n kind r i) -> typed n kind t ->
  jvp f x t = (sum (2 * n) (fun a => g_re d r a * coords n t a), sum (2 * n) (fun a => g_im d r a * coords n t a)).
Proof.
  intros (O & E & A & B) DR X T. unfold jvp. f_equal.
  - apply (derive_along n kind D (fun y => fst (f y)) (fun r => fst (f (point n kind r))) r); auto; [|apply A; exact DR].
    intros y r' _ Y. rewrite (E y _ Y). reflexivity.
  - apply (derive_along n kind D (fun y => snd (f y)) (fun r => snd (f (point n kind r))) r); auto; [|apply B; exact DR].
    intros y r' _ Y. rewrite (E y _ Y). reflexivity.
Qed.
Lemma typed_cx n x : typed n (fun _ => CX) x. Proof. intros i _ E. discriminate. Qed.
Lemma typed_eye n kind i : typed n kind (eye i).
Proof. intros j _ _. unfold eye. destruct (Nat.eqb j i); reflexivity. Qed.
Lemma jvp_eye n kind D f d r x i : smooth n kind D f d -> D r -> (forall i, (i < n)%nat -> x i = point n kind r i) -> (i < n)%nat ->
  jvp f x (eye i) = (g_re d r i, g_im d r i).
Proof.
  intros S DR X I. rewrite (jvp_smooth n kind D f d r x _ S DR X (typed_eye n kind i)). f_equal.
  - rewrite <- (sum_delta_r (2 * n) (g_re d r) i ltac:(lia)). apply sum_ext. intros a A. rewrite coords_eye by auto. reflexivity.
  - rewrite <- (sum_delta_r (2 * n) (g_im d r) i ltac:(lia)). apply sum_ext. intros a A. rewrite coords_eye by auto. reflexivity.
Qed.
Lemma jvp_ieye n D f d r x i : smooth n (fun _ => CX) D f d -> D r -> (forall i, (i < n)%nat -> x i = point n (fun _ => CX) r i) -> (i < n)%nat ->
  jvp f x (ieye i) = (g_re d r (n + i)%nat, g_im d r (n + i)%nat).
Proof.
  intros S DR X I. rewrite (jvp_smooth n _ D f d r x _ S DR X (typed_cx n _)). f_equal.
  - rewrite <- (sum_delta_r (2 * n) (g_re d r) (n + i)%nat ltac:(lia)). apply sum_ext. intros a A. rewrite coords_ieye by auto. reflexivity.
  - rewrite <- (sum_delta_r (2 * n) (g_im d r) (n + i)%nat ltac:(lia)). apply sum_ext. intros a A. rewrite coords_ieye by auto. reflexivity.
Qed.

(** ** Reverse mode *)
Lemma vjp_rc_eq m f x ct i : vjp_rc m f x ct i = csum m (fun o => (ct o * jvp (fun y => f y o) x (eye i))%C).
Proof.
  unfold vjp_rc, jax_vjp.
  assert (R : forall o, jvp (fun y => RtoC (fst (f y o))) x (eye i) = RtoC (fst (jvp (fun y => f y o) x (eye i)))).
  { intros o. unfold jvp, RtoC. cbn [fst snd]. f_equal. apply derive_zero. reflexivity. }
  assert (S : forall o, jvp (fun y => RtoC (snd (f y o))) x (eye i) = RtoC (snd (jvp (fun y => f y o) x (eye i)))).
  { intros o. unfold jvp, RtoC. cbn [fst snd]. f_equal. apply derive_zero. reflexivity. }
  set (j := fun o => jvp (fun y => f y o) x (eye i)).
  rewrite (csum_ext m (fun o => (RtoC (fst (ct o)) * jvp (fun y => RtoC (fst (f y o))) x (eye i))%C) (fun o => RtoC (fst (ct o) * fst (j o)))) by (intros; rewrite R; apply C_ext; cbn; ring).
  rewrite (csum_ext m (fun o => (RtoC (snd (ct o)) * jvp (fun y => RtoC (fst (f y o))) x (eye i))%C) (fun o => RtoC (snd (ct o) * fst (j o)))) by (intros; rewrite R; apply C_ext; cbn; ring).
  rewrite (csum_ext m (fun o => (RtoC (fst (ct o)) * jvp (fun y => RtoC (snd (f y o))) x (eye i))%C) (fun o => RtoC (fst (ct o) * snd (j o)))) by (intros; rewrite S; apply C_ext; cbn; ring).
  rewrite (csum_ext m (fun o => (RtoC (snd (ct o)) * jvp (fun y => RtoC (snd (f y o))) x (eye i))%C) (fun o => RtoC (snd (ct o) * snd (j o)))) by (intros; rewrite S; apply C_ext; cbn; ring).
  rewrite !csum_real. cbn [fst RtoC]. unfold csum. apply C_ext; cbn [fst snd].
  - unfold j. cbn. rewrite sum_minus. ring.
  - unfold j. cbn. rewrite sum_plus. ring.
Qed.
Lemma jacrev_const n dt m dout f y o i : (i < n)%nat -> jacrev n (fun _ => dt) m dout f y o i = vjp dt dout m f y (eye o) i.
Proof.
  intros I. unfold jacrev. rewrite unravel_const, (flat_dtype_const n dt) by lia. f_equal. apply functional_extensionality. intros z. rewrite unravel_const. reflexivity.
Qed.
Definition real_output (m : nat) (dout : dtype) (f : cvec -> nat -> C) : Prop := dout = RE -> forall y o, (o < m)%nat -> snd (f y o) = 0.
Lemma jvp_real f x t : (forall y, snd (f y) = 0) -> snd (jvp f x t) = 0.
Proof. intros Z. apply derive_zero. intros h. apply Z. Qed.
(** Entry (o, i) of the Jacobian of functions whose inputs have one dtype. *)
Lemma jacrev_re n D m dout f d r y o i : real_output m dout f -> smooth n (fun _ => RE) D (fun y => f y o) d -> D r ->
  (forall i, (i < n)%nat -> y i = point n (fun _ => RE) r i) -> (o < m)%nat -> (i < n)%nat ->
  jacrev n (fun _ => RE) m dout f y o i = match dout with RE => RtoC (g_re d r i) | CX => (g_re d r i, g_im d r i) end.
Proof.
  intros RO S DR Y O I. rewrite jacrev_const by exact I. unfold vjp. cbn [is_cx negb orb]. pose proof (jvp_eye n _ D _ d r y i S DR Y I) as J. destruct dout; cbn [is_cx negb orb].
  - unfold jax_vjp. rewrite (csum_eye m o (fun o => jvp (fun y => f y o) y (eye i)) O). rewrite J. reflexivity.
  - rewrite vjp_rc_eq, (csum_eye m o (fun o => jvp (fun y => f y o) y (eye i)) O). exact J.
Qed.
Lemma jacrev_cx n D m dout f d r y o i : smooth n (fun _ => CX) D (fun y => f y o) d -> D r ->
  (forall i, (i < n)%nat -> y i = point n (fun _ => CX) r i) -> (o < m)%nat -> (i < n)%nat ->
  jacrev n (fun _ => CX) m dout f y o i = (g_re d r i, - g_re d r (n + i)%nat).
Proof.
  intros S DR Y O I. rewrite jacrev_const by exact I. unfold vjp, jax_vjp. cbn [is_cx orb].
  rewrite (csum_eye m o (fun o => jvp (fun y => f y o) y (eye i)) O), (csum_eye m o (fun o => jvp (fun y => f y o) y (ieye i)) O).
  rewrite (jvp_eye n _ D _ d r y i S DR Y I), (jvp_ieye n D _ d r y i S DR Y I). reflexivity.
Qed.

(** ** Derivatives of the Jacobian *)
Lemma d_jacrev_re n D m dout f d r x t o i : real_output m dout f -> smooth n (fun _ => RE) D (fun y => f y o) d -> D r ->
  (forall i, (i < n)%nat -> x i = point n (fun _ => RE) r i) -> typed n (fun _ => RE) t -> (o < m)%nat -> (i < n)%nat ->
  jvp (fun y => jacrev n (fun _ => RE) m dout f y o i) x t =
    (sum (2 * n) (fun b => h_re d r i b * coords n t b), match dout with RE => 0 | CX => sum (2 * n) (fun b => h_im d r i b * coords n t b) end).
Proof.
  intros RO S DR X T O I. pose proof S as (OP & E & A & B). unfold jvp at 1. f_equal.
  - apply (derive_along n (fun _ => RE) D (fun y => fst (jacrev n (fun _ => RE) m dout f y o i)) (fun r => g_re d r i) r); auto; [|apply A; auto; lia].
    intros y r' D' Y. rewrite (jacrev_re n D m dout f d r' y o i) by auto. destruct dout; reflexivity.
  - destruct dout.
    + apply derive_zero. intros h. rewrite jacrev_const by exact I. reflexivity.
    + apply (derive_along n (fun _ => RE) D (fun y => snd (jacrev n (fun _ => RE) m CX f y o i)) (fun r => g_im d r i) r); auto; [|apply B; auto; lia].
      intros y r' D' Y. rewrite (jacrev_re n D m CX f d r' y o i) by auto. reflexivity.
Qed.
Lemma total_opp N F v g : total N F v g -> total N (fun w => - F w) v (fun a => - g a).
Proof.
  intros T eps E. destruct (T eps E) as (del & P & H). exists del. split; [exact P|]. intros w W. specialize (H w W).
  rewrite (sum_ext N (fun a => - g a * (w a - v a)) (fun a => - (g a * (w a - v a)))) by (intros; ring). rewrite sum_opp.
  replace (- F w - - F v - - sum N (fun a => g a * (w a - v a))) with (- (F w - F v - sum N (fun a => g a * (w a - v a)))) by ring. rewrite Rabs_Ropp. exact H.
Qed.
Lemma d_jacrev_cx n D m dout f d r x t o i : smooth n (fun _ => CX) D (fun y => f y o) d -> D r ->
  (forall i, (i < n)%nat -> x i = point n (fun _ => CX) r i) -> (o < m)%nat -> (i < n)%nat ->
  jvp (fun y => jacrev n (fun _ => CX) m dout f y o i) x t =
    (sum (2 * n) (fun b => h_re d r i b * coords n t b), - sum (2 * n) (fun b => h_re d r (n + i)%nat b * coords n t b)).
Proof.
  intros S DR X O I. pose proof S as (OP & E & A & B). unfold jvp at 1. f_equal.
  - apply (derive_along n (fun _ => CX) D (fun y => fst (jacrev n (fun _ => CX) m dout f y o i)) (fun r => g_re d r i) r); auto; [|apply A; auto; lia|apply typed_cx].
    intros y r' D' Y. rewrite (jacrev_cx n D m dout f d r' y o i) by auto. reflexivity.
  - rewrite <- sum_opp. rewrite (sum_ext (2 * n) (fun b => - (h_re d r (n + i)%nat b * coords n t b)) (fun b => (fun b => - h_re d r (n + i)%nat b) b * coords n t b)) by (intros; ring).
    apply (derive_along n (fun _ => CX) D (fun y => snd (jacrev n (fun _ => CX) m dout f y o i)) (fun r => - g_re d r (n + i)%nat) r); auto; [| |apply typed_cx].
    + intros y r' D' Y. rewrite (jacrev_cx n D m dout f d r' y o i) by auto. reflexivity.
    + apply (total_opp (2 * n) (fun r => g_re d r (n + i)%nat)). apply A; auto; lia.
Qed.

(** ** Contractions *)
Definition quad (n : nat) (H : mat) (c : vec) : R := sum (2 * n) (fun a => sum (2 * n) (fun b => H a b * (c a * c b))).
Lemma quad_split n H c : quad n H c = sum n (fun i => sum n (fun j =>
  H i j * (c i * c j) + H i (n + j)%nat * (c i * c (n + j)%nat) + H (n + i)%nat j * (c (n + i)%nat * c j) + H (n + i)%nat (n + j)%nat * (c (n + i)%nat * c (n + j)%nat))).
Proof.
  unfold quad. rewrite sum_2n, <- sum_plus. apply sum_ext. intros i _. rewrite !sum_2n, <- !sum_plus. apply sum_ext. intros j _. cbn beta. ring.
Qed.
Lemma frobenius_gram n K (A g : nat -> nat -> C) : frobenius n n A (fun i j => csum K (fun k => (g i k * g j k)%C)) =
  csum K (fun k => csum n (fun i => csum n (fun j => (A i j * (g i k * g j k))%C))).
Proof.
  unfold frobenius. rewrite csum_swap. rewrite (csum_swap K n). rewrite csum_swap. apply csum_ext. intros i _. rewrite (csum_swap K n). apply csum_ext. intros j _. cbn beta. rewrite csum_scal_l. reflexivity.
Qed.

Section jhj.
Variables (n K m : nat) (D : vec -> Prop) (f : cvec -> nat -> C) (o : nat) (d : partials) (r : vec) (x : cvec) (jac : nat -> cvec).
Hypotheses (O : (o < m)%nat) (DR : D r).
Let c k := coords n (jac k).
Let want : C := (sum K (fun k => quad n (h_re d r) (c k)), sum K (fun k => quad n (h_im d r) (c k))).
Let g2 := fun i k => jac k i.

Lemma hessian_re dout : smooth n (fun _ => RE) D (fun y => f y o) d -> real_output m dout f ->
  (forall i, (i < n)%nat -> x i = point n (fun _ => RE) r i) -> (forall k, (k < K)%nat -> typed n (fun _ => RE) (jac k)) ->
  JHJ_via_hessian n K m RE dout f x g2 o = match dout with RE => RtoC (fst want) | CX => want end.
Proof.
  intros S RO X T. unfold JHJ_via_hessian. rewrite frobenius_gram.
  assert (HE : forall i j, (i < n)%nat -> (j < n)%nat -> hessian n (fun _ => RE) m dout f x o i j = (h_re d r i j, match dout with RE => 0 | CX => h_im d r i j end)).
  { intros i j I J. unfold hessian, jacfwd. rewrite (d_jacrev_re n D m dout f d r x (eye j) o i) by (auto using typed_eye). 
    assert (P : forall h : mat, sum (2 * n) (fun b => h i b * coords n (eye j) b) = h i j).
    { intros h. rewrite <- (sum_delta_r (2 * n) (h i) j ltac:(lia)). apply sum_ext. intros b B. rewrite coords_eye by auto. reflexivity. }
    rewrite (P (h_re d r)). destruct dout; [reflexivity|]. rewrite (P (h_im d r)). reflexivity. }
  assert (Q : forall h k, (k < K)%nat -> quad n h (c k) = sum n (fun i => sum n (fun j => h i j * (fst (jac k i) * fst (jac k j))))).
  { intros h k KK. rewrite quad_split. apply sum_ext. intros i I. apply sum_ext. intros j J. unfold c. rewrite !coords_lo, !coords_hi by auto.
    pose proof (T k KK i I eq_refl) as Z. cbn beta in Z. pose proof (T k KK j J eq_refl) as Z'. cbn beta in Z'. rewrite Z, Z'. ring. }
  assert (PR : forall k i j, (k < K)%nat -> (i < n)%nat -> (j < n)%nat -> (g2 i k * g2 j k)%C = RtoC (fst (jac k i) * fst (jac k j))).
  { intros k i j KK I J. unfold g2. pose proof (T k KK i I eq_refl) as Z. cbn beta in Z. pose proof (T k KK j J eq_refl) as Z'. cbn beta in Z'. apply C_ext; cbn; rewrite Z, Z'; ring. }
  apply C_ext.
  - transitivity (fst want); [|destruct dout; reflexivity]. unfold want. cbn [fst]. rewrite csum_fst. apply sum_ext. intros k KK. rewrite (Q _ k KK), csum_fst. apply sum_ext. intros i I. rewrite csum_fst. apply sum_ext. intros j J.
    rewrite (HE i j I J), (PR k i j KK I J). cbn. ring.
  - destruct dout; [cbn [RtoC snd]|unfold want; cbn [snd]]; rewrite csum_snd.
    + apply sum_0. intros k KK. rewrite csum_snd. apply sum_0. intros i I. rewrite csum_snd. apply sum_0. intros j J. rewrite (HE i j I J), (PR k i j KK I J). cbn. ring.
    + apply sum_ext. intros k KK. rewrite (Q _ k KK), csum_snd. apply sum_ext. intros i I. rewrite csum_snd. apply sum_ext. intros j J. rewrite (HE i j I J), (PR k i j KK I J). cbn. ring.
Qed.
Lemma hessian_cx dout : smooth n (fun _ => CX) D (fun y => f y o) d -> cauchy_riemann n D d ->
  (forall i, (i < n)%nat -> x i = point n (fun _ => CX) r i) -> JHJ_via_hessian n K m CX dout f x g2 o = want.
Proof.
  intros S CR X. pose proof S as (OP & E & A & B). unfold JHJ_via_hessian. rewrite frobenius_gram.
  assert (HE : forall i j, (i < n)%nat -> (j < n)%nat -> hessian n (fun _ => CX) m dout f x o i j = (h_re d r i j, - h_re d r (n + i)%nat j)).
  { intros i j I J. unfold hessian, jacfwd. rewrite (d_jacrev_cx n D m dout f d r x (eye j) o i) by auto. 
    assert (P : forall a, sum (2 * n) (fun b => h_re d r a b * coords n (eye j) b) = h_re d r a j).
    { intros a. rewrite <- (sum_delta_r (2 * n) (h_re d r a) j ltac:(lia)). apply sum_ext. intros b BB. rewrite coords_eye by auto. reflexivity. }
    rewrite !P. reflexivity. }
  destruct (CR r DR) as [_ SY].
  assert (C1 : forall a b, (a < n)%nat -> (b < 2 * n)%nat -> h_re d r a b = h_im d r (n + a)%nat b).
  { intros a b LA LB. apply (total_unique (2 * n) D (fun w => g_re d w a) (fun w => g_im d w (n + a)%nat) r); auto; [intros v V; apply (CR v V); exact LA|apply A; auto; lia|apply B; auto; lia]. }
  assert (C2 : forall a b, (a < n)%nat -> (b < 2 * n)%nat -> h_re d r (n + a)%nat b = - h_im d r a b).
  { intros a b LA LB. apply (total_unique (2 * n) D (fun w => g_re d w (n + a)%nat) (fun w => - g_im d w a) r _ (fun b => - h_im d r a b)); auto; [intros v V; apply (CR v V); exact LA|apply A; auto; lia|].
    apply (total_opp (2 * n) (fun w => g_im d w a)). apply B; auto; lia. }
  apply C_ext; unfold want; cbn [fst snd]; [rewrite csum_fst|rewrite csum_snd]; apply sum_ext; intros k KK; rewrite quad_split; [rewrite csum_fst|rewrite csum_snd]; apply sum_ext; intros i I; [rewrite csum_fst|rewrite csum_snd]; apply sum_ext; intros j J;
    rewrite (HE i j I J); unfold c; rewrite !coords_lo, !coords_hi by auto; unfold g2.
  - assert (E1 : h_re d r i (n + j)%nat = h_re d r (n + i)%nat j).
    { rewrite (proj1 (SY i (n + j)%nat ltac:(lia) ltac:(lia))), (C2 j i J ltac:(lia)), (C2 i j I ltac:(lia)), (proj2 (SY j i ltac:(lia) ltac:(lia))). reflexivity. }
    assert (E2 : h_re d r (n + i)%nat (n + j)%nat = - h_re d r i j).
    { rewrite (C2 i (n + j)%nat I ltac:(lia)), (proj2 (SY i (n + j)%nat ltac:(lia) ltac:(lia))), <- (C1 j i J ltac:(lia)), (proj1 (SY j i ltac:(lia) ltac:(lia))). reflexivity. }
    rewrite E1, E2. cbn. ring.
  - assert (E0 : h_im d r (n + i)%nat j = h_re d r i j) by (symmetry; apply C1; [exact I|lia]).
    assert (E1 : h_im d r i (n + j)%nat = h_re d r i j).
    { rewrite (proj2 (SY i (n + j)%nat ltac:(lia) ltac:(lia))), <- (C1 j i J ltac:(lia)), (proj1 (SY j i ltac:(lia) ltac:(lia))). reflexivity. }
    assert (E2 : h_im d r (n + i)%nat (n + j)%nat = - h_im d r i j).
    { rewrite <- (C1 i (n + j)%nat I ltac:(lia)), (proj1 (SY i (n + j)%nat ltac:(lia) ltac:(lia))), (C2 j i J ltac:(lia)), (proj2 (SY j i ltac:(lia) ltac:(lia))). reflexivity. }
    rewrite E0, E1, E2, (C2 i j I ltac:(lia)). cbn. ring.
Qed.
Lemma hvp_cx dout : smooth n (fun _ => CX) D (fun y => f y o) d ->
  (forall i, (i < n)%nat -> x i = point n (fun _ => CX) r i) -> fst (JHJ_via_hvp n K m CX dout f x g2 o) = fst want.
Proof.
  intros S X. unfold JHJ_via_hvp, frobenius. rewrite csum_swap, csum_fst. unfold want. cbn [fst]. apply sum_ext. intros k KK.
  rewrite csum_fst. unfold quad. rewrite sum_2n, <- sum_plus. apply sum_ext. intros i I. cbn beta.
  rewrite (d_jacrev_cx n D m dout f d r x _ o i) by auto. unfold g2 at 3. change (coords n (fun j => g2 j k)) with (c k).
  rewrite (sum_ext (2 * n) (fun b => h_re d r i b * (c k i * c k b)) (fun b => c k i * (h_re d r i b * c k b))) by (intros; ring).
  rewrite (sum_ext (2 * n) (fun b => h_re d r (n + i)%nat b * (c k (n + i)%nat * c k b)) (fun b => c k (n + i)%nat * (h_re d r (n + i)%nat b * c k b))) by (intros; ring).
  rewrite !sum_scal_l. replace (c k i) with (fst (jac k i)) by (symmetry; apply coords_lo; exact I).
  replace (c k (n + i)%nat) with (snd (jac k i)) by (symmetry; apply coords_hi). cbn. ring.
Qed.
Lemma trace_any kind : smooth n kind D (fun y => f y o) d ->
  (forall i, (i < n)%nat -> x i = point n kind r i) -> (forall k, (k < K)%nat -> typed n kind (jac k)) -> JHJ_via_trace K f x g2 o = want.
Proof.
  intros S X T. pose proof S as (OP & E & A & B). unfold JHJ_via_trace.
  assert (SUMT : forall N (G : R -> vec -> vec) (h : mat) t, (forall a, (a < N)%nat -> total N (fun w => G 0 w a) r (h a)) -> total N (fun w => sum N (fun a => G 0 w a * t a)) r (fun b => sum N (fun a => h a b * t a))).
  { intros N G h t. assert (Z : forall M, (M <= N)%nat -> (forall a, (a < M)%nat -> total N (fun w => G 0 w a) r (h a)) -> total N (fun w => sum M (fun a => G 0 w a * t a)) r (fun b => sum M (fun a => h a b * t a))).
    { induction M as [|M IH]; intros LE H.
      - intros eps EPS. exists 1. split; [lra|]. intros w _. cbn [sum]. rewrite (sum_0 N (fun a => 0 * (w a - r a))) by (intros; ring). rewrite !Rminus_0_r, Rabs_R0. apply Rmult_le_pos; [lra|]. apply sum_nonneg. intros; apply Rabs_pos.
      - specialize (IH ltac:(lia) (fun a L => H a ltac:(lia))). pose proof (H M ltac:(lia)) as HM. intros eps EPS.
        set (e2 := eps / (2 * (Rabs (t M) + 1))). pose proof (Rabs_pos (t M)) as TP. assert (P2 : 0 < e2) by (apply Rdiv_lt_0_compat; lra).
        destruct (IH (eps / 2) ltac:(lra)) as (d1 & D1 & H1). destruct (HM e2 P2) as (d2 & D2 & H2).
        exists (Rmin d1 d2). split; [apply Rmin_glb_lt; auto|]. intros w W.
        specialize (H1 w (fun a L => Rlt_le_trans _ _ _ (W a L) (Rmin_l d1 d2))). specialize (H2 w (fun a L => Rlt_le_trans _ _ _ (W a L) (Rmin_r d1 d2))).
        cbn [sum]. set (N1 := sum N (fun a => Rabs (w a - r a))) in *. assert (N0 : 0 <= N1) by (apply sum_nonneg; intros; apply Rabs_pos).
        rewrite (sum_ext N (fun b => (sum M (fun a => h a b * t a) + h M b * t M) * (w b - r b)) (fun b => sum M (fun a => h a b * t a) * (w b - r b) + t M * (h M b * (w b - r b)))) by (intros; ring).
        rewrite sum_plus, sum_scal_l. set (S1 := sum N (fun a => h M a * (w a - r a))) in *. set (S0 := sum N (fun b => sum M (fun a => h a b * t a) * (w b - r b))) in *.
        set (F1 := sum M (fun a => G 0 w a * t a)) in *. set (F0 := sum M (fun a => G 0 r a * t a)) in *.
        replace (F1 + G 0 w M * t M - (F0 + G 0 r M * t M) - (S0 + t M * S1)) with ((F1 - F0 - S0) + t M * (G 0 w M - G 0 r M - S1)) by ring.
        eapply Rle_trans; [apply Rabs_triang|]. rewrite Rabs_mult.
        assert (Rabs (t M) * Rabs (G 0 w M - G 0 r M - S1) <= Rabs (t M) * (e2 * N1)) by (apply Rmult_le_compat_l; auto).
        assert (Rabs (t M) * (e2 * N1) <= eps / 2 * N1).
        { rewrite <- Rmult_assoc. apply Rmult_le_compat_r; [exact N0|]. unfold e2. apply Rmult_le_reg_r with (2 * (Rabs (t M) + 1)); [lra|].
          replace (Rabs (t M) * (eps / (2 * (Rabs (t M) + 1))) * (2 * (Rabs (t M) + 1))) with (Rabs (t M) * eps) by (field; lra). nra. }
        lra. }
    intros H. apply (Z N (le_n N) H). }
  assert (V : forall k, (k < K)%nat -> jvp (fun y => jvp (fun z => f z o) y (fun i => g2 i k)) x (fun i => g2 i k) = (quad n (h_re d r) (c k), quad n (h_im d r) (c k))).
  { intros k KK. change (fun i => g2 i k) with (jac k). unfold jvp at 1. f_equal.
    - transitivity (sum (2 * n) (fun b => (fun b => sum (2 * n) (fun a => h_re d r a b * c k a)) b * coords n (jac k) b)).
      + apply (derive_along n kind D (fun y => fst (jvp (fun z => f z o) y (jac k))) (fun w => sum (2 * n) (fun a => g_re d w a * c k a)) r); auto.
        * intros y r' D' Y. rewrite (jvp_smooth n kind D (fun z => f z o) d r' y (jac k)) by auto. reflexivity.
        * apply (SUMT (2 * n)%nat (fun _ => g_re d) (h_re d r) (c k)). intros a LA. apply A; auto.
      + unfold quad. rewrite sum_swap. apply sum_ext. intros b _. cbn beta. rewrite <- sum_scal_r. apply sum_ext. intros a _. unfold c. ring.
    - transitivity (sum (2 * n) (fun b => (fun b => sum (2 * n) (fun a => h_im d r a b * c k a)) b * coords n (jac k) b)).
      + apply (derive_along n kind D (fun y => snd (jvp (fun z => f z o) y (jac k))) (fun w => sum (2 * n) (fun a => g_im d w a * c k a)) r); auto.
        * intros y r' D' Y. rewrite (jvp_smooth n kind D (fun z => f z o) d r' y (jac k)) by auto. reflexivity.
        * apply (SUMT (2 * n)%nat (fun _ => g_im d) (h_im d r) (c k)). intros a LA. apply B; auto.
      + unfold quad. rewrite sum_swap. apply sum_ext. intros b _. cbn beta. rewrite <- sum_scal_r. apply sum_ext. intros a _. unfold c. ring. }
  unfold want. apply C_ext; cbn [fst snd]; [rewrite csum_fst|rewrite csum_snd]; apply sum_ext; intros k KK; cbn beta; rewrite (V k KK); reflexivity.
Qed.
End jhj.
