(** C38: the forward-Laplacian interpreter returns the value, the gradient and the Laplacian
    of every well-formed program, at every point at which the program is smooth. *)
From Coq Require Import Reals List Arith Bool Lra Lia FunctionalExtensionality.
From Verif Require Import Lin Lap_Spec Lap_Lang Lap_Model Jet.
Import ListNotations.
Open Scope R_scope.

Lemma line_0 p w k j : line p w k 0 j = p j.
Proof. unfold line. destruct (Nat.eqb j k); ring. Qed.

Lemma d_inv z : z <> 0 -> derivable_pt_lim Rinv z (- / z ^ 2).
Proof.
  intros Z. apply (derivable_ext (fun u => 1 / u)); [intros; unfold Rdiv; ring|].
  apply (derivable_eq _ _ ((0 * z - 1 * 1) / Rsqr z)); [unfold Rsqr; field; auto|].
  apply (derivable_pt_lim_div (fun _ => 1) id z 0 1); [apply derivable_pt_lim_const|apply derivable_pt_lim_id|exact Z].
Qed.
Lemma d_inv2 z : z <> 0 -> derivable_pt_lim (fun u => - / u ^ 2) z (2 / z ^ 3).
Proof.
  intros Z. apply (derivable_local (fun u => -1 * (/ u * / u))).
  - apply (derivable_eq _ _ (-1 * (- / z ^ 2 * / z + / z * - / z ^ 2))); [field; auto|].
    apply (derivable_pt_lim_scal (fun u => / u * / u)). apply (derivable_pt_lim_mult Rinv Rinv); apply d_inv; auto.
  - exists (Rabs z). split; [apply Rabs_pos_lt; auto|]. intros y Y. field. intros ->. replace (0 - z) with (- z) in Y by ring. rewrite Rabs_Ropp in Y. lra.
Qed.
Lemma open_nonzero : open1 (fun z => z <> 0).
Proof. intros z Z. exists (Rabs z). split; [apply Rabs_pos_lt; auto|]. intros u U ->. replace (0 - z) with (- z) in U by ring. rewrite Rabs_Ropp in U. lra. Qed.

(** ** Value, gradient and Laplacian are closed under the operations *)
Section gl.
Variables (n : nat) (w p : vec).
Notation gl := (gradient_and_laplacian n w p).
Lemma gl_eq f x J L x' J' L' : gl f x J L -> x = x' -> (forall k, (k < n)%nat -> J k = J' k) -> L = L' -> gl f x' J' L'.
Proof.
  intros (X & h & H & S) <- E <-. split; auto. exists h. split; auto. intros k K. rewrite <- (E k K). auto.
Qed.
Lemma gl_local f g x J L : gl f x J L -> f p = g p -> (forall k, (k < n)%nat -> near (fun s => f (line p w k s) = g (line p w k s))) -> gl g x J L.
Proof.
  intros (X & h & H & S) E N. split; [congruence|]. exists h. split; auto. intros k K. apply (jet_local (fun s => f (line p w k s))); auto.
Qed.
Lemma gl_ext f g x J L : (forall q, f q = g q) -> gl f x J L -> gl g x J L.
Proof. intros E G. apply (gl_local f); auto. intros. apply near_all. auto. Qed.
Lemma gl_const a : gl (fun _ => a) a (fun _ => 0) 0.
Proof. split; auto. exists (fun _ => 0). split; [intros; apply jet_const|symmetry; apply sum_0; auto]. Qed.
Lemma gl_plus f g x J L x' J' L' : gl f x J L -> gl g x' J' L' -> gl (fun q => f q + g q) (x + x') (fun k => J k + J' k) (L + L').
Proof.
  intros (X & h & H & S) (X' & h' & H' & S'). split; [congruence|]. exists (fun k => h k + h' k).
  split; [intros k K; apply (jet_plus (fun s => f (line p w k s)) (fun s => g (line p w k s))); auto|]. rewrite sum_plus. congruence.
Qed.
Lemma gl_scal c f x J L : gl f x J L -> gl (fun q => c * f q) (c * x) (fun k => c * J k) (c * L).
Proof.
  intros (X & h & H & S). split; [congruence|]. exists (fun k => c * h k).
  split; [intros k K; apply (jet_scal c (fun s => f (line p w k s))); auto|]. rewrite sum_scal_l. congruence.
Qed.
Lemma gl_minus f g x J L x' J' L' : gl f x J L -> gl g x' J' L' -> gl (fun q => f q - g q) (x - x') (fun k => J k - J' k) (L - L').
Proof.
  intros A B. apply (gl_ext (fun q => f q + (-1) * g q)); [intros; ring|].
  apply (gl_eq _ _ _ _ _ _ _ (gl_plus _ _ _ _ _ _ _ _ A (gl_scal (-1) _ _ _ _ B))); intros; ring.
Qed.
Lemma gl_mult f g x J L x' J' L' : gl f x J L -> gl g x' J' L' ->
  gl (fun q => f q * g q) (x * x') (fun k => J k * x' + x * J' k) (L * x' + x * L' + 2 * sum n (fun k => J k * J' k)).
Proof.
  intros (X & h & H & S) (X' & h' & H' & S'). split; [congruence|]. exists (fun k => h k * x' + x * h' k + 2 * (J k * J' k)).
  split; [intros k K; apply (jet_mult (fun s => f (line p w k s)) (fun s => g (line p w k s))); auto|].
  rewrite !sum_plus, sum_scal_r, !sum_scal_l. congruence.
Qed.
Lemma gl_comp F F1 F2 D f x J L : open1 D -> (forall x, D x -> derivable_pt_lim F x (F1 x)) -> (forall x, D x -> derivable_pt_lim F1 x (F2 x)) -> D x ->
  gl f x J L -> gl (fun q => F (f q)) (F x) (fun k => F1 x * J k) (F1 x * L + F2 x * sum n (fun k => J k * J k)).
Proof.
  intros O D1 D2 DX (X & h & H & S). split; [congruence|]. exists (fun k => F1 x * h k + F2 x * (J k * J k)).
  split; [intros k K; apply (jet_comp F F1 F2 D (fun s => f (line p w k s))); auto|]. rewrite sum_plus, !sum_scal_l. congruence.
Qed.
Lemma gl_lsum {A} (f : A -> vec -> R) (x : A -> R) (J : A -> nat -> R) (L : A -> R) : forall l,
  (forall t, In t l -> gl (f t) (x t) (J t) (L t)) ->
  gl (fun q => lsum (fun t => f t q) l) (lsum x l) (fun k => lsum (fun t => J t k) l) (lsum L l).
Proof.
  unfold lsum. induction l as [|t l IH]; intros H; cbn [fold_right]; [apply gl_const|].
  apply (gl_plus (f t)); [apply H; left; reflexivity|]. apply IH. intros u U. apply H. right. exact U.
Qed.
Lemma gl_near f x J L e k : (k < n)%nat -> gl f x J L -> 0 < e -> near (fun s => Rabs (f (line p w k s) - x) < e).
Proof. intros K (X & h & H & S) E. apply (jet_near _ _ (J k) (h k)); auto. Qed.
Lemma gl_value f x J L : gl f x J L -> x = f p.
Proof. intros [X _]. exact X. Qed.
Lemma gl_general m F (G : vec -> vec) (H : mat) D (f : nat -> vec -> R) (v : vec) (J : nat -> nat -> R) (L : vec) :
  openn m D -> (forall w, D w -> total m F w (G w)) -> D v -> (forall a, (a < m)%nat -> total m (fun w => G w a) v (H a)) ->
  (forall x y, (forall a, (a < m)%nat -> x a = y a) -> F x = F y) ->
  (forall a, (a < m)%nat -> gl (f a) (v a) (J a) (L a)) ->
  gl (fun q => F (fun a => f a q)) (F v) (fun k => sum m (fun a => G v a * J a k))
     (sum m (fun a => G v a * L a) + sum n (fun k => sum m (fun a => sum m (fun b => H a b * (J a k * J b k))))).
Proof.
  intros O T DV T2 EXT GL. split.
  - apply EXT. intros a Ha. destruct (GL a Ha) as [X _]. exact X.
  - destruct (finite_choice (fun _ : nat => 0) m (fun a h => (forall k, (k < n)%nat -> jet (fun s => f a (line p w k s)) (v a) (J a k) (h k)) /\ L a = sum n h)) as [h Hh].
    { intros a Ha. destruct (GL a Ha) as [_ (h & A & B)]. exists h. auto. }
    exists (fun k => sum m (fun a => G v a * h a k) + sum m (fun a => sum m (fun b => H a b * (J a k * J b k)))). split.
    + intros k K. apply (jet_general m F G H D (fun a s => f a (line p w k s)) v (fun a => J a k) (fun a => h a k)); auto.
      intros a Ha. apply Hh; auto.
    + rewrite sum_plus. f_equal. rewrite sum_swap. apply sum_ext. intros a Ha. destruct (Hh a Ha) as [_ ->]. rewrite sum_scal_l. reflexivity.
Qed.
End gl.

(** ** One value of the environment *)
Definition correct (n : nat) (w p : vec) (F : vec -> arr) (size : nat) (v : value) : Prop :=
  match v with
  | Plain a => forall i, (i < size)%nat -> a i = F p i /\ forall k, (k < n)%nat -> near (fun s => F (line p w k s) i = a i)
  | Tracked t => forall i, (i < size)%nat -> gradient_and_laplacian n w p (fun q => F q i) (lx t i) (fun k => jac t k i) (lapl t i)
  end.
Lemma correct_gl n w p F size v i : correct n w p F size v -> (i < size)%nat ->
  gradient_and_laplacian n w p (fun q => F q i) (primal v i) (fun k => jac_of v k i) (lapl_of v i).
Proof.
  destruct v as [a|t]; cbn [correct primal jac_of lapl_of]; intros C I; [|auto].
  destruct (C i I) as [E N]. apply (gl_local n w p (fun _ => a i)); [apply gl_const|auto|]. intros k K. generalize (N k K). apply near_imp. auto.
Qed.
Lemma correct_plain n w p F size v i : correct n w p F size v -> (i < size)%nat -> is_tracked v = false ->
  primal v i = F p i /\ forall k, (k < n)%nat -> near (fun s => F (line p w k s) i = primal v i).
Proof. destruct v as [a|t]; cbn; intros C I T; [auto|discriminate]. Qed.
Lemma correct_value n w p F size v i : correct n w p F size v -> (i < size)%nat -> primal v i = F p i.
Proof. intros C I. apply (gl_value _ _ _ _ _ _ _ (correct_gl _ _ _ _ _ _ _ C I)). Qed.
Lemma correct_shrink n w p F size size' v : correct n w p F size v -> (size' <= size)%nat -> correct n w p F size' v.
Proof. destruct v as [a|t]; cbn; intros C L i I; apply C; lia. Qed.

(** The result of an equation depends on the elements it reads only. *)
Lemma prim_local i o : forall e e', (forall v j, In (v, j) (reads i o) -> e v j = e' v j) -> prim e i o = prim e' i o.
Proof.
  intros e e'. destruct i; cbn [reads prim]; intros H;
    try (repeat (rewrite (H _ _ (or_introl eq_refl)) || rewrite (H _ _ (or_intror (or_introl eq_refl))) || rewrite (H _ _ (or_intror (or_intror (or_introl eq_refl))))); reflexivity).
  - unfold lsum. induction (w o) as [|[[v j] r] l IH]; [reflexivity|]. cbn [fold_right map fst] in *. rewrite (H v j); [|left; reflexivity]. f_equal. apply IH. intros v' j' I. apply H. right. exact I.
  - unfold lsum. induction (c o) as [|[a b] l IH]; [reflexivity|]. cbn [fold_right flat_map fst snd] in *. rewrite (H x a), (H y b); [|right; left; reflexivity|left; reflexivity].
    f_equal. apply IH. intros v' j' I. apply H. right. right. exact I.
  - apply mloc. intros a Ha. destruct (args a) as [v j] eqn:E. cbn [fst snd]. apply H. rewrite <- E. apply in_map, in_seq. lia.
Qed.
Lemma near_list {A} (P : A -> R -> Prop) : forall l, (forall x, In x l -> near (P x)) -> near (fun t => forall x, In x l -> P x t).
Proof.
  induction l as [|x l IH]; intros H; [apply near_all; intros t y []|].
  pose proof (near_and _ _ (H x (or_introl eq_refl)) (IH (fun y Y => H y (or_intror Y)))) as N. revert N. apply near_imp.
  intros t [A1 A2] y [->|Y]; auto.
Qed.
Lemma sgn_pos a : 0 < a -> sgn a = 1.
Proof. unfold sgn. destruct (Rlt_dec 0 a); [auto|lra]. Qed.
Lemma sgn_neg a : a < 0 -> sgn a = -1.
Proof. unfold sgn. destruct (Rlt_dec 0 a); [lra|]. destruct (Rlt_dec a 0); [auto|lra]. Qed.
Lemma compare_lt c a b : a < b -> compare c a b = match c with Clt | Cle | Cne => 1 | _ => 0 end.
Proof. intros H. destruct c; cbn [compare]; try (destruct (Rlt_dec a b); lra); try (destruct (Rlt_dec b a); lra); try (destruct (Rle_dec a b); lra); try (destruct (Rle_dec b a); lra); destruct (Req_EM_T a b); lra. Qed.
Lemma compare_gt c a b : b < a -> compare c a b = match c with Cgt | Cge | Cne => 1 | _ => 0 end.
Proof. intros H. destruct c; cbn [compare]; try (destruct (Rlt_dec a b); lra); try (destruct (Rlt_dec b a); lra); try (destruct (Rle_dec a b); lra); try (destruct (Rle_dec b a); lra); destruct (Req_EM_T a b); lra. Qed.

Lemma abs_near x y r : Rabs (x - y) < r -> y - r < x < y + r.
Proof. unfold Rabs. destruct (Rcase_abs (x - y)); lra. Qed.
(** ** One equation *)
Section equation.
Variables (n : nat) (w p : vec) (sizes : list nat) (F : nat -> vec -> arr) (e : nat -> value).
Hypothesis env_ok : forall v, correct n w p (F v) (nth v sizes 0%nat) (e v).
Notation gl := (gradient_and_laplacian n w p).
Definition G (i : instr) (q : vec) : arr := prim (fun v => F v q) i.

Lemma at_gl i size o v j : well_formed sizes i size -> (o < size)%nat -> In (v, j) (reads i o) ->
  gl (fun q => F v q j) (primal (e v) j) (fun k => jac_of (e v) k j) (lapl_of (e v) j).
Proof. intros W O I. apply (correct_gl n w p _ (nth v sizes 0%nat)); auto. apply (W o O v j I). Qed.
Lemma value_eq i size o : well_formed sizes i size -> (o < size)%nat -> prim (fun v => primal (e v)) i o = G i p o.
Proof. intros W O. unfold G. apply prim_local. intros v j I. apply (correct_value n w p _ (nth v sizes 0%nat)); auto. apply (W o O v j I). Qed.
Lemma plain_eqn i size : well_formed sizes i size -> (forall v, In v (operands i) -> is_tracked (e v) = false) ->
  correct n w p (G i) size (Plain (prim (fun v => primal (e v)) i)).
Proof.
  intros W T o O. split; [apply (value_eq i size); auto|]. intros k K.
  assert (N : near (fun s => forall vj, In vj (reads i o) -> F (fst vj) (line p w k s) (snd vj) = primal (e (fst vj)) (snd vj))).
  { apply near_list. intros [v j] I. destruct (W o O v j I) as [A B]. apply (correct_plain n w p _ _ _ j (env_ok v) B (T v A)). auto. }
  revert N. apply near_imp. intros s S. unfold G. apply prim_local. intros v j I. apply (S (v, j) I).
Qed.
(** near each line the two compared values stay apart *)
Lemma apart f g x J L x' J' L' k : (k < n)%nat -> gl f x J L -> gl g x' J' L' -> x < x' -> near (fun s => f (line p w k s) < g (line p w k s)).
Proof.
  intros K A B L0. assert (P : 0 < (x' - x) / 2) by lra.
  pose proof (near_and _ _ (gl_near _ _ _ _ _ _ _ _ _ K A P) (gl_near _ _ _ _ _ _ _ _ _ K B P)) as N. revert N. apply near_imp. intros s [U V].
  apply abs_near in U. apply abs_near in V. lra.
Qed.

Theorem eqn_correct i size : well_formed sizes i size -> smooth (fun v => is_tracked (e v)) (fun v => primal (e v)) i size ->
  correct n w p (G i) size (eval_eqn n e i).
Proof.
  intros W S. unfold eval_eqn. unfold smooth in S.
  destruct (existsb (fun v => is_tracked (e v)) (operands i)) eqn:T; cycle 1.
  { apply plain_eqn; auto. intros v I. destruct (is_tracked (e v)) eqn:E; [|reflexivity].
    assert (X : existsb (fun v => is_tracked (e v)) (operands i) = true) by (apply existsb_exists; exists v; auto). congruence. }
  specialize (S eq_refl). pose proof (fun o v j H1 H2 => at_gl i size o v j W H1 H2) as GL. 
  pose proof (value_eq i size) as VE.
  destruct i as [f x|bx by_ x y|bx by_ x y|xs wt|bx by_ x y|bx by_ x y|c x y|f args xs|bx by_ x y|bx by_ x y|x|c x y|c bx by_ x y|x];
    cbn [rule reads operands prim] in *.
  - (* unary *) intros o O. unfold G. cbn [prim lx jac lapl]. apply (gl_comp n w p (sf f) (sf1 f) (sf2 f) (sdom f) (fun q => F x q o)); [apply sopen|apply sd1|apply sd2|auto|]. apply (GL o); cbn; auto.
  - (* add *) intros o O. unfold G. cbn [prim lx jac lapl]. apply (gl_plus n w p (fun q => F x q (bx o)) (fun q => F y q (by_ o))); apply (GL o); cbn; auto.
  - (* sub *) intros o O. unfold G. cbn [prim lx jac lapl]. apply (gl_minus n w p (fun q => F x q (bx o)) (fun q => F y q (by_ o))); apply (GL o); cbn; auto.
  - (* linear *) intros o O. unfold G. cbn [prim lx jac lapl]. specialize (GL o).
    assert (Q : forall t, In t (wt o) -> gl (fun q => let '(v, i, r) := t in r * F v q i) (let '(v, i, r) := t in r * primal (e v) i) (fun k => let '(v, i, r) := t in r * jac_of (e v) k i) (let '(v, i, r) := t in r * lapl_of (e v) i)).
    { intros [[v j] r] I. apply (gl_scal n w p r (fun q => F v q j)). apply GL; auto. change (v, j) with (fst (v, j, r)). apply in_map. exact I. }
    apply (gl_lsum n w p (fun t q => let '(v, i, r) := t in r * F v q i)) in Q. exact Q.
  - (* mul *)
    assert (M : forall o, (o < size)%nat -> gl (fun q => G (Mul bx by_ x y) q o) (primal (e x) (bx o) * primal (e y) (by_ o))
       (fun k => jac_of (e x) k (bx o) * primal (e y) (by_ o) + primal (e x) (bx o) * jac_of (e y) k (by_ o))
       (lapl_of (e x) (bx o) * primal (e y) (by_ o) + primal (e x) (bx o) * lapl_of (e y) (by_ o) + 2 * sum n (fun k => jac_of (e x) k (bx o) * jac_of (e y) k (by_ o)))).
    { intros o O. unfold G. cbn [prim]. apply (gl_mult n w p (fun q => F x q (bx o)) (fun q => F y q (by_ o))); apply (GL o); cbn; auto. }
    destruct (e x) as [a|a] eqn:EX, (e y) as [b|b] eqn:EY; cbn [existsb is_tracked orb] in T; [rewrite EX, EY in T; discriminate| | |];
    intros o O; cbn [lx jac lapl primal jac_of lapl_of] in *; apply (gl_eq _ _ _ _ _ _ _ _ _ _ (M o O)); intros; auto; try ring.
    + rewrite (sum_0 n (fun k => 0 * jac b k (by_ o))) by (intros; ring). ring.
    + rewrite (sum_0 n (fun k => jac a k (bx o) * 0)) by (intros; ring). ring.
  - (* div *)
    assert (M : forall o, (o < size)%nat -> gl (fun q => G (Div bx by_ x y) q o) (primal (e x) (bx o) * / primal (e y) (by_ o))
       (fun k => jac_of (e x) k (bx o) * / primal (e y) (by_ o) + primal (e x) (bx o) * ((- / (primal (e y) (by_ o)) ^ 2) * jac_of (e y) k (by_ o)))
       (lapl_of (e x) (bx o) * / primal (e y) (by_ o)
        + primal (e x) (bx o) * ((- / (primal (e y) (by_ o)) ^ 2) * lapl_of (e y) (by_ o) + 2 / (primal (e y) (by_ o)) ^ 3 * sum n (fun k => jac_of (e y) k (by_ o) * jac_of (e y) k (by_ o)))
        + 2 * sum n (fun k => jac_of (e x) k (bx o) * ((- / (primal (e y) (by_ o)) ^ 2) * jac_of (e y) k (by_ o))))).
    { intros o O. unfold G. cbn [prim]. unfold Rdiv at 1. apply (gl_mult n w p (fun q => F x q (bx o)) (fun q => / F y q (by_ o))); [apply (GL o); cbn; auto|].
      apply (gl_comp n w p Rinv (fun z => - / z ^ 2) (fun z => 2 / z ^ 3) (fun z => z <> 0) (fun q => F y q (by_ o))).
      - apply open_nonzero.
      - intros z Z. apply d_inv; exact Z.
      - intros z Z. apply d_inv2; exact Z.
      - auto.
      - apply (GL o); cbn; auto. }
    destruct (e x) as [a|a] eqn:EX, (e y) as [b|b] eqn:EY; cbn [existsb is_tracked orb] in T; [rewrite EX, EY in T; discriminate| | |];
    intros o O; pose proof (S o O) as NZ; cbn [lx jac lapl primal jac_of lapl_of] in *; apply (gl_eq _ _ _ _ _ _ _ _ _ _ (M o O)); intros; auto; try (field; auto).
    + rewrite (sum_0 n (fun k => 0 * _)) by (intros; ring). field; auto.
    + rewrite (sum_0 n (fun k => 0 * 0)) by (intros; ring). rewrite (sum_0 n (fun k => _ * (_ * 0))) by (intros; ring). field; auto.
    + rewrite (sum_ext n (fun k => jac a k (bx o) * (- / lx b (by_ o) ^ 2 * jac b k (by_ o))) (fun k => - / lx b (by_ o) ^ 2 * (jac a k (bx o) * jac b k (by_ o)))) by (intros; ring).
      rewrite sum_scal_l. field; auto.
  - (* dot *)
    assert (M : forall o, (o < size)%nat -> gl (fun q => G (Dot c x y) q o) (lsum (fun t => primal (e x) (fst t) * primal (e y) (snd t)) (c o))
       (fun k => lsum (fun t => jac_of (e x) k (fst t) * primal (e y) (snd t) + primal (e x) (fst t) * jac_of (e y) k (snd t)) (c o))
       (lsum (fun t => lapl_of (e x) (fst t) * primal (e y) (snd t) + primal (e x) (fst t) * lapl_of (e y) (snd t) + 2 * sum n (fun k => jac_of (e x) k (fst t) * jac_of (e y) k (snd t))) (c o))).
    { intros o O. unfold G. cbn [prim]. apply (gl_lsum n w p (fun t q => F x q (fst t) * F y q (snd t)) _ (fun t k => jac_of (e x) k (fst t) * primal (e y) (snd t) + primal (e x) (fst t) * jac_of (e y) k (snd t))).
      intros t I. apply (gl_mult n w p (fun q => F x q (fst t)) (fun q => F y q (snd t))); apply (GL o); auto; apply in_flat_map; exists t; cbn; auto. }
    assert (LP : forall (A : Type) (f g : A -> R) l, lsum (fun t => f t + g t) l = lsum f l + lsum g l).
    { intros A f g. unfold lsum. induction l as [|t l IH]; cbn; [ring|rewrite IH; ring]. }
    assert (LE : forall (A : Type) (f g : A -> R) l, (forall t, f t = g t) -> lsum f l = lsum g l).
    { intros A f g l E. unfold lsum. induction l as [|t l IH]; cbn; [reflexivity|rewrite IH, E; reflexivity]. }
    assert (LS : forall (A : Type) r (f : A -> R) l, lsum (fun t => r * f t) l = r * lsum f l).
    { intros A r f. unfold lsum. induction l as [|t l IH]; cbn; [ring|rewrite IH; ring]. }
    destruct (e x) as [a|a] eqn:EX, (e y) as [b|b] eqn:EY; cbn [existsb is_tracked orb] in T; [rewrite EX, EY in T; discriminate| | |];
    intros o O; cbn [lx jac lapl primal jac_of lapl_of] in *; apply (gl_eq _ _ _ _ _ _ _ _ _ _ (M o O)); intros; auto.
    + apply LE. intros. ring.
    + apply LE. intros t. rewrite (sum_0 n (fun k => 0 * _)) by (intros; ring). ring.
    + apply LE. intros. ring.
    + apply LE. intros t. rewrite (sum_0 n (fun k => _ * 0)) by (intros; ring). ring.
    + rewrite LP, LP, LS. reflexivity.
  - (* general *)
    intros o O. unfold G. cbn [prim lx jac lapl]. set (v := fun a => primal (e (fst (args a))) (snd (args a))).
    set (g := fun a k => jac_of (e (fst (args a))) k (snd (args a))).
    assert (M : gl (fun q => mf f o (fun a => F (fst (args a)) q (snd (args a)))) (mf f o v) (fun k => sum (marity f) (fun a => mg f o v a * g a k))
       (sum (marity f) (fun a => mg f o v a * lapl_of (e (fst (args a))) (snd (args a))) + sum n (fun k => sum (marity f) (fun a => sum (marity f) (fun b => mh f o v a b * (g a k * g b k)))))).
    { apply (gl_general n w p (marity f) (mf f o) (mg f o) (mh f o v) (mdom f) (fun a q => F (fst (args a)) q (snd (args a)))).
      - apply mopen.
      - apply md1.
      - apply (S o O).
      - intros a Ha. apply md2; auto. apply (S o O).
      - apply mloc.
      - intros a Ha. apply (GL o); auto. rewrite <- surjective_pairing. apply in_map, in_seq. lia. }
    apply (gl_eq _ _ _ _ _ _ _ _ _ _ M); auto. f_equal.
    destruct (_ <? n)%nat.
    + rewrite sum_swap. apply sum_ext. intros a Ha. rewrite sum_swap. apply sum_ext. intros b Hb. rewrite sum_scal_l. reflexivity.
    + apply sum_ext. intros k K. apply sum_ext. intros a Ha. rewrite <- sum_scal_r. apply sum_ext. intros b Hb. unfold g. ring.
  - (* max *)
    intros o O. unfold G. cbn [prim lx jac lapl]. pose proof (S o O) as NT. pose proof (GL o x (bx o) O ltac:(cbn; auto)) as A. pose proof (GL o y (by_ o) O ltac:(cbn; auto)) as B.
    destruct (Rtotal_order (primal (e x) (bx o)) (primal (e y) (by_ o))) as [LT|[E|GT]]; [|contradiction|].
    + rewrite Rmax_right by lra. apply (gl_local n w p (fun q => F y q (by_ o))).
      * apply (gl_eq _ _ _ _ _ _ _ _ _ _ B); intros; auto; unfold weight; destruct (Req_EM_T (primal (e x) (bx o)) (primal (e y) (by_ o))); try lra; destruct (Req_EM_T (primal (e y) (by_ o)) (primal (e y) (by_ o))); try lra; ring.
      * rewrite <- (gl_value _ _ _ _ _ _ _ B), <- (gl_value _ _ _ _ _ _ _ A). rewrite Rmax_right; lra.
      * intros k K. generalize (apart _ _ _ _ _ _ _ _ k K A B LT). apply near_imp. intros s L. rewrite Rmax_right; lra.
    + rewrite Rmax_left by lra. apply (gl_local n w p (fun q => F x q (bx o))).
      * apply (gl_eq _ _ _ _ _ _ _ _ _ _ A); intros; auto; unfold weight; destruct (Req_EM_T (primal (e y) (by_ o)) (primal (e x) (bx o))); try lra; destruct (Req_EM_T (primal (e x) (bx o)) (primal (e x) (bx o))); try lra; ring.
      * rewrite <- (gl_value _ _ _ _ _ _ _ B), <- (gl_value _ _ _ _ _ _ _ A). rewrite Rmax_left; lra.
      * intros k K. generalize (apart _ _ _ _ _ _ _ _ k K B A GT). apply near_imp. intros s L. rewrite Rmax_left; lra.
  - (* min *)
    intros o O. unfold G. cbn [prim lx jac lapl]. pose proof (S o O) as NT. pose proof (GL o x (bx o) O ltac:(cbn; auto)) as A. pose proof (GL o y (by_ o) O ltac:(cbn; auto)) as B.
    destruct (Rtotal_order (primal (e x) (bx o)) (primal (e y) (by_ o))) as [LT|[E|GT]]; [|contradiction|].
    + rewrite Rmin_left by lra. apply (gl_local n w p (fun q => F x q (bx o))).
      * apply (gl_eq _ _ _ _ _ _ _ _ _ _ A); intros; auto; unfold weight; destruct (Req_EM_T (primal (e y) (by_ o)) (primal (e x) (bx o))); try lra; destruct (Req_EM_T (primal (e x) (bx o)) (primal (e x) (bx o))); try lra; ring.
      * rewrite <- (gl_value _ _ _ _ _ _ _ B), <- (gl_value _ _ _ _ _ _ _ A). rewrite Rmin_left; lra.
      * intros k K. generalize (apart _ _ _ _ _ _ _ _ k K A B LT). apply near_imp. intros s L. rewrite Rmin_left; lra.
    + rewrite Rmin_right by lra. apply (gl_local n w p (fun q => F y q (by_ o))).
      * apply (gl_eq _ _ _ _ _ _ _ _ _ _ B); intros; auto; unfold weight; destruct (Req_EM_T (primal (e x) (bx o)) (primal (e y) (by_ o))); try lra; destruct (Req_EM_T (primal (e y) (by_ o)) (primal (e y) (by_ o))); try lra; ring.
      * rewrite <- (gl_value _ _ _ _ _ _ _ B), <- (gl_value _ _ _ _ _ _ _ A). rewrite Rmin_right; lra.
      * intros k K. generalize (apart _ _ _ _ _ _ _ _ k K B A GT). apply near_imp. intros s L. rewrite Rmin_right; lra.
  - (* abs *)
    intros o O. unfold G. cbn [prim lx jac lapl]. pose proof (S o O) as NT. pose proof (GL o x o O ltac:(cbn; auto)) as A. pose proof (gl_const n w p 0) as Z.
    destruct (Rtotal_order (primal (e x) o) 0) as [LT|[E|GT]]; [|contradiction|].
    + rewrite (sgn_neg _ LT), (Rabs_left _ LT). apply (gl_local n w p (fun q => (-1) * F x q o)).
      * apply (gl_eq _ _ _ _ _ _ _ _ _ _ (gl_scal _ _ _ (-1) _ _ _ _ A)); intros; ring.
      * rewrite <- (gl_value _ _ _ _ _ _ _ A). rewrite Rabs_left; lra.
      * intros k K. generalize (apart _ _ _ _ _ _ _ _ k K A Z LT). apply near_imp. cbn beta. intros s L. rewrite Rabs_left; lra.
    + rewrite (sgn_pos _ GT), (Rabs_right _ (or_introl GT)). apply (gl_local n w p (fun q => F x q o)).
      * apply (gl_eq _ _ _ _ _ _ _ _ _ _ A); intros; ring.
      * rewrite <- (gl_value _ _ _ _ _ _ _ A). rewrite Rabs_right; lra.
      * intros k K. generalize (apart _ _ _ _ _ _ _ _ k K Z A GT). apply near_imp. cbn beta. intros s L. rewrite Rabs_right; lra.
  - (* select *)
    destruct (is_tracked (e x) || is_tracked (e y)) eqn:T'.
    + intros o O. unfold G. cbn [prim lx jac lapl]. pose proof (S o O) as CP.
      destruct (W o O c o ltac:(cbn; auto)) as [_ RC]. destruct (correct_plain n w p _ _ _ o (env_ok c) RC CP) as [CE CN].
      pose proof (GL o x o O ltac:(cbn; auto)) as A. pose proof (GL o y o O ltac:(cbn; auto)) as B.
      destruct (Req_EM_T (primal (e c) o) 0) as [Z|Z].
      * apply (gl_local n w p (fun q => F x q o)); [exact A| |].
        -- rewrite <- CE. destruct (Req_EM_T (primal (e c) o) 0); [reflexivity|contradiction].
        -- intros k K. generalize (CN k K). apply near_imp. intros s ->. destruct (Req_EM_T (primal (e c) o) 0); [reflexivity|contradiction].
      * apply (gl_local n w p (fun q => F y q o)); [exact B| |].
        -- rewrite <- CE. destruct (Req_EM_T (primal (e c) o) 0); [contradiction|reflexivity].
        -- intros k K. generalize (CN k K). apply near_imp. intros s ->. destruct (Req_EM_T (primal (e c) o) 0); [contradiction|reflexivity].
    + destruct size as [|size']; [intros o O; lia|].
      pose proof (S 0%nat ltac:(lia)) as CP. apply orb_false_iff in T' as [TX TY].
      cbn [existsb orb] in T. rewrite CP, TX, TY in T. discriminate.
  - (* compare *)
    intros o O. pose proof (S o O) as NT. pose proof (GL o x (bx o) O ltac:(cbn; auto)) as A. pose proof (GL o y (by_ o) O ltac:(cbn; auto)) as B.
    split; [apply VE; auto|]. intros k K. unfold G. cbn [prim].
    destruct (Rtotal_order (primal (e x) (bx o)) (primal (e y) (by_ o))) as [LT|[E|GT]]; [|contradiction|].
    + rewrite (compare_lt _ _ _ LT). generalize (apart _ _ _ _ _ _ _ _ k K A B LT). apply near_imp. intros s L. apply compare_lt. exact L.
    + rewrite (compare_gt _ _ _ GT). generalize (apart _ _ _ _ _ _ _ _ k K B A GT). apply near_imp. intros s L. apply compare_gt. exact L.
  - (* sign *)
    intros o O. pose proof (S o O) as NT. pose proof (GL o x o O ltac:(cbn; auto)) as A. pose proof (gl_const n w p 0) as Z.
    split; [apply VE; auto|]. intros k K. unfold G. cbn [prim].
    destruct (Rtotal_order (primal (e x) o) 0) as [LT|[E|GT]]; [|contradiction|].
    + rewrite (sgn_neg _ LT). generalize (apart _ _ _ _ _ _ _ _ k K A Z LT). apply near_imp. intros s L. apply sgn_neg. exact L.
    + rewrite (sgn_pos _ GT). generalize (apart _ _ _ _ _ _ _ _ k K Z A GT). apply near_imp. intros s L. apply sgn_pos. exact L.
Qed.
End equation.

(** ** Programs *)
Lemma smooth_local dep e e' i size : (forall o, (o < size)%nat -> forall v j, In (v, j) (reads i o) -> e v j = e' v j) -> smooth dep e i size -> smooth dep e' i size.
Proof.
  intros E S T o O. specialize (S T o O). specialize (E o O). destruct i; cbn [reads] in *; auto.
  - rewrite <- (E x o); [exact S|left; reflexivity].
  - rewrite <- (E y (by_ o)); [exact S|right; left; reflexivity].
  - destruct (mopen f _ S) as (d & D & H). apply H. intros a Ha. rewrite <- (E (fst (args a)) (snd (args a))).
    + match goal with |- Rabs (?u - ?u) < _ => replace (u - u) with 0 by ring end. rewrite Rabs_R0. exact D.
    + rewrite <- surjective_pairing. apply in_map, in_seq. lia.
  - rewrite <- (E x (bx o)), <- (E y (by_ o)); [exact S|right; left; reflexivity|left; reflexivity].
  - rewrite <- (E x (bx o)), <- (E y (by_ o)); [exact S|right; left; reflexivity|left; reflexivity].
  - rewrite <- (E x o); [exact S|left; reflexivity].
  - rewrite <- (E x (bx o)), <- (E y (by_ o)); [exact S|right; left; reflexivity|left; reflexivity].
  - rewrite <- (E x o); [exact S|left; reflexivity].
Qed.
Lemma existsb_dep (dep : nat -> bool) dep' l : (forall v, dep v = dep' v) -> existsb dep l = existsb dep' l.
Proof. intros E. induction l as [|v l IH]; cbn; [reflexivity|]. rewrite E, IH. reflexivity. Qed.
Lemma smooth_dep dep dep' e i size : (forall v, dep v = dep' v) -> smooth dep e i size -> smooth dep' e i size.
Proof.
  intros E S T o O. assert (T' : existsb dep (operands i) = true).
  { rewrite <- T. apply existsb_dep. exact E. }
  specialize (S T' o O). destruct i; auto. rewrite <- E. exact S.
Qed.
Lemma tracked_depends n e i : is_tracked (eval_eqn n e i) = depends (fun v => is_tracked (e v)) i.
Proof.
  unfold eval_eqn. destruct (existsb (fun v => is_tracked (e v)) (operands i)) eqn:T.
  - destruct i; cbn [rule depends operands is_tracked] in *; try (rewrite T; reflexivity); try reflexivity.
    + cbn [existsb] in T |- *. destruct (e x), (e y); cbn in *; try discriminate; auto.
    + cbn [existsb] in T |- *. destruct (e x), (e y); cbn in *; try discriminate; auto.
    + cbn [existsb] in T |- *. destruct (e x), (e y); cbn in *; try discriminate; auto.
    + destruct (is_tracked (e x) || is_tracked (e y)); reflexivity.
  - destruct i; cbn [depends operands is_tracked] in *; try (rewrite T; reflexivity); try reflexivity.
    cbn [existsb] in T. rewrite orb_false_r in T. apply orb_false_iff in T as [_ T]. rewrite T. reflexivity.
Qed.
Lemma depends_dep dep dep' i : (forall v, dep v = dep' v) -> depends dep i = depends dep' i.
Proof. intros E. destruct i; cbn [depends]; auto using existsb_dep. rewrite !E. reflexivity. Qed.

(** Correctness of a whole environment *)
Definition correct_env (n : nat) (w p : vec) (P : vec -> list arr) (sizes : list nat) (env : list value) : Prop :=
  length env = length sizes /\ (forall q, length (P q) = length sizes) /\
  forall v, (v < length sizes)%nat -> correct n w p (fun q => nth v (P q) zero_arr) (nth v sizes 0%nat) (nth v env (Plain zero_arr)).
Lemma correct_env_all n w p P sizes env v : correct_env n w p P sizes env ->
  correct n w p (fun q => nthv zero_arr (P q) v) (nth v sizes 0%nat) (nthv (Plain zero_arr) env v).
Proof.
  intros (A & B & C). destruct (Nat.lt_ge_cases v (length sizes)) as [L|L]; [apply C; exact L|].
  unfold nthv. rewrite (nth_overflow sizes), (nth_overflow env) by lia. intros i I. lia.
Qed.
Lemma nth_snoc {A} (l : list A) x d v : nth v (l ++ [x]) d = if (v <? length l)%nat then nth v l d else if (v =? length l)%nat then x else d.
Proof.
  destruct (Nat.ltb_spec v (length l)); [apply app_nth1; auto|]. rewrite app_nth2 by auto. destruct (Nat.eqb_spec v (length l)) as [->|N].
  - rewrite Nat.sub_diag. reflexivity.
  - destruct (v - length l)%nat as [|m] eqn:E; [lia|]. cbn. destruct m; reflexivity.
Qed.
Lemma correct_env_snoc n w p P sizes env size F x : correct_env n w p P sizes env -> correct n w p F size x ->
  correct_env n w p (fun q => P q ++ [F q]) (sizes ++ [size]) (env ++ [x]).
Proof.
  intros (A & B & C) D. split; [rewrite !app_length; cbn; lia|]. split; [intros q; rewrite !app_length, B; reflexivity|].
  intros v V. rewrite !nth_snoc, A. rewrite app_length in V. cbn in V. destruct (Nat.ltb_spec v (length sizes)) as [L|L].
  - assert (X : forall q, nth v (P q ++ [F q]) zero_arr = nth v (P q) zero_arr) by (intros q; apply app_nth1; rewrite B; auto).
    specialize (C v L). destruct (nth v env (Plain zero_arr)); cbn [correct] in *; intros i I.
    + destruct (C i I) as [C1 C2]. split; [rewrite X; auto|]. intros k K. generalize (C2 k K). apply near_imp. intros s. rewrite X. auto.
    + apply (gl_ext n w p (fun q => nth v (P q) zero_arr i)); [intros q; rewrite X; reflexivity|apply C; exact I].
  - assert (v = length sizes) as -> by lia. rewrite Nat.eqb_refl.
    assert (X : forall q, nth (length sizes) (P q ++ [F q]) zero_arr = F q) by (intros q; rewrite app_nth2 by (rewrite B; auto); rewrite B, Nat.sub_diag; reflexivity).
    destruct x; cbn [correct] in *; intros i I.
    + destruct (D i I) as [C1 C2]. split; [rewrite X; auto|]. intros k K. generalize (C2 k K). apply near_imp. intros s. rewrite X. auto.
    + apply (gl_ext n w p (fun q => F q i)); [intros q; rewrite X; reflexivity|apply D; exact I].
Qed.
Lemma program_correct n w p : forall prog P sizes env, correct_env n w p P sizes env -> well_formed_program sizes prog ->
  smooth_program (map is_tracked env) (P p) prog ->
  correct_env n w p (fun q => run_prim (map fst prog) (P q)) (sizes ++ map snd prog) (run_lap n (map fst prog) env).
Proof.
  induction prog as [|[i size] prog IH]; intros P sizes env C W S; cbn [map fst snd run_prim run_lap] in *.
  - rewrite app_nil_r. exact C.
  - destruct W as [W W']. destruct S as [S S'].
    assert (T : forall v, nthv false (map is_tracked env) v = is_tracked (nthv (Plain zero_arr) env v)).
    { intros v. unfold nthv. rewrite <- (map_nth is_tracked). reflexivity. }
    assert (D : correct n w p (fun q => prim (nthv zero_arr (P q)) i) size (eval_eqn n (nthv (Plain zero_arr) env) i)).
    { apply (eqn_correct n w p sizes (fun v q => nthv zero_arr (P q) v)); auto.
      - intros v. apply correct_env_all. exact C.
      - apply (smooth_dep (nthv false (map is_tracked env))); auto. apply (smooth_local _ (nthv zero_arr (P p))); auto.
        intros o O v j I. symmetry. apply (correct_value n w p _ (nth v sizes 0%nat) _ _ (correct_env_all _ _ _ _ _ _ v C)). apply (W o O v j I). }
    replace (sizes ++ size :: map snd prog) with ((sizes ++ [size]) ++ map snd prog) by (rewrite <- app_assoc; reflexivity).
    apply (IH (fun q => P q ++ [prim (nthv zero_arr (P q)) i])); auto.
    + apply correct_env_snoc; auto.
    + rewrite map_app. cbn [map]. rewrite tracked_depends. rewrite <- (depends_dep (nthv false (map is_tracked env))); auto.
Qed.
(** *** Inputs *)
Lemma seed_correct n w p off size : correct n w p (leaf off) size (seed w p off).
Proof.
  intros i I. cbn [seed lx jac lapl]. split; [reflexivity|]. exists (fun _ => 0). split; [|symmetry; apply sum_0; auto]. intros k K. unfold leaf, line.
  unfold delta. rewrite (Nat.eqb_sym k). destruct (Nat.eqb (off + i) k).
  - apply (jet_eq _ (p (off + i)%nat) (w (off + i)%nat) 0); try ring. apply jet_line.
  - apply (jet_ext (fun _ => p (off + i)%nat)); [intros; ring|]. apply (jet_eq _ (p (off + i)%nat) 0 0); try ring. apply jet_const.
Qed.
Lemma seeds_correct n w p (leaves : list (nat * nat)) (consts : list (arr * nat)) :
  correct_env n w p (inputs (map fst leaves) (map fst consts)) (map snd leaves ++ map snd consts) (seeds (map fst leaves) (map fst consts) w p).
Proof.
  unfold correct_env, inputs, seeds. split; [|split].
  - rewrite !app_length, !map_length. reflexivity.
  - intros q. rewrite !app_length, !map_length. reflexivity.
  - intros v V. destruct (Nat.lt_ge_cases v (length leaves)) as [L|L].
    + rewrite !app_nth1 by (rewrite ?map_length; exact L).
      assert (E : forall q, nth v (map (fun off => leaf off q) (map fst leaves) ++ map fst consts) zero_arr = leaf (fst (nth v leaves (0, 0)%nat)) q).
      { intros q. rewrite app_nth1 by (rewrite !map_length; exact L). rewrite (nth_indep _ zero_arr (leaf (fst (0, 0)%nat) q)) by (rewrite !map_length; exact L).
        rewrite map_map. apply (map_nth (fun x => leaf (fst x) q)). }
      rewrite (nth_indep _ (Plain zero_arr) (seed w p (fst (0, 0)%nat))) by (rewrite !map_length; exact L).
      rewrite map_map. rewrite (map_nth (fun x => seed w p (fst x))). intros i I.
      apply (gl_ext n w p (fun q => leaf (fst (nth v leaves (0, 0)%nat)) q i)); [intros q; rewrite E; reflexivity|]. apply (seed_correct n w p _ (S i)). lia.
    + rewrite !app_nth2 by (rewrite ?map_length; exact L). rewrite !map_length.
      rewrite (map_nth Plain). intros i I.
      assert (E : forall q, nth v (map (fun off => leaf off q) (map fst leaves) ++ map fst consts) zero_arr = nth (v - length leaves) (map fst consts) zero_arr).
      { intros q. rewrite app_nth2 by (rewrite !map_length; exact L). rewrite !map_length. reflexivity. }
      split; [rewrite E; reflexivity|]. intros k K. apply near_all. intros s. rewrite E. reflexivity.
Qed.

(** ** C38 *)
(** Starting from any inputs whose derivatives are right (pre-built LapTuples), every value
    the interpreter computes carries the right derivatives. *)
Theorem C38_from_any_inputs : forall n (w p : vec) (prog : list (instr * nat)) (P : vec -> list arr) sizes env,
  correct_env n w p P sizes env -> well_formed_program sizes prog -> smooth_program (map is_tracked env) (P p) prog ->
  correct_env n w p (fun q => run_prim (map fst prog) (P q)) (sizes ++ map snd prog) (run_lap n (map fst prog) env).
Proof. intros. apply program_correct; auto. Qed.

(** Plain array inputs: element [i] of the [v]-th value is either tracked, with value,
    (weighted) gradient and Laplacian of the plain program in the [n] coordinates, or plain,
    with the value of the plain program, which is then constant along every coordinate line
    near the point. *)
Theorem C38_forward_laplacian : forall n (w p : vec) (leaves : list (nat * nat)) (consts : list (arr * nat)) (prog : list (instr * nat)),
  let sizes := map snd leaves ++ map snd consts in
  let ins := inputs (map fst leaves) (map fst consts) in
  well_formed_program sizes prog ->
  smooth_program (map (fun _ => true) leaves ++ map (fun _ => false) consts) (ins p) prog ->
  forall v i, (v < length leaves + length consts + length prog)%nat -> (i < nth v (sizes ++ map snd prog) 0)%nat ->
  let f := fun q => nth v (run_prim (map fst prog) (ins q)) zero_arr i in
  match nth v (run_lap n (map fst prog) (seeds (map fst leaves) (map fst consts) w p)) (Plain zero_arr) with
  | Tracked t => gradient_and_laplacian n w p f (lx t i) (fun k => jac t k i) (lapl t i)
  | Plain a => a i = f p /\ forall k, (k < n)%nat -> near (fun s => f (line p w k s) = a i)
  end.
Proof.
  intros n w p leaves consts prog sizes ins W S v i V I f.
  destruct (program_correct n w p prog ins sizes (seeds (map fst leaves) (map fst consts) w p)) as (_ & _ & C); auto.
  - apply seeds_correct.
  - assert (E : map is_tracked (seeds (map fst leaves) (map fst consts) w p) = map (fun _ => true) leaves ++ map (fun _ => false) consts).
    { unfold seeds. rewrite map_app, !map_map. reflexivity. }
    rewrite E. exact S.
  - specialize (C v). unfold sizes in C. rewrite !app_length, !map_length in C. specialize (C V). unfold correct in C.
    destruct (nth v (run_lap n (map fst prog) (seeds (map fst leaves) (map fst consts) w p)) (Plain zero_arr)); apply C; exact I.
Qed.

(** With unit weights these are the partial derivatives and the sum of the unmixed second
    derivatives, which are unique. *)
Theorem C38_gradient_is_unique : forall n p f x J L, gradient_and_laplacian n (fun _ => 1) p f x J L ->
  let along := fun k s => f (fun j => p j + (if Nat.eqb j k then s else 0)) in
  (forall k g, (k < n)%nat -> derivable_pt_lim (along k) 0 g -> J k = g) /\
  forall (d : nat -> R -> R) (h : nat -> R),
    (forall k, (k < n)%nat -> near (fun t => derivable_pt_lim (along k) t (d k t)) /\ derivable_pt_lim (d k) 0 (h k)) -> L = sum n h.
Proof.
  intros n p f x J L (X & h & H & S) along.
  assert (E : forall k s, f (line p (fun _ => 1) k s) = along k s).
  { intros k s. unfold along. f_equal. apply functional_extensionality. intros j. unfold line. rewrite Rmult_1_l. reflexivity. }
  split.
  - intros k g K D. destruct (H k K) as (A & d & N & B & C). pose proof (near_0 _ N) as D'. cbn beta in D'. rewrite B in D'.
    apply (uniqueness_limite (along k) 0); [|exact D]. apply (derivable_ext (fun s => f (line p (fun _ => 1) k s))); auto.
  - intros d h' D. rewrite S. apply sum_ext. intros k K. destruct (H k K) as (A & d' & N & B & C). destruct (D k K) as (N' & C').
    apply (uniqueness_limite d' 0); [exact C|]. apply (derivable_local (d k)); [exact C'|].
    destruct (near_and _ _ N N') as (e & E0 & Q). exists e. split; auto. intros y Y. rewrite Rminus_0_r in Y. destruct (Q y Y) as [Q1 Q2].
    apply (uniqueness_limite (along k) y); [exact Q2|]. apply (derivable_ext (fun s => f (line p (fun _ => 1) k s))); auto.
Qed.
