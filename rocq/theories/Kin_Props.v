(** C83: the Euclidean kinetic energy estimator computes the local kinetic energy. *)
From Coq Require Import Reals List Arith Lra Lia String FunctionalExtensionality.
From Coquelicot Require Import Coquelicot.
From Verif Require Import Lin Sph_Spec Sph_Ops Shape Lap_Spec Lap_Lang Lap_Model Lap_Props Sparse_Model Sparse_Spec Sparse_Lemmas Sparse_Props Sparse_Program Kin_Spec Kin_Model.
Import ListNotations.
Open Scope R_scope.
Local Notation vec := Lin.vec.

(** ** What the loops compute *)
Lemma merge_merge d key a b : merge (merge d key a) key b = merge d key b.
Proof. apply functional_extensionality. intros s. unfold merge. destruct (String.eqb s key); reflexivity. Qed.
Lemma merge_at d key a : merge d key a key = a.
Proof. unfold merge. rewrite String.eqb_refl. reflexivity. Qed.
Lemma merge_self d key : merge d key (reshape (flatten (d key)) (shape (d key))) = d.
Proof. apply functional_extensionality. intros s. unfold merge. destruct (String.eqb_spec s key) as [->|]; [|reflexivity]. unfold reshape, flatten. destruct (d key); reflexivity. Qed.
Lemma put_put x k a t : put (put x k a) k t = put x k t.
Proof. apply functional_extensionality. intros j. unfold put. destruct (Nat.eqb j k); reflexivity. Qed.
Lemma put_self x k : put x k (x k) = x.
Proof. apply functional_extensionality. intros j. unfold put. destruct (Nat.eqb_spec j k) as [->|]; reflexivity. Qed.
Lemma step_put x k s : (fun j => x j + s * eye k j) = put x k (x k + s).
Proof. apply functional_extensionality. intros j. unfold put, eye, delta. rewrite (Nat.eqb_sym k j). destruct (Nat.eqb_spec j k) as [->|]; ring. Qed.
Lemma Derive_shift (g : R -> R) a : Derive (fun s => g (a + s)) 0 = Derive g a.
Proof. unfold Derive. f_equal. apply Lim_ext. intros h. rewrite Rplus_0_l, Rplus_0_r. reflexivity. Qed.
(** the wavefunction as a function of the flat positions, everything else in the data fixed *)
Definition at_positions {T} (f : data -> unit -> T) (key : string) (d : data) (x : vec) : T := f (merge d key (reshape x (shape (d key)))) tt.
Definition partial (F : vec -> R) (x : vec) (k : nat) : R := Derive (fun t => F (put x k t)) (x k).
Lemma grad_partial (g : data -> unit -> R) key d x k :
  grad (fun y (_ : unit) => g (merge (merge d key (reshape x (shape (d key)))) key y) tt) (reshape x (shape (d key))) k = partial (at_positions g key d) x k.
Proof. unfold grad, partial. apply Derive_ext. intros t. rewrite merge_merge. reflexivity. Qed.
Lemma jvp_diagonal F x k : Derive (fun s => partial F (fun j => x j + s * eye k j) k) 0 = Derive_n (fun t => F (put x k t)) 2 (x k).
Proof.
  cbn [Derive_n]. rewrite <- (Derive_shift _ (x k)). apply Derive_ext. intros s. rewrite step_put. unfold partial.
  replace (put x k (x k + s) k) with (x k + s) by (unfold put; rewrite Nat.eqb_refl; reflexivity). apply Derive_ext. intros t. rewrite put_put. reflexivity.
Qed.
Fixpoint gsum {T} (zero : T) (plus : T -> T -> T) (n : nat) (f : nat -> T) : T := match n with O => zero | S k => plus (gsum zero plus k f) (f k) end.
Lemma scan_list {T} (g : nat -> T) n : forall lo out, fold_left (fun st (_ : nat) => let '(i, o) := st in (S i, o ++ [g i])%list) (seq lo n) (lo, out) = (lo + n, out ++ map g (seq lo n))%nat%list.
Proof.
  induction n as [|n IH]; intros lo out; cbn [seq fold_left map]; [rewrite Nat.add_0_r, app_nil_r; reflexivity|]. rewrite IH, <- app_assoc. f_equal. lia.
Qed.
Lemma fori_sum {T} (zero : T) plus (g : nat -> T) n : fold_left (fun v i => plus v (g i)) (seq 0 n) zero = gsum zero plus n g.
Proof. induction n as [|n IH]; [reflexivity|]. rewrite seq_S, fold_left_app. cbn [fold_left gsum]. rewrite IH. reflexivity. Qed.
Lemma scan_sum {T} (zero : T) plus (g : nat -> T) n : (forall a b, plus a b = plus b a) -> (forall a b c, plus a (plus b c) = plus (plus a b) c) -> (forall a, plus a zero = a) ->
  fold_right plus zero (map g (seq 0 n)) = gsum zero plus n g.
Proof.
  intros CM AS ZR. induction n as [|n IH]; [reflexivity|]. rewrite seq_S, map_app. cbn [map gsum Nat.add]. rewrite <- IH. generalize (map g (seq 0 n)). intros l. clear IH. induction l as [|x l IH]; cbn [app fold_right]; [rewrite CM; reflexivity|]. rewrite IH, AS. reflexivity.
Qed.
Lemma diagonal_gsum {T} (zero : T) plus mode n dg : (forall a b, plus a b = plus b a) -> (forall a b c, plus a (plus b c) = plus (plus a b) c) -> (forall a, plus a zero = a) ->
  diagonal_sum zero plus mode n dg = gsum zero plus n (fun i => dg (eye i) i).
Proof.
  intros CM AS ZR. unfold diagonal_sum. destruct mode.
  - rewrite (scan_list (fun i => dg (eye i) i) n 0 []). cbn [app]. apply scan_sum; auto.
  - apply fori_sum.
Qed.
Lemma gsum_R n f : gsum 0 Rplus n f = sum n f. Proof. induction n as [|n IH]; cbn; [reflexivity|]. rewrite IH. reflexivity. Qed.
Lemma gsum_C n f : gsum (RtoC 0) Cplus n f = csigma n f. Proof. induction n as [|n IH]; cbn; [reflexivity|]. rewrite IH. reflexivity. Qed.
Lemma join_pair r i : join r i = (r, i).
Proof. unfold join, Cplus, Cmult, RtoC, Ci. cbn. f_equal; ring. Qed.

Lemma join_parts {A I} (h : A -> I -> C) a i : join (with_real h a i) (with_imag h a i) = h a i.
Proof. rewrite join_pair. unfold with_real, with_imag. destruct (h a i); reflexivity. Qed.

(** Both loops return -1/2 sum_k (f_kk + f_k^2) of the logarithm of the wavefunction. *)
Lemma standard_real g key mode d :
  let n := size_of (d key) in let x := flatten (d key) in let F := at_positions g key d in
  evaluate_standard (RealF g) key mode d = RealS (- (1 / 2) * sum n (fun k => Derive_n (fun t => F (put x k t)) 2 (x k) + partial F x k ^ 2)).
Proof.
  cbv zeta. unfold evaluate_standard. cbn [linearize_maybe_complex precompose transform_with_data transform_maybe_complex grad_maybe_complex linearize real_part_of].
  f_equal. rewrite diagonal_gsum by (intros; ring). rewrite gsum_R. unfold kinetic_formula. rewrite sum_plus.
  assert (G : forall y k, grad (fun b : field => g (merge (merge d key (reshape y (shape (d key)))) key b)) (merge d key (reshape y (shape (d key))) key) k = partial (at_positions g key d) y k).
  { intros y k. rewrite merge_at. exact (grad_partial g key d y k). }
  match goal with |- _ * sum _ ?a - _ * sum _ ?b = _ * (sum _ ?a' + sum _ ?b') => assert (E1 : sum (size_of (d key)) a = sum (size_of (d key)) a'); [|assert (E2 : sum (size_of (d key)) b = sum (size_of (d key)) b')] end.
  - apply sum_ext. intros k K. etransitivity; [apply Derive_ext; intros s; apply G|]. apply jvp_diagonal.
  - apply sum_ext. intros k K. rewrite G. reflexivity.
  - cbv beta in *. rewrite E1, E2. ring.
Qed.
Lemma csum_fold n (f : nat -> C) : fold_left (fun s k => Cplus s (Cmult (f k) (f k))) (seq 0 n) (RtoC 0) = csigma n (fun k => Cmult (f k) (f k)).
Proof. rewrite <- gsum_C. apply (fori_sum (RtoC 0) Cplus (fun k => Cmult (f k) (f k))). Qed.
Definition cpartial (F : vec -> C) (x : vec) (k : nat) : C := CDerive (fun t => F (put x k t)) (x k).
Lemma standard_complex g key mode d :
  let n := size_of (d key) in let x := flatten (d key) in let F := at_positions g key d in
  evaluate_standard (ComplexF g) key mode d =
  ComplexS (Cmult (RtoC (- (1 / 2))) (csigma n (fun k => Cplus (CDerive (fun t => CDerive (fun s => F (put x k s)) t) (x k)) (Cmult (cpartial F x k) (cpartial F x k))))).
Proof.
  cbv zeta. unfold evaluate_standard. cbn [linearize_maybe_complex precompose transform_with_data transform_maybe_complex grad_maybe_complex linearize complex_of].
  f_equal. rewrite diagonal_gsum by (intros; ring). rewrite gsum_C, csum_fold, csigma_plus. unfold ckinetic_formula.
  set (F := at_positions g key d).
  assert (GR : forall y k, grad (with_real (fun b : field => g (merge (merge d key (reshape y (shape (d key)))) key b))) (merge d key (reshape y (shape (d key))) key) k = partial (fun z => fst (F z)) y k).
  { intros y k. rewrite merge_at. exact (grad_partial (with_real g) key d y k). }
  assert (GI : forall y k, grad (with_imag (fun b : field => g (merge (merge d key (reshape y (shape (d key)))) key b))) (merge d key (reshape y (shape (d key))) key) k = partial (fun z => snd (F z)) y k).
  { intros y k. rewrite merge_at. exact (grad_partial (with_imag g) key d y k). }
  match goal with |- Cminus (Cmult _ (csigma _ ?a)) (Cmult _ (csigma _ ?b)) = Cmult _ (Cplus (csigma _ ?a') (csigma _ ?b')) => assert (E1 : csigma (size_of (d key)) a = csigma (size_of (d key)) a'); [|assert (E2 : csigma (size_of (d key)) b = csigma (size_of (d key)) b')] end.
  - apply csigma_ext. intros k K. rewrite join_pair. unfold CDerive. cbn [fst snd]. f_equal.
    + etransitivity; [apply Derive_ext; intros s; unfold with_real at 1; rewrite join_pair; cbn [fst]; apply GR|]. apply (jvp_diagonal (fun z => fst (F z))).
    + etransitivity; [apply Derive_ext; intros s; unfold with_imag at 1; rewrite join_pair; cbn [snd]; apply GI|]. apply (jvp_diagonal (fun z => snd (F z))).
  - apply csigma_ext. intros k K. rewrite join_parts, join_pair, GR, GI. reflexivity.
  - cbv beta in *. rewrite E1, E2. replace (RtoC (- (1 / 2))) with (Copp (RtoC (1 / 2))) by (rewrite RtoC_opp; reflexivity). ring.
Qed.

(** ** Real wavefunctions *)
Lemma der_ln_abs (p : R -> R) t (a : R) : p t <> 0 -> is_derive p t a -> is_derive (fun s => ln (Rabs (p s))) t (a / p t).
Proof.
  intros NZ D. assert (SQ : 0 < p t * p t) by nra.
  apply (is_derive_ext_loc (fun s => / 2 * ln (p s * p s))).
  - assert (CT : continuous p t) by (apply (ex_derive_continuous p t); exists a; exact D).
    assert (LO : locally (p t) (fun y => y <> 0)).
    { assert (P : 0 < Rabs (p t)) by (apply Rabs_pos_lt; exact NZ). exists (mkposreal _ P). intros y Y Z. unfold ball in Y. cbn in Y. unfold AbsRing_ball, abs, minus, plus, opp in Y. cbn in Y. rewrite Z in Y. rewrite Rplus_0_l, Rabs_Ropp in Y. lra. }
    assert (LT : locally t (fun s => p s <> 0)) by exact (CT _ LO). generalize LT. apply filter_imp. intros s S. rewrite <- (Rabs_right (p s * p s)) by nra. rewrite Rabs_mult, ln_mult by (apply Rabs_pos_lt; exact S). match goal with |- ?a = ?b => change (@eq R a b) end. field.
  - pose proof (der_mult p p t a a D D) as M. pose proof (is_derive_comp ln (fun s => p s * p s) t (/ (p t * p t)) _ (is_derive_ln _ SQ) M) as Q.
    pose proof (is_derive_scal (fun s => ln (p s * p s)) t (/ 2) _ Q) as Z. eapply der_eq; [|exact Z]. unfold scal. cbn. unfold mult. cbn. field. exact NZ.
Qed.
Lemma real_log_identity (p u : R -> R) a : p a <> 0 -> locally a (fun t => exp (u t) = Rabs (p t) /\ ex_derive p t) -> ex_derive (Derive p) a ->
  (Derive_n u 2 a + Derive u a ^ 2) * p a = Derive_n p 2 a.
Proof.
  intros NZ LOC D2. assert (EU : forall t, exp (u t) = Rabs (p t) -> u t = ln (Rabs (p t))) by (intros t E; rewrite <- E, ln_exp; reflexivity).
  assert (NZT : forall t, exp (u t) = Rabs (p t) -> p t <> 0) by (intros t E Z; rewrite Z, Rabs_R0 in E; pose proof (exp_pos (u t)); lra).
  assert (D1 : locally a (fun t => is_derive u t (Derive p t / p t))).
  { generalize (locally_locally _ _ LOC). apply filter_imp. intros t LT. destruct (locally_singleton _ _ LT) as [E X].
    apply (is_derive_ext_loc (fun s => ln (Rabs (p s)))).
    - generalize LT. apply filter_imp. intros s [S _]. symmetry. apply EU, S.
    - apply der_ln_abs; [apply NZT; exact E|]. apply Derive_correct. exact X. }
  assert (AT := locally_singleton _ _ D1). assert (X := proj2 (locally_singleton _ _ LOC)).
  assert (SE : is_derive (Derive u) a ((Derive (Derive p) a * p a - Derive p a * Derive p a) / (p a) ^ 2)).
  { apply (is_derive_ext_loc (fun t => Derive p t / p t)).
    - generalize D1. apply filter_imp. intros t T. symmetry. apply is_derive_unique. exact T.
    - apply (is_derive_div (Derive p) p a (Derive (Derive p) a) (Derive p a)); [apply Derive_correct; exact D2|apply Derive_correct; exact X|exact NZ]. }
  change (Derive_n u 2 a) with (Derive (Derive u) a). change (Derive_n p 2 a) with (Derive (Derive p) a).
  rewrite (is_derive_unique _ _ _ SE), (is_derive_unique _ _ _ AT). field. exact NZ.
Qed.
(** The estimator returns (T psi)(x) / psi(x) at every configuration where psi is not zero and twice differentiable. *)
Theorem C83_real : forall g key mode d psi, let n := size_of (d key) in let x := flatten (d key) in
  log_abs n psi (at_positions g key d) x ->
  exists e, evaluate_standard (RealF g) key mode d = RealS e /\ e * psi x = kinetic_energy n psi x.
Proof.
  intros g key mode d psi n x (NZ & (eps & EP & LOC) & D2). eexists. split; [apply standard_real|]. fold n x. unfold kinetic_energy. set (F := at_positions g key d) in *.
  rewrite Rmult_assoc. f_equal. rewrite <- sum_scal_r. apply sum_ext. intros k K. rewrite <- (real_log_identity (fun t => psi (put x k t)) (fun t => F (put x k t)) (x k)).
  - rewrite put_self. reflexivity.
  - rewrite put_self. exact NZ.
  - exists (mkposreal eps EP). intros t T. apply LOC; [exact K|]. exact T.
  - apply D2, K.
Qed.
(** ** Complex wavefunctions *)
Lemma complex_log_identity (p u : R -> C) a : locally a (fun t => p t = exp_of (u t) /\ cdifferentiable u t) -> cdifferentiable (CDerive u) a ->
  Cmult (Cplus (CDerive (CDerive u) a) (Cmult (CDerive u a) (CDerive u a))) (p a) = CDerive (CDerive p) a.
Proof.
  intros LOC [u2 D2]. assert (CU : forall t, cdifferentiable u t -> cderive u t (CDerive u t)) by (intros t [l L]; rewrite (cderive_unique u t l L); exact L).
  assert (D1 : locally a (fun t => cderive p t (Cmult (exp_of (u t)) (CDerive u t)))).
  { generalize (locally_locally _ _ LOC). apply filter_imp. intros t LT. destruct (locally_singleton _ _ LT) as [E X].
    apply (cderive_ext_loc (fun s => exp_of (u s))).
    - generalize LT. apply filter_imp. intros s [S _]. symmetry. exact S.
    - apply cderive_exp. apply CU. exact X. }
  pose proof (locally_singleton _ _ LOC) as [EA XA]. symmetry. rewrite (cderive_unique (CDerive u) a u2 D2). apply cderive_unique.
  apply (cderive_ext_loc (fun t => Cmult (exp_of (u t)) (CDerive u t))).
  - generalize D1. apply filter_imp. intros t T. symmetry. apply cderive_unique. exact T.
  - eapply cderive_eq; [|apply cderive_mult; [apply cderive_exp; apply CU; exact XA|exact D2]]. rewrite EA. ring.
Qed.
Theorem C83_complex : forall g key mode d psi, let n := size_of (d key) in let x := flatten (d key) in
  complex_log n psi (at_positions g key d) x ->
  exists z, evaluate_standard (ComplexF g) key mode d = ComplexS z /\ Cmult z (psi x) = ckinetic_energy n psi x.
Proof.
  intros g key mode d psi n x ((eps & EP & LOC) & D2). eexists. split; [apply standard_complex|]. fold n x. unfold ckinetic_energy. set (F := at_positions g key d) in *.
  rewrite <- Cmult_assoc. f_equal. rewrite Cmult_comm, <- csigma_scal. apply csigma_ext. intros k K. rewrite Cmult_comm.
  pose proof (complex_log_identity (fun t => psi (put x k t)) (fun t => F (put x k t)) (x k)) as I. cbv beta in I. rewrite put_self in I. apply I.
  - exists (mkposreal eps EP). intros t T. apply LOC; [exact K|]. exact T.
  - apply D2, K.
Qed.
(** The choice of loop changes nothing, and only the positions move: a change of another field changes the result
    only through the wavefunction's value there. *)
Theorem C83_modes : forall f key d, evaluate_standard f key Scan d = evaluate_standard f key ForiLoop d.
Proof. intros [g|g] key d; [rewrite !standard_real|rewrite !standard_complex]; reflexivity. Qed.

(** ** The forward-Laplacian mode (real programs) *)
(** a jet along a coordinate line is the pair of derivatives of the estimator *)
Lemma line_put x k s : line x (fun _ => 1) k s = put x k (x k + s).
Proof. apply functional_extensionality. intros j. unfold line, put. destruct (Nat.eqb_spec j k) as [->|]; ring. Qed.
Lemma jet_derives (F : vec -> R) x k v b c : jet (fun s => F (line x (fun _ => 1) k s)) v b c -> partial F x k = b /\ Derive_n (fun t => F (put x k t)) 2 (x k) = c.
Proof.
  intros (_ & dd & (e & E & NR) & B & D2). set (u := fun t => F (put x k t)).
  assert (EQ : forall s, F (line x (fun _ => 1) k s) = u (x k + s)) by (intros s; unfold u; rewrite line_put; reflexivity).
  assert (D : forall t, Rabs t < e -> is_derive u (x k + t) (dd t)).
  { intros t T. specialize (NR t T). apply is_derive_Reals in NR.
    apply (is_derive_ext (fun y => F (line x (fun _ => 1) k (y - x k)))).
    - intros y. rewrite EQ. unfold u. do 2 f_equal. ring.
    - pose proof (is_derive_comp (fun s => F (line x (fun _ => 1) k s)) (fun y => y - x k) (x k + t) (dd t) 1) as Q. cbv beta in Q.
      replace (x k + t - x k) with t in Q by ring. eapply der_eq; [|apply Q; [exact NR|]].
      + unfold scal. cbn. unfold mult. cbn. ring.
      + auto_derive; [exact I|ring]. }
  assert (D0 : is_derive u (x k) b). { specialize (D 0). rewrite Rplus_0_r, B in D. apply D. rewrite Rabs_R0. exact E. }
  split; [apply is_derive_unique; exact D0|]. change (Derive_n u 2 (x k)) with (Derive (Derive u) (x k)). rewrite <- (Derive_shift (Derive u) (x k)). apply is_derive_unique.
  apply (is_derive_ext_loc dd); [|apply is_derive_Reals; exact D2]. exists (mkposreal e E). intros t T. symmetry. apply is_derive_unique. apply D.
  unfold ball in T. cbn in T. unfold AbsRing_ball, abs, minus, plus, opp in T. cbn in T. rewrite Ropp_0, Rplus_0_r in T. exact T.
Qed.
Lemma forward_value n x F t : gradient_and_laplacian n (fun _ => 1) x F (lx t 0%nat) (fun k => jac t k 0%nat) (lapl t 0%nat) ->
  evaluate_forward n (Tracked t) = Some (- (1 / 2) * sum n (fun k => Derive_n (fun s => F (put x k s)) 2 (x k) + partial F x k ^ 2)).
Proof.
  intros (_ & h & H & L). cbn [evaluate_forward]. f_equal. unfold kinetic_formula. rewrite sum_plus, L.
  rewrite (sum_ext n h (fun k => Derive_n (fun s => F (put x k s)) 2 (x k))) by (intros k K; symmetry; apply (jet_derives F x k _ _ _ (H k K))).
  rewrite (sum_ext n (fun k => jac t k 0%nat ^ 2) (fun k => partial F x k ^ 2)) by (intros k K; rewrite (proj1 (jet_derives F x k _ _ _ (H k K))); reflexivity). ring.
Qed.
(** The wavefunction is the scalar output v of a program run on the flattened positions and constants: the
    forward-Laplacian modes, dense and sparse (owner axis 0 of an (N, ...) array), return what the loops return. *)
Definition program_function (prog : list instr) (consts : list arr) (v : nat) (key : string) : data -> unit -> R :=
  fun d _ => nth v (run_prim prog (inputs [0%nat] consts (flatten (d key)))) zero_arr 0%nat.
Theorem C83_forward_dense : forall (prog : list (instr * nat)) (consts : list (arr * nat)) v key mode d,
  let n := size_of (d key) in let x := flatten (d key) in let sizes := n :: map snd consts in
  well_formed_program sizes prog -> smooth_program (true :: map (fun _ => false) consts) (inputs [0%nat] (map fst consts) x) prog ->
  (v < 1 + List.length consts + List.length prog)%nat -> (0 < nth v (sizes ++ map snd prog) 0)%nat ->
  let out := nth v (run_lap n (map fst prog) (seeds [0%nat] (map fst consts) (fun _ => 1) x)) (Plain zero_arr) in
  match evaluate_forward n out with
  | Some e => evaluate_standard (RealF (program_function (map fst prog) (map fst consts) v key)) key mode d = RealS e
  | None => exists a, out = Plain a (* the output does not depend on the positions *)
  end.
Proof.
  intros prog consts v key mode d n x sizes W S V I out.
  pose proof (C38_forward_laplacian n (fun _ => 1) x [(0, n)%nat] consts prog W S v 0 V I) as C. cbv zeta in C. cbn [map fst] in C. fold out in C.
  destruct out as [a|t]; [cbn; exists a; reflexivity|]. rewrite (forward_value n x _ t C). rewrite standard_real. cbv zeta. f_equal. f_equal. apply sum_ext. intros k K. fold n x.
  assert (E : forall y, at_positions (program_function (map fst prog) (map fst consts) v key) key d y = nth v (run_prim (map fst prog) (inputs [0%nat] (map fst consts) y)) zero_arr 0%nat).
  { intros y. unfold at_positions, program_function. rewrite merge_at. reflexivity. }
  f_equal; [|f_equal; unfold partial]; [apply Derive_n_ext|apply Derive_ext]; intros t'; rewrite E; reflexivity.
Qed.
Theorem C83_forward_sparse : forall N post (consts : list (arr * list nat)) prog v key mode d,
  let x := flatten (d key) in let b := basis_of [] N post in shape (d key) = (N :: post)%list ->
  let shapes := (N :: post) :: map snd consts in
  let env := seed_sparse [] N post (fun _ => 1) x :: map (fun c => SPlain (fst c)) consts in
  let lowered := map (fun q => (fst q, size (snd q))) (lower_program prog shapes) in
  List.Forall (fun s => 0 < Shape.size s)%nat shapes -> fits_program prog shapes -> safe_program b prog shapes env ->
  smooth_program (true :: map (fun _ => false) consts) (inputs [0%nat] (map fst consts) x) lowered ->
  (v < 1 + List.length consts + List.length prog)%nat -> (0 < size (nth v (result_shapes prog shapes) []))%nat ->
  exists res, run_sparse b prog shapes env = Some res /\
  let out := densify b (nth v (result_shapes prog shapes) []) (nth v res (SPlain zero_arr)) in
  match evaluate_forward (size_of (d key)) out with
  | Some e => evaluate_standard (RealF (program_function (map fst lowered) (map fst consts) v key)) key mode d = RealS e
  | None => exists a, out = Plain a
  end.
Proof.
  intros N post consts prog v key mode d x b SH shapes env lowered P FP SP SM V I.
  destruct (C39_sparse_laplacian [] N post (fun _ => 1) x consts prog P FP SP SM) as (res & R & C). exists res. split; [exact R|]. cbv zeta in C |- *. specialize (C v 0%nat V I).
  change ([] ++ N :: post)%list with (N :: post)%list in C. fold shapes in C. fold b in C. 
  assert (SZ : size (N :: post) = size_of (d key)) by (unfold size_of; rewrite SH; reflexivity).
  destruct (densify b (nth v (result_shapes prog shapes) []) (nth v res (SPlain zero_arr))) as [a|t]; [cbn; exists a; reflexivity|].
  rewrite SZ in C. rewrite (forward_value _ x _ t C). rewrite standard_real. cbv zeta. f_equal. f_equal. apply sum_ext. intros k K. fold x.
  assert (E : forall y, at_positions (program_function (map fst lowered) (map fst consts) v key) key d y = nth v (run_prim (map fst lowered) (inputs [0%nat] (map fst consts) y)) zero_arr 0%nat).
  { intros y. unfold at_positions, program_function. rewrite merge_at. reflexivity. }
  f_equal; [|f_equal; unfold partial]; [apply Derive_n_ext|apply Derive_ext]; intros t'; rewrite E; reflexivity.
Qed.

(** ** Eigenfunctions have constant local energy *)
Theorem C83_zero_variance : forall g key mode d psi V E, let n := size_of (d key) in let x := flatten (d key) in
  log_abs n psi (at_positions g key d) x -> kinetic_energy n psi x + V * psi x = E * psi x ->
  exists e, evaluate_standard (RealF g) key mode d = RealS e /\ e + V = E.
Proof.
  intros g key mode d psi V E n x H EIG. destruct (C83_real g key mode d psi H) as (e & A & B). exists e. split; [exact A|]. fold n x in B. rewrite <- B in EIG. destruct H as (NZ & _).
  apply Rmult_eq_reg_r with (psi x); [|exact NZ]. rewrite <- EIG. ring.
Qed.

(** ** The hypotheses are met *)
(** psi (x) = x at x = -1: the logarithm is ln |x|, psi is negative there *)
Example C83_log_abs_example : log_abs 1 (fun y => y 0%nat) (fun y => ln (Rabs (y 0%nat))) (fun _ => -1).
Proof.
  assert (P : forall t, put (fun _ => -1) 0 t 0%nat = t) by reflexivity. split; [lra|]. split.
  - exists (1 / 2). split; [lra|]. intros k K t T. destruct k; [|lia]. rewrite P. split.
    + apply exp_ln. apply Rabs_pos_lt. intros ->. replace (0 - -1) with 1 in T by ring. rewrite Rabs_R1 in T. lra.
    + exists 1. apply (is_derive_ext (fun s => s)); [intros s; reflexivity|apply (is_derive_id (K := R_AbsRing))].
  - intros k K. destruct k; [|lia]. apply (ex_derive_ext (fun _ => 1)).
    + intros t. symmetry. apply is_derive_unique. apply (is_derive_ext (fun s => s)); [intros s; reflexivity|apply (is_derive_id (K := R_AbsRing))].
    + apply (ex_derive_const (K := R_AbsRing) (V := R_NormedModule)).
Qed.
(** a plane wave exp (i k.x) with energy k^2 / 2 *)
Example C83_plane_wave : forall mode (kv : vec) (x : vec),
  let g := fun (d : data) (_ : unit) => ((0, kv 0%nat * buf (d "electrons"%string) 0%nat + kv 1%nat * buf (d "electrons"%string) 1%nat) : C) in
  let d := fun _ : string => {| shape := [2%nat]; buf := x |} in
  evaluate_standard (ComplexF g) "electrons" mode d = ComplexS (RtoC ((kv 0%nat ^ 2 + kv 1%nat ^ 2) / 2)) /\
  complex_log 2 (fun y => exp_of (0, kv 0%nat * y 0%nat + kv 1%nat * y 1%nat)) (at_positions g "electrons" d) x.
Proof.
  intros mode kv x g d. set (F := at_positions g "electrons" d).
  assert (D : forall k, (k < 2)%nat -> forall t, cderive (fun s => F (put x k s)) t (0, kv k)).
  { intros k K t. destruct k as [|[|k]]; [| |lia]; split; cbn [fst snd]; unfold F, at_positions, g, put; cbn -[is_derive]; [apply (is_derive_const (K := R_AbsRing) (V := R_NormedModule))| |apply (is_derive_const (K := R_AbsRing) (V := R_NormedModule))|]; auto_derive; auto; ring. }
  assert (D1 : forall k, (k < 2)%nat -> forall t, CDerive (fun s => F (put x k s)) t = (0, kv k)) by (intros k K t; apply cderive_unique, D, K).
  assert (D2 : forall k, (k < 2)%nat -> cderive (CDerive (fun s => F (put x k s))) (x k) (RtoC 0)).
  { intros k K. apply (cderive_ext (fun _ => (0, kv k))); [intros t; symmetry; apply D1, K|apply cderive_const]. }
  split.
  - rewrite standard_complex. cbv zeta. change (size_of (d "electrons"%string)) with 2%nat. change (flatten (d "electrons"%string)) with x. fold F. f_equal. cbn [csigma]. unfold cpartial. rewrite !D1 by lia.
    rewrite (cderive_unique (fun t => CDerive (fun s => F (put x 0 s)) t) _ _ (D2 0%nat ltac:(lia))), (cderive_unique (fun t => CDerive (fun s => F (put x 1 s)) t) _ _ (D2 1%nat ltac:(lia))). apply Sph_Ops.Ceq; cbn; field.
  - split.
    + exists 1. split; [lra|]. intros k K t _. split; [reflexivity|]. exists (0, kv k). apply D, K.
    + intros k K. exists (RtoC 0). apply D2, K.
Qed.
