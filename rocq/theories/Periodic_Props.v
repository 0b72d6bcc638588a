(** C58 (periodic features are invariant under translations) and C59 (periodic distances
    vanish only at contact), for SolidFeatures, nu_distance and tri_distance. *)
From Coq Require Import Reals List Arith Bool ZArith Lra Lia.
From Verif Require Import Lin Geom_Model Geom_Spec Geom_Props.
Import ListNotations.
Open Scope R_scope.

(** ** Trigonometry and the wrap of omega *)
Lemma sin_shift x z : sin (x + IZR z * (2 * PI)) = sin x.
Proof.
  destruct (Z_lt_le_dec z 0) as [N|N].
  - rewrite <- (sin_period (x + IZR z * (2 * PI)) (Z.to_nat (- z))). f_equal.
    rewrite INR_IZR_INZ, Z2Nat.id, opp_IZR by lia. ring.
  - rewrite <- (sin_period x (Z.to_nat z)). f_equal. rewrite INR_IZR_INZ, Z2Nat.id by lia. ring.
Qed.
Lemma cos_shift x z : cos (x + IZR z * (2 * PI)) = cos x.
Proof.
  destruct (Z_lt_le_dec z 0) as [N|N].
  - rewrite <- (cos_period (x + IZR z * (2 * PI)) (Z.to_nat (- z))). f_equal.
    rewrite INR_IZR_INZ, Z2Nat.id, opp_IZR by lia. ring.
  - rewrite <- (cos_period x (Z.to_nat z)). f_equal. rewrite INR_IZR_INZ, Z2Nat.id by lia. ring.
Qed.
Lemma cos_one w : cos w = 1 -> exists z, w = IZR z * (2 * PI).
Proof.
  intros H. replace w with (2 * (w / 2)) in H by field. rewrite cos_2a_sin in H.
  assert (S : sin (w / 2) = 0) by nra. apply sin_eq_0_0 in S as [z Z]. exists z. lra.
Qed.
Lemma wrap_w_shift w z : wrap_w (w + IZR z * (2 * PI)) = wrap_w w.
Proof.
  unfold wrap_w. pose proof PI_RGT_0.
  replace ((w + IZR z * (2 * PI) + PI) / (2 * PI)) with ((w + PI) / (2 * PI) + IZR z) by (field; lra).
  rewrite floor_plus, plus_IZR. ring.
Qed.
Lemma wrap_w_range w : - PI <= wrap_w w < PI.
Proof.
  unfold wrap_w. pose proof PI_RGT_0. set (q := (w + PI) / (2 * PI)). pose proof (floor_bounds q) as B.
  assert (E : w = q * (2 * PI) - PI) by (unfold q; field; lra). rewrite E. nra.
Qed.
Lemma wrap_w_exists w : exists z, w = wrap_w w + IZR z * (2 * PI).
Proof. exists (floor ((w + PI) / (2 * PI))). unfold wrap_w. ring. Qed.

(** ** Projections under lattice translations *)
Lemma proj_ext n x y b l : same n x y -> proj n x b l = proj n y b l.
Proof. intros H. apply sum_ext. intros i Hi. rewrite (H i Hi). reflexivity. Qed.
Lemma proj_plus n x y b l : proj n (fun k => x k + y k) b l = proj n x b l + proj n y b l.
Proof. unfold proj. rewrite <- sum_plus. apply sum_ext. intros. ring. Qed.
Lemma sum_IZR n f : exists z, sum n (fun i => IZR (f i)) = IZR z.
Proof.
  induction n as [|n [z IH]]; [exists 0%Z; reflexivity|]. simpl. exists (z + f n)%Z. rewrite plus_IZR, IH. reflexivity.
Qed.
(** b_l . x = 2 pi sum_i M_li f_i for x with lattice coordinates f *)
Lemma proj_coordinates n l inv s x f lv : inverse n l inv -> has_coordinates n l x f ->
  proj n x (sym_b n inv s) lv = 2 * PI * sum n (fun i => IZR (sym_matrix n s lv i) * f i).
Proof.
  intros INV H. unfold proj, sym_b.
  rewrite (sum_ext n _ (fun k => sum n (fun i => x k * (IZR (sym_matrix n s lv i) * (2 * PI * inv k i))))) by (intros; rewrite <- sum_scal_l; reflexivity).
  rewrite sum_swap, <- sum_scal_l. apply sum_ext. intros i Hi.
  rewrite (sum_ext n _ (fun k => x k * inv k i * (2 * PI * IZR (sym_matrix n s lv i)))) by (intros; ring).
  rewrite sum_scal_r. fold (vecmat n x inv i). rewrite (coordinates_unique n l inv INV x f H i Hi). ring.
Qed.
Lemma proj_shift n l inv s x x' lv : inverse n l inv -> is_image n l x x' ->
  exists z, proj n x' (sym_b n inv s) lv = proj n x (sym_b n inv s) lv + IZR z * (2 * PI).
Proof.
  intros INV [k K]. destruct (sum_IZR n (fun i => (sym_matrix n s lv i * k i)%Z)) as [z Z]. exists z.
  rewrite (proj_ext n x' (fun j => x j + lattice_vector n l k j)) by (intros j Hj; apply K; auto).
  rewrite proj_plus. f_equal. rewrite (proj_coordinates n l inv s _ (fun i => IZR (k i)) lv INV) by (intros j Hj; reflexivity).
  rewrite <- Z, Rmult_comm. f_equal. apply sum_ext. intros. rewrite mult_IZR. reflexivity.
Qed.

(** Both distances depend on the separation only up to a lattice vector. *)
Definition same_feature (p q : R * vec) : Prop := fst p = fst q /\ forall j, snd p j = snd q j.
Lemma distance_periodic t n m l inv s a x x' : inverse n l inv -> is_image n l x x' ->
  same_feature (distance_function t n m x' a (sym_b n inv s)) (distance_function t n m x a (sym_b n inv s)).
Proof.
  intros INV I.
  assert (W : forall lv, wrap_w (proj n x' (sym_b n inv s) lv) = wrap_w (proj n x (sym_b n inv s) lv)).
  { intros lv. destruct (proj_shift n l inv s x x' lv INV I) as [z ->]. apply wrap_w_shift. }
  assert (S : forall lv, sin (proj n x' (sym_b n inv s) lv) = sin (proj n x (sym_b n inv s) lv)).
  { intros lv. destruct (proj_shift n l inv s x x' lv INV I) as [z ->]. apply sin_shift. }
  assert (C : forall lv, cos (proj n x' (sym_b n inv s) lv) = cos (proj n x (sym_b n inv s) lv)).
  { intros lv. destruct (proj_shift n l inv s x x' lv INV I) as [z ->]. apply cos_shift. }
  destruct t; unfold same_feature; simpl.
  - split.
    + f_equal. unfold tri_squared. apply sum_ext. intros i _. apply sum_ext. intros j _. rewrite !C, !S. reflexivity.
    + intros j. destruct (Nat.ltb j n); apply sum_ext; intros i _; [rewrite S|rewrite C]; reflexivity.
  - split.
    + f_equal. unfold nu_squared. cbv zeta. f_equal.
      * apply sum_ext. intros i _. rewrite W. reflexivity.
      * apply sum_ext. intros i _. apply sum_ext. intros j _. rewrite !W. reflexivity.
    + intros j. apply sum_ext. intros i _. rewrite W. reflexivity.
Qed.

(** A cell whose reciprocal vectors come from get_symmetry_lat. *)
Definition made_by_symmetry_lat (n : nat) (s : symmetry) (c : cell) : Prop :=
  inverse n (lattice c) (invl c) /\ nvec c = sym_count n s /\ forall lv k, bv c lv k = sym_b n (invl c) s lv k.
Definition moved (electrons : nat -> vec) (which : nat -> bool) (t : vec) : nat -> vec :=
  fun i => if which i then add (electrons i) t else electrons i.
(** The simulation cell is an integer supercell of the primitive one. *)
Definition supercell_of (n : nat) (sim prim : mat) : Prop :=
  exists S : nat -> nat -> Z, forall i j, (i < n)%nat -> (j < n)%nat -> sim i j = lattice_vector n prim (S i) j.

Lemma distance_ext t n m x y a b b' : same n x y -> (forall lv k, b lv k = b' lv k) ->
  same_feature (distance_function t n m x a b) (distance_function t n m y a b').
Proof.
  intros H B. assert (P : forall lv, proj n x b lv = proj n y b' lv).
  { intros lv. apply sum_ext. intros i Hi. rewrite (H i Hi), B. reflexivity. }
  destruct t; unfold same_feature; simpl.
  - split; [f_equal; unfold tri_squared; apply sum_ext; intros; apply sum_ext; intros; rewrite !P; reflexivity|].
    intros j. destruct (Nat.ltb j n); apply sum_ext; intros; rewrite P; reflexivity.
  - split; [f_equal; unfold nu_squared; cbv zeta; f_equal; apply sum_ext; intros; try (apply sum_ext; intros); rewrite !P; reflexivity|].
    intros j. apply sum_ext. intros. rewrite P. reflexivity.
Qed.
Lemma same_feature_trans p q r : same_feature p q -> same_feature q r -> same_feature p r.
Proof. intros [A B] [C D]. split; [congruence|]. intros j. rewrite B. apply D. Qed.
Lemma same_feature_sym p q : same_feature p q -> same_feature q p.
Proof. intros [A B]. split; [auto|]. intros j. symmetry. apply B. Qed.

Lemma supercell_image n sim prim r r' : supercell_of n sim prim -> is_image n sim r r' -> is_image n prim r r'.
Proof.
  intros [S HS] [k K].
  assert (LV : forall j, (j < n)%nat -> lattice_vector n sim k j = sum n (fun p => sum n (fun i => IZR (k i) * IZR (S i p)) * prim p j)).
  { intros j Hj. unfold lattice_vector. rewrite (sum_ext n _ (fun i => sum n (fun p => IZR (k i) * IZR (S i p) * prim p j))).
    - rewrite sum_swap. apply sum_ext. intros p _. rewrite sum_scal_r. reflexivity.
    - intros i Hi. rewrite (HS i j Hi Hj). unfold lattice_vector. rewrite <- sum_scal_l. apply sum_ext. intros; ring. }
  assert (ZI : forall p, exists z, sum n (fun i => IZR (k i) * IZR (S i p)) = IZR z).
  { intros p. destruct (sum_IZR n (fun i => (k i * S i p)%Z)) as [z E]. exists z. rewrite <- E. apply sum_ext. intros. rewrite mult_IZR. reflexivity. }
  assert (CH : exists g : nat -> Z, forall p, (p < n)%nat -> sum n (fun i => IZR (k i) * IZR (S i p)) = IZR (g p)).
  { clear - ZI. assert (forall m, exists g : nat -> Z, forall p, (p < m)%nat -> sum n (fun i => IZR (k i) * IZR (S i p)) = IZR (g p)); [|auto].
    induction m as [|m [g G]]; [exists (fun _ => 0%Z); intros; lia|]. destruct (ZI m) as [z Zz].
    exists (fun p => if Nat.eqb p m then z else g p). intros p Hp. destruct (Nat.eqb_spec p m) as [->|N]; auto. apply G. lia. }
  destruct CH as [g G]. exists g. intros j Hj. rewrite (K j Hj), (LV j Hj). f_equal. unfold lattice_vector. apply sum_ext. intros p Hp. rewrite (G p Hp). reflexivity.
Qed.

(** ** C58.  Moving any subset of the electrons by a vector of the simulation lattice changes
    no feature. *)
Theorem C58_simulation_translations : forall n t s prim sim electrons atoms which tr k,
  made_by_symmetry_lat n s prim -> made_by_symmetry_lat n s sim -> supercell_of n (lattice sim) (lattice prim) ->
  same n tr (lattice_vector n (lattice sim) k) ->
  (forall i j, same_feature (ae_features n t prim (moved electrons which tr) atoms i j) (ae_features n t prim electrons atoms i j)) /\
  (forall i j, same_feature (ee_features n t sim (moved electrons which tr) i j) (ee_features n t sim electrons i j)).
Proof.
  intros n t s prim sim electrons atoms which tr k (P1 & P2 & P3) (S1 & S2 & S3) SC T.
  assert (IS : forall i, is_image n (lattice sim) (electrons i) (moved electrons which tr i)).
  { intros i. unfold moved. destruct (which i); [|apply image_refl]. exists k. intros j Hj. unfold add. rewrite (T j Hj). reflexivity. }
  split; intros i j.
  - unfold ae_features. apply distance_ext; [|reflexivity]. intros p Hp. f_equal.
    apply (C34_translation_invariant n (lattice prim) (invl prim) P1); auto. eapply supercell_image; eauto.
  - unfold ee_features. cbv zeta.
    match goal with |- same_feature (fst ?p * _, _) (fst ?q * _, _) => assert (E : same_feature p q) end.
    { apply distance_ext; [|reflexivity]. intros p Hp. f_equal. f_equal; apply (C34_translation_invariant n (lattice sim) (invl sim) S1); auto. }
    destruct E as [E1 E2]. split; cbn [fst snd]; [rewrite E1; reflexivity|]. intros p. rewrite E2. reflexivity.
Qed.

(** Moving all electrons by the same vector of the primitive lattice changes no feature. *)
Theorem C58_primitive_translations : forall n t s prim sim electrons atoms tr k,
  made_by_symmetry_lat n s prim -> made_by_symmetry_lat n s sim ->
  same n tr (lattice_vector n (lattice prim) k) ->
  (forall i j, same_feature (ae_features n t prim (moved electrons (fun _ => true) tr) atoms i j) (ae_features n t prim electrons atoms i j)) /\
  (forall i j, same_feature (ee_features n t sim (moved electrons (fun _ => true) tr) i j) (ee_features n t sim electrons i j)).
Proof.
  intros n t s prim sim electrons atoms tr k (P1 & P2 & P3) (S1 & S2 & S3) T. split; intros i j.
  - unfold ae_features. apply distance_ext; [|reflexivity]. intros p Hp. f_equal.
    apply (C34_translation_invariant n (lattice prim) (invl prim) P1); auto. exists k. intros q Hq. unfold moved, add. rewrite (T q Hq). reflexivity.
  - unfold ee_features. cbv zeta.
    match goal with |- same_feature (fst ?p * _, _) (fst ?q * _, _) => assert (E : same_feature p q) end.
    { eapply same_feature_trans; [apply distance_ext; [intros p Hp; reflexivity|exact S3]|].
      eapply same_feature_trans; [|apply same_feature_sym; apply distance_ext; [intros p Hp; reflexivity|exact S3]].
      apply (distance_periodic t n (nvec sim) (lattice sim) (invl sim)); auto.
      pose proof (C34_moves_by_lattice_vector n (lattice sim) (invl sim) S1) as MV.
      destruct (image_trans n _ _ _ _ (image_sym n _ _ _ (MV (electrons i))) (image_refl n _ (electrons i))) as [a A].
      destruct (image_trans n _ _ _ _ (image_sym n _ _ _ (MV (electrons j))) (image_refl n _ (electrons j))) as [b B].
      destruct (MV (add (electrons i) tr)) as [c C]. destruct (MV (add (electrons j) tr)) as [d D].
      exists (fun q => (a q + c q - b q - d q)%Z). intros p Hp. unfold moved. rewrite (C p Hp), (D p Hp). unfold add.
      rewrite (A p Hp), (B p Hp). unfold lattice_vector.
      rewrite (sum_ext n (fun q => IZR (a q + c q - b q - d q) * lattice sim q p)
                (fun q => (IZR (a q) * lattice sim q p + IZR (c q) * lattice sim q p) - (IZR (b q) * lattice sim q p + IZR (d q) * lattice sim q p)))
        by (intros; rewrite !minus_IZR, plus_IZR; ring).
      rewrite sum_minus, !sum_plus. ring. }
    destruct E as [E1 E2]. split; cbn [fst snd]; [rewrite E1; reflexivity|]. intros p. rewrite E2. reflexivity.
Qed.

(** ** C59 *)
Lemma gram_square n m (u : nat -> R) (a : nat -> vec) :
  sum m (fun i => sum m (fun j => u i * u j * dot n (a i) (a j))) =
  dot n (fun k => sum m (fun i => u i * a i k)) (fun k => sum m (fun i => u i * a i k)).
Proof.
  symmetry. unfold dot at 1. rewrite (sum_ext n _ (fun k => sum m (fun i => sum m (fun j => u i * u j * (a i k * a j k))))).
  - rewrite sum_swap. apply sum_ext. intros i _. rewrite sum_swap. apply sum_ext. intros j _. unfold dot. rewrite <- sum_scal_l. reflexivity.
  - intros k _. rewrite <- sum_scal_r. apply sum_ext. intros i _. rewrite <- sum_scal_l. apply sum_ext. intros; ring.
Qed.
Lemma fg_bound w : - PI <= w <= PI -> scaled_g w * scaled_g w <= scaled_f w * scaled_f w /\
  (scaled_f w * scaled_f w <= scaled_g w * scaled_g w -> w = 0).
Proof.
  intros B. pose proof PI_RGT_0. set (t := Rabs (w / PI)).
  assert (T : 0 <= t <= 1).
  { unfold t. split; [apply Rabs_pos|]. apply Rabs_le. split; [apply Rmult_le_reg_r with PI|apply Rmult_le_reg_r with PI]; auto; unfold Rdiv; rewrite Rmult_assoc, Rinv_l; lra. }
  unfold scaled_f, scaled_g. fold t.
  replace (Rabs w * (1 - t ^ 3 / 4) * (Rabs w * (1 - t ^ 3 / 4))) with (w * w * ((1 - t ^ 3 / 4) * (1 - t ^ 3 / 4))).
  2: { rewrite <- (Rsqr_abs w) || idtac. assert (Rabs w * Rabs w = w * w) by (unfold Rabs; destruct (Rcase_abs w); ring). rewrite <- H0. ring. }
  replace (w * (1 - 3 / 2 * t + 1 / 2 * t ^ 2) * (w * (1 - 3 / 2 * t + 1 / 2 * t ^ 2))) with (w * w * ((1 - 3 / 2 * t + 1 / 2 * t ^ 2) * (1 - 3 / 2 * t + 1 / 2 * t ^ 2))) by ring.
  set (F := 1 - t ^ 3 / 4). set (G := 1 - 3 / 2 * t + 1 / 2 * t ^ 2).
  assert (D : t / 2 <= F - G).
  { unfold F, G. replace (1 - t ^ 3 / 4 - (1 - 3 / 2 * t + 1 / 2 * t ^ 2)) with (t * (3 / 2 - t / 2 - t * t / 4)) by field. nra. }
  assert (G0 : 0 <= G) by (unfold G; replace (1 - 3 / 2 * t + 1 / 2 * t ^ 2) with ((1 - t) * (1 - t / 2)) by field; nra).
  assert (F0 : 3 / 4 <= F) by (unfold F; simpl; assert (t * t <= 1) by nra; nra).
  assert (FG : G * G + 3 / 8 * t <= F * F) by nra.
  split; [apply Rmult_le_compat_l; [nra|nra]|]. intros H0.
  destruct (Req_dec w 0) as [|NZ]; auto. exfalso.
  assert (0 < t) by (unfold t; apply Rabs_pos_lt; unfold Rdiv; apply Rmult_integral_contrapositive_currified; [auto|apply Rinv_neq_0_compat; lra]).
  assert (0 < w * w) by nra. nra.
Qed.
Lemma nu_decompose_w n m (w : nat -> R) (a : nat -> vec) :
  sum m (fun l => (norm n (a l) * scaled_f (w l)) ^ 2) +
  sum m (fun i => sum m (fun j => dot n (a i) (a j) * (scaled_g (w i) * scaled_g (w j)) * (1 - delta i j))) =
  sum m (fun l => dot n (a l) (a l) * (scaled_f (w l) * scaled_f (w l) - scaled_g (w l) * scaled_g (w l))) +
  dot n (fun k => sum m (fun i => scaled_g (w i) * a i k)) (fun k => sum m (fun i => scaled_g (w i) * a i k)).
Proof.
  rewrite <- (gram_square n m (fun i => scaled_g (w i)) a).
  rewrite (sum_ext m (fun i => sum m (fun j => dot n (a i) (a j) * (scaled_g (w i) * scaled_g (w j)) * (1 - delta i j)))
    (fun i => sum m (fun j => scaled_g (w i) * scaled_g (w j) * dot n (a i) (a j)) - dot n (a i) (a i) * (scaled_g (w i) * scaled_g (w i)))).
  - rewrite sum_minus.
    assert (E : sum m (fun l => dot n (a l) (a l) * (scaled_f (w l) * scaled_f (w l) - scaled_g (w l) * scaled_g (w l))) =
                sum m (fun l => (norm n (a l) * scaled_f (w l)) ^ 2) - sum m (fun l => dot n (a l) (a l) * (scaled_g (w l) * scaled_g (w l)))).
    { rewrite <- sum_minus. apply sum_ext. intros l _. rewrite <- norm_sq. ring. }
    rewrite E. ring.
  - intros i Hi. rewrite (sum_ext m _ (fun j => scaled_g (w i) * scaled_g (w j) * dot n (a i) (a j) - scaled_g (w i) * scaled_g (w j) * dot n (a i) (a j) * delta j i)).
    + rewrite sum_minus, (sum_delta_r m (fun j => scaled_g (w i) * scaled_g (w j) * dot n (a i) (a j)) i Hi). ring.
    + intros j _. unfold delta. rewrite (Nat.eqb_sym j i). ring.
Qed.
Lemma nu_decompose n m x a b :
  nu_squared n m x a b =
  sum m (fun l => dot n (a l) (a l) * (scaled_f (wrap_w (proj n x b l)) * scaled_f (wrap_w (proj n x b l)) - scaled_g (wrap_w (proj n x b l)) * scaled_g (wrap_w (proj n x b l)))) +
  dot n (fun k => sum m (fun i => scaled_g (wrap_w (proj n x b i)) * a i k)) (fun k => sum m (fun i => scaled_g (wrap_w (proj n x b i)) * a i k)).
Proof. exact (nu_decompose_w n m (fun l => wrap_w (proj n x b l)) a). Qed.

(** The number under the square root is never negative. *)
Theorem C59_real_valued : forall n m x a b, 0 <= nu_squared n m x a b /\ 0 <= tri_squared n m x a b.
Proof.
  intros n m x a b. split.
  - rewrite nu_decompose. apply Rplus_le_le_0_compat; [|apply dot_self_nonneg]. apply sum_nonneg. intros l _.
    apply Rmult_le_pos; [apply dot_self_nonneg|]. pose proof (wrap_w_range (proj n x b l)). pose proof (proj1 (fg_bound (wrap_w (proj n x b l)) ltac:(lra))). lra.
  - unfold tri_squared. cbv zeta.
    rewrite (sum_ext m _ (fun i => sum m (fun j => (1 - cos (proj n x b i)) * (1 - cos (proj n x b j)) * dot n (a i) (a j)) + sum m (fun j => sin (proj n x b i) * sin (proj n x b j) * dot n (a i) (a j))))
      by (intros; rewrite <- sum_plus; apply sum_ext; intros; ring).
    rewrite sum_plus, (gram_square n m (fun i => 1 - cos (proj n x b i)) a), (gram_square n m (fun i => sin (proj n x b i)) a).
    apply Rplus_le_le_0_compat; apply dot_self_nonneg.
Qed.
Lemma tri_zero n m x a b : tri_squared n m x a b = 0 ->
  forall k, (k < n)%nat -> sum m (fun i => (1 - cos (proj n x b i)) * a i k) = 0.
Proof.
  unfold tri_squared. cbv zeta.
  rewrite (sum_ext m _ (fun i => sum m (fun j => (1 - cos (proj n x b i)) * (1 - cos (proj n x b j)) * dot n (a i) (a j)) + sum m (fun j => sin (proj n x b i) * sin (proj n x b j) * dot n (a i) (a j))))
    by (intros; rewrite <- sum_plus; apply sum_ext; intros; ring).
  rewrite sum_plus, (gram_square n m (fun i => 1 - cos (proj n x b i)) a), (gram_square n m (fun i => sin (proj n x b i)) a).
  set (f := fun k => sum m (fun i => (1 - cos (proj n x b i)) * a i k)).
  set (g := fun k => sum m (fun i => sin (proj n x b i) * a i k)).
  intros H k Hk. change (f k = 0). pose proof (dot_self_nonneg n f). pose proof (dot_self_nonneg n g).
  assert (Z : f k * f k = 0). { apply (sum_pos_zero n (fun k => f k * f k)); auto; [intros; nra|]. change (dot n f f = 0). lra. }
  nra.
Qed.

(** Image of the origin = lattice vector. *)
Lemma integer_coordinates n l inv x : inverse n l inv ->
  (forall i, (i < n)%nat -> exists z, vecmat n x inv i = IZR z) -> is_image n l (fun _ => 0) x.
Proof.
  intros INV H.
  assert (CH : exists g : nat -> Z, forall i, (i < n)%nat -> vecmat n x inv i = IZR (g i)).
  { assert (forall m, (m <= n)%nat -> exists g : nat -> Z, forall p, (p < m)%nat -> vecmat n x inv p = IZR (g p)); [|apply H0; lia].
    induction m as [|m IH]; intros M; [exists (fun _ => 0%Z); intros; lia|]. destruct IH as [g G]; [lia|]. destruct (H m ltac:(lia)) as [z Zz].
    exists (fun p => if Nat.eqb p m then z else g p). intros p Hp. destruct (Nat.eqb_spec p m) as [->|N]; auto. apply G. lia. }
  destruct CH as [g G]. exists g. intros j Hj. rewrite (coordinates_exist n l inv INV x j Hj), Rplus_0_l.
  apply sum_ext. intros i Hi. rewrite G by auto. reflexivity.
Qed.
Lemma base_rows n s i j : (i < n)%nat -> (j < n)%nat -> sym_matrix n s i j = (if Nat.eqb i j then 1 else 0)%Z /\ (i < sym_count n s)%nat.
Proof.
  intros Hi Hj. unfold sym_matrix, sym_count. destruct (Nat.eqb_spec n 3) as [->|N]; [|auto].
  split; [|destruct s; simpl; lia]. destruct i as [|[|[|i]]]; [| | |lia]; (destruct j as [|[|[|j]]]; [| | |lia]); destruct s; reflexivity.
Qed.
Lemma base_proj n l inv s x i : inverse n l inv -> (i < n)%nat -> proj n x (sym_b n inv s) i = 2 * PI * vecmat n x inv i.
Proof.
  intros INV Hi. rewrite (proj_coordinates n l inv s x (vecmat n x inv) i INV (coordinates_exist n l inv INV x)). f_equal.
  rewrite (sum_ext n _ (fun j => vecmat n x inv j * delta j i)).
  - apply sum_delta_r. auto.
  - intros j Hj. rewrite (proj1 (base_rows n s i j Hi Hj)). unfold delta. rewrite (Nat.eqb_sym j i). destruct (Nat.eqb i j); ring.
Qed.

(** The polynomial distance is zero exactly at lattice vectors, for every symmetry type. *)
Theorem C59_nu_contact : forall n l inv s x a, inverse n l inv ->
  (forall i, (i < n)%nat -> dot n (a i) (a i) <> 0) ->
  (fst (nu_distance n (sym_count n s) x a (sym_b n inv s)) = 0 <-> is_image n l (fun _ => 0) x).
Proof.
  intros n l inv s x a INV A. cbn [nu_distance fst]. split.
  - intros H. apply sqrt_eq_0 in H; [|apply C59_real_valued]. rewrite nu_decompose in H.
    match type of H with ?p + ?q = 0 => assert (P : p = 0) end.
    { pose proof (dot_self_nonneg n (fun k => sum (sym_count n s) (fun i => scaled_g (wrap_w (proj n x (sym_b n inv s) i)) * a i k))) as Q.
      match type of H with ?p + ?q = 0 => assert (0 <= p) end; [|lra]. apply sum_nonneg. intros i _. apply Rmult_le_pos; [apply dot_self_nonneg|].
      pose proof (wrap_w_range (proj n x (sym_b n inv s) i)). pose proof (proj1 (fg_bound (wrap_w (proj n x (sym_b n inv s) i)) ltac:(lra))). lra. }
    apply (integer_coordinates n l inv x INV). intros i Hi.
    set (w := wrap_w (proj n x (sym_b n inv s) i)). pose proof (wrap_w_range (proj n x (sym_b n inv s) i)) as B. fold w in B.
    assert (Z : dot n (a i) (a i) * (scaled_f w * scaled_f w - scaled_g w * scaled_g w) = 0).
    { refine (sum_pos_zero (sym_count n s) _ _ P i (proj2 (base_rows n s i i Hi Hi))). intros p _. apply Rmult_le_pos; [apply dot_self_nonneg|].
      pose proof (wrap_w_range (proj n x (sym_b n inv s) p)). pose proof (proj1 (fg_bound (wrap_w (proj n x (sym_b n inv s) p)) ltac:(lra))). lra. }
    apply Rmult_integral in Z as [Z|Z]; [exfalso; apply (A i Hi Z)|]. pose proof (proj2 (fg_bound w ltac:(lra)) ltac:(lra)) as W0.
    destruct (wrap_w_exists (proj n x (sym_b n inv s) i)) as [z E]. fold w in E. rewrite W0, (base_proj n l inv s x i INV Hi) in E.
    exists z. pose proof PI_RGT_0. apply Rmult_eq_reg_l with (2 * PI); lra.
  - intros I. destruct (distance_periodic Nu n (sym_count n s) l inv s a (fun _ => 0) x INV I) as [E _]. cbn [distance_function nu_distance tri_distance fst] in E. rewrite E.
    transitivity (sqrt 0); [f_equal|apply sqrt_0]. unfold nu_squared. cbv zeta.
    assert (W : forall i, wrap_w (proj n (fun _ => 0) (sym_b n inv s) i) = 0).
    { intros i. unfold proj. rewrite sum_0 by (intros; ring). unfold wrap_w. pose proof PI_RGT_0.
      replace (floor ((0 + PI) / (2 * PI))) with 0%Z; [ring|]. symmetry. apply floor_unique.
      replace ((0 + PI) / (2 * PI)) with (1 / 2) by (field; lra). lra. }
    match goal with |- ?p + ?q = 0 => assert (P : p = 0); [|assert (Q : q = 0); [|rewrite P, Q; ring]] end.
    + apply sum_0. intros i _. rewrite W. unfold scaled_f. rewrite Rabs_R0. ring.
    + apply sum_0. intros i _. apply sum_0. intros j _. rewrite !W. unfold scaled_g. ring.
Qed.

(** [av = pinv(bv).T] for reciprocal vectors that span the space: B (B^T B)^(-1). *)
Definition pseudo_inverse (n m : nat) (a b : nat -> vec) : Prop :=
  exists g g', inverse n g g' /\ forall l k, (l < m)%nat -> (k < n)%nat -> a l k = vecmat n (b l) g k.
Lemma pinv_kernel n m a b c : pseudo_inverse n m a b -> (forall k, (k < n)%nat -> sum m (fun l => c l * a l k) = 0) ->
  forall k, (k < n)%nat -> sum m (fun l => c l * b l k) = 0.
Proof.
  intros (g & g' & IG & AG) H k Hk. set (v := fun k => sum m (fun l => c l * b l k)).
  change (v k = 0). rewrite <- (inverse_l n g g' v k IG Hk). unfold vecmat at 1. apply sum_0. intros j Hj.
  assert (E : vecmat n v g j = 0); [|rewrite E; ring]. rewrite <- (H j Hj). unfold vecmat, v.
  rewrite (sum_ext n _ (fun i => sum m (fun l => c l * b l i * g i j))) by (intros; rewrite <- sum_scal_r; reflexivity).
  rewrite sum_swap. apply sum_ext. intros l Hl. rewrite (AG l j Hl Hj). unfold vecmat. rewrite <- sum_scal_l. apply sum_ext. intros; ring.
Qed.
Lemma symb_kernel n l inv s m c : inverse n l inv -> (forall k, (k < n)%nat -> sum m (fun lv => c lv * sym_b n inv s lv k) = 0) ->
  forall i, (i < n)%nat -> sum m (fun lv => c lv * IZR (sym_matrix n s lv i)) = 0.
Proof.
  intros INV H i Hi. set (u := fun i => sum m (fun lv => c lv * IZR (sym_matrix n s lv i))).
  assert (E : forall k, (k < n)%nat -> sum n (fun i => u i * inv k i) = 0).
  { intros k Hk. pose proof PI_RGT_0. apply Rmult_eq_reg_l with (2 * PI); [|lra]. rewrite Rmult_0_r, <- (H k Hk), <- sum_scal_l. unfold sym_b, u.
    rewrite (sum_ext n _ (fun i => sum m (fun lv => c lv * (IZR (sym_matrix n s lv i) * (2 * PI * inv k i))))).
    - rewrite sum_swap. apply sum_ext. intros lv _. rewrite sum_scal_l. reflexivity.
    - intros j _. rewrite <- sum_scal_r, <- sum_scal_l. apply sum_ext. intros; ring. }
  change (u i = 0). destruct INV as [I1 _].
  rewrite <- (sum_delta_r n u i Hi). rewrite (sum_ext n _ (fun j => sum n (fun k => u j * inv k j * l i k))).
  - rewrite sum_swap. apply sum_0. intros k Hk. rewrite sum_scal_r, (E k Hk). ring.
  - intros j Hj. rewrite (sum_ext n _ (fun k => u j * (l i k * inv k j))) by (intros; ring). rewrite sum_scal_l, I1 by auto.
    unfold delta. rewrite Nat.eqb_sym. reflexivity.
Qed.
(** Weights 1 - cos >= 0 in the kernel vanish, except for the hexagonal set. *)
Lemma kernel_nonneg n s (c : nat -> R) : (s = Hexagonal -> n <> 3%nat) -> (forall i, 0 <= c i) ->
  (forall i, (i < n)%nat -> sum (sym_count n s) (fun lv => c lv * IZR (sym_matrix n s lv i)) = 0) -> forall i, (i < n)%nat -> c i = 0.
Proof.
  intros NH P H. unfold sym_count, sym_matrix in H. destruct (Nat.eqb_spec n 3) as [->|N].
  - pose proof (P 0%nat). pose proof (P 1%nat). pose proof (P 2%nat). pose proof (P 3%nat). pose proof (P 4%nat). pose proof (P 5%nat).
    pose proof (H 0%nat ltac:(lia)) as E0. pose proof (H 1%nat ltac:(lia)) as E1. pose proof (H 2%nat ltac:(lia)) as E2.
    destruct s; [| | |exfalso; apply NH; auto]; simpl in E0, E1, E2; intros i Hi; (destruct i as [|[|[|i]]]; [| | |lia]); lra.
  - intros i Hi. specialize (H i Hi). rewrite (sum_ext n _ (fun lv => c lv * delta lv i)) in H.
    + rewrite (sum_delta_r n c i Hi) in H. auto.
    + intros lv _. unfold delta. destruct (Nat.eqb lv i); reflexivity.
Qed.

(** The trigonometric distance is zero exactly at lattice vectors, for the minimal, fcc and
    bcc sets. *)
Theorem C59_tri_contact_partial : forall n l inv s x a, inverse n l inv -> (s = Hexagonal -> n <> 3%nat) ->
  pseudo_inverse n (sym_count n s) a (sym_b n inv s) ->
  (fst (tri_distance n (sym_count n s) x a (sym_b n inv s)) = 0 <-> is_image n l (fun _ => 0) x).
Proof.
  intros n l inv s x a INV NH PA. cbn [tri_distance fst]. split.
  - intros H. apply sqrt_eq_0 in H; [|apply C59_real_valued].
    pose proof (tri_zero n _ x a _ H) as K. pose proof (pinv_kernel n _ a _ _ PA K) as K1.
    pose proof (symb_kernel n l inv s _ _ INV K1) as K2.
    pose proof (kernel_nonneg n s (fun i => 1 - cos (proj n x (sym_b n inv s) i)) NH ltac:(intros i; cbv beta; pose proof (COS_bound (proj n x (sym_b n inv s) i)); lra) K2) as Z.
    apply (integer_coordinates n l inv x INV). intros i Hi. specialize (Z i Hi). cbv beta in Z.
    destruct (cos_one (proj n x (sym_b n inv s) i) ltac:(lra)) as [z E]. exists z. rewrite (base_proj n l inv s x i INV Hi) in E.
    pose proof PI_RGT_0. apply Rmult_eq_reg_l with (2 * PI); lra.
  - intros I. destruct (distance_periodic Tri n (sym_count n s) l inv s a (fun _ => 0) x INV I) as [E _]. cbn [distance_function nu_distance tri_distance fst] in E. rewrite E.
    transitivity (sqrt 0); [f_equal|apply sqrt_0]. unfold tri_squared. cbv zeta.
    assert (W : forall i, proj n (fun _ => 0) (sym_b n inv s) i = 0) by (intros i; unfold proj; apply sum_0; intros; ring).
    apply sum_0. intros i _. apply sum_0. intros j _. rewrite !W, cos_0, sin_0. ring.
Qed.

(** With the hexagonal set it is also zero at one third of the first two lattice vectors:
    the honeycomb site, where graphene has its second atom. *)
Theorem C59_tri_hexagonal_refuted : forall l inv a x, inverse 3 l inv ->
  pseudo_inverse 3 (sym_count 3 Hexagonal) a (sym_b 3 inv Hexagonal) ->
  has_coordinates 3 l x (of_list3 (1 / 3) (1 / 3) 0) ->
  fst (tri_distance 3 (sym_count 3 Hexagonal) x a (sym_b 3 inv Hexagonal)) = 0 /\ ~ is_image 3 l (fun _ => 0) x.
Proof.
  intros l inv a x INV (g & g' & IG & AG) H. split.
  - cbn [tri_distance fst]. transitivity (sqrt 0); [f_equal|apply sqrt_0]. unfold tri_squared. cbv zeta.
    rewrite (sum_ext (sym_count 3 Hexagonal) _ (fun i => sum (sym_count 3 Hexagonal) (fun j => (1 - cos (proj 3 x (sym_b 3 inv Hexagonal) i)) * (1 - cos (proj 3 x (sym_b 3 inv Hexagonal) j)) * dot 3 (a i) (a j)) + sum (sym_count 3 Hexagonal) (fun j => sin (proj 3 x (sym_b 3 inv Hexagonal) i) * sin (proj 3 x (sym_b 3 inv Hexagonal) j) * dot 3 (a i) (a j))))
      by (intros; rewrite <- sum_plus; apply sum_ext; intros; ring).
    rewrite sum_plus, (gram_square 3 _ (fun i => 1 - cos (proj 3 x (sym_b 3 inv Hexagonal) i)) a), (gram_square 3 _ (fun i => sin (proj 3 x (sym_b 3 inv Hexagonal) i)) a).
    assert (P : forall i, proj 3 x (sym_b 3 inv Hexagonal) i = 2 * PI * sum 3 (fun j => IZR (sym_matrix 3 Hexagonal i j) * of_list3 (1/3) (1/3) 0 j))
      by (intros i; apply (proj_coordinates 3 l inv Hexagonal x _ i INV H)).
    assert (P0 : proj 3 x (sym_b 3 inv Hexagonal) 0 = 2 * PI / 3) by (rewrite P; cbn; field).
    assert (P1 : proj 3 x (sym_b 3 inv Hexagonal) 1 = 2 * PI / 3) by (rewrite P; cbn; field).
    assert (P2 : proj 3 x (sym_b 3 inv Hexagonal) 2 = 0) by (rewrite P; cbn; field).
    assert (P3 : proj 3 x (sym_b 3 inv Hexagonal) 3 = 2 * PI / 3 + IZR (-1) * (2 * PI)) by (rewrite P; cbn; field).
    assert (A : forall k, (k < 3)%nat -> a 0%nat k + a 1%nat k + a 3%nat k = 0).
    { intros k Hk. rewrite (AG 0%nat k), (AG 1%nat k), (AG 3%nat k) by (try (cbn; lia); auto). unfold vecmat, sym_b, sym_matrix. cbn. ring. }
    assert (D : forall u : nat -> R, u 0%nat = u 1%nat -> u 3%nat = u 0%nat -> u 2%nat = 0 ->
      dot 3 (fun k => sum (sym_count 3 Hexagonal) (fun i => u i * a i k)) (fun k => sum (sym_count 3 Hexagonal) (fun i => u i * a i k)) = 0).
    { intros u U1 U2 U3. apply sum_0. intros k Hk. change (sym_count 3 Hexagonal) with 4%nat. cbn [sum]. rewrite U3, U2, <- U1.
      replace (0 + u 0%nat * a 0%nat k + u 0%nat * a 1%nat k + 0 * a 2%nat k + u 0%nat * a 3%nat k) with (u 0%nat * (a 0%nat k + a 1%nat k + a 3%nat k)) by ring.
      rewrite (A k Hk). ring. }
    rewrite !D; [ring| | | | | |]; rewrite ?P0, ?P1, ?P2, ?P3, ?sin_shift, ?cos_shift, ?sin_0, ?cos_0; try reflexivity; ring.
  - intros [k K]. assert (C : has_coordinates 3 l x (fun i => IZR (k i))) by (intros j Hj; rewrite (K j Hj), Rplus_0_l; reflexivity).
    pose proof (coordinates_unique 3 l inv INV x _ H 0%nat ltac:(lia)) as E1. pose proof (coordinates_unique 3 l inv INV x _ C 0%nat ltac:(lia)) as E2.
    rewrite E1 in E2. cbn in E2. assert (T : IZR (3 * k 0%nat) = IZR 1) by (rewrite mult_IZR; lra). apply eq_IZR in T. lia.
Qed.

(** Concrete cases: the cubic lattice with the bcc set meets every hypothesis. *)
Definition cubic : mat := fun i j => delta i j.
Lemma cubic_inverse n : inverse n cubic cubic.
Proof.
  split; intros a b A B; unfold cubic; apply (sum_delta_r n (fun k => delta a k) b B).
Qed.
Example C59_example : inverse 3 cubic cubic /\ sym_count 3 Bcc = 6%nat /\
  pseudo_inverse 3 6 (fun l k => vecmat 3 (sym_b 3 cubic Bcc l) cubic k) (sym_b 3 cubic Bcc) /\
  pseudo_inverse 3 4 (fun l k => vecmat 3 (sym_b 3 cubic Hexagonal l) cubic k) (sym_b 3 cubic Hexagonal) /\
  has_coordinates 3 cubic (of_list3 (1 / 3) (1 / 3) 0) (of_list3 (1 / 3) (1 / 3) 0).
Proof.
  split; [apply cubic_inverse|]. split; [reflexivity|]. split; [|split].
  - exists cubic, cubic. split; [apply cubic_inverse|]. intros; reflexivity.
  - exists cubic, cubic. split; [apply cubic_inverse|]. intros; reflexivity.
  - intros j Hj. unfold cubic. destruct j as [|[|[|j]]]; [| | |lia]; cbn; ring.
Qed.
Example C58_example : supercell_of 3 (of_rows3 (of_list3 1 1 0) (of_list3 (-1) 1 0) (of_list3 0 0 1)) cubic.
Proof.
  exists (fun i j => match i, j with O, O | O, S O | S O, S O | S (S O), S (S O) => 1%Z | S O, O => (-1)%Z | _, _ => 0%Z end).
  intros i j Hi Hj. unfold lattice_vector, cubic, of_rows3. (destruct i as [|[|[|i]]]; [| | |lia]); (destruct j as [|[|[|j]]]; [| | |lia]); cbn; ring.
Qed.
Print Assumptions C58_primitive_translations.
Print Assumptions C59_tri_contact_partial.
Print Assumptions C59_tri_hexagonal_refuted.
