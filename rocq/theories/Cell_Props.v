(** C80: geometry builders. *)
From Coq Require Import Reals ZArith List String Ascii Bool Lia Lra Psatz.
From Verif Require Import Common Spins_Model Elements_Model Sys_Model Sys_Props Cell_Model.
Import ListNotations.
Open Scope R_scope.

(** ** Lengths and angles *)
Definition dot (a b : vec) : R := let '(x, y, z) := a in let '(x', y', z') := b in x * x' + y * y' + z * z'.
Definition vsub (a b : vec) : vec := let '(x, y, z) := a in let '(x', y', z') := b in (x - x', y - y', z - z').
Definition dist (a b : vec) : R := sqrt (dot (vsub a b) (vsub a b)).
Definition det3 (a b c : vec) : R :=
  let '(a1, a2, a3) := a in let '(b1, b2, b3) := b in let '(c1, c2, c3) := c in
  a1 * (b2 * c3 - b3 * c2) - a2 * (b1 * c3 - b3 * c1) + a3 * (b1 * c2 - b2 * c1).
(** Angles in degrees; right angles are recognised within 1e-12 degrees, which is left out here. *)
Definition exact_angle (x : R) : Prop := near90 x = true -> Rabs x = 90.
Definition cosdeg (x : R) : R := cos (x * PI / 180).
Definition sindeg (x : R) : R := sin (x * PI / 180).

Lemma deg_eq x : deg x = x * PI / 180. Proof. unfold deg. field. Qed.
Lemma abs90 x : Rabs x = 90 -> x = 90 \/ x = -90.
Proof. unfold Rabs. destruct (Rcase_abs x); lra. Qed.
Lemma cosd_exact x : exact_angle x -> cosd x = cosdeg x.
Proof.
  intros E. unfold cosd, cosdeg. destruct (near90 x) eqn:N; [|rewrite deg_eq; reflexivity]. destruct (abs90 x (E N)) as [-> | ->].
  - replace (90 * PI / 180) with (PI / 2) by field. symmetry. apply cos_PI2.
  - replace (-90 * PI / 180) with (- (PI / 2)) by field. rewrite cos_neg. symmetry. apply cos_PI2.
Qed.
Lemma sind_exact x : exact_angle x -> sind x = sindeg x.
Proof.
  intros E. unfold sind, sindeg. destruct (near90 x) eqn:N; [|rewrite deg_eq; reflexivity]. destruct (abs90 x (E N)) as [-> | ->].
  - destruct (Rlt_dec 90 0); [lra|]. replace (90 * PI / 180) with (PI / 2) by field. symmetry. apply sin_PI2.
  - destruct (Rlt_dec (-90) 0); [|lra]. replace (-90 * PI / 180) with (- (PI / 2)) by field. rewrite sin_neg, sin_PI2. reflexivity.
Qed.
Lemma sincos x : sindeg x ^ 2 + cosdeg x ^ 2 = 1.
Proof. unfold sindeg, cosdeg. pose proof (sin2_cos2 (x * PI / 180)). unfold Rsqr in H. lra. Qed.

(** The cell has the given lengths and angles and is not flat. *)
Theorem C80_lattice : forall a b c alpha beta gamma A B C, exact_angle alpha -> exact_angle beta -> exact_angle gamma ->
  to_array a b c alpha beta gamma = Rows A B C ->
  dot A A = a ^ 2 /\ dot B B = b ^ 2 /\ dot C C = c ^ 2 /\
  dot A B = a * b * cosdeg gamma /\ dot A C = a * c * cosdeg beta /\ dot B C = b * c * cosdeg alpha /\
  (a <> 0 -> b <> 0 -> c <> 0 -> det3 A B C <> 0) /\ (0 < a -> 0 < b -> 0 < c -> 0 < gamma < 180 -> 0 < det3 A B C).
Proof.
  intros a b c alpha beta gamma A B C Ea Eb Eg H. unfold to_array in H. rewrite (cosd_exact alpha Ea), (cosd_exact beta Eb), (cosd_exact gamma Eg), (sind_exact gamma Eg) in H.
  set (ca := cosdeg alpha) in *. set (cb := cosdeg beta) in *. set (cg := cosdeg gamma) in *. set (sg := sindeg gamma) in *.
  assert (SC : sg ^ 2 + cg ^ 2 = 1) by apply sincos. destruct (Req_EM_T sg 0) as [Z|Z]; [destruct (Req_EM_T _ _); discriminate|]. cbv zeta in H.
  set (cy := (ca - cb * cg) / sg) in *. set (cz2 := 1 - cb ^ 2 - cy ^ 2) in *. destruct (Rlt_dec cz2 0); [discriminate|]. destruct (Rle_dec (Rabs cz2) (/ 10 ^ 8)) as [|NZ]; [discriminate|]. injection H as <- <- <-.
  assert (P : 0 < cz2).
  { destruct (Rle_lt_or_eq_dec 0 cz2) as [|E]; [lra|assumption|]. exfalso. apply NZ. rewrite <- E, Rabs_R0. apply Rlt_le, Rinv_0_lt_compat, pow_lt. lra. }
  assert (SQ : sqrt cz2 * sqrt cz2 = cz2) by (apply sqrt_sqrt; lra). pose proof (sqrt_lt_R0 cz2 P) as SP.
  assert (CY : cy * sg = ca - cb * cg) by (unfold cy; field; exact Z).
  assert (DET : det3 (mk a 0 0) (mk (b * cg) (b * sg) 0) (mk (c * cb) (c * cy) (c * sqrt cz2)) = a * b * c * sg * sqrt cz2) by (unfold det3, mk; ring).
  unfold mk in DET. unfold dot, mk. repeat split.
  - ring.
  - transitivity (b ^ 2 * (sg ^ 2 + cg ^ 2)); [ring|rewrite SC; ring].
  - transitivity (c ^ 2 * (cb ^ 2 + cy ^ 2 + sqrt cz2 * sqrt cz2)); [ring|rewrite SQ; unfold cz2; ring].
  - ring.
  - ring.
  - transitivity (b * c * (cg * cb + cy * sg)); [ring|rewrite CY; ring].
  - intros Ha Hb Hc. rewrite DET. apply Rmult_integral_contrapositive_currified; [|lra]. repeat apply Rmult_integral_contrapositive_currified; assumption.
  - intros Ha Hb Hc Hg. rewrite DET. assert (0 < sg). { unfold sg, sindeg. pose proof PI_RGT_0. apply sin_gt_0; [nra|]. apply Rmult_lt_reg_r with 180; [lra|]. field_simplify. nra. }
    repeat apply Rmult_lt_0_compat; assumption.
Qed.

(** Cells are refused exactly when they are flat to within 1e-8 (relative to sin^2 gamma). *)
Theorem C80_refused : forall a b c alpha beta gamma, exact_angle alpha -> exact_angle beta -> exact_angle gamma -> 0 < gamma < 180 ->
  (to_array a b c alpha beta gamma = Refused <->
   1 - cosdeg alpha ^ 2 - cosdeg beta ^ 2 - cosdeg gamma ^ 2 + 2 * cosdeg alpha * cosdeg beta * cosdeg gamma <= / 10 ^ 8 * sindeg gamma ^ 2) /\
  to_array a b c alpha beta gamma <> NanLattice.
Proof.
  intros a b c alpha beta gamma Ea Eb Eg Hg. unfold to_array. rewrite (cosd_exact alpha Ea), (cosd_exact beta Eb), (cosd_exact gamma Eg), (sind_exact gamma Eg).
  set (ca := cosdeg alpha). set (cb := cosdeg beta). set (cg := cosdeg gamma). set (sg := sindeg gamma).
  assert (SC : sg ^ 2 + cg ^ 2 = 1) by apply sincos.
  assert (S : 0 < sg). { unfold sg, sindeg. pose proof PI_RGT_0. apply sin_gt_0; [nra|]. apply Rmult_lt_reg_r with 180; [lra|]. field_simplify. nra. }
  destruct (Req_EM_T sg 0) as [Z|Z]; [lra|]. cbv zeta. set (cy := (ca - cb * cg) / sg). set (cz2 := 1 - cb ^ 2 - cy ^ 2).
  assert (V : 1 - ca ^ 2 - cb ^ 2 - cg ^ 2 + 2 * ca * cb * cg = cz2 * sg ^ 2).
  { assert (CY : cy * sg = ca - cb * cg) by (unfold cy; field; exact Z). transitivity (sg ^ 2 - cb ^ 2 * sg ^ 2 - (cy * sg) ^ 2); [|unfold cz2; ring]. rewrite CY. replace (sg ^ 2) with (1 - cg ^ 2) by lra. ring. }
  rewrite V. assert (S2 : 0 < sg ^ 2) by (apply pow_lt, S). assert (E8 : 0 < / 10 ^ 8) by (apply Rinv_0_lt_compat, pow_lt; lra).
  split.
  - destruct (Rlt_dec cz2 0); [split; [intros _; nra|reflexivity]|]. rewrite Rabs_pos_eq by lra. destruct (Rle_dec cz2 (/ 10 ^ 8)); split; intros H; try reflexivity; try discriminate; [apply Rmult_le_compat_r; lra|].
    apply Rmult_le_reg_r in H; [contradiction|exact S2].
  - destruct (Rlt_dec _ _); [discriminate|]. destruct (Rle_dec _ _); discriminate.
Qed.
(** A cell whose a and b coincide is not refused when alpha = beta: its vectors are NaN. *)
Theorem C80_flat_refuted : forall a b c alpha, exact_angle alpha -> to_array a b c alpha alpha 0 = NanLattice.
Proof.
  intros a b c alpha E. assert (G : exact_angle 0). { intros N. unfold near90 in N. destruct (Rle_dec _ _) as [L|]; [|discriminate]. exfalso. rewrite Rabs_R0, Rminus_0_l, Rabs_Ropp, Rabs_pos_eq in L by lra. assert (/ 10 ^ 12 < 1) by (rewrite <- Rinv_1; apply Rinv_lt_contravar; [rewrite Rmult_1_l; apply pow_lt; lra|apply Rlt_pow_R1; [lra|lia]]). lra. }
  unfold to_array. rewrite (sind_exact 0 G), (cosd_exact 0 G). unfold sindeg, cosdeg. replace (0 * PI / 180) with 0 by field. rewrite sin_0, cos_0.
  destruct (Req_EM_T 0 0); [|contradiction]. destruct (Req_EM_T _ _) as [|N]; [reflexivity|]. exfalso. apply N. ring.
Qed.

(** ** Rock salt *)
Definition length_in_bohr (u : unit_) (x : R) : R := match u with Bohr => x | Angstrom => x / (52917721067 / 10 ^ 11) end.
Definition lib (u : unit_) (x : R) : R := match u with Bohr => x | Angstrom => x * angstrom_in_bohr end.
Lemma lib_eq u x : length_in_bohr u x = lib u x.
Proof. destruct u; unfold length_in_bohr, lib, angstrom_in_bohr, bohr_in_angstrom; [reflexivity|field]. Qed.
Lemma near90_60 : exact_angle 60.
Proof. intros N. unfold near90 in N. destruct (Rle_dec _ _) as [L|]; [|discriminate]. exfalso. rewrite (Rabs_pos_eq 60), Rabs_left1 in L by lra. assert (/ 10 ^ 12 < 1) by (rewrite <- Rinv_1; apply Rinv_lt_contravar; [rewrite Rmult_1_l; apply pow_lt; lra|apply Rlt_pow_R1; [lra|lia]]). lra. Qed.
Lemma cos60 : cosdeg 60 = / 2.
Proof. unfold cosdeg. replace (60 * PI / 180) with (PI / 3) by field. rewrite cos_PI3. field. Qed.
Lemma sin60 : sindeg 60 ^ 2 = 3 / 4.
Proof. pose proof (sincos 60) as H. rewrite cos60 in H. lra. Qed.
Lemma dot_scale t a b : dot (vscale t a) (vscale t b) = t ^ 2 * dot a b.
Proof. destruct a as [[? ?] ?], b as [[? ?] ?]. unfold dot, vscale. ring. Qed.
Lemma dot_comm a b : dot a b = dot b a.
Proof. destruct a as [[? ?] ?], b as [[? ?] ?]. unfold dot. ring. Qed.
Lemma dot_frac x y z A B C : dot (from_frac (mk x y z) A B C) (from_frac (mk x y z) A B C) =
  x ^ 2 * dot A A + y ^ 2 * dot B B + z ^ 2 * dot C C + 2 * (x * y * dot A B + x * z * dot A C + y * z * dot B C).
Proof. destruct A as [[? ?] ?], B as [[? ?] ?], C as [[? ?] ?]. unfold dot, from_frac, mk, vadd, vscale. ring. Qed.

(** The lattice is the face-centred cubic one of the lattice constant (same lengths and
    angles as (0,L/2,L/2), (L/2,0,L/2), (L/2,L/2,0)); the second atom has six images of the
    first at half the lattice constant, the nearest. *)
Theorem C80_rock_salt : forall L u, exists A B C, rock_salt_lattice L u = Rows A B C /\
  let l := length_in_bohr u L in
  let F1 := mk 0 (l / 2) (l / 2) in let F2 := mk (l / 2) 0 (l / 2) in let F3 := mk (l / 2) (l / 2) 0 in
  dot A A = dot F1 F1 /\ dot B B = dot F2 F2 /\ dot C C = dot F3 F3 /\ dot A B = dot F1 F2 /\ dot A C = dot F1 F3 /\ dot B C = dot F2 F3 /\
  (forall i j k : Z, (l / 2) ^ 2 <= let w := from_frac (mk (/ 2 - IZR i) (/ 2 - IZR j) (/ 2 - IZR k)) A B C in dot w w) /\
  (forall i j k : Z, In (i, j, k) [(1, 0, 0); (0, 1, 0); (0, 0, 1); (0, 1, 1); (1, 0, 1); (1, 1, 0)]%Z ->
    let w := from_frac (mk (/ 2 - IZR i) (/ 2 - IZR j) (/ 2 - IZR k)) A B C in dot w w = (l / 2) ^ 2).
Proof.
  intros L u. rewrite lib_eq. set (a := L / sqrt 2).
  assert (TA : exists A B C, to_array a a a 60 60 60 = Rows A B C).
  { pose proof (C80_refused a a a 60 60 60 near90_60 near90_60 near90_60 ltac:(lra)) as [R N]. destruct (to_array a a a 60 60 60) as [A B C| |]; [eauto| |contradiction].
    exfalso. destruct R as [R _]. specialize (R eq_refl). rewrite cos60, sin60 in R. assert (/ 10 ^ 8 < 1) by (rewrite <- Rinv_1; apply Rinv_lt_contravar; [rewrite Rmult_1_l; apply pow_lt; lra|apply Rlt_pow_R1; [lra|lia]]). lra. }
  destruct TA as (A & B & C & TA). destruct (C80_lattice a a a 60 60 60 A B C near90_60 near90_60 near90_60 TA) as (AA & BB & CC & AB & AC & BC & _). rewrite cos60 in AB, AC, BC.
  assert (A2 : a ^ 2 = L ^ 2 / 2). { unfold a. assert (sqrt 2 <> 0) by (pose proof sqrt2_neq_0; assumption). replace ((L / sqrt 2) ^ 2) with (L ^ 2 / (sqrt 2 * sqrt 2)) by (field; assumption). rewrite sqrt_sqrt by lra. reflexivity. }
  set (l := lib u L).
  assert (G : exists A' B' C', rock_salt_lattice L u = Rows A' B' C' /\ dot A' A' = l ^ 2 / 2 /\ dot B' B' = l ^ 2 / 2 /\ dot C' C' = l ^ 2 / 2 /\ dot A' B' = l ^ 2 / 4 /\ dot A' C' = l ^ 2 / 4 /\ dot B' C' = l ^ 2 / 4).
  { unfold rock_salt_lattice. fold a. rewrite TA. unfold l. destruct u; cbn [lattice_vectors scale_lattice lib]; do 3 eexists; (split; [reflexivity|]); rewrite ?dot_scale, AA, BB, CC, AB, AC, BC; repeat split; try (replace (a * a * / 2) with (a ^ 2 / 2) by field); rewrite A2; field. }
  destruct G as (A' & B' & C' & E & GAA & GBB & GCC & GAB & GAC & GBC). exists A', B', C'. split; [exact E|]. cbv zeta. fold l.
  assert (W : forall x y z, dot (from_frac (mk x y z) A' B' C') (from_frac (mk x y z) A' B' C') = (l / 2) ^ 2 * ((y + z) ^ 2 + (x + z) ^ 2 + (x + y) ^ 2)).
  { intros x y z. rewrite dot_frac, GAA, GBB, GCC, GAB, GAC, GBC. field. }
  rewrite GAA, GBB, GCC, GAB, GAC, GBC. unfold dot, mk. repeat (split; [field|]). split.
  - intros i j k. fold (mk (/ 2 - IZR i) (/ 2 - IZR j) (/ 2 - IZR k)). match goal with |- _ <= ?d => change d with (dot (from_frac (mk (/ 2 - IZR i) (/ 2 - IZR j) (/ 2 - IZR k)) A' B' C') (from_frac (mk (/ 2 - IZR i) (/ 2 - IZR j) (/ 2 - IZR k)) A' B' C')) end. rewrite W.
    set (p := (1 - j - k)%Z). set (q := (1 - i - k)%Z). set (r := (1 - i - j)%Z).
    replace (/ 2 - IZR j + (/ 2 - IZR k)) with (IZR p) by (unfold p; rewrite !minus_IZR; field). replace (/ 2 - IZR i + (/ 2 - IZR k)) with (IZR q) by (unfold q; rewrite !minus_IZR; field). replace (/ 2 - IZR i + (/ 2 - IZR j)) with (IZR r) by (unfold r; rewrite !minus_IZR; field).
    assert (O : (1 <= p * p + q * q + r * r)%Z) by (assert ((p <> 0 \/ q <> 0 \/ r <> 0)%Z) by lia; nia).
    apply IZR_le in O. rewrite !plus_IZR, !mult_IZR in O. pose proof (pow2_ge_0 (l / 2)). nra.
  - intros i j k H. fold (mk (/ 2 - IZR i) (/ 2 - IZR j) (/ 2 - IZR k)). match goal with |- ?d = _ => change d with (dot (from_frac (mk (/ 2 - IZR i) (/ 2 - IZR j) (/ 2 - IZR k)) A' B' C') (from_frac (mk (/ 2 - IZR i) (/ 2 - IZR j) (/ 2 - IZR k)) A' B' C')) end. rewrite W.
    cbn [In] in H. repeat destruct H as [H|H]; try contradiction; injection H as <- <- <-; field.
Qed.

(** ** Chain and diatomic molecule *)
Lemma sqrt_sq x : sqrt (x * x) = Rabs x.
Proof. rewrite <- sqrt_Rsqr_abs. reflexivity. Qed.
Theorem C80_chain : forall bond vacuum u, exists A B C, chain_lattice bond vacuum u = Rows A B C /\
  let b := length_in_bohr u bond in
  let p := from_frac (mk 0 (/ 2) (/ 2)) A B C in let q := from_frac (mk (/ 2) (/ 2) (/ 2)) A B C in
  chain_fracs = [mk 0 (/ 2) (/ 2); mk (/ 2) (/ 2) (/ 2)] /\
  dist p q = Rabs b /\ dist q (vadd p A) = Rabs b /\ dot (vsub q p) (vsub (vadd p A) q) = b ^ 2 /\
  dot B B = vacuum ^ 2 /\ dot C C = vacuum ^ 2 /\ dot A B = 0 /\ dot A C = 0 /\ dot B C = 0.
Proof.
  intros bond vacuum u. rewrite !lib_eq. destruct u; unfold lib, chain_lattice, lattice_vectors; do 3 eexists; (split; [reflexivity|]);
    unfold chain_fracs, dist, dot, vsub, vadd, from_frac, vadd, vscale, mk; cbv zeta;
    (split; [reflexivity|]); (split; [rewrite <- sqrt_sq; f_equal; field|]); (split; [rewrite <- sqrt_sq; f_equal; field|]); repeat split; field.
Qed.
Theorem C80_diatomic : forall bond u, let (p, q) := diatomic bond u in
  dist p q = Rabs (length_in_bohr u bond) /\ vadd p q = mk 0 0 0 /\ vsub q p = mk 0 0 (length_in_bohr u bond).
Proof.
  intros bond u. unfold diatomic; cbv beta iota zeta; rewrite !lib_eq; destruct u; unfold lib, dist, dot, vsub, vadd, mk; (split; [rewrite <- sqrt_sq; f_equal; field|]); split; repeat (f_equal; try field).
Qed.

(** ** Diatomic formulas *)
Open Scope string_scope.
Definition known (s : string) : bool := match dict_get elements s with Some _ => true | None => false end.
Fixpoint all_chars (p : ascii -> bool) (s : string) : bool := match s with EmptyString => true | String c s' => p c && all_chars p s' end.
Definition shape (s : string) : bool := match s with EmptyString => false | String c s' => is_upper c && all_chars is_lower s' end.
Lemma known_shape s : known s = true -> shape s = true.
Proof.
  unfold known. destruct (dict_get elements s) as [v|] eqn:E; [|discriminate]. intros _.
  assert (I : In (s, v) elements). { clear - E. revert E. generalize elements as d. induction d as [|[k' v'] d IH]; cbn; [discriminate|]. destruct (String.eqb_spec s k') as [->|]; intros H; [injection H as ->; auto|auto]. }
  assert (ALL : forallb (fun e => shape (fst e)) elements = true) by (vm_compute; reflexivity). rewrite forallb_forall in ALL. apply (ALL _ I).
Qed.
Lemma upper_not_lower c : is_upper c = true -> is_lower c = false.
Proof. unfold is_upper, is_lower. intros H. apply andb_true_iff in H as [A B]. apply Nat.leb_le in A, B. apply andb_false_iff. left. apply Nat.leb_gt. lia. Qed.
Definition starts_lower (s : string) : bool := match s with EmptyString => false | String c _ => is_lower c end.
Lemma take_lower_app l rest : all_chars is_lower l = true -> starts_lower rest = false -> take_lower (l ++ rest) = (l, rest).
Proof.
  intros H R. induction l as [|c l IH]; cbn.
  - destruct rest as [|c rest]; [reflexivity|]. cbn in *. rewrite R. reflexivity.
  - cbn in H. apply andb_true_iff in H as [H1 H2]. rewrite H1, IH by exact H2. reflexivity.
Qed.
Lemma string_app_nil s : s ++ "" = s. Proof. induction s as [|c s IH]; cbn; congruence. Qed.
Lemma string_app_length a b : String.length (a ++ b) = (String.length a + String.length b)%nat.
Proof. induction a as [|c a IH]; cbn; congruence. Qed.
Lemma findall_two a b : shape a = true -> shape b = true -> findall (String.length (a ++ b)) (a ++ b) = [a; b].
Proof.
  intros A B. destruct a as [|ca la]; [discriminate|]. destruct b as [|cb lb]; [discriminate|]. cbn in A, B. apply andb_true_iff in A as [A1 A2], B as [B1 B2].
  cbn [append String.length findall]. rewrite A1. rewrite take_lower_app by (try exact A2; cbn; apply upper_not_lower, B1). cbn [fst snd]. f_equal.
  rewrite string_app_length. cbn [String.length]. rewrite Nat.add_succ_r. cbn [findall]. rewrite B1.
  assert (T : take_lower lb = (lb, "")) by (rewrite <- (string_app_nil lb) at 1; apply (take_lower_app lb "" B2 eq_refl)).
  rewrite T. cbn [fst snd]. f_equal. destruct (String.length la + String.length lb)%nat; reflexivity.
Qed.
Lemma suffix2_app s : str_suffixb "2" (s ++ "2") = true.
Proof. induction s as [|c s IH]; [reflexivity|]. cbn [append str_suffixb]. rewrite IH. apply orb_true_r. Qed.
Lemma drop_last_app s : drop_last (s ++ "2") = s.
Proof. induction s as [|c s IH]; [reflexivity|]. cbn [append drop_last]. destruct (s ++ "2") eqn:E; [destruct s; discriminate|]. f_equal. exact IH. Qed.
Lemma suffix2_inv s : str_suffixb "2" s = true -> s = drop_last s ++ "2".
Proof.
  induction s as [|c s IH]; [discriminate|]. cbn [str_suffixb]. intros H. apply orb_true_iff in H as [H|H].
  - apply String.eqb_eq in H. rewrite H. reflexivity.
  - specialize (IH H). cbn [drop_last]. destruct s as [|c' s]; [discriminate|]. cbn [append]. f_equal. exact IH.
Qed.
Definition letter (c : ascii) : bool := is_upper c || is_lower c.
Lemma letters_no_2 s : all_chars letter s = true -> str_suffixb "2" s = false.
Proof.
  induction s as [|c s IH]; [reflexivity|]. cbn [all_chars str_suffixb]. intros H. apply andb_true_iff in H as [H1 H2]. rewrite (IH H2), orb_false_r.
  apply String.eqb_neq. intros E. injection E as -> _. discriminate.
Qed.
Lemma all_chars_app p a b : all_chars p (a ++ b) = all_chars p a && all_chars p b.
Proof. induction a as [|c a IH]; [reflexivity|]. cbn. rewrite IH. apply andb_assoc. Qed.
Lemma all_chars_imp (p q : ascii -> bool) s : (forall c, p c = true -> q c = true) -> all_chars p s = true -> all_chars q s = true.
Proof. intros H. induction s as [|c s IH]; cbn; [auto|]. intros A. apply andb_true_iff in A as [A1 A2]. rewrite (H c A1), (IH A2). reflexivity. Qed.
Lemma shape_letters s : shape s = true -> all_chars letter s = true.
Proof.
  destruct s as [|c s]; [discriminate|]. cbn. intros H. apply andb_true_iff in H as [A B]. unfold letter at 1. rewrite A. cbn.
  apply (all_chars_imp is_lower letter); [|exact B]. intros d D. unfold letter. rewrite D. apply orb_true_r.
Qed.

Theorem C80_formula : forall a b, known a = true -> known b = true ->
  parse_formula known (a ++ b) = Ok (a, b) /\ parse_formula known (a ++ "2") = Ok (a, a).
Proof.
  intros a b A B. pose proof (known_shape a A) as SA. pose proof (known_shape b B) as SB. unfold parse_formula. split.
  - rewrite letters_no_2 by (rewrite all_chars_app, (shape_letters a SA), (shape_letters b SB); reflexivity). cbn [andb]. rewrite findall_two by assumption.
    rewrite String.eqb_refl, A, B. reflexivity.
  - rewrite suffix2_app, drop_last_app, A. reflexivity.
Qed.
Theorem C80_formula_only : forall f a b, parse_formula known f = Ok (a, b) -> known a = true /\ known b = true /\ (f = a ++ b \/ (a = b /\ f = a ++ "2")).
Proof.
  intros f a b H. unfold parse_formula in H. destruct (str_suffixb "2" f && known (drop_last f)) eqn:E.
  - apply andb_true_iff in E as [E1 E2]. injection H as <- <-. split; [exact E2|]. split; [exact E2|]. right. split; [reflexivity|apply suffix2_inv, E1].
  - destruct (findall _ _) as [|x [|y [|z l]]]; try discriminate. destruct (String.eqb_spec (x ++ y) f) as [EQ|]; [|discriminate]. destruct (known x && known y) eqn:K; [|discriminate]. injection H as <- <-. apply andb_true_iff in K as [K1 K2]. auto.
Qed.
Example C80_formula_example : parse_formula known "LiH" = Ok ("Li", "H") /\ parse_formula known "N2" = Ok ("N", "N") /\ parse_formula known "h2" = Raise ValueError.
Proof. vm_compute. auto. Qed.
Close Scope string_scope.

(** ** Alkanes *)
Definition is_sym (s : string) (a : aatom) : bool := String.eqb (sym a) s.
Definition positions (s : string) (l : list aatom) : list vec := map pos (filter (is_sym s) l).
Lemma alkane_some q n l : alkane q n = Some l -> (1 <= n)%nat /\
  l = atm "H" left_h (1, 0)%Z :: flat_map (alkane_unit (q / 2, q / 2)%Z) (seq 0 n) ++ [atm "H" (vadd right_h (vscale (INR (n - 1)) repeat_d)) (0, 1)%Z].
Proof. unfold alkane. destruct (Nat.ltb_spec n 1); [discriminate|]. intros E. injection E as <-. split; [lia|reflexivity]. Qed.
Definition carbon_at (k : nat) : vec := vadd (if Nat.even k then c1 else c2) (vscale (INR (k / 2)) repeat_d).
Lemma carbons_units cs : forall n, positions "C" (flat_map (alkane_unit cs) (seq 0 n)) = map carbon_at (seq 0 (2 * n)).
Proof.
  induction n as [|n IH]; [reflexivity|]. rewrite seq_S, flat_map_app. unfold positions in *. rewrite filter_app, map_app, IH.
  replace (2 * S n)%nat with (S (S (2 * n))) by lia. rewrite !seq_S, !map_app, <- app_assoc. f_equal. cbn [Nat.add map app]. unfold carbon_at.
  replace (Nat.even (2 * n)) with true by (symmetry; rewrite Nat.even_spec; exists n; lia). replace (Nat.even (S (2 * n))) with false by (symmetry; rewrite <- Bool.not_true_iff_false, Nat.even_spec; intros [m M]; lia).
  replace (2 * n / 2)%nat with n by (rewrite Nat.mul_comm, Nat.div_mul; lia). replace (S (2 * n) / 2)%nat with n by (apply (Nat.div_unique _ 2 n 1); lia). reflexivity.
Qed.
Lemma positions_app s a b : positions s (a ++ b) = positions s a ++ positions s b.
Proof. unfold positions. rewrite filter_app, map_app. reflexivity. Qed.
Lemma carbons q n l : alkane q n = Some l -> positions "C" l = map carbon_at (seq 0 (2 * n)).
Proof.
  intros H. apply alkane_some in H as [_ ->]. change (positions "C" (?a :: ?x ++ ?y)) with (positions "C" (x ++ y)). rewrite positions_app, carbons_units. cbn. apply app_nil_r.
Qed.
Lemma nth_carbons n k : (k < 2 * n)%nat -> nth k (map carbon_at (seq 0 (2 * n))) (mk 0 0 0) = carbon_at k.
Proof. intros H. rewrite (nth_indep _ _ (carbon_at 0)) by (rewrite map_length, seq_length; exact H). rewrite map_nth, seq_nth by exact H. reflexivity. Qed.

(** Composition: 2n carbons, 4n + 2 hydrogens, as many hinted electrons of either spin. *)
Lemma count_units s cs : forall n, List.length (filter (is_sym s) (flat_map (alkane_unit cs) (seq 0 n))) = (n * List.length (filter (is_sym s) (alkane_unit cs 0)))%nat.
Proof. induction n as [|n IH]; [reflexivity|]. rewrite seq_S, flat_map_app, filter_app, app_length, IH. cbn [flat_map Nat.add]. rewrite app_nil_r. unfold alkane_unit, is_sym, atm. cbn -[Nat.mul INR String.eqb]. cbn [filter sym]. destruct (String.eqb "C" s), (String.eqb "H" s); cbn; lia. Qed.
Theorem C80_alkane_formula : forall q n, (alkane q n = None <-> n = 0%nat) /\ forall l, alkane q n = Some l ->
  List.length (positions "C" l) = (2 * n)%nat /\ List.length (positions "H" l) = (4 * n + 2)%nat /\ List.length l = (6 * n + 2)%nat /\ alkane_imbalance l = 0%Z.
Proof.
  intros q n. split. { unfold alkane. destruct (Nat.ltb_spec n 1); split; intros; try discriminate; try reflexivity; lia. }
  intros l H. apply alkane_some in H as [_ ->]. set (cs := (q / 2, q / 2)%Z).
  assert (LEN : List.length (flat_map (alkane_unit cs) (seq 0 n)) = (6 * n)%nat).
  { clear. induction n as [|n IH]; [reflexivity|]. rewrite seq_S, flat_map_app, app_length, IH. cbn. lia. }
  split; [|split; [|split]].
  - match goal with |- List.length (positions "C" (?a :: ?x ++ ?y)) = _ => change (positions "C" (a :: x ++ y)) with (positions "C" (x ++ y)) end.
    rewrite positions_app, app_length. unfold positions at 1. rewrite map_length, count_units. cbn. lia.
  - match goal with |- List.length (positions "H" (?a :: ?x ++ ?y)) = _ => change (positions "H" (a :: x ++ y)) with (left_h :: positions "H" (x ++ y)) end.
    cbn [List.length]. rewrite positions_app, app_length. unfold positions at 1. rewrite map_length, count_units. cbn. lia.
  - cbn [List.length]. rewrite app_length, LEN. cbn. lia.
  - unfold alkane_imbalance. cbn [map fold_right]. rewrite map_app. cbn [map]. unfold atm. cbn [up_down fst snd].
    assert (U : fold_right Z.add 0%Z (map (fun a => fst (up_down a) - snd (up_down a))%Z (flat_map (alkane_unit cs) (seq 0 n)) ++ [-1])%Z = (-1)%Z).
    { clear - cs. assert (CS : fst cs = snd cs) by reflexivity. clearbody cs. generalize (seq 0 n) as ks. induction ks as [|k ks IH]; [reflexivity|]. cbn [flat_map]. unfold alkane_unit at 1, atm. cbn [map app fold_right up_down fst snd]. rewrite IH. lia. }
    change (0 - 1)%Z with (-1)%Z. rewrite U. reflexivity.
Qed.

Lemma half_trig : sin (theta / 2) ^ 2 + cos (theta / 2) ^ 2 = 1.
Proof. pose proof (sin2_cos2 (theta / 2)) as H. unfold Rsqr in H. lra. Qed.
Lemma cos_theta : cos theta = cos (theta / 2) ^ 2 - sin (theta / 2) ^ 2.
Proof. replace theta with (2 * (theta / 2)) at 1 by field. rewrite cos_2a. ring. Qed.
Lemma dist_norm a b r : 0 <= r -> dot (vsub a b) (vsub a b) = r ^ 2 -> dist a b = r.
Proof. intros R E. unfold dist. rewrite E. replace (r ^ 2) with (r * r) by ring. apply sqrt_square, R. Qed.
Ltac expand := unfold carbon_at, c1, c2, h11, h12, h21, h22, left_h, right_h, repeat_d, dot, vsub, vadd, vscale, mk.
Lemma even_half k : Nat.even k = true -> (S k / 2 = k / 2)%nat /\ Nat.even (S k) = false.
Proof. intros E. apply Nat.even_spec in E as [m ->]. split; [rewrite (Nat.mul_comm 2 m), Nat.div_mul by lia; symmetry; apply (Nat.div_unique _ 2 m 1); lia|]. rewrite <- Bool.not_true_iff_false, Nat.even_spec. intros [j J]. lia. Qed.
Lemma odd_half k : Nat.even k = false -> (S k / 2 = S (k / 2))%nat /\ Nat.even (S k) = true.
Proof. intros E. rewrite <- Nat.negb_odd, negb_false_iff, Nat.odd_spec in E. destruct E as [m ->]. replace ((2 * m + 1) / 2)%nat with m by (apply (Nat.div_unique _ 2 m 1); lia). split; [symmetry; apply (Nat.div_unique _ 2 (S m) 0); lia|]. rewrite Nat.even_spec. exists (S m). lia. Qed.
Lemma bond_vec k : vsub (carbon_at (S k)) (carbon_at k) = mk dx_c (if Nat.even k then dy_c else - dy_c) 0.
Proof.
  destruct (Nat.even k) eqn:E.
  - destruct (even_half k E) as [H O]. unfold carbon_at. rewrite H, O, E. expand. repeat (f_equal; try field).
  - destruct (odd_half k E) as [H O]. unfold carbon_at. rewrite H, O, E, S_INR. expand. repeat (f_equal; try field).
Qed.

(** The carbon chain: neighbours 1.55 angstrom apart, every C-C-C angle 109.4712 degrees, all in one plane. *)
Theorem C80_alkane_chain : forall q n l, alkane q n = Some l ->
  let C k := nth k (positions "C" l) (mk 0 0 0) in
  (forall k, (S k < 2 * n)%nat -> dist (C (S k)) (C k) = 155 / 100) /\
  (forall k, (S (S k) < 2 * n)%nat -> dot (vsub (C k) (C (S k))) (vsub (C (S (S k))) (C (S k))) = (155 / 100) ^ 2 * cosdeg (1094712 / 10000)) /\
  (forall k, (k < 2 * n)%nat -> snd (C k) = 0).
Proof.
  intros q n l H. cbv zeta. rewrite (carbons q n l H). split; [|split].
  - intros k K. rewrite !nth_carbons by lia. apply dist_norm; [lra|]. rewrite bond_vec. unfold dot, mk, dx_c, dy_c. pose proof half_trig as T.
    destruct (Nat.even k); transitivity (r_cc ^ 2 * (sin (theta / 2) ^ 2 + cos (theta / 2) ^ 2)); try ring; rewrite T; unfold r_cc; ring.
  - intros k K. rewrite !nth_carbons by lia.
    assert (NEG : forall a b c, dot (vsub a b) (vsub c b) = - dot (vsub b a) (vsub c b)) by (intros [[? ?] ?] [[? ?] ?] [[? ?] ?]; unfold dot, vsub; ring).
    rewrite NEG, !bond_vec. assert (EV : Nat.even (S k) = negb (Nat.even k)) by (rewrite Nat.even_succ, <- Nat.negb_even; reflexivity). rewrite EV.
    replace (cosdeg (1094712 / 10000)) with (cos theta) by (unfold cosdeg, theta, deg; f_equal; field). rewrite cos_theta. unfold dot, mk, dx_c, dy_c, r_cc. destruct (Nat.even k); cbn [negb]; ring.
  - intros k K. rewrite nth_carbons by lia. expand. destruct (Nat.even k); cbn; ring.
Qed.

(** Hydrogens: 1.09 angstrom from a carbon; the two of a carbon enclose 109.4712 degrees, and
    so do the end hydrogens with the chain. *)
Lemma h_len : dy_h ^ 2 + dx_h ^ 2 = (109 / 100) ^ 2.
Proof. unfold dy_h, dx_h, r_ch. transitivity ((109 / 100) ^ 2 * (sin (theta / 2) ^ 2 + cos (theta / 2) ^ 2)); [ring|rewrite half_trig; ring]. Qed.
Lemma h_cos : dy_h ^ 2 - dx_h ^ 2 = (109 / 100) ^ 2 * cos theta.
Proof. rewrite cos_theta. unfold dy_h, dx_h, r_ch. ring. Qed.
Definition attached (h c : vec) : Prop := dist h c = 109 / 100.
Lemma carbon_even i : carbon_at (2 * i) = vadd c1 (vscale (INR i) repeat_d).
Proof. unfold carbon_at. replace (Nat.even (2 * i)) with true by (symmetry; rewrite Nat.even_spec; exists i; lia). rewrite (Nat.mul_comm 2), Nat.div_mul by lia. reflexivity. Qed.
Lemma carbon_odd i : carbon_at (2 * i + 1) = vadd c2 (vscale (INR i) repeat_d).
Proof. unfold carbon_at. replace (Nat.even (2 * i + 1)) with false by (symmetry; rewrite <- Bool.not_true_iff_false, Nat.even_spec; intros [m M]; lia). replace ((2 * i + 1) / 2)%nat with i by (apply (Nat.div_unique _ 2 i 1); lia). reflexivity. Qed.
Theorem C80_alkane_hydrogens : forall q n l, alkane q n = Some l ->
  let C k := nth k (positions "C" l) (mk 0 0 0) in
  (forall h, In h (positions "H" l) -> exists k, (k < 2 * n)%nat /\ attached h (C k)) /\
  (forall k, (k < 2 * n)%nat -> exists h h', In h (positions "H" l) /\ In h' (positions "H" l) /\ attached h (C k) /\ attached h' (C k) /\
     dot (vsub h (C k)) (vsub h' (C k)) = (109 / 100) ^ 2 * cosdeg (1094712 / 10000)) /\
  (exists h, In h (positions "H" l) /\ attached h (C 0%nat) /\ dot (vsub h (C 0%nat)) (vsub (C 1%nat) (C 0%nat)) = 109 / 100 * (155 / 100) * cosdeg (1094712 / 10000)) /\
  (exists h, In h (positions "H" l) /\ attached h (C (2 * n - 1)%nat) /\ dot (vsub h (C (2 * n - 1)%nat)) (vsub (C (2 * n - 2)%nat) (C (2 * n - 1)%nat)) = 109 / 100 * (155 / 100) * cosdeg (1094712 / 10000)).
Proof.
  intros q n l H. cbv zeta. rewrite (carbons q n l H). apply alkane_some in H as [N ->]. set (cs := (q / 2, q / 2)%Z).
  replace (cosdeg (1094712 / 10000)) with (cos theta) by (unfold cosdeg, theta, deg; f_equal; field).
  assert (HH : forall h, In h (positions "H" (atm "H" left_h (1, 0)%Z :: flat_map (alkane_unit cs) (seq 0 n) ++ [atm "H" (vadd right_h (vscale (INR (n - 1)) repeat_d)) (0, 1)%Z])) <->
    h = left_h \/ h = vadd right_h (vscale (INR (n - 1)) repeat_d) \/ exists i, (i < n)%nat /\ (h = vadd h11 (vscale (INR i) repeat_d) \/ h = vadd h12 (vscale (INR i) repeat_d) \/ h = vadd h21 (vscale (INR i) repeat_d) \/ h = vadd h22 (vscale (INR i) repeat_d))).
  { intros h. change (positions "H" (?a :: ?x ++ ?y)) with (left_h :: positions "H" (x ++ y)). rewrite positions_app. cbn [In]. rewrite in_app_iff.
    assert (U : In h (positions "H" (flat_map (alkane_unit cs) (seq 0 n))) <-> exists i, (i < n)%nat /\ (h = vadd h11 (vscale (INR i) repeat_d) \/ h = vadd h12 (vscale (INR i) repeat_d) \/ h = vadd h21 (vscale (INR i) repeat_d) \/ h = vadd h22 (vscale (INR i) repeat_d))).
    { unfold positions. rewrite in_map_iff. split.
      - intros (a & <- & I). apply filter_In in I as [I S]. apply in_flat_map in I as (i & Hi & Ha). apply in_seq in Hi. exists i. split; [lia|].
        unfold alkane_unit in Ha. cbn [In] in Ha. repeat destruct Ha as [<-|Ha]; try contradiction; try discriminate S; unfold atm; cbn [pos]; auto.
      - intros (i & Hi & E). assert (X : forall p ud, In (atm "H" p ud) (alkane_unit cs i) -> exists x, pos x = p /\ In x (filter (is_sym "H") (flat_map (alkane_unit cs) (seq 0 n)))).
        { intros p ud I. exists (atm "H" p ud). split; [reflexivity|]. apply filter_In. split; [|reflexivity]. apply in_flat_map. exists i. split; [apply in_seq; lia|exact I]. }
        destruct E as [-> |[-> |[-> | ->]]]; (eapply X; unfold alkane_unit; cbn [In]; tauto). }
    rewrite U. cbn. split; intros; intuition (subst; auto). }
  assert (R : 0 <= 109 / 100) by lra. pose proof h_len as HL. pose proof h_cos as HC.
  assert (NC : forall k, (k < 2 * n)%nat -> nth k (map carbon_at (seq 0 (2 * n))) (mk 0 0 0) = carbon_at k) by (intros; apply nth_carbons; assumption).
  assert (PAR : forall k, (k < 2 * n)%nat -> exists i, (i < n)%nat /\ (k = 2 * i \/ k = 2 * i + 1)%nat).
  { intros k K. destruct (Nat.Even_or_Odd k) as [[i E]|[i E]]; exists i; lia. }
  assert (LEFT : attached left_h c1) by (apply dist_norm; [exact R|]; rewrite <- HL; expand; field).
  split; [|split; [|split]].
  - intros h I. apply HH in I as [-> |[-> |(i & Hi & [-> |[-> |[-> | ->]]])]].
    + exists 0%nat. split; [lia|]. rewrite NC by lia. apply dist_norm; [exact R|]. rewrite <- HL. unfold carbon_at. cbn [Nat.even]. change (INR (0 / 2)) with 0. expand. field.
    + exists (2 * (n - 1) + 1)%nat. split; [lia|]. rewrite NC, carbon_odd by lia. apply dist_norm; [exact R|]. rewrite <- HL. expand. field.
    + exists (2 * i)%nat. split; [lia|]. rewrite NC, carbon_even by lia. apply dist_norm; [exact R|]. rewrite <- HL. expand. field.
    + exists (2 * i)%nat. split; [lia|]. rewrite NC, carbon_even by lia. apply dist_norm; [exact R|]. rewrite <- HL. expand. field.
    + exists (2 * i + 1)%nat. split; [lia|]. rewrite NC, carbon_odd by lia. apply dist_norm; [exact R|]. rewrite <- HL. expand. field.
    + exists (2 * i + 1)%nat. split; [lia|]. rewrite NC, carbon_odd by lia. apply dist_norm; [exact R|]. rewrite <- HL. expand. field.
  - intros k K. destruct (PAR k K) as (i & Hi & E). rewrite NC by exact K. destruct E as [-> | ->]; [rewrite carbon_even|rewrite carbon_odd].
    + exists (vadd h11 (vscale (INR i) repeat_d)), (vadd h12 (vscale (INR i) repeat_d)).
      split; [apply HH; right; right; exists i; auto|]. split; [apply HH; right; right; exists i; auto|].
      split; [apply dist_norm; [exact R|]; rewrite <- HL; expand; field|]. split; [apply dist_norm; [exact R|]; rewrite <- HL; expand; field|]. rewrite <- HC. expand. field.
    + exists (vadd h21 (vscale (INR i) repeat_d)), (vadd h22 (vscale (INR i) repeat_d)).
      split; [apply HH; right; right; exists i; auto|]. split; [apply HH; right; right; exists i; auto|].
      split; [apply dist_norm; [exact R|]; rewrite <- HL; expand; field|]. split; [apply dist_norm; [exact R|]; rewrite <- HL; expand; field|]. rewrite <- HC. expand. field.
  - exists left_h. split; [apply HH; auto|]. rewrite !NC by lia. split.
    + apply dist_norm; [exact R|]. rewrite <- HL. unfold carbon_at. cbn [Nat.even]. change (INR (0 / 2)) with 0. expand. field.
    + rewrite bond_vec, cos_theta. unfold carbon_at. cbn [Nat.even]. change (INR (0 / 2)) with 0. unfold dx_h, dy_h, r_ch. expand. unfold dx_c, dy_c, r_cc, dx_h, dy_h, r_ch. field.
  - exists (vadd right_h (vscale (INR (n - 1)) repeat_d)). split; [apply HH; auto|]. rewrite !NC by lia. replace (2 * n - 1)%nat with (2 * (n - 1) + 1)%nat by lia. replace (2 * n - 2)%nat with (2 * (n - 1))%nat by lia. rewrite carbon_odd, carbon_even. split.
    + apply dist_norm; [exact R|]. rewrite <- HL. expand. field.
    + rewrite cos_theta. expand. unfold dx_c, dy_c, r_cc, dx_h, dy_h, r_ch. field.
Qed.

(** ** A run of an alkane starts: its configuration is accepted, half of the electrons have
    either spin, and every atom gets the electrons the builder meant for it. *)
Section Start.
Variable element : string -> option (Z * Z).
Variable ecp_core : string -> string -> option Z.
Lemma hinted_sys pp l (f : aatom -> ratom) :
  (forall a, In a l -> make_atom element ecp_core (sym a) None (pp_of pp (sym a)) = Ok (f a) /\ (0 <= fst (up_down a) /\ 0 <= snd (up_down a) /\ fst (up_down a) + snd (up_down a) = r_charge (f a))%Z) ->
  (match pp with MapPP m => forall k, In k (dict_keys m) -> exists a, In a l /\ sym a = k | _ => True end) ->
  post_init element ecp_core (alkane_config pp l) = Ok (map f l) /\
  (forall pick fuel, distribute pick fuel (map core_of (map f l)) (map ainit_of (hints (alkane_config pp l))) (sys_spins (alkane_config pp l) (map f l)) = Some (Ok (map up_down l))) /\
  sys_spins (alkane_config pp l) (map f l) = (alphas (map up_down l), betas (map up_down l)).
Proof.
  intros H M. set (c := alkane_config pp l).
  assert (SUM : Sys_Props.spin_possible (Spins_Model.zsum (map r_charge (map f l)) - 0) (alkane_imbalance l) /\ Spins_Model.zsum (map r_charge (map f l)) = (alphas (map up_down l) + betas (map up_down l))%Z /\ (alkane_imbalance l = alphas (map up_down l) - betas (map up_down l))%Z).
  { assert (E : (0 <= alphas (map up_down l) /\ 0 <= betas (map up_down l))%Z /\ Spins_Model.zsum (map r_charge (map f l)) = (alphas (map up_down l) + betas (map up_down l))%Z /\ (alkane_imbalance l = alphas (map up_down l) - betas (map up_down l))%Z).
    { clear - H. unfold alphas, betas, alkane_imbalance, Spins_Model.zsum. induction l as [|a l IH]; [cbn; lia|]. cbn [map fold_right]. destruct (H a (or_introl eq_refl)) as (_ & A & B & C). specialize (IH (fun b I => H b (or_intror I))). lia. }
    destruct E as (E1 & E2 & E3). split; [|auto]. exists (alphas (map up_down l)), (betas (map up_down l)). lia. }
  destruct SUM as (SP & S1 & S2).
  assert (K : 2 * s_z c = IZR (alkane_imbalance l)) by (cbn [c s_z alkane_config]; field).
  assert (SS : sys_spins c (map f l) = (alphas (map up_down l), betas (map up_down l))).
  { unfold sys_spins, electron_spins. rewrite K, pyround_IZR. cbn [total_charge c alkane_config]. replace (map charge (map core_of (map f l))) with (map r_charge (map f l)) by (rewrite !map_map; reflexivity).
    rewrite S1, S2. f_equal; symmetry; apply (Z.div_unique_exact _ 2); lia. }
  assert (AT : sys_atoms element ecp_core c = Ok (map f l)).
  { unfold sys_atoms. cbn [entries sys_pp c alkane_config]. clear - H. induction l as [|a l IH]; [reflexivity|]. cbn [map map_res fst snd].
    destruct (H a (or_introl eq_refl)) as (A & _). rewrite A. cbn [bind]. rewrite IH by (intros b I; apply H; right; exact I). reflexivity. }
  assert (HI : forall a, In a l -> ainit_of {| local_s_z := Some (IZR (fst (up_down a) - snd (up_down a)) / 2); hint_charge := 0%Z |} = {| imbalance := Some (fst (up_down a) - snd (up_down a))%Z; local_charge := 0%Z |}).
  { intros a _. unfold ainit_of. cbn [local_s_z hint_charge option_map]. replace (2 * (IZR (fst (up_down a) - snd (up_down a)) / 2)) with (IZR (fst (up_down a) - snd (up_down a))) by field. rewrite pyround_IZR. reflexivity. }
  assert (HS : map ainit_of (hints c) = map (fun a => {| imbalance := Some (fst (up_down a) - snd (up_down a))%Z; local_charge := 0%Z |}) l).
  { unfold hints. cbn [entries c alkane_config]. rewrite !map_map. apply map_ext_in. intros a I. cbn [snd]. apply HI, I. }
  split; [|split; [|exact SS]].
  - apply (proj2 (C79_accepts element ecp_core c (alkane_imbalance l) (map f l) K)). split; [exact AT|]. split.
    { unfold mapping_used. cbn [sys_pp c alkane_config]. destruct pp as [| |m]; try exact I. intros k Hk. destruct (M k Hk) as (a & A1 & A2). exists (f a). split; [apply in_map, A1|].
      destruct (H a A1) as (A3 & _). apply C79_charge in A3 as (A3 & _). congruence. }
    split; [|exact SP]. unfold hints. cbn [entries c alkane_config]. rewrite map_map. cbn [snd].
    clear - H. induction l as [|a l IH]; [constructor|]. cbn [map]. destruct (H a (or_introl eq_refl)) as (_ & A & B & C). constructor; [|apply IH; intros b I; apply H; right; exact I].
    unfold hint_possible. cbn [local_s_z hint_charge]. split; [lia|]. replace (2 * (IZR (fst (up_down a) - snd (up_down a)) / 2)) with (IZR (fst (up_down a) - snd (up_down a))) by field. rewrite pyround_IZR.
    split; [apply isclose_spec, isclose_refl|]. exists (fst (up_down a)), (snd (up_down a)). lia.
  - intros pick fuel. rewrite SS, HS. unfold distribute.
    assert (Z0 : Spins_Model.zsum (map local_charge (map (fun a => {| imbalance := Some (fst (up_down a) - snd (up_down a))%Z; local_charge := 0%Z |}) l)) = 0%Z).
    { clear. induction l as [|a l IH]; [reflexivity|]. unfold Spins_Model.zsum in *. cbn [map fold_right local_charge]. rewrite IH. reflexivity. }
    rewrite Z0. cbn [Z.eqb negb].
    assert (MR : map_res (fun p => atom_spins (fst p) (snd p)) (combine (map core_of (map f l)) (map (fun a => {| imbalance := Some (fst (up_down a) - snd (up_down a))%Z; local_charge := 0%Z |}) l)) = Ok (map up_down l)).
    { clear - H. induction l as [|a l IH]; [reflexivity|]. cbn [map combine map_res fst snd]. rewrite IH by (intros b I; apply H; right; exact I). destruct (H a (or_introl eq_refl)) as (_ & A & B & C).
      unfold atom_spins. cbn [imbalance local_charge charge core_of]. rewrite <- C. replace (fst (up_down a) + snd (up_down a) + 0 + (fst (up_down a) - snd (up_down a)))%Z with (fst (up_down a) * 2)%Z by lia.
      replace (fst (up_down a) + snd (up_down a) + 0 - (fst (up_down a) - snd (up_down a)))%Z with (snd (up_down a) * 2)%Z by lia. rewrite !Z.div_mul by lia. cbn [fst snd].
      rewrite (proj2 (Z.ltb_ge _ _) A), (proj2 (Z.ltb_ge _ _) B). cbn [orb bind]. destruct (up_down a). reflexivity. }
    rewrite MR. cbn [fst snd]. rewrite Z.eqb_refl. cbn [negb].
    assert (FX : map is_fixed (map (fun a => {| imbalance := Some (fst (up_down a) - snd (up_down a))%Z; local_charge := 0%Z |}) l) = map (fun _ => true) l) by (rewrite map_map; reflexivity).
    rewrite FX. assert (EX : map fst (filter snd (combine (map up_down l) (map (fun _ => true) l))) = map up_down l) by (clear; induction l as [|a l IH]; [reflexivity|cbn; f_equal; exact IH]).
    rewrite EX. replace (forallb (fun b => b) (map (fun _ => true) l)) with true by (clear; induction l; [reflexivity|cbn; assumption]). rewrite !Z.eqb_refl. reflexivity.
Qed.
Theorem C80_alkane_starts : forall pp n l c h, make_atom element ecp_core "C" None (pp_of pp "C") = Ok c -> make_atom element ecp_core "H" None (pp_of pp "H") = Ok h ->
  (0 <= r_charge c)%Z -> (r_charge c mod 2 = 0)%Z -> r_charge h = 1%Z -> alkane (r_charge c) n = Some l ->
  (match pp with MapPP m => forall k, In k (dict_keys m) -> k = "C"%string \/ k = "H"%string | _ => True end) ->
  exists ats, post_init element ecp_core (alkane_config pp l) = Ok ats /\
    (let N := (Z.of_nat n * r_charge c + 2 * Z.of_nat n + 1)%Z in sys_spins (alkane_config pp l) ats = (N, N)) /\
    forall pick fuel, distribute pick fuel (map core_of ats) (map ainit_of (hints (alkane_config pp l))) (sys_spins (alkane_config pp l) ats) = Some (Ok (map up_down l)).
Proof.
  intros pp n l c h HC HH P E H1 A M. set (q := r_charge c) in *.
  set (f := fun a : aatom => if String.eqb (sym a) "C" then c else h). exists (map f l).
  apply Z.mod_divide in E as [m E]; [|lia]. assert (Q : (q / 2 = m)%Z) by (symmetry; apply (Z.div_unique_exact _ 2); lia).
  apply alkane_some in A as [N ->]. rewrite Q.
  destruct (hinted_sys pp (atm "H" left_h (1, 0)%Z :: flat_map (alkane_unit (m, m)) (seq 0 n) ++ [atm "H" (vadd right_h (vscale (INR (n - 1)) repeat_d)) (0, 1)%Z]) f) as (A1 & A2 & A3).
  - assert (HY : forall p ud, (ud = (1, 0) \/ ud = (0, 1))%Z -> make_atom element ecp_core (sym (atm "H" p ud)) None (pp_of pp (sym (atm "H" p ud))) = Ok (f (atm "H" p ud)) /\ (0 <= fst (up_down (atm "H" p ud)) /\ 0 <= snd (up_down (atm "H" p ud)) /\ fst (up_down (atm "H" p ud)) + snd (up_down (atm "H" p ud)) = r_charge (f (atm "H" p ud)))%Z).
    { intros p ud U. split; [exact HH|]. cbn [up_down atm]. change (f (atm "H" p ud)) with h. rewrite H1. destruct U as [-> | ->]; cbn; lia. }
    assert (CA : forall p, make_atom element ecp_core (sym (atm "C" p (m, m))) None (pp_of pp (sym (atm "C" p (m, m)))) = Ok (f (atm "C" p (m, m))) /\ (0 <= fst (up_down (atm "C" p (m, m))) /\ 0 <= snd (up_down (atm "C" p (m, m))) /\ fst (up_down (atm "C" p (m, m))) + snd (up_down (atm "C" p (m, m))) = r_charge (f (atm "C" p (m, m))))%Z).
    { intros p. split; [exact HC|]. cbn [up_down atm fst snd]. change (f (atm "C" p (m, m))) with c. fold q. lia. }
    intros a [<-|I]; [apply HY; auto|]. apply in_app_iff in I as [I|[<-|[]]]; [|apply HY; auto]. apply in_flat_map in I as (i & _ & I). unfold alkane_unit in I. cbn [In] in I.
    repeat destruct I as [<-|I]; try contradiction; try apply CA; apply HY; auto.
  - destruct pp as [| |d]; try exact I. intros k K. destruct (M k K) as [-> | ->].
    + exists (atm "C" (vadd c1 (vscale (INR 0) repeat_d)) (m, m)). split; [|reflexivity]. right. apply in_app_iff. left. apply in_flat_map. exists 0%nat. split; [apply in_seq; lia|left; reflexivity].
    + eexists. split; [left; reflexivity|reflexivity].
  - split; [exact A1|]. split; [|exact A2]. cbv zeta. rewrite A3.
    assert (U : forall (g : Z * Z -> Z), g (1, 0)%Z = 1%Z /\ g (0, 1)%Z = 0%Z \/ g (1, 0)%Z = 0%Z /\ g (0, 1)%Z = 1%Z -> g (m, m) = m -> Spins_Model.zsum (map g (map up_down (flat_map (alkane_unit (m, m)) (seq 0 n)))) = (Z.of_nat n * (2 * m + 2))%Z).
    { intros g G GM. clear - G GM. generalize 0%nat as s. induction n as [|n IH]; intros s; [reflexivity|]. cbn [seq flat_map]. rewrite !map_app. unfold Spins_Model.zsum in *. rewrite fold_right_app, IH. unfold alkane_unit. cbn [map fold_right up_down atm]. rewrite GM. lia. }
    unfold alphas, betas. cbn [map]. rewrite !map_app. unfold Spins_Model.zsum in *. cbn [fold_right map app up_down atm fst snd].
    assert (FA : forall l' y, fold_right Z.add 0%Z (l' ++ [y]) = (fold_right Z.add 0 l' + y)%Z) by (clear; intros l' y; induction l' as [|x l' IH]; cbn; lia).
    rewrite !FA, !U by (cbn; auto). f_equal; lia.
Qed.
End Start.
(** Without pseudopotentials the hypotheses hold; butane. *)
Example C80_alkane_example : exists l ats, alkane 6 2 = Some l /\ post_init element_of (fun _ _ => None) (alkane_config NoPP l) = Ok ats /\ sys_spins (alkane_config NoPP l) ats = (17, 17)%Z.
Proof.
  destruct (alkane 6 2) as [l|] eqn:A; [|discriminate A].
  destruct (C80_alkane_starts element_of (fun _ _ => None) NoPP 2 l {| symbol := "C"; r_charge := 6; core := 0; r_pp := None; r_unpaired := 2 |} {| symbol := "H"; r_charge := 1; core := 0; r_pp := None; r_unpaired := 1 |}) as (ats & P & S & _);
    try reflexivity; [cbn; lia|exact A|]. exists l, ats. auto.
Qed.
