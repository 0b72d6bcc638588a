(** C63: the effective core potential energy. *)
From Coq Require Import Reals List Arith ZArith String Bool Lia Lra.
From Coquelicot Require Import Coquelicot.
From Verif Require Import Lin Geom_Spec Geom_Model Geom_Props Periodic_Props Branch_Model Branch_Lemmas Quad_Spec Quad_Sphere Quad_Rot Quad_Model Quad_Rule Quad_Props Ecp_Spec Ecp_Model Ecp_Lemmas.
Import ListNotations.
Open Scope list_scope.
Open Scope R_scope.
Local Notation S := Datatypes.S.

(** ** The radial potentials *)
(** Whatever tables the other atoms have (they fix the padding), channel c of an atom is V_(c-1). *)
Theorem C63_radial : forall ts t c r, In t ts -> proper t -> 0 < r ->
  radial (write_atom t) (max_terms ts) c r = V t (Z.of_nat c - 1) r.
Proof. intros ts t c r T PR _. apply radial_is; assumption. Qed.
(** The channels reach exactly the largest angular momentum of the dictionary. *)
Lemma fold_max_spec ls : forall l, (l <= fold_left Z.max ls l)%Z /\ (forall x, In x ls -> (x <= fold_left Z.max ls l)%Z) /\ (fold_left Z.max ls l = l \/ In (fold_left Z.max ls l) ls).
Proof.
  induction ls as [|y ls IH]; intros l; cbn [fold_left]; [split; [lia|]; split; [intros x []|auto]|].
  destruct (IH (Z.max l y)) as [A [B C]]. split; [lia|]. split; [intros x [-> | I]; [lia|auto]|]. destruct C as [C|C]; [|right; right; exact C].
  destruct (Z.max_dec l y) as [E|E]; rewrite E in C at 2; [left; congruence|right; left; congruence].
Qed.
Theorem C63_channel_count : forall d n, num_channels d = Some n ->
  (forall e t, In t (map snd d) -> In e t -> (fst e + 2 <= n)%Z) /\ (exists t e, In t (map snd d) /\ In e t /\ (fst e + 2 = n)%Z).
Proof.
  intros d. unfold num_channels. assert (ML : forall t l, max_l t = Some l -> (forall e, In e t -> (fst e <= l)%Z) /\ exists e, In e t /\ fst e = l).
  { intros t l H. unfold max_l in H. destruct t as [|e t]; [discriminate|]. cbn [map] in H. assert (L : l = fold_left Z.max (map fst t) (fst e)) by congruence. subst l.
    destruct (fold_max_spec (map fst t) (fst e)) as [A [B C]]. split; [intros e' [-> | I]; [exact A|apply B, in_map; exact I]|].
    destruct C as [C|C]; [exists e; split; [left; reflexivity|symmetry; exact C]|]. apply in_map_iff in C. destruct C as [e' [E I]]. exists e'. split; [right; exact I|exact E]. }
  induction (map snd d) as [|t ts IH]; intros n H; [discriminate|]. cbn [max_channels] in H. destruct ts as [|t' ts].
  - destruct (max_l t) as [l|] eqn:M; [|discriminate]. assert (n = l + 2)%Z by (cbn in H; congruence). subst n. destruct (ML t l M) as [A [e [I E]]]. split; [intros e' t0 [<- |[]] I'; pose proof (A e' I'); lia|]. exists t, e. split; [left; reflexivity|]. split; [exact I|lia].
  - destruct (max_l t) as [l|] eqn:M; [|discriminate]. destruct (max_channels (t' :: ts)) as [c|] eqn:MC; [|discriminate]. assert (n = Z.max (l + 2) c) by congruence. subst n. destruct (ML t l M) as [A [e [I E]]]. destruct (IH c eq_refl) as [B [t0 [e0 [T0 [I0 E0]]]]]. split.
    + intros e' t1 [<- | T1] I1; [pose proof (A e' I1); lia|pose proof (B e' t1 T1 I1); lia].
    + destruct (Z.max_dec (l + 2) c) as [X|X]; rewrite X; [exists t, e; split; [left; reflexivity|]; split; [exact I|lia]|exists t0, e0; split; [right; exact T0|]; split; [exact I0|exact E0]].
Qed.

(** ** Which atoms are integrated *)
(** [max_core] atoms (or all, if there are no more), each once, and none that is left out is closer. *)
Theorem C63_nearest : forall ds m, NoDup (nearest_cores ds m) /\ List.length (nearest_cores ds m) = Nat.min m (List.length ds) /\
  (forall i, In i (nearest_cores ds m) -> (i < List.length ds)%nat) /\
  (forall i j, In i (nearest_cores ds m) -> (j < List.length ds)%nat -> ~ In j (nearest_cores ds m) -> nth i ds 0 <= nth j ds 0).
Proof.
  intros ds m. unfold nearest_cores, len. destruct (Nat.leb_spec (List.length ds) m) as [L|L].
  - split; [apply seq_NoDup|]. split; [rewrite seq_length; lia|]. split; [intros i I; apply in_seq in I; lia|]. intros i j I J N. exfalso. apply N. apply in_seq. lia.
  - destruct (smallest_ok ds m) as [A B]. split; [exact A|]. split; [rewrite smallest_length by lia; lia|]. split; [exact B|]. intros i j I J N. unfold smallest in *. apply (sorted_split ds m _ (order_sorted ds) i j I).
    pose proof (Permutation.Permutation_in j (Permutation.Permutation_sym (order_perm (fun i j => rleb (at_ ds i) (at_ ds j)) (List.length ds)))) as X. specialize (X ltac:(apply in_seq; lia)).
    rewrite <- (firstn_skipn m) in X. apply in_app_or in X. destruct X as [X|X]; [contradiction|exact X].
Qed.

(** ** Wavefunction ratios *)
Definition amplitude (v : value) : C := Cmult (fst v) (RtoC (exp (snd v))).
Lemma ratio_is wf ref displaced : Cmod (fst ref) = 1 -> Cmult (wf_ratio wf ref displaced) (amplitude ref) = amplitude (wf displaced).
Proof.
  intros U. unfold wf_ratio, amplitude. destruct ref as [ph lg], (wf displaced) as [ph' lg']. cbn [fst snd] in *.
  assert (N : Cmult (Cconj ph) ph = RtoC 1).
  { destruct ph as [a b]. unfold Cmod in U. cbn [fst snd] in U. assert (Q : a ^ 2 + b ^ 2 = 1) by (rewrite <- (sqrt_sqrt (a ^ 2 + b ^ 2)) by nra; rewrite U; ring). unfold Cmult, Cconj, RtoC. cbn [fst snd]. f_equal; [rewrite <- Q; ring|ring]. }
  transitivity (Cmult (Cmult ph' (Cmult (Cconj ph) ph)) (Cmult (RtoC (exp (lg' - lg))) (RtoC (exp lg)))); [ring|]. rewrite N, <- RtoC_mult, <- exp_plus. replace (lg' - lg + lg) with lg' by ring. ring.
Qed.
Lemma cis_shift x z : cis (x + IZR z * (2 * PI)) = cis x.
Proof. unfold cis. rewrite cos_shift, sin_shift. reflexivity. Qed.
Lemma wrap_bloch b p (psi : cfn) : inverse 3 (plattice b) (pinv b) -> bloch (plattice b) (match ptwist b with Some t => t | None => (0, 0, 0) end) psi ->
  Cmult (psi (fst (wrap_with_bloch_phase b p))) (snd (wrap_with_bloch_phase b p)) = psi p.
Proof.
  intros INV B. unfold wrap_with_bloch_phase. cbn [fst snd]. set (w := to3 (wrap_positions 3 (pinv b) (plattice b) (of3 p))).
  set (m := fun i => floor (vecmat 3 (of3 p) (pinv b) i)).
  assert (SH : forall j, (j < 3)%nat -> of3 p j = wrap_positions 3 (pinv b) (plattice b) (of3 p) j + lattice_vector 3 (plattice b) m j).
  { intros j J. unfold wrap_positions, lattice_vector. rewrite <- (inverse_r 3 (plattice b) (pinv b) (of3 p) j INV J) at 1. unfold vecmat at 1 3. rewrite <- sum_plus. apply sum_ext. intros i _. rewrite rmod1_eq. unfold m. ring. }
  assert (P : p = vadd w (to3 (lattice_vector 3 (plattice b) m))).
  { pose proof (SH 0%nat ltac:(lia)) as S0. pose proof (SH 1%nat ltac:(lia)) as S1. pose proof (SH 2%nat ltac:(lia)) as S2. destruct p as [[x y] z]. unfold vadd, w, to3. cbn [fst snd]. cbn [of3 fst snd] in S0, S1, S2. f_equal; [f_equal|]; assumption. }
  pose proof (B w m) as BW. rewrite <- P in BW. rewrite BW. destruct (ptwist b) as [[[t1 t2] t3]|].
  - rewrite Cmult_comm. f_equal. cbn [fst snd].
    assert (FS : forall j, (j < 3)%nat -> vecmat 3 (of3 (vsub p w)) (pinv b) j = IZR (m j)).
    { intros j J. rewrite (vecmat_ext 3 _ (vecmat 3 (fun i => IZR (m i)) (plattice b))); [apply inverse_l; assumption|]. intros i I. change (vecmat 3 (fun k => IZR (m k)) (plattice b) i) with (lattice_vector 3 (plattice b) m i).
      pose proof (SH i I) as E. destruct p as [[x y] z]. unfold vsub, w, to3. cbn [fst snd]. destruct i as [|[|[|i]]]; [| | |lia]; cbn [of3 fst snd] in *; lra. }
    unfold to3, vdot. cbn [fst snd]. rewrite !FS by lia. rewrite !rmod1_eq. set (a := m 0%nat). set (b' := m 1%nat). set (c := m 2%nat).
    transitivity (cis (2 * PI * (IZR a * t1 + IZR b' * t2 + IZR c * t3) + IZR (- (a * floor t1 + b' * floor t2 + c * floor t3)) * (2 * PI))); [|apply cis_shift]. f_equal. rewrite opp_IZR, !plus_IZR, !mult_IZR. ring.
  - unfold vdot. cbn [fst snd]. replace (2 * PI * (IZR (m 0%nat) * 0 + IZR (m 1%nat) * 0 + IZR (m 2%nat) * 0)) with 0 by ring. unfold cis. rewrite cos_0, sin_0. change (1, 0) with (RtoC 1). ring.
Qed.
(** Without periodic boundary conditions the ratio is that of the amplitudes; with them it is too, although
    only positions inside the cell are ever evaluated, provided the wavefunction is a Bloch function of the
    displaced electron for the given twist (zero if none is given). *)
Definition bloch_in (b : option pbc) (wf : list vec -> value) (els : list vec) (i : nat) : Prop :=
  match b with
  | None => True
  | Some pb => inverse 3 (plattice pb) (pinv pb) /\
      bloch (plattice pb) (match ptwist pb with Some t => t | None => (0, 0, 0) end) (fun p => amplitude (wf (set_nth i p els)))
  end.
Theorem C63_ratio : forall b wf els i pos, Cmod (fst (wf els)) = 1 -> bloch_in b wf els i ->
  Cmult (displaced_ratio b wf els i pos) (amplitude (wf els)) = amplitude (wf (set_nth i pos els)).
Proof.
  intros b wf els i pos U B. unfold displaced_ratio. destruct b as [pb|]; [|apply ratio_is; exact U]. destruct B as [INV B].
  destruct (wrap_with_bloch_phase pb pos) as [w ph] eqn:W.
  transitivity (Cmult (Cmult (wf_ratio wf (wf els) (set_nth i w els)) (amplitude (wf els))) ph); [ring|]. rewrite ratio_is by exact U.
  pose proof (wrap_bloch pb pos _ INV B) as X. rewrite W in X. exact X.
Qed.
(** every position that is evaluated under periodic boundary conditions is inside the cell *)
Theorem C63_evaluated_in_cell : forall pb p, in_cell 3 (plattice pb) (of3 (fst (wrap_with_bloch_phase pb p))).
Proof.
  intros pb p. unfold wrap_with_bloch_phase. cbn [fst]. exists (fun i => rmod (vecmat 3 (of3 p) (pinv pb) i) 1). split; [|intros i I; apply rmod1_range].
  intros j J. destruct j as [|[|[|j]]]; [| | |lia]; reflexivity.
Qed.

(** ** Angular integrals *)
Lemma legendre_nth x nn l v : legendre_polynomials x nn = Some v -> (l < nn)%nat -> nth l v 0 = P l x /\ (nn <= 3)%nat.
Proof.
  unfold legendre_polynomials. destruct (Nat.ltb_spec 3 nn) as [L|L]; [discriminate|]. intros H K. assert (E : v = firstn nn [1; x; (3 * x ^ 2 - 1) / 2]) by congruence. subst v. split; [|exact L].
  destruct nn as [|[|[|[|nn]]]]; try lia; (destruct l as [|[|[|l]]]; try lia); reflexivity.
Qed.
Lemma unit_points id q u1 u2 : (exists d, degree_of id d) -> get_quadrature id = Some q -> 0 <= u2 <= 1 -> List.Forall (fun p => vdot p p = 1) (rotated q u1 u2).
Proof.
  intros [d D] Q U. destruct id as [[t n]|].
  - destruct (C53_rule_shape t n q u1 u2 Q U) as [_ [_ [_ [_ H]]]]. exact H.
  - destruct (C53_rule_shape "icosahedron" 12 q u1 u2 Q U) as [_ [_ [_ [_ H]]]]. exact H.
Qed.
Lemma sphere_ext_unit f g v : (forall x y z, x * x + y * y + z * z = 1 -> f x y z = g x y z) -> sphere_integral f v -> sphere_integral g v.
Proof.
  intros E [h [H1 H2]]. exists h. split; [|exact H2]. intros phi. eapply (@is_RInt_ext R_NormedModule); [|exact (H1 phi)]. intros z Z. rewrite Rmin_left, Rmax_right in Z by lra. unfold on_sphere. apply E.
  assert (SS : sqrt (1 - z * z) * sqrt (1 - z * z) = 1 - z * z) by (apply sqrt_sqrt; nra). pose proof (sin2_cos2 phi) as SC. unfold Rsqr in SC.
  transitivity (sqrt (1 - z * z) * sqrt (1 - z * z) * (sin phi * sin phi + cos phi * cos phi) + z * z); [ring|]. rewrite SS, SC. ring.
Qed.
Lemma P_poly l n : Poly l (fun x y z => P l (vdot (x, y, z) n)) \/ (3 <= l)%nat.
Proof.
  destruct n as [[a b] c]. destruct l as [|[|[|l]]]; [left|left|left|right; lia].
  - eapply Ext; [apply (Mono 0 1 0 0 0); lia|]. intros x y z. cbn. ring.
  - eapply Ext; [apply (poly_lin a b c)|]. intros x y z. unfold P, vdot. cbn [fst snd]. ring.
  - eapply Ext; [apply Plus; [apply (poly_mult 1 1); [apply (poly_lin (3 / 2 * a) (3 / 2 * b) (3 / 2 * c))|apply (poly_lin a b c)]|apply (Mono 2 (- (1 / 2)) 0 0 0); lia]|]. intros x y z. unfold P, vdot. cbn [fst snd pow]. field.
Qed.
Lemma nth_map_seq {A} (F : nat -> A) n l d : (l < n)%nat -> nth l (map F (seq 0 n)) d = F l.
Proof. intros L. rewrite (nth_indep _ d (F 0%nat)) by (rewrite map_length, seq_length; exact L). rewrite map_nth, seq_nth by exact L. reflexivity. Qed.
Lemma integrate_ext q vs ws : vs = ws -> integrate q vs = integrate q ws. Proof. congruence. Qed.
Lemma integrate_scale q k : forall vs, integrate q (map (Rmult k) vs) = k * integrate q vs.
Proof.
  intros vs. unfold integrate. assert (A : forall vs cs, fold_right Rplus 0 (map (fun x : R * R => fst x * snd x) (combine (map (Rmult k) vs) cs)) = k * fold_right Rplus 0 (map (fun x : R * R => fst x * snd x) (combine vs cs))).
  { clear vs. induction vs as [|v vs IH]; intros cs; cbn [map combine fold_right]; [ring|]. destruct cs as [|c cs]; cbn [map combine fold_right fst snd]; [ring|]. rewrite IH. ring. }
  rewrite A. ring.
Qed.
(** The integral of channel l is the component of angular momentum l, in the direction of the electron, of the
    wavefunction ratio on the sphere around the atom: exactly so, whatever rotation is drawn, when on that
    sphere the ratio is a polynomial of degree at most (degree of the rule) - l. *)
Theorem C63_channel : forall id d q b wf els i atom u1 u2 nn ints l k,
  degree_of id d -> get_quadrature id = Some q -> 0 <= u1 <= 1 -> 0 <= u2 <= 1 ->
  electron_contribution q nn b wf els i atom (rotated q u1 u2) = Some ints -> (l < nn)%nat -> (k + l <= d)%nat ->
  let rv := vsub (nth i els (0, 0, 0)) atom in
  let f := fun p => displaced_ratio b wf els i (vadd atom (vscale (vlen rv) p)) in
  poly_on_sphere k f -> component l (vscale (/ vlen rv) rv) f (nth l ints (RtoC 0)).
Proof.
  intros id d q b wf els i atom u1 u2 nn ints l k D Q U1 U2 EC L K rv f [g [[GR GI] FG]].
  pose proof (unit_points id q u1 u2 (ex_intro _ d D) Q U2) as UP.
  unfold electron_contribution in EC. fold rv in EC. set (dir := vscale (/ vlen rv) rv) in *. destruct (legendre_polynomials 0 nn) as [v0|] eqn:L0; [|discriminate].
  match type of EC with Some ?x = _ => assert (IE : ints = x) by congruence end. clear EC. subst ints.
  assert (NN : (nn <= 3)%nat) by (destruct (legendre_nth 0 nn l v0 L0 L); assumption).
  assert (L2 : (l <= 2)%nat) by lia.
  rewrite nth_map_seq by exact L. fold f.
  assert (LG : forall x, (match legendre_polynomials x nn with Some v => nth l v 0 | None => 0 end) = P l x).
  { intros x. destruct (legendre_polynomials x nn) as [v|] eqn:E; [apply (legendre_nth x nn l v E L)|]. unfold legendre_polynomials in E. destruct (Nat.ltb_spec 3 nn); [lia|discriminate]. }
  assert (CB : map (fun x : R * C => Cmult (RtoC (fst x)) (snd x)) (combine (map (fun p => match legendre_polynomials (vdot p dir) nn with Some v => nth l v 0 | None => 0 end) (rotated q u1 u2)) (map f (rotated q u1 u2))) = map (fun p => Cmult (RtoC (P l (vdot p dir))) (g p)) (rotated q u1 u2)).
  { clear -UP LG FG. induction (rotated q u1 u2) as [|p ps IH]; [reflexivity|]. inversion UP; subst. cbn [map combine fst snd]. rewrite LG, IH by assumption. rewrite FG by assumption. reflexivity. }
  rewrite CB. set (c := INR (2 * l + 1) / (4 * PI)).
  assert (CE : c = (2 * INR l + 1) * / (4 * PI)) by (unfold c; rewrite plus_INR, mult_INR; cbn [INR]; unfold Rdiv; ring).
  assert (PP : Poly l (fun x y z => P l (vdot (x, y, z) dir))) by (destruct (P_poly l dir); [assumption|lia]).
  assert (MAIN : forall (pr : C -> R) (h : fn), Poly k h -> (forall x y z, pr (g (x, y, z)) = h x y z) -> (forall a z, pr (Cmult (RtoC a) z) = a * pr z) ->
     sphere_integral (fun x y z => c * P l (vdot (x, y, z) dir) * h x y z) (c * integrate q (map pr (map (fun p => Cmult (RtoC (P l (vdot p dir))) (g p)) (rotated q u1 u2))))).
  { intros pr h H PH PL. assert (PO : Poly d (fun x y z => c * P l (vdot (x, y, z) dir) * h x y z)).
    { apply (poly_le (0 + (l + k))); [lia|]. eapply Ext; [apply (poly_mult 0 (l + k)); [apply (Mono 0 c 0 0 0); lia|apply (poly_mult l k); [exact PP|exact H]]|]. intros x y z. cbn. ring. }
    pose proof (C53_exact id d q _ u1 u2 D Q PO U1 U2) as X. match type of X with sphere_integral _ ?y => match goal with |- sphere_integral _ ?x => replace x with y; [exact X|] end end.
    rewrite <- integrate_scale, map_map, map_map. apply integrate_ext. apply map_ext. intros [[x y] z]. rewrite PL, PH. unfold at_pt. cbn [fst snd]. ring. }
  assert (RE : forall z, Cmult (Cmult z (RtoC (2 * INR l + 1))) (RtoC (/ (4 * PI))) = (c * fst z, c * snd z)) by (intros [x y]; rewrite CE; unfold Cmult, RtoC; cbn [fst snd]; f_equal; ring).
  rewrite RE. unfold integrate_c. cbn [fst snd]. split; cbn [fst snd].
  - eapply sphere_ext_unit; [|apply (MAIN fst (re g) GR); [reflexivity|intros a [x y]; unfold Cmult, RtoC; cbn [fst snd]; ring]]. intros x y z UN. unfold re. cbn [fst snd]. fold c. rewrite FG by (unfold vdot; cbn [fst snd]; lra). unfold Cmult, RtoC. cbn [fst snd]. ring.
  - eapply sphere_ext_unit; [|apply (MAIN snd (im g) GI); [reflexivity|intros a [x y]; unfold Cmult, RtoC; cbn [fst snd]; ring]]. intros x y z UN. unfold im. cbn [fst snd]. fold c. rewrite FG by (unfold vdot; cbn [fst snd]; lra). unfold Cmult, RtoC. cbn [fst snd]. ring.
Qed.
(** Components are what they should be: the component l of a spherical harmonic of degree l' is its value in the
    given direction if l = l' and zero otherwise. *)
Theorem C63_projector : forall l l' n f v, (l <= 2)%nat -> (l' <= 2)%nat -> vdot n n = 1 -> harmonic_on_sphere l' f -> component l n f v ->
  v = if Nat.eqb l l' then f n else RtoC 0.
Proof.
  intros l l' n f v L L' N [g [h [G [H E]]]] [A B]. unfold re, im in A, B. cbn [fst snd] in A, B.
  apply (sphere_ext_unit _ (fun x y z => INR (2 * l + 1) / (4 * PI) * P l (vdot (x, y, z) n) * g x y z)) in A; [|intros x y z U; rewrite (E x y z U); unfold Cmult, RtoC; cbn [fst snd]; ring].
  apply (sphere_ext_unit _ (fun x y z => INR (2 * l + 1) / (4 * PI) * P l (vdot (x, y, z) n) * h x y z)) in B; [|intros x y z U; rewrite (E x y z U); unfold Cmult, RtoC; cbn [fst snd]; ring].
  apply (proj_all l l' L L' g n _ G N) in A. apply (proj_all l l' L L' h n _ H N) in B. destruct v as [vr vi]. cbn [fst snd] in A, B. subst vr vi. destruct n as [[x y] z].
  destruct (Nat.eqb l l'); [|reflexivity]. rewrite (E x y z) by exact N. reflexivity.
Qed.
Theorem C63_component_unique : forall l n f u v, component l n f u -> component l n f v -> u = v.
Proof. intros l n f [a b] [c d] [A B] [A' B']. cbn [fst snd] in *. f_equal; [exact (sphere_unique _ _ _ A A')|exact (sphere_unique _ _ _ B B')]. Qed.
(** Potentials with angular momentum 3 or more are refused (when there is an electron and an atom to integrate);
    all others are accepted. *)
Lemma contribution_some q nn b wf els i atom pts : (nn <= 3)%nat <-> exists ints, electron_contribution q nn b wf els i atom pts = Some ints.
Proof.
  unfold electron_contribution. unfold legendre_polynomials at 1. destruct (Nat.ltb_spec 3 nn).
  - split; [lia|intros [x X]; discriminate].
  - split; [intros _; eexists; reflexivity|lia].
Qed.

(** ** The energy *)
Definition psi_ratio (wf : list vec -> value) (els : list vec) (i : nat) (pos : vec) : C := Cdiv (amplitude (wf (set_nth i pos els))) (amplitude (wf els)).
Lemma amplitude_nz v : Cmod (fst v) = 1 -> amplitude v <> RtoC 0.
Proof.
  intros U E. unfold amplitude in E. assert (M : Cmod (Cmult (fst v) (RtoC (exp (snd v)))) = 0) by (rewrite E; apply Cmod_0). rewrite Cmod_mult, U, Cmod_R, Rmult_1_l, Rabs_right in M by (left; apply exp_pos). pose proof (exp_pos (snd v)). lra.
Qed.
Lemma ratio_psi b wf els i pos : Cmod (fst (wf els)) = 1 -> bloch_in b wf els i -> displaced_ratio b wf els i pos = psi_ratio wf els i pos.
Proof.
  intros U B. pose proof (C63_ratio b wf els i pos U B) as E. pose proof (amplitude_nz _ U) as N. unfold psi_ratio, Cdiv. rewrite <- E, <- Cmult_assoc, Cinv_r by exact N. ring.
Qed.
Lemma dist_len b e a : dist b e a = vlen (displacement b e a).
Proof.
  unfold dist, displacement. destruct b as [pb|]; [|reflexivity]. unfold distance. cbn [fst snd]. unfold norm, Lin.dot, vlen, vdot, to3. cbn [sum fst snd]. f_equal. ring.
Qed.
Lemma all_some_map {A} (l : list A) : all_some (map Some l) = Some l.
Proof. induction l as [|x l IH]; [reflexivity|]. cbn. rewrite IH. reflexivity. Qed.
Lemma csum_flat {A} (f : A -> list C) l : csum (flat_map f l) = csum (map (fun x => csum (f x)) l).
Proof.
  assert (AP : forall a b, csum (a ++ b) = Cplus (csum a) (csum b)) by (induction a as [|x a IH]; intros b; cbn [app csum fold_right]; [symmetry; apply Cplus_0_l|]; fold (csum (a ++ b)); fold (csum a); rewrite IH; ring).
  induction l as [|x l IH]; [reflexivity|]. cbn [flat_map map]. rewrite AP, IH. reflexivity.
Qed.
Lemma rsum_flat {A} (f : A -> list R) l : rsum (flat_map f l) = rsum (map (fun x => rsum (f x)) l).
Proof.
  assert (AP : forall a b, rsum (a ++ b) = rsum a + rsum b) by (unfold rsum; induction a as [|x a IH]; intros b; cbn [app fold_right]; [lra|rewrite IH; lra]).
  induction l as [|x l IH]; [reflexivity|]. cbn [flat_map map]. rewrite AP, IH. reflexivity.
Qed.
Lemma flat_map_map {A B D} (f : A -> B) (g : A -> list B) (F : B -> D) l : flat_map (fun x => map F (g x)) l = map F (flat_map g l).
Proof. induction l as [|x l IH]; [reflexivity|]. cbn. rewrite map_app, IH. reflexivity. Qed.
Lemma combine_seq {A} (d : A) : forall l k, combine (seq k (List.length l)) l = map (fun i => (i, nth (i - k) l d)) (seq k (List.length l)).
Proof.
  induction l as [|x l IH]; intros k; [reflexivity|]. cbn [List.length seq combine map]. rewrite Nat.sub_diag. cbn [nth]. f_equal. rewrite IH. apply map_ext_in. intros i I. apply in_seq in I. replace (i - k)%nat with (S (i - S k)) by lia. reflexivity.
Qed.
Lemma component_ext l n f g v : (forall p, f p = g p) -> component l n f v -> component l n g v.
Proof.
  intros E [A B]. split.
  - eapply sphere_ext; [|exact A]. intros x y z. unfold re. rewrite E. reflexivity.
  - eapply sphere_ext; [|exact B]. intros x y z. unfold im. rewrite E. reflexivity.
Qed.
(** The electron i, the atom j, and the position of its nearest image. *)
Definition electron (els : list vec) (i : nat) : vec := nth i els (0, 0, 0).
Definition atom_of (atoms : list (table * vec)) (j : nat) : table * vec := nth j atoms ([], (0, 0, 0)).
Definition pair_vector b els (atoms : list (table * vec)) i j : vec := displacement b (electron els i) (snd (atom_of atoms j)).
Definition on_shell b wf els atoms i j : cfn := fun p => psi_ratio wf els i (vadd (vsub (electron els i) (pair_vector b els atoms i j)) (vscale (vlen (pair_vector b els atoms i j)) p)).
(** The atoms integrated for electron i. *)
Definition near b els (atoms : list (table * vec)) max_core i : list nat := nearest_cores (map (fun j => vlen (pair_vector b els atoms i j)) (seq 0 (List.length atoms))) max_core.

Theorem C63_energy : forall id d q dict b max_core atoms wf els draws nc (comp : nat -> nat -> nat -> C),
  degree_of id d -> get_quadrature id = Some q -> (forall i, 0 <= fst (draws i) <= 1 /\ 0 <= snd (draws i) <= 1) ->
  num_channels dict = Some nc -> (nc <= 4)%Z ->
  (forall a, In a atoms -> proper (fst a)) ->
  (forall i j, (i < List.length els)%nat -> (j < List.length atoms)%nat -> 0 < vlen (pair_vector b els atoms i j)) ->
  Cmod (fst (wf els)) = 1 -> (forall i, bloch_in b wf els i) ->
  (forall i j l, (i < List.length els)%nat -> In j (near b els atoms max_core i) -> (Z.of_nat l < nc - 1)%Z ->
     (exists k, (k + l <= d)%nat /\ poly_on_sphere k (on_shell b wf els atoms i j)) /\
     component l (vscale (/ vlen (pair_vector b els atoms i j)) (pair_vector b els atoms i j)) (on_shell b wf els atoms i j) (comp i j l)) ->
  ecp_energy dict q b max_core atoms wf els draws = Some (Cplus
    (RtoC (rsum (map (fun i => rsum (map (fun j => V (fst (atom_of atoms j)) (-1) (vlen (pair_vector b els atoms i j))) (seq 0 (List.length atoms)))) (seq 0 (List.length els)))))
    (csum (map (fun i => csum (map (fun j => csum (map (fun l => Cmult (comp i j l) (RtoC (V (fst (atom_of atoms j)) (Z.of_nat l) (vlen (pair_vector b els atoms i j))))) (seq 0 (Z.to_nat (nc - 1))))) (near b els atoms max_core i))) (seq 0 (List.length els))))).
Proof.
  intros id d q dict b max_core atoms wf els draws nc comp D Q DR NC N4 PR POS U BL HC. unfold ecp_energy. rewrite NC.
  set (mt := max_terms (map fst atoms)). set (nn := Z.to_nat (nc - 1)).
  assert (RD : forall j c r, (j < List.length atoms)%nat -> radial (write_atom (fst (atom_of atoms j))) mt c r = V (fst (atom_of atoms j)) (Z.of_nat c - 1) r).
  { intros j c r J. assert (I : In (atom_of atoms j) atoms) by (apply nth_In; exact J). apply radial_is; [apply in_map; exact I|apply PR; exact I]. }
  assert (AT : forall (A : Type) (F : table * vec -> A), map F atoms = map (fun j => F (atom_of atoms j)) (seq 0 (List.length atoms))).
  { intros A F. unfold atom_of. rewrite <- (map_map (fun j => nth j atoms ([], (0, 0, 0))) F). f_equal. symmetry. clear. induction atoms as [|x l IH]; [reflexivity|]. cbn [List.length seq map nth]. f_equal. rewrite <- seq_shift, map_map. exact IH. }
  assert (EL : forall (A : Type) (F : vec -> A), map F els = map (fun i => F (electron els i)) (seq 0 (List.length els))).
  { intros A F. unfold electron. rewrite <- (map_map (fun i => nth i els (0, 0, 0)) F). f_equal. symmetry. clear. induction els as [|x l IH]; [reflexivity|]. cbn [List.length seq map nth]. f_equal. rewrite <- seq_shift, map_map. exact IH. }
  assert (LOC : rsum (flat_map (fun e => map (fun a => radial (write_atom (fst a)) mt 0 (dist b e (snd a))) atoms) els) =
     rsum (map (fun i => rsum (map (fun j => V (fst (atom_of atoms j)) (-1) (vlen (pair_vector b els atoms i j))) (seq 0 (List.length atoms)))) (seq 0 (List.length els)))).
  { rewrite rsum_flat, EL. f_equal. apply map_ext. intros i. f_equal. rewrite AT. apply map_ext_in. intros j J. apply in_seq in J. rewrite RD by lia. rewrite dist_len. reflexivity. }
  rewrite LOC. clear LOC.
  (* the pairs *)
  set (val := fun i j => csum (map (fun l => Cmult (comp i j l) (RtoC (V (fst (atom_of atoms j)) (Z.of_nat l) (vlen (pair_vector b els atoms i j))))) (seq 0 nn))).
  match goal with |- context [all_some ?x] => assert (PS : x = map Some (flat_map (fun i => map (val i) (near b els atoms max_core i)) (seq 0 (List.length els)))) end.
  { unfold len. rewrite (combine_seq ((0, 0, 0) : vec) els 0). rewrite flat_map_concat_map, map_map, <- flat_map_concat_map.
    rewrite <- (flat_map_map (fun i => RtoC 0)). rewrite !flat_map_concat_map. f_equal. apply map_ext_in. intros i I. apply in_seq in I. cbn [fst snd]. rewrite Nat.sub_0_r. rewrite map_map.
    assert (NE : nearest_cores (map (fun a => dist b (nth i els (0, 0, 0)) (snd a)) atoms) max_core = near b els atoms max_core i).
    { unfold near. f_equal. rewrite AT. apply map_ext. intros j. rewrite dist_len. reflexivity. }
    rewrite NE. apply map_ext_in. intros j J.
    assert (JL : (j < List.length atoms)%nat) by (destruct (C63_nearest (map (fun j => vlen (pair_vector b els atoms i j)) (seq 0 (List.length atoms))) max_core) as [_ [_ [B _]]]; specialize (B j J); rewrite map_length, seq_length in B; exact B).
    destruct (Nat.eqb_spec nn 0) as [Z0|NZ]; [unfold val; rewrite Z0; reflexivity|].
    assert (N3 : (nn <= 3)%nat) by (unfold nn; lia).
    match goal with |- match electron_contribution ?q ?nn ?b ?wf ?els ?i ?atom ?pts with _ => _ end = _ => destruct (proj1 (contribution_some q nn b wf els i atom pts) N3) as [ints EC]; rewrite EC end.
    f_equal. unfold val. f_equal. apply map_ext_in. intros l LL. apply in_seq in LL.
    destruct (DR i) as [U1 U2]. destruct (HC i j l ltac:(lia) J ltac:(unfold nn in *; lia)) as [[k [K PO]] CO].
    set (A := vsub (nth i els (0, 0, 0)) (displacement b (nth i els (0, 0, 0)) (snd (nth j atoms ([], (0, 0, 0)))))) in *.
    assert (RV : vsub (nth i els (0, 0, 0)) A = pair_vector b els atoms i j).
    { unfold A, pair_vector, electron, atom_of. generalize (displacement b (nth i els (0, 0, 0)) (snd (nth j atoms ([], (0, 0, 0))))). intros [[x y] z]. destruct (nth i els (0, 0, 0)) as [[x' y'] z']. unfold vsub. cbn [fst snd]. f_equal; [f_equal|]; ring. }
    pose proof (C63_channel id d q b wf els i A (fst (draws i)) (snd (draws i)) nn ints l k D Q U1 U2 EC ltac:(lia) ltac:(lia)) as CH. cbv zeta in CH. rewrite RV in CH.
    assert (EQ : forall p, displaced_ratio b wf els i (vadd A (vscale (vlen (pair_vector b els atoms i j)) p)) = on_shell b wf els atoms i j p).
    { intros p. rewrite ratio_psi by auto. reflexivity. }
    assert (CH' : component l (vscale (/ vlen (pair_vector b els atoms i j)) (pair_vector b els atoms i j)) (on_shell b wf els atoms i j) (nth l ints (RtoC 0))).
    { eapply component_ext; [exact EQ|]. apply CH. destruct PO as [g [G1 G2]]. exists g. split; [exact G1|]. intros p UP. rewrite EQ. apply G2. exact UP. }
    rewrite (C63_component_unique _ _ _ _ _ CH' CO). f_equal. f_equal. change (nth j atoms ([], (0, 0, 0))) with (atom_of atoms j). rewrite RD by exact JL. rewrite dist_len. f_equal. lia. }
  rewrite PS, all_some_map. cbn [option_map]. rewrite csum_flat. reflexivity.
Qed.
Theorem C63_refuses_high_l : forall dict q b max_core atoms wf els draws nc, num_channels dict = Some nc -> (4 < nc)%Z ->
  els <> [] -> atoms <> [] -> (0 < max_core)%nat -> ecp_energy dict q b max_core atoms wf els draws = None.
Proof.
  intros dict q b max_core atoms wf els draws nc NC N4 E A M. unfold ecp_energy. rewrite NC. set (nn := Z.to_nat (nc - 1)). assert (N3 : (3 < nn)%nat) by (unfold nn; lia).
  destruct els as [|e els]; [congruence|]. unfold len. cbn [List.length seq combine flat_map fst snd].
  destruct (C63_nearest (map (fun a => dist b e (snd a)) atoms) max_core) as [_ [L _]]. rewrite map_length in L. assert (LP : (0 < List.length atoms)%nat) by (destruct atoms; [congruence|cbn; lia]).
  destruct (nearest_cores (map (fun a => dist b e (snd a)) atoms) max_core) as [|j js]; [cbn [List.length] in L; lia|]. cbn [map app].
  destruct (Nat.eqb_spec nn 0); [lia|].
  match goal with |- context [electron_contribution ?q ?nn ?b ?wf ?els ?i ?atom ?pts] => destruct (electron_contribution q nn b wf els i atom pts) as [ints|] eqn:EC; [pose proof (proj2 (contribution_some q nn b wf els i atom pts) (ex_intro _ ints EC)); lia|] end. reflexivity.
Qed.
(** atoms without a potential are skipped, the others keep their order; no atom with a potential is an error *)
Theorem C63_atoms : forall dict symbols positions,
  match ecp_atoms dict symbols positions with
  | None => forall i s, nth_error symbols i = Some s -> lookup dict s = None
  | Some ats => exists idx, ats = map (fun i => (match lookup dict (nth i symbols EmptyString) with Some t => t | None => [] end, nth i positions (0, 0, 0))) idx /\
      idx <> [] /\ (forall i, In i idx <-> exists s t, nth_error symbols i = Some s /\ lookup dict s = Some t) /\ Sorted.StronglySorted lt idx
  end.
Proof.
  intros dict symbols positions. unfold ecp_atoms. set (idx := ecp_atom_indices symbols dict).
  assert (IN : forall i, In i idx <-> exists s t, nth_error symbols i = Some s /\ lookup dict s = Some t).
  { intros i. unfold idx, ecp_atom_indices. rewrite in_map_iff. rewrite (combine_seq EmptyString symbols 0). split.
    - intros [[k s] [E I]]. apply filter_In in I. destruct I as [I L]. cbn [fst snd] in *. subst k. apply in_map_iff in I. destruct I as [k [E I]]. apply in_seq in I. rewrite Nat.sub_0_r in E. assert (k = i) by congruence. subst k. assert (s = nth i symbols EmptyString) by congruence. subst s.
      destruct (lookup dict (nth i symbols EmptyString)) as [t|] eqn:LK; [|discriminate]. exists (nth i symbols EmptyString), t. split; [apply nth_error_nth'; lia|exact LK].
    - intros [s [t [E L]]]. exists (i, s). split; [reflexivity|]. apply filter_In. cbn [fst snd]. rewrite L. split; [|reflexivity]. apply in_map_iff. exists i. assert (LT : (i < List.length symbols)%nat) by (apply nth_error_Some; congruence). split; [|apply in_seq; lia]. rewrite Nat.sub_0_r. f_equal. apply nth_error_nth. exact E. }
  assert (SS : Sorted.StronglySorted lt idx).
  { unfold idx, ecp_atom_indices. generalize 0%nat as k. clear idx IN. induction symbols as [|s l IH]; intros k; [constructor|]. cbn [List.length seq combine filter snd].
    assert (TL : Sorted.StronglySorted lt (map fst (filter (fun p => match lookup dict (snd p) with Some _ => true | None => false end) (combine (seq (S k) (List.length l)) l)))) by apply (IH (S k)).
    destruct (lookup dict s); [|exact TL]. cbn [map fst]. constructor; [exact TL|]. apply List.Forall_forall. intros i I. apply in_map_iff in I. destruct I as [[a b'] [E I]]. apply filter_In in I. destruct I as [I _]. apply in_combine_l in I. apply in_seq in I. cbn in E. lia. }
  destruct idx as [|i0 idx'] eqn:ID.
  - intros i s E. destruct (lookup dict s) as [t|] eqn:L; [|reflexivity]. exfalso. apply (proj2 (IN i)). exists s, t. auto.
  - exists (i0 :: idx'). split; [reflexivity|]. split; [discriminate|]. split; [exact IN|exact SS].
Qed.
(** every ratio that is a polynomial on the sphere has all its components *)
Theorem C63_component_exists : forall l n f k, (l <= 2)%nat -> poly_on_sphere k f -> exists v, component l n f v.
Proof.
  intros l n f k L [g [[GR GI] FG]]. assert (PP : Poly l (fun x y z => P l (vdot (x, y, z) n))) by (destruct (P_poly l n); [assumption|lia]).
  assert (Q : forall h, Poly k h -> exists v, sphere_integral (fun x y z => INR (2 * l + 1) / (4 * PI) * P l (vdot (x, y, z) n) * h x y z) v).
  { intros h H. apply (poly_integrable (0 + (l + k))). eapply Ext; [apply (poly_mult 0 (l + k)); [apply (Mono 0 (INR (2 * l + 1) / (4 * PI)) 0 0 0); lia|apply (poly_mult l k); [exact PP|exact H]]|]. intros x y z. cbn [pow]. ring. }
  destruct (Q _ GR) as [a A]. destruct (Q _ GI) as [b B]. exists (a, b). split; cbn [fst snd]; [eapply sphere_ext_unit; [|exact A]|eapply sphere_ext_unit; [|exact B]]; intros x y z U; unfold re, im; rewrite FG by (unfold vdot; cbn [fst snd]; lra); unfold Cmult, RtoC; cbn [fst snd]; ring.
Qed.
(** ** An example: one electron in a p state around an atom at the origin *)
Definition p_state (els : list vec) : value :=
  let x := fst (fst (nth 0 els (0, 0, 0))) in (RtoC (if Rlt_dec x 0 then -1 else if Rlt_dec 0 x then 1 else 0), ln (Rabs x)).
Lemma p_amplitude els : amplitude (p_state els) = RtoC (fst (fst (nth 0 els (0, 0, 0)))).
Proof.
  unfold amplitude, p_state. cbn [fst snd]. set (x := fst (fst (nth 0 els (0, 0, 0)))). rewrite <- RtoC_mult. f_equal. destruct (Rlt_dec x 0); [rewrite Rabs_left, exp_ln by lra; ring|]. destruct (Rlt_dec 0 x); [rewrite Rabs_right, exp_ln by lra; ring|]. replace x with 0 by lra. ring.
Qed.
Example C63_p_wave : forall (t : table) (e : vec) q u1 u2, proper t -> num_channels [("X"%string, t)] = Some 3%Z -> fst (fst e) <> 0 ->
  get_quadrature (Some ("octahedron"%string, 6%nat)) = Some q -> 0 <= u1 <= 1 -> 0 <= u2 <= 1 ->
  ecp_energy [("X"%string, t)] q None 2 [(t, (0, 0, 0))] p_state [e] (fun _ => (u1, u2)) = Some (RtoC (V t (-1) (vlen e) + V t 1 (vlen e))).
Proof.
  intros t e q u1 u2 PR NC X Q U1 U2. assert (PV : forall i j, (i < 1)%nat -> (j < 1)%nat -> pair_vector None [e] [(t, (0, 0, 0))] i j = e).
  { intros i j I J. assert (i = 0)%nat by lia. assert (j = 0)%nat by lia. subst. destruct e as [[x y] z]. unfold pair_vector, displacement, electron, atom_of, vsub. cbn [nth fst snd]. f_equal; [f_equal|]; ring. }
  assert (R2 : 0 < vdot e e) by (destruct e as [[x y] z]; unfold vdot; cbn [fst snd] in *; nra). assert (R : 0 < vlen e) by (apply sqrt_lt_R0; exact R2).
  assert (SH : forall p, on_shell None p_state [e] [(t, (0, 0, 0))] 0 0 p = RtoC (vlen e / fst (fst e) * fst (fst p))).
  { intros p. unfold on_shell, psi_ratio. rewrite !p_amplitude, PV by lia. cbn [set_nth nth]. unfold electron. cbn [nth]. rewrite <- RtoC_div by exact X. f_equal. destruct e as [[x y] z]. unfold vadd, vsub, vscale. cbn [fst snd] in *. field. exact X. }
  set (dir := vscale (/ vlen e) e). assert (DN : vdot dir dir = 1).
  { unfold dir. destruct e as [[x y] z]. unfold vdot, vscale in *. cbn [fst snd] in *. assert (SQ : vlen (x, y, z) * vlen (x, y, z) = x * x + y * y + z * z) by (apply sqrt_sqrt; lra). set (r := vlen (x, y, z)) in *. transitivity ((x * x + y * y + z * z) * / (r * r)); [field; lra|]. rewrite SQ. apply Rinv_r. lra. }
  assert (PO : poly_on_sphere 1 (on_shell None p_state [e] [(t, (0, 0, 0))] 0 0)).
  { exists (fun p => RtoC (vlen e / fst (fst e) * fst (fst p))). split; [|intros p _; apply SH]. split; [eapply Ext; [apply (Mono 1 (vlen e / fst (fst e)) 1 0 0); lia|]; intros x y z; unfold re, RtoC; cbn [fst snd]; ring|]. eapply Ext; [apply (Mono 1 0 0 0 0); lia|]. intros x y z. unfold im, RtoC. cbn [fst snd]. ring. }
  assert (HA : harmonic_on_sphere 1 (on_shell None p_state [e] [(t, (0, 0, 0))] 0 0)).
  { exists (fun x y z => vlen e / fst (fst e) * x + 0 * y + 0 * z), (fun x y z => 0 * x + 0 * y + 0 * z). split; [apply H1|]. split; [apply H1|]. intros x y z _. rewrite SH. unfold RtoC. cbn [fst snd]. f_equal; ring. }
  assert (NR : near None [e] [(t, (0, 0, 0))] 2 0 = [0%nat]) by reflexivity.
  rewrite (C63_energy (Some ("octahedron"%string, 6%nat)) 3 q [("X"%string, t)] None 2 [(t, (0, 0, 0))] p_state [e] (fun _ => (u1, u2)) 3 (fun _ _ l => RtoC (if Nat.eqb l 1 then 1 else 0)) DOct6 Q); [ | | exact NC | lia | | | | | ].
  - cbn [List.length seq map]. rewrite NR. change (Z.to_nat (3 - 1)) with 2%nat. cbn [seq map Nat.eqb]. rewrite PV by lia. unfold atom_of. cbn [nth fst]. unfold rsum, csum. cbn [fold_right]. change (Z.of_nat 1) with 1%Z. f_equal. rewrite <- !RtoC_mult, <- !RtoC_plus. f_equal. ring.
  - intros i. cbn [fst snd]. auto.
  - intros a [<- | []]. exact PR.
  - intros i j I J. rewrite PV by assumption. exact R.
  - unfold p_state. cbn [nth fst]. rewrite Cmod_R. destruct (Rlt_dec _ 0); [rewrite Rabs_left; lra|]. destruct (Rlt_dec 0 _); [apply Rabs_R1|lra].
  - intros i. exact I.
  - intros i j l I J L. cbn [List.length] in I. assert (i = 0)%nat by lia. subst i. rewrite NR in J. destruct J as [<- | []]. split; [exists 1%nat; split; [lia|exact PO]|]. rewrite PV by lia. fold dir.
    destruct (C63_component_exists l dir _ 1 ltac:(lia) PO) as [v CV]. pose proof (C63_projector l 1 dir _ v ltac:(lia) ltac:(lia) DN HA CV) as VE.
    match goal with |- component _ _ _ ?w => replace w with v; [exact CV|] end. rewrite VE. destruct (Nat.eqb l 1); [|reflexivity]. rewrite SH. f_equal. unfold dir. destruct e as [[x y] z]. unfold vscale. cbn [fst snd] in *. field. split; [lra|exact X].
Qed.
