(** C32, C33: supercells. *)
From Coq Require Import ZArith QArith List Bool Lia FinFun.
From Verif Require Import Supercell_Model Supercell_Spec.
Import ListNotations.
Open Scope Z_scope.

(** *** Linear algebra *)
Definition scale (d : Z) (v : vec) : vec := V (d * vx v) (d * vy v) (d * vz v).
Lemma vec_eq a b : vx a = vx b -> vy a = vy b -> vz a = vz b -> a = b.
Proof. destruct a, b; simpl; congruence. Qed.
Ltac vec_ring := repeat match goal with s : mat |- _ => destruct s end; repeat match goal with v : vec |- _ => destruct v end;
  apply vec_eq; unfold scale, vsub, vmul, adj, det, transpose; cbn [vx vy vz r1 r2 r3]; ring.
Lemma vmul_adj s t : vmul (vmul t s) (adj s) = scale (det s) t.
Proof. vec_ring. Qed.
Lemma adj_vmul s n : vmul (vmul n (adj s)) s = scale (det s) n.
Proof. vec_ring. Qed.
Lemma vmul_sub s a b : vmul (vsub a b) s = vsub (vmul a s) (vmul b s).
Proof. vec_ring. Qed.

(** *** Integers and the box test *)
Lemma in01_frac d m : d <> 0 -> Z.abs d < 100000 -> (in01 (frac d m) = true <-> 0 <= m * Z.sgn d < Z.abs d).
Proof.
  intros D L. unfold in01. rewrite andb_true_iff, negb_true_iff. rewrite Qle_bool_iff.
  assert (E : Qle_bool (1 - tol) (frac d m) = false <-> ~ (1 - tol <= frac d m)%Q).
  { rewrite <- Qle_bool_iff. destruct (Qle_bool _ _); split; congruence. }
  rewrite E. clear E. unfold Qle, frac, tol. simpl Qnum. simpl Qden.
  set (p := Z.to_pos (Z.abs d)). assert (P : Z.pos p = Z.abs d) by (unfold p; rewrite Z2Pos.id; lia).
  rewrite P. set (a := m * Z.sgn d). set (q := Z.abs d) in *. lia.
Qed.
Definition inside (s : mat) (n : vec) : Prop :=
  let m := vmul n (adj s) in let sg := Z.sgn (det s) in let d := Z.abs (det s) in
  0 <= vx m * sg < d /\ 0 <= vy m * sg < d /\ 0 <= vz m * sg < d.
Lemma inside_spec s n : det s <> 0 -> Z.abs (det s) < 100000 -> (in_unit_box (fractional s n) = true <-> inside s n).
Proof.
  intros D L. unfold in_unit_box, fractional, inside. cbv zeta. rewrite !andb_true_iff, !in01_frac by auto. tauto.
Qed.

Lemma in_arange a b x : In x (arange a b) <-> a <= x < b.
Proof.
  unfold arange. rewrite in_map_iff. split.
  - intros (i & <- & H). apply in_seq in H. lia.
  - intros H. exists (Z.to_nat (x - a)). split; [lia|]. apply in_seq. lia.
Qed.
Lemma in_mesh xs ys zs n : In n (mesh xs ys zs) <-> In (vx n) xs /\ In (vy n) ys /\ In (vz n) zs.
Proof.
  unfold mesh. rewrite in_flat_map. split.
  - intros (x & Hx & H). apply in_flat_map in H as (y & Hy & H). apply in_map_iff in H as (z & <- & Hz). simpl. auto.
  - intros (A & B & C). exists (vx n). split; auto. apply in_flat_map. exists (vy n). split; auto. apply in_map_iff.
    exists (vz n). destruct n; auto.
Qed.
Lemma NoDup_arange a b : NoDup (arange a b).
Proof. unfold arange. apply Injective_map_NoDup; [intros x y; lia|apply seq_NoDup]. Qed.
Lemma NoDup_flat_map {A B} (f : A -> list B) l : NoDup l -> (forall x, In x l -> NoDup (f x)) ->
  (forall x y b, In x l -> In y l -> In b (f x) -> In b (f y) -> x = y) -> NoDup (flat_map f l).
Proof.
  induction 1 as [|x l NI ND IH]; intros F D; simpl; [constructor|].
  assert (APP : forall (u v : list B), NoDup u -> NoDup v -> (forall b, In b u -> ~ In b v) -> NoDup (u ++ v)).
  { induction 1 as [|b u NB NU IHu]; intros NV K; simpl; auto. constructor.
    - rewrite in_app_iff. intros [H|H]; auto. apply (K b); simpl; auto.
    - apply IHu; auto. intros c Hc. apply K. right; auto. }
  apply APP.
  - apply F. left; auto.
  - apply IH; [intros; apply F; right; auto|]. intros y z b Hy Hz. apply D; right; auto.
  - intros b Hb H. apply in_flat_map in H as (y & Hy & Hb'). assert (x = y) by (apply (D x y b); simpl; auto). subst. contradiction.
Qed.
Lemma NoDup_mesh xs ys zs : NoDup xs -> NoDup ys -> NoDup zs -> NoDup (mesh xs ys zs).
Proof.
  intros X Y Z. unfold mesh. apply NoDup_flat_map; auto.
  - intros x Hx. apply NoDup_flat_map; auto.
    + intros y Hy. apply Injective_map_NoDup; auto. intros a b E. congruence.
    + intros y y' b _ _ H1 H2. apply in_map_iff in H1 as (? & <- & _). apply in_map_iff in H2 as (? & E & _). congruence.
  - intros x x' b _ _ H1 H2. apply in_flat_map in H1 as (? & _ & H1). apply in_flat_map in H2 as (? & _ & H2).
    apply in_map_iff in H1 as (? & <- & _). apply in_map_iff in H2 as (? & E & _). congruence.
Qed.

Lemma lmin_le l x : In x l -> lmin l <= x.
Proof.
  destruct l as [|y l]; [intros []|]. simpl. intros [<-|H].
  - induction l; simpl; lia.
  - induction l as [|z l IH]; [destruct H|]. simpl. destruct H as [<-|H]; [lia|]. specialize (IH H). lia.
Qed.
Lemma lmax_ge l x : In x l -> x <= lmax l.
Proof.
  destruct l as [|y l]; [intros []|]. simpl. intros [<-|H].
  - induction l; simpl; lia.
  - induction l as [|z l IH]; [destruct H|]. simpl. destruct H as [<-|H]; [lia|]. specialize (IH H). lia.
Qed.
Lemma lmax_in l : l <> [] -> In (lmax l) l.
Proof.
  destruct l as [|y l]; [congruence|]. intros _. simpl. induction l as [|z l IH]; simpl; auto.
  destruct (Z.max_spec z (fold_right Z.max y l)) as [[_ E]|[_ E]]; rewrite E; [|auto].
  destruct IH as [IH|IH]; [left; auto|right; right; auto].
Qed.
Lemma in_corners s u v w : (u = 0 \/ u = 1) -> (v = 0 \/ v = 1) -> (w = 0 \/ w = 1) -> In (vmul (V u v w) s) (corners s).
Proof.
  intros U V0 W. unfold corners. apply in_flat_map. exists u. split; [simpl; lia|]. apply in_flat_map. exists v. split; [simpl; lia|].
  apply in_map_iff. exists w. split; auto. simpl; lia.
Qed.

(** One coordinate of a point of the box. *)
Lemma column_bounds (vals : list Z) (A B C D n m1 m2 m3 : Z) :
  (forall u v w, (u = 0 \/ u = 1) -> (v = 0 \/ v = 1) -> (w = 0 \/ w = 1) -> In (u * A + v * B + w * C) vals) ->
  0 <= m1 < D -> 0 <= m2 < D -> 0 <= m3 < D -> D * n = m1 * A + m2 * B + m3 * C ->
  lmin vals <= n <= lmax vals /\ (0 < A \/ 0 < B \/ 0 < C -> n < lmax vals).
Proof.
  intros I H1 H2 H3 E.
  assert (LO : exists u v w, (u = 0 \/ u = 1) /\ (v = 0 \/ v = 1) /\ (w = 0 \/ w = 1) /\
            D * (u * A) <= m1 * A /\ D * (v * B) <= m2 * B /\ D * (w * C) <= m3 * C).
  { exists (if A <? 0 then 1 else 0), (if B <? 0 then 1 else 0), (if C <? 0 then 1 else 0).
    destruct (A <? 0) eqn:EA, (B <? 0) eqn:EB, (C <? 0) eqn:EC;
      repeat match goal with H : (_ <? _) = true |- _ => apply Z.ltb_lt in H | H : (_ <? _) = false |- _ => apply Z.ltb_ge in H end;
      repeat split; auto; nia. }
  assert (HI : exists u v w, (u = 0 \/ u = 1) /\ (v = 0 \/ v = 1) /\ (w = 0 \/ w = 1) /\
            m1 * A <= D * (u * A) /\ m2 * B <= D * (v * B) /\ m3 * C <= D * (w * C) /\
            (0 < A -> m1 * A < D * (u * A)) /\ (0 < B -> m2 * B < D * (v * B)) /\ (0 < C -> m3 * C < D * (w * C))).
  { exists (if 0 <? A then 1 else 0), (if 0 <? B then 1 else 0), (if 0 <? C then 1 else 0).
    destruct (0 <? A) eqn:EA, (0 <? B) eqn:EB, (0 <? C) eqn:EC;
      repeat match goal with H : (_ <? _) = true |- _ => apply Z.ltb_lt in H | H : (_ <? _) = false |- _ => apply Z.ltb_ge in H end;
      repeat split; auto; try nia; intros; try lia; nia. }
  destruct LO as (u & v & w & U & V0 & W & L1 & L2 & L3). destruct HI as (u' & v' & w' & U' & V' & W' & G1 & G2 & G3 & S1 & S2 & S3).
  pose proof (lmin_le _ _ (I u v w U V0 W)). pose proof (lmax_ge _ _ (I u' v' w' U' V' W')).
  assert (u * A + v * B + w * C <= n) by nia.
  assert (n <= u' * A + v' * B + w' * C) by nia.
  split; [lia|]. intros P.
  assert (D * n < D * (u' * A + v' * B + w' * C)).
  { rewrite E. destruct P as [P|[P|P]]; [specialize (S1 P)|specialize (S2 P)|specialize (S3 P)]; lia. }
  assert (n < u' * A + v' * B + w' * C) by nia. lia.
Qed.

(** Every column of S has a positive entry. *)
Definition positive_columns (s : mat) : Prop :=
  (0 < vx (r1 s) \/ 0 < vx (r2 s) \/ 0 < vx (r3 s)) /\
  (0 < vy (r1 s) \/ 0 < vy (r2 s) \/ 0 < vy (r3 s)) /\
  (0 < vz (r1 s) \/ 0 < vz (r2 s) \/ 0 < vz (r3 s)).

Lemma sgn_abs d x y : d <> 0 -> d * x = y -> Z.abs d * x = y * Z.sgn d.
Proof. intros D E. subst. destruct (Z.sgn_spec d) as [[? ->]|[[? ->]|[? ->]]]; lia. Qed.

Lemma inside_bounds s n : det s <> 0 -> inside s n ->
  let cs := corners s in
  (lmin (map vx cs) <= vx n <= lmax (map vx cs)) /\ (lmin (map vy cs) <= vy n <= lmax (map vy cs)) /\
  (lmin (map vz cs) <= vz n <= lmax (map vz cs)) /\
  (positive_columns s -> vx n < lmax (map vx cs) /\ vy n < lmax (map vy cs) /\ vz n < lmax (map vz cs)).
Proof.
  intros D (I1 & I2 & I3) cs. set (m := vmul n (adj s)) in *. pose proof (adj_vmul s n) as E. fold m in E.
  assert (EX := f_equal vx E). assert (EY := f_equal vy E). assert (EZ := f_equal vz E).
  cbn [vmul scale vx vy vz] in EX, EY, EZ.
  assert (BX := column_bounds (map vx cs) (vx (r1 s)) (vx (r2 s)) (vx (r3 s)) (Z.abs (det s)) (vx n) (vx m * Z.sgn (det s)) (vy m * Z.sgn (det s)) (vz m * Z.sgn (det s))).
  assert (BY := column_bounds (map vy cs) (vy (r1 s)) (vy (r2 s)) (vy (r3 s)) (Z.abs (det s)) (vy n) (vx m * Z.sgn (det s)) (vy m * Z.sgn (det s)) (vz m * Z.sgn (det s))).
  assert (BZ := column_bounds (map vz cs) (vz (r1 s)) (vz (r2 s)) (vz (r3 s)) (Z.abs (det s)) (vz n) (vx m * Z.sgn (det s)) (vy m * Z.sgn (det s)) (vz m * Z.sgn (det s))).
  destruct BX as [BX PX]; auto.
  { intros u v w U V0 W. exact (in_map vx _ _ (in_corners s u v w U V0 W)). }
  { rewrite (sgn_abs _ _ _ D (eq_sym EX)). ring. }
  destruct BY as [BY PY]; auto.
  { intros u v w U V0 W. exact (in_map vy _ _ (in_corners s u v w U V0 W)). }
  { rewrite (sgn_abs _ _ _ D (eq_sym EY)). ring. }
  destruct BZ as [BZ PZ]; auto.
  { intros u v w U V0 W. exact (in_map vz _ _ (in_corners s u v w U V0 W)). }
  { rewrite (sgn_abs _ _ _ D (eq_sym EZ)). ring. }
  split; auto. split; auto. split; auto. intros (P1 & P2 & P3). auto.
Qed.

(** Every point is equivalent to exactly one point of the box. *)
Lemma inside_rep s p : det s <> 0 -> exists n, inside s n /\ equivalent s p n.
Proof.
  intros D. set (m := vmul p (adj s)). set (d := det s) in *.
  set (t := V ((vx m * Z.sgn d) / Z.abs d) ((vy m * Z.sgn d) / Z.abs d) ((vz m * Z.sgn d) / Z.abs d)).
  exists (vsub p (vmul t s)). split.
  - unfold inside. fold d. rewrite vmul_sub, vmul_adj. fold m. fold d. cbn [vsub scale vx vy vz t].
    assert (A : 0 < Z.abs d) by lia.
    assert (K : forall x, 0 <= (x - d * (x * Z.sgn d / Z.abs d)) * Z.sgn d < Z.abs d).
    { intros x. pose proof (Z.mod_pos_bound (x * Z.sgn d) (Z.abs d) A). rewrite Z.mod_eq in H by lia.
      set (q := x * Z.sgn d / Z.abs d) in *. clearbody q.
      assert (AB : Z.abs d = d * Z.sgn d) by (symmetry; apply Z.sgn_abs).
      replace ((x - d * q) * Z.sgn d) with (x * Z.sgn d - Z.abs d * q); [exact H|]. rewrite AB. ring. }
    auto.
  - exists t. destruct p, (vmul t s); simpl. unfold vsub. simpl. f_equal; ring.
Qed.

Lemma scale_eq d a b : d <> 0 -> scale d a = scale d b -> a = b.
Proof.
  intros D E. assert (E1 := f_equal vx E). assert (E2 := f_equal vy E). assert (E3 := f_equal vz E). cbn [scale vx vy vz] in *.
  apply vec_eq; eapply Z.mul_reg_l; eauto.
Qed.
Lemma vmul_zero s : vmul (V 0 0 0) s = V 0 0 0.
Proof. vec_ring. Qed.
(** Two points of the box that are equivalent are equal. *)
Lemma inside_unique s a b : det s <> 0 -> inside s a -> inside s b -> equivalent s a b -> a = b.
Proof.
  intros D (A1 & A2 & A3) (B1 & B2 & B3) [t E].
  assert (F := f_equal (fun v => vmul v (adj s)) E). cbv beta in F. rewrite vmul_sub, vmul_adj in F.
  set (ma := vmul a (adj s)) in *. set (mb := vmul b (adj s)) in *.
  assert (F1 := f_equal vx F). assert (F2 := f_equal vy F). assert (F3 := f_equal vz F). cbn [vsub scale vx vy vz] in F1, F2, F3.
  assert (K : forall x y w, 0 <= x * Z.sgn (det s) < Z.abs (det s) -> 0 <= y * Z.sgn (det s) < Z.abs (det s) -> x - y = det s * w -> w = 0).
  { intros x y w X Y W. assert (Z.abs (det s) * w = (x - y) * Z.sgn (det s)) by (apply sgn_abs; auto). nia. }
  assert (t = V 0 0 0) by (apply vec_eq; cbn; eauto). subst t. rewrite vmul_zero in E.
  destruct a, b. unfold vsub in E. cbn in E. inversion E. apply vec_eq; cbn; lia.
Qed.
Lemma equivalent_sym s a b : equivalent s a b -> equivalent s b a.
Proof.
  intros [t E]. exists (V (- vx t) (- vy t) (- vz t)).
  replace (vsub b a) with (scale (-1) (vsub a b)) by vec_ring. rewrite E. vec_ring.
Qed.
Lemma equivalent_trans s a b c : equivalent s a b -> equivalent s b c -> equivalent s a c.
Proof.
  intros [t E] [u F]. exists (V (vx t + vx u) (vy t + vy u) (vz t + vz u)).
  assert (vsub a c = vsub (vsub a b) (scale (-1) (vsub b c))) by vec_ring. rewrite H, E, F. vec_ring.
Qed.

(** ** C32.  The translations tile the lattice exactly when every column of S has a positive
    entry (for determinants up to the tolerance, 10^5). *)
Lemma copies_in s n : det s <> 0 -> Z.abs (det s) < 100000 ->
  (In n (supercell_copies s) -> inside s n) /\ (positive_columns s -> inside s n -> In n (supercell_copies s)).
Proof.
  intros D L. unfold supercell_copies. cbv zeta. rewrite filter_In, inside_spec by auto. split; [tauto|].
  intros P I. split; auto. destruct (inside_bounds s n D I) as (B1 & B2 & B3 & B4). specialize (B4 P).
  rewrite in_mesh, !in_arange. lia.
Qed.
Theorem C32_tiles_partial : forall s, det s <> 0 -> Z.abs (det s) < 100000 -> positive_columns s ->
  tiles s (supercell_copies s).
Proof.
  intros s D L P. split.
  - unfold supercell_copies. apply NoDup_filter. apply NoDup_mesh; apply NoDup_arange.
  - intros p. destruct (inside_rep s p D) as (n & I & E). exists n. split.
    + split; auto. apply copies_in; auto.
    + intros n' I' E'. apply copies_in in I'; auto. apply (inside_unique s); auto.
      eapply equivalent_trans; [apply equivalent_sym; exact E'|exact E].
Qed.

(** A column without a positive entry loses the origin: the range ends before its largest
    corner (line 110), which is then 0. *)
Theorem C32_nonpositive_column_refuted : forall s, det s <> 0 -> Z.abs (det s) < 100000 -> ~ positive_columns s ->
  ~ tiles s (supercell_copies s).
Proof.
  intros s D L NP [_ T]. destruct (T (V 0 0 0)) as (n & [I E] & _).
  assert (IN := proj1 (copies_in s n D L) I).
  assert (IO : inside s (V 0 0 0)). { unfold inside. cbv zeta. rewrite vmul_zero. cbn. lia. }
  assert (n = V 0 0 0) by (apply (inside_unique s); auto; apply equivalent_sym; auto). subst n.
  unfold supercell_copies in I. cbv zeta in I. apply filter_In in I as [I _]. rewrite in_mesh, !in_arange in I.
  cbn [vx vy vz] in I. destruct I as (X & Y & Z0).
  assert (MX : forall (g : vec -> Z), (forall u v w, g (vmul (V u v w) s) = u * g (r1 s) + v * g (r2 s) + w * g (r3 s)) ->
     0 < lmax (map g (corners s)) -> 0 < g (r1 s) \/ 0 < g (r2 s) \/ 0 < g (r3 s)).
  { intros g G H. assert (IM := lmax_in (map g (corners s))). assert (NE : map g (corners s) <> []) by discriminate.
    specialize (IM NE). apply in_map_iff in IM as (c & Ec & Ic). unfold corners in Ic.
    apply in_flat_map in Ic as (u & Hu & Ic). apply in_flat_map in Ic as (v & Hv & Ic). apply in_map_iff in Ic as (w & <- & Hw).
    rewrite G in Ec. simpl in Hu, Hv, Hw. destruct Hu as [<-|[<-|[]]], Hv as [<-|[<-|[]]], Hw as [<-|[<-|[]]]; lia. }
  apply NP. split; [|split].
  - apply (MX vx); [reflexivity|lia].
  - apply (MX vy); [reflexivity|lia].
  - apply (MX vz); [reflexivity|lia].
Qed.
(** For instance the reflected cell: no translation at all. *)
Theorem C32_reflection_refuted : supercell_copies (M (V 1 0 0) (V 0 1 0) (V 0 0 (-1))) = [] /\ det (M (V 1 0 0) (V 0 1 0) (V 0 0 (-1))) = -1.
Proof. split; reflexivity. Qed.

(** *** k-points *)
Lemma frac_mul_z d m x : d <> 0 -> (frac d m * inject_Z x == frac d (m * x))%Q.
Proof. intros D. unfold frac, Qeq, Qmult, inject_Z. simpl. rewrite Pos.mul_1_r. ring. Qed.
Lemma frac_add d a b : d <> 0 -> (frac d a + frac d b == frac d (a + b))%Q.
Proof.
  intros D. unfold frac, Qeq, Qplus. cbn [Qnum Qden]. rewrite Pos2Z.inj_mul. ring.
Qed.
Lemma frac_d d z : d <> 0 -> (frac d (d * z) == inject_Z z)%Q.
Proof.
  intros D. unfold frac, Qeq, inject_Z. simpl. rewrite Z2Pos.id by lia.
  rewrite <- (Z.sgn_abs d). ring.
Qed.
Lemma frac_inv d m z : d <> 0 -> (frac d m == inject_Z z)%Q -> m = d * z.
Proof.
  intros D. unfold frac, Qeq, inject_Z. simpl. rewrite Z2Pos.id by lia. intros H.
  destruct (Z.sgn_spec d) as [[? S]|[[? S]|[? S]]]; rewrite S in H; lia.
Qed.
Lemma frac_eq d a b : d <> 0 -> (frac d a == frac d b)%Q -> a = b.
Proof.
  intros D. unfold frac, Qeq. simpl. intros H. destruct (Z.sgn_spec d) as [[? S]|[[? S]|[? S]]]; rewrite S in H; nia.
Qed.
Lemma qmod1_frac d m : d <> 0 -> 0 <= m * Z.sgn d < Z.abs d -> qmod1 (frac d m) = frac d m.
Proof. intros D H. unfold qmod1, frac. simpl. rewrite Z2Pos.id by lia. rewrite Z.mod_small by auto. reflexivity. Qed.
Lemma frac_range d m : d <> 0 -> 0 <= m * Z.sgn d < Z.abs d -> (0 <= frac d m < 1)%Q.
Proof. intros D H. unfold frac, Qle, Qlt. simpl. rewrite Z2Pos.id by lia. lia. Qed.

Definition kvec (d : Z) (m : vec) : Q * Q * Q := (frac d (vx m), frac d (vy m), frac d (vz m)).
Definition dot (a b : vec) : Z := vx a * vx b + vy a * vy b + vz a * vz b.
Lemma phase_kvec d m p : d <> 0 -> (phase (kvec d m) p == frac d (dot m p))%Q.
Proof. intros D. unfold phase, kvec, dot. rewrite !frac_mul_z, !frac_add by auto. reflexivity. Qed.

Definition symmetric (s : mat) : Prop := transpose s = s.
Lemma adj_sym s : symmetric s -> symmetric (adj s).
Proof.
  unfold symmetric. destruct s as [[a b c] [d e f] [g h i]]. unfold transpose, adj. cbn. intros E. inversion E; subst.
  repeat match goal with H : _ = _ |- _ => clear H end. f_equal; apply vec_eq; cbn; ring.
Qed.
Lemma dot_vmul n t s : dot n (vmul t s) = dot t (vmul n (transpose s)).
Proof. repeat match goal with s : mat |- _ => destruct s end; repeat match goal with v : vec |- _ => destruct v end. unfold dot, vmul, transpose. cbn. ring. Qed.
Lemma dot_scale n d t : dot n (scale d t) = d * dot n t.
Proof. destruct n, t. unfold dot, scale. cbn. ring. Qed.

Lemma filter_map {A B} (f : A -> B) (p : B -> bool) l : filter p (map f l) = map f (filter (fun x => p (f x)) l).
Proof. induction l; simpl; auto. destruct (p (f a)); simpl; congruence. Qed.
Definition kpt_indices (s : mat) : list vec :=
  let cs := corners (transpose s) in
  filter (fun n => in_unit_box (fractional s n))
   (mesh (arange (lmin (map vx cs)) (lmax (map vx cs) + 1)) (arange (lmin (map vy cs)) (lmax (map vy cs) + 1))
         (arange (lmin (map vz cs)) (lmax (map vz cs) + 1))).
Lemma kpts_eq s : det s <> 0 -> Z.abs (det s) < 100000 ->
  supercell_kpts s = map (fun n => kvec (det s) (vmul n (adj s))) (kpt_indices s).
Proof.
  intros D L. unfold supercell_kpts. cbv zeta. rewrite filter_map, map_map. unfold kpt_indices. cbv zeta. apply map_ext_in.
  intros n H. apply filter_In in H as [_ H]. rewrite inside_spec in H by auto. destruct H as (I1 & I2 & I3).
  unfold fractional, kvec. cbv zeta. rewrite !qmod1_frac by auto. reflexivity.
Qed.
Lemma kpt_indices_in s n : symmetric s -> det s <> 0 -> Z.abs (det s) < 100000 -> (In n (kpt_indices s) <-> inside s n).
Proof.
  intros SY D L. unfold kpt_indices. cbv zeta. rewrite SY, filter_In, inside_spec by auto. split; [tauto|]. intros I. split; auto.
  destruct (inside_bounds s n D I) as (B1 & B2 & B3 & _). rewrite in_mesh, !in_arange. lia.
Qed.

Lemma frac_range_inv d m : d <> 0 -> (0 <= frac d m < 1)%Q -> 0 <= m * Z.sgn d < Z.abs d.
Proof. intros D [H1 H2]. unfold frac, Qle, Qlt in *. simpl in *. rewrite Z2Pos.id in * by lia. lia. Qed.
Lemma frac_cancel d m : d <> 0 -> (frac d m * inject_Z d == inject_Z m)%Q.
Proof. intros D. rewrite frac_mul_z by auto. rewrite Z.mul_comm. apply frac_d. auto. Qed.
Lemma frac_unique d m (q : Q) : d <> 0 -> (q * inject_Z d == inject_Z m)%Q -> (frac d m == q)%Q.
Proof.
  intros D H. pose proof (frac_cancel d m D) as F. rewrite <- H in F.
  apply Qmult_inj_r in F; auto. intros E. apply D. unfold Qeq, inject_Z in E. simpl in E. lia.
Qed.

(** Solving S k = z by the adjugate. *)
Lemma solve_kvec s k z1 z2 z3 : symmetric s -> det s <> 0 ->
  (phase k (r1 s) == inject_Z z1)%Q -> (phase k (r2 s) == inject_Z z2)%Q -> (phase k (r3 s) == inject_Z z3)%Q ->
  keq (kvec (det s) (vmul (V z1 z2 z3) (adj s))) k.
Proof.
  intros SY D H1 H2 H3. destruct k as [[k1 k2] k3]. unfold phase in *. unfold keq, kvec.
  unfold symmetric in SY. destruct s as [[a b c] [d e f] [g h i]]. cbn [r1 r2 r3 vx vy vz transpose] in *.
  inversion SY; subst. clear SY.
  repeat split; apply frac_unique; auto; unfold vmul, adj, det; cbn [r1 r2 r3 vx vy vz];
    unfold Z.sub; rewrite ?inject_Z_plus, ?inject_Z_mult, <- ?H1, <- ?H2, <- ?H3;
    rewrite ?inject_Z_plus, ?inject_Z_opp, ?inject_Z_mult, ?inject_Z_plus, ?inject_Z_opp, ?inject_Z_mult; ring.
Qed.

Lemma keq_frac d m m' : d <> 0 -> keq (kvec d m) (kvec d m') -> m = m'.
Proof. intros D (A & B & C). apply vec_eq; eapply frac_eq; eauto. Qed.

(** ** C33, for symmetric S. *)
Theorem C33_symmetric_partial : forall s, det s <> 0 -> Z.abs (det s) < 100000 -> symmetric s ->
  all_folding s (supercell_kpts s).
Proof.
  intros s D L SY. rewrite kpts_eq by auto. split; [|split].
  - intros k H. apply in_map_iff in H as (n & <- & H). apply kpt_indices_in in H; auto. split.
    + intros t. exists (dot t n). rewrite phase_kvec, dot_vmul, SY, adj_vmul, dot_scale by auto. apply frac_d. auto.
    + destruct H as (I1 & I2 & I3). unfold in_zone, kvec. pose proof (frac_range _ _ D I1). pose proof (frac_range _ _ D I2).
      pose proof (frac_range _ _ D I3). tauto.
  - intros k F Z0. destruct (F (V 1 0 0)) as [z1 H1]. destruct (F (V 0 1 0)) as [z2 H2]. destruct (F (V 0 0 1)) as [z3 H3].
    assert (E1 : vmul (V 1 0 0) s = r1 s) by (clear - s; vec_ring).
    assert (E2 : vmul (V 0 1 0) s = r2 s) by (clear - s; vec_ring).
    assert (E3 : vmul (V 0 0 1) s = r3 s) by (clear - s; vec_ring).
    rewrite E1 in H1. rewrite E2 in H2. rewrite E3 in H3.
    pose proof (solve_kvec s k z1 z2 z3 SY D H1 H2 H3) as K. exists (kvec (det s) (vmul (V z1 z2 z3) (adj s))). split; auto.
    apply in_map_iff. exists (V z1 z2 z3). split; auto. apply kpt_indices_in; auto.
    destruct k as [[k1 k2] k3]. destruct K as (K1 & K2 & K3). destruct Z0 as (Y1 & Y2 & Y3). unfold inside. cbv zeta.
    rewrite <- K1 in Y1. rewrite <- K2 in Y2. rewrite <- K3 in Y3. split; [|split]; apply frac_range_inv; auto.
  - intros i j a b Ha Hb E. rewrite nth_error_map in Ha, Hb.
    destruct (nth_error (kpt_indices s) i) as [n|] eqn:Ni; [|discriminate]. destruct (nth_error (kpt_indices s) j) as [n'|] eqn:Nj; [|discriminate].
    simpl in Ha, Hb. inversion Ha; inversion Hb; subst. apply keq_frac in E; auto.
    assert (n = n').
    { apply (f_equal (fun v => vmul v s)) in E. rewrite !adj_vmul in E. apply scale_eq in E; auto. }
    subst n'. assert (ND : NoDup (kpt_indices s)) by (unfold kpt_indices; apply NoDup_filter; apply NoDup_mesh; apply NoDup_arange).
    apply (proj1 (NoDup_nth_error _) ND); [apply nth_error_Some; congruence|congruence].
Qed.

(** For other S it is wrong: line 73 multiplies by inv(S), not by its transpose.  Here a
    returned k-point has phase 3/2 on the supercell vector (2, 1, 0), and (1/2, 0, 0), which
    folds, is missing. *)
Definition shear := M (V 2 1 0) (V 0 1 0) (V 0 0 1).
Theorem C33_nonsymmetric_refuted :
  det shear = 2%Z /\
  (supercell_kpts shear = [(0 # 2, 0 # 2, 0 # 2); (1 # 2, 1 # 2, 0 # 2)]%Q) /\
  ~ folds shear (1 # 2, 1 # 2, 0 # 2)%Q /\ folds shear (1 # 2, 0 # 1, 0 # 1)%Q.
Proof.
  split; [reflexivity|]. split; [reflexivity|]. split.
  - intros F. destruct (F (V 1 0 0)) as [z H]. unfold phase, vmul, shear in H. cbn [vx vy vz r1 r2 r3] in H.
    unfold Qeq, inject_Z, Qmult, Qplus in H. simpl in H. lia.
  - intros t. exists (vx t). unfold phase, vmul, shear. cbn [vx vy vz r1 r2 r3]. 
    rewrite ?inject_Z_plus, ?inject_Z_mult. change (inject_Z 2) with 2%Q. change (inject_Z 1) with 1%Q. change (inject_Z 0) with 0%Q. change (0 # 1)%Q with 0%Q. field.
Qed.
(** Fewer k-points than cells can come back, too: 3 for determinant 4. *)
Theorem C33_missing_kpoints_refuted : det (M (V 2 3 0) (V 0 2 0) (V 0 0 1)) = 4%Z /\
  length (supercell_kpts (M (V 2 3 0) (V 0 2 0) (V 0 0 1))) = 3%nat.
Proof. split; reflexivity. Qed.

(** Concrete cases: the cubic cell of a bcc-like basis; a symmetric matrix of determinant 3. *)
Example C32_example : positive_columns (M (V (-1) 1 1) (V 1 (-1) 1) (V 1 1 (-1))) /\ det (M (V (-1) 1 1) (V 1 (-1) 1) (V 1 1 (-1))) = 4 /\
  supercell_copies (M (V (-1) 1 1) (V 1 (-1) 1) (V 1 1 (-1))) = [V 0 0 0; V 0 0 1; V 0 1 0; V 1 0 0].
Proof. split; [unfold positive_columns; cbn; lia|]. split; reflexivity. Qed.
Example C33_example : symmetric (M (V 2 1 0) (V 1 2 0) (V 0 0 1)) /\
  (supercell_kpts (M (V 2 1 0) (V 1 2 0) (V 0 0 1)) = [(0 # 3, 0 # 3, 0 # 3); (1 # 3, 1 # 3, 0 # 3); (2 # 3, 2 # 3, 0 # 3)]%Q).
Proof. split; reflexivity. Qed.
Print Assumptions C32_tiles_partial.
Print Assumptions C33_symmetric_partial.
