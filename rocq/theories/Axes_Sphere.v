(** C94: the density on the sphere; concrete cases. *)
From Coq Require Import Reals List Bool Arith Lra Lia Permutation.
From Verif Require Import Lin Est_Model Hist_Props Sphere_Model Sphere_Props Axes_Spec Axes_Model Axes_Props.
Import ListNotations.
Open Scope R_scope.
Open Scope list_scope.

Definition angles (x : R * R) : Prop := 0 <= fst x <= PI /\ - PI <= snd x <= PI.
Definition some_bins (bins_phi : option nat) : Prop := match bins_phi with None => True | Some b => (0 < b)%nat end.

(** Every point given by angles in the usual ranges is in exactly one cell, that of its angles. *)
Theorem C94_sphere : forall bt bp x, (0 < bt)%nat -> some_bins bp -> angles x ->
  (exists cell, cell_of (dims (sph_spec bt bp)) (sph_extract bp x) = Some cell) /\
  forall cell, cell_of (dims (sph_spec bt bp)) (sph_extract bp x) = Some cell <->
    match bp with
    | None => exists i, cell = [i] /\ in_equal_bin 0 PI bt i (fst x)
    | Some b => exists i j, cell = [i; j] /\ in_equal_bin 0 PI bt i (fst x) /\ in_equal_bin (- PI) PI b j (snd x)
    end.
Proof.
  intros bt bp x HT HP (A & B). assert (PI0 := PI_RGT_0).
  destruct (bin_inside 0 PI bt (fst x)) as (i & _ & Ei); try lra; try assumption.
  pose proof (linspace_increasing 0 PI bt PI0 HT) as I1.
  destruct bp as [b|].
  - cbn in HP. destruct (bin_inside (- PI) PI b (snd x)) as (j & _ & Ej); try lra; try assumption.
    pose proof (linspace_increasing (- PI) PI b ltac:(lra) HP) as I2.
    unfold dims, sph_spec, sph_extract. cbn [fst snd combine map cell_of]. rewrite Ei, Ej. split; [eauto|]. intro cell. split.
    + intro H. injection H as <-. exists i, j. split; [reflexivity|]. split; apply equal_bin; try lra; try assumption; apply C27_bin_found; assumption.
    + intros (i' & j' & -> & H1 & H2). apply equal_bin in H1; [|lra|assumption]. apply equal_bin in H2; [|lra|assumption].
      apply C27_bin_found in H1; [|assumption]. apply C27_bin_found in H2; [|assumption]. congruence.
  - unfold dims, sph_spec, sph_extract. cbn [fst snd combine map cell_of]. rewrite Ei. split; [eauto|]. intro cell. split.
    + intro H. injection H as <-. exists i. split; [reflexivity|]. apply equal_bin; try lra; try assumption; apply C27_bin_found; assumption.
    + intros (i' & -> & H1). apply equal_bin in H1; [|lra|assumption]. apply C27_bin_found in H1; [|assumption]. congruence.
Qed.

(** Positions a run can reach: initial ones (hall/data.py 40-43) and proposed moves, taken or not. *)
Inductive reached : R * R -> Prop :=
| start : forall c p, -1 <= c <= 1 -> - PI <= p <= PI -> reached (uniform_point c p)
| moved : forall x stddev g u, reached x -> reached (sphere_move x stddev g u).
Theorem C94_sphere_sampled : forall x, reached x -> angles x.
Proof.
  intros x H. destruct H as [c p C P|x s g u _].
  - unfold uniform_point. split; cbn; [apply acos_bound|exact P].
  - destruct (C73_move x s g u) as (A & B & _). split; assumption.
Qed.

(** Summed over phi the two-dimensional histogram is the one of theta alone. *)
Lemma number_hit d c v : number_in d c [v] = if hits d c v then 1%nat else 0%nat.
Proof. unfold number_in. cbn. destruct (hits d c v); reflexivity. Qed.
Theorem C94_marginal : forall bt b walkers i, (0 < bt)%nat -> (0 < b)%nat -> Forall (Forall angles) walkers ->
  nsum (map (fun j => number_in (dims (sph_spec bt (Some b))) [i; j] (sph_values (Some b) walkers)) (seq 0 b)) =
  number_in (dims (sph_spec bt None)) [i] (sph_values None walkers).
Proof.
  intros bt b walkers i HT HB F. unfold sph_values.
  assert (F' : Forall angles (concat walkers)) by (apply Forall_concat; exact F). clear F. revert F'. generalize (concat walkers) as l.
  induction 1 as [|x l AX F IH]; cbn [map].
  - unfold number_in. cbn. generalize (seq 0 b). induction l as [|y l IH]; [reflexivity|exact IH].
  - rewrite (map_ext _ (fun j => number_in (dims (sph_spec bt (Some b))) [i; j] [sph_extract (Some b) x] + number_in (dims (sph_spec bt (Some b))) [i; j] (map (sph_extract (Some b)) l))%nat)
      by (intro; apply number_cons).
    rewrite nsum_add, IH, (number_cons _ [i]). f_equal. rewrite number_one.
    assert (PI0 := PI_RGT_0). destruct AX as (A & B).
    destruct (bin_inside 0 PI bt (fst x)) as (i' & _ & Ei); try lra; try assumption.
    destruct (bin_inside (- PI) PI b (snd x)) as (j' & Lj & Ej); try lra; try assumption.
    rewrite (map_ext _ (fun j => if Nat.eq_dec j' j then if Nat.eq_dec i' i then 1 else 0 else 0)%nat).
    + unfold dims, sph_spec, sph_extract. cbn [fst snd combine map cell_of]. rewrite Ei.
      assert (G : forall n s k, nsum (map (fun j => if Nat.eq_dec j' j then k else 0%nat) (seq s n)) = if (s <=? j') && (j' <? s + n) then k else 0%nat).
      { clear. induction n as [|n IH]; intros s k; cbn [seq map].
        - rewrite Nat.add_0_r. destruct (Nat.leb_spec s j'), (Nat.ltb_spec j' s); cbn [andb]; reflexivity || lia.
        - change (nsum ((if Nat.eq_dec j' s then k else 0%nat) :: map (fun j => if Nat.eq_dec j' j then k else 0%nat) (seq (S s) n)))
            with ((if Nat.eq_dec j' s then k else 0) + nsum (map (fun j => if Nat.eq_dec j' j then k else 0%nat) (seq (S s) n)))%nat.
          rewrite IH. destruct (Nat.eq_dec j' s), (Nat.leb_spec (S s) j'), (Nat.ltb_spec j' (S s + n)), (Nat.leb_spec s j'), (Nat.ltb_spec j' (s + S n)); cbn; lia. }
      rewrite (G b 0%nat). replace ((0 <=? j') && (j' <? 0 + b)) with true by (symmetry; apply andb_true_iff; split; [reflexivity|apply Nat.ltb_lt; lia]).
      destruct (Nat.eq_dec i' i) as [E0|N], (list_eq_dec Nat.eq_dec [i'] [i]) as [E|E]; try reflexivity; exfalso; congruence.
    + intro j. rewrite number_one. unfold dims, sph_spec, sph_extract. cbn [fst snd combine map cell_of]. rewrite Ei, Ej.
      destruct (list_eq_dec Nat.eq_dec [i'; j'] [i; j]) as [E|E], (Nat.eq_dec j' j), (Nat.eq_dec i' i); try reflexivity; try congruence.
Qed.

(** Over all steps and devices the counts add up to the number of electrons seen. *)
Theorem C94_sphere_total : forall bt bp devices (stream : list (list (list (list (R * R))))),
  (0 < bt)%nat -> some_bins bp ->
  Forall (fun step => List.length step = devices) stream ->
  Forall (Forall (Forall (Forall angles))) stream ->
  let ds := dims (sph_spec bt bp) in
  rsum (map (hist_final (hist_run (fun x => x) ds (repeat hist_init devices) (map (map (sph_values bp)) stream))) (cells (fst (sph_spec bt bp)))) =
  INR (List.length (concat (concat (concat stream)))).
Proof.
  intros bt bp devices stream HT HP FL FA ds.
  assert (BK : forall cell (T : list (list (list nv))), exists K, Forall (fun vs => (number_in ds cell vs <= K)%nat) T).
  { intros cell T. induction T as [|v T (K & HK)]; [exists 0%nat; constructor|]. exists (Nat.max K (number_in ds cell v)). constructor; [lia|].
    eapply Forall_impl; [|exact HK]. cbn. intros. lia. }
  rewrite (map_ext _ (fun cell => INR (number_in ds cell (concat (concat (map (map (sph_values bp)) stream)))))).
  2: { intro cell. destruct (BK cell (seen devices (map (map (sph_values bp)) stream))) as (K & HK).
       apply (C27_total_exact _ K); [reflexivity| |exact HK].
       apply Forall_forall. intros s I. apply in_map_iff in I. destruct I as (t & <- & I). rewrite map_length. rewrite Forall_forall in FL. apply FL; exact I. }
  assert (CC : concat (concat (map (map (sph_values bp)) stream)) = map (sph_extract bp) (concat (concat (concat stream)))).
  { rewrite <- concat_map.
    unfold sph_values. generalize (concat stream). induction l as [|w l IH]; [reflexivity|]. cbn [map concat]. rewrite IH, <- map_app, concat_app. reflexivity. }
  rewrite CC.
  assert (RS : forall (f : list nat -> nat) l, rsum (map (fun c => INR (f c)) l) = INR (nsum (map f l))).
  { intros f l. induction l as [|c l IH]; [reflexivity|]. cbn [map]. change (nsum (f c :: map f l)) with (f c + nsum (map f l))%nat. rewrite plus_INR, <- IH. reflexivity. }
  rewrite (RS (fun c => number_in ds c (map (sph_extract bp) (concat (concat (concat stream)))))). f_equal.
  assert (FF : Forall angles (concat (concat (concat stream)))).
  { apply Forall_concat, Forall_concat, Forall_concat. exact FA. }
  rewrite total_count.
  - revert FF. generalize (concat (concat (concat stream))). induction 1 as [|x l AX F IH]; [reflexivity|]. cbn [map filter].
    destruct (C94_sphere bt bp x HT HP AX) as ((c & E) & _). fold ds in E. rewrite E. cbn [List.length]. rewrite IH. reflexivity.
  - intros v c I H. apply in_map_iff in I. destruct I as (x & <- & I). rewrite Forall_forall in FF. specialize (FF x I).
    destruct (C94_sphere bt bp x HT HP FF) as (_ & G). apply G in H. destruct bp as [b|]; cbn [sph_spec fst cells].
    + destruct H as (i & j & -> & (Li & _) & (Lj & _)). apply in_flat_map. exists i. split; [apply in_seq; lia|]. apply in_map. apply in_flat_map. exists j.
      split; [apply in_seq; lia|left; reflexivity].
    + destruct H as (i & -> & (Li & _)). apply in_flat_map. exists i. split; [apply in_seq; lia|left; reflexivity].
Qed.

(** The share of the sphere in a bin of theta: for a uniform point, whose cosine [c] is uniform on
    [-1, 1], bin [i] is an interval of [c] between the cosines of the edges. *)
Theorem C94_sphere_measure : forall bt i c p, (i < bt)%nat -> -1 <= c <= 1 ->
  in_equal_bin 0 PI bt i (fst (uniform_point c p)) <->
  (cos (PI * INR (i + 1) / INR bt) < c <= cos (PI * INR i / INR bt)) \/ (i = bt - 1)%nat /\ c = -1.
Proof.
  intros bt i c p Hi Hc. assert (PI0 := PI_RGT_0). unfold uniform_point, in_equal_bin. cbn [fst].
  assert (NP : 0 < INR bt) by (apply lt_0_INR; lia).
  assert (ED : forall k, (k <= bt)%nat -> 0 <= PI * INR k / INR bt <= PI).
  { intros k Hk. assert (INR k <= INR bt) by (apply le_INR; exact Hk). pose proof (pos_INR k). split.
    - unfold Rdiv. apply Rmult_le_pos; [apply Rmult_le_pos; lra|apply Rlt_le, Rinv_0_lt_compat; exact NP].
    - apply Rmult_le_reg_r with (INR bt); [exact NP|]. unfold Rdiv. rewrite Rmult_assoc, Rinv_l, Rmult_1_r by lra. apply Rmult_le_compat_l; lra. }
  pose proof (acos_bound c) as AB. pose proof (cos_acos c Hc) as CA.
  replace (0 + (PI - 0) * INR i / INR bt) with (PI * INR i / INR bt) by (unfold Rdiv; ring).
  replace (0 + (PI - 0) * INR (i + 1) / INR bt) with (PI * INR (i + 1) / INR bt) by (unfold Rdiv; ring).
  pose proof (ED i ltac:(lia)) as Ei. pose proof (ED (i + 1)%nat ltac:(lia)) as Ej.
  assert (LO : PI * INR i / INR bt <= acos c <-> c <= cos (PI * INR i / INR bt)).
  { rewrite <- CA at 2. split; intro H.
    - apply cos_decr_1; lra.
    - apply cos_decr_0; lra. }
  assert (HI : acos c < PI * INR (i + 1) / INR bt <-> cos (PI * INR (i + 1) / INR bt) < c).
  { rewrite <- CA at 2. split; intro H.
    - apply cos_decreasing_1; lra.
    - apply cos_decreasing_0; lra. }
  assert (EN : acos c = PI <-> c = -1).
  { split; intro H; [rewrite <- CA, H; apply cos_PI|rewrite H; replace (-1) with (- (1)) by lra; rewrite acos_opp, acos_1; lra]. }
  rewrite LO, HI, EN. split.
  - intros (_ & A & [B|[B D]]); [left; lra|right; auto].
  - intros [[A B]|[A B]]; (split; [exact Hi|]); (split; [|auto]); [exact B|].
    rewrite B. apply (COS_bound (PI * INR i / INR bt)).
Qed.

(** ** Concrete cases *)
Definition z_axis (n : nat) : axis := {| direction := fun i => if Nat.eqb i 2 then 2 else 0; bins := n; low := -6; high := 6 |}.
Definition at_z (z : R) : vec := fun i => if Nat.eqb i 2 then z else 0.
Lemma z_component n z : component (direction (z_axis n)) (at_z z) = z.
Proof.
  unfold component, norm, dot, at_z. cbn [direction z_axis sum Nat.eqb].
  replace (0 + 0 * 0 + 0 * 0 + 2 * 2) with (2 * 2) by ring. rewrite sqrt_square by lra. field.
Qed.
Example demo_axes : (forall a, In (Some a) [None; Some (z_axis 4)] -> proper a /\ pointing a) /\
  cell_of (dims (cart_spec [None; Some (z_axis 4)])) (cart_extract [None; Some (z_axis 4)] (at_z 1)) = Some [2%nat] /\
  cell_of (dims (cart_spec [None; Some (z_axis 4)])) (cart_extract [None; Some (z_axis 4)] (at_z 6)) = Some [3%nat] /\
  cell_of (dims (cart_spec [None; Some (z_axis 4)])) (cart_extract [None; Some (z_axis 4)] (at_z 7)) = None.
Proof.
  assert (P : forall a, In (Some a) [None; Some (z_axis 4)] -> proper a /\ pointing a).
  { intros a [H|[H|[]]]; [discriminate|]. injection H as <-. split; [split; cbn; [lia|lra]|].
    unfold pointing, norm, dot. cbn [direction z_axis sum Nat.eqb]. replace (0 + 0 * 0 + 0 * 0 + 2 * 2) with (2 * 2) by ring. rewrite sqrt_square by lra. lra. }
  split; [exact P|]. split; [|split].
  - apply (C94_cartesian _ P). constructor; [|constructor]. rewrite z_component. unfold in_equal_bin. cbn [low high bins z_axis]. simpl INR. split; [lia|]. split; [lra|left; lra].
  - apply (C94_cartesian _ P). constructor; [|constructor]. rewrite z_component. unfold in_equal_bin. cbn [low high bins z_axis]. simpl INR. split; [lia|]. split; [lra|right; split; [reflexivity|lra]].
  - destruct (cell_of _ _) as [c|] eqn:E; [|reflexivity]. exfalso.
    assert (X : exists cell, cell_of (dims (cart_spec [None; Some (z_axis 4)])) (cart_extract [None; Some (z_axis 4)] (at_z 7)) = Some cell) by eauto.
    destruct (C94_cartesian _ P (at_z 7)) as (_ & (B & _) & _). specialize (B X). clear X. rename B into X. specialize (X (z_axis 4) (or_intror (or_introl eq_refl))). rewrite z_component in X. cbn in X. lra.
Qed.
Example demo_sphere : reached (sphere_move (uniform_point 0 1) (1/2) 1 (1/4)) /\
  exists cell, cell_of (dims (sph_spec 50 (Some 20%nat))) (sph_extract (Some 20%nat) (sphere_move (uniform_point 0 1) (1/2) 1 (1/4))) = Some cell.
Proof.
  assert (R : reached (sphere_move (uniform_point 0 1) (1/2) 1 (1/4))).
  { apply moved, start; [lra|]. pose proof PI2_3_2. pose proof PI_RGT_0. unfold PI2 in *. lra. }
  split; [exact R|]. apply C94_sphere; [lia|cbn; lia|apply C94_sphere_sampled; exact R].
Qed.
(** the equator belongs to the second of two bins *)
Example demo_measure : in_equal_bin 0 PI 2 1 (fst (uniform_point 0 0)) /\ ~ in_equal_bin 0 PI 2 0 (fst (uniform_point 0 0)).
Proof.
  split; [apply C94_sphere_measure; [lia|lra|]|intro H; apply C94_sphere_measure in H; [|lia|lra]]; simpl INR in *.
  - left. replace (PI * 1 / (1 + 1)) with (PI / 2) by field. replace (PI * (1 + 1) / (1 + 1)) with PI by field. rewrite cos_PI2, cos_PI. lra.
  - destruct H as [[H _]|[H _]]; [|discriminate]. replace (PI * 1 / (1 + 1)) with (PI / 2) in H by field. rewrite cos_PI2 in H. lra.
Qed.
