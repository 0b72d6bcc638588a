(** C94: densities along chosen directions and on the sphere. *)
From Coq Require Import Reals List Bool Arith Lra Lia Permutation Sorting.Sorted.
From Verif Require Import Lin Est_Model Hist_Props Sphere_Model Sphere_Props Axes_Spec Axes_Model.
Import ListNotations.
Open Scope R_scope.
Open Scope list_scope.
Local Notation length := List.length.

(** ** Equal bins *)
Lemma linspace_length lo hi n : length (linspace lo hi n) = (n + 1)%nat.
Proof. unfold linspace. rewrite map_length, seq_length. reflexivity. Qed.
Lemma linspace_nth lo hi n i : (i <= n)%nat -> nth i (linspace lo hi n) 0 = lo + (hi - lo) * INR i / INR n.
Proof.
  intro H. unfold linspace. rewrite nth_indep with (d' := lo + (hi - lo) * INR 0 / INR n) by (rewrite map_length, seq_length; lia).
  rewrite (map_nth (fun i => lo + (hi - lo) * INR i / INR n)), seq_nth by lia. reflexivity.
Qed.
Lemma linspace_increasing lo hi n : lo < hi -> (0 < n)%nat -> increasing (linspace lo hi n).
Proof.
  intros L N. assert (NP : 0 < INR n) by (apply lt_0_INR; exact N). split; [|rewrite linspace_length; lia].
  unfold linspace. generalize (n + 1)%nat as k. intro k. generalize 0%nat as s. induction k as [|k IH]; intro s; cbn [seq map]; constructor.
  - apply IH.
  - apply Forall_forall. intros x I. apply in_map_iff in I. destruct I as (j & <- & J). apply in_seq in J.
    assert (INR s < INR j) by (apply lt_INR; lia). unfold Rdiv. apply Rplus_lt_compat_l. apply Rmult_lt_compat_r; [apply Rinv_0_lt_compat; exact NP|].
    apply Rmult_lt_compat_l; lra.
Qed.
Lemma equal_bin lo hi n i x : lo < hi -> (0 < n)%nat -> in_bin (linspace lo hi n) i x <-> in_equal_bin lo hi n i x.
Proof.
  intros L N. assert (NP : 0 < INR n) by (apply lt_0_INR; exact N). unfold in_bin, in_equal_bin. rewrite linspace_length.
  assert (LAST : lo + (hi - lo) * INR n / INR n = hi) by (field; lra).
  split.
  - intros (A & B & D). rewrite (linspace_nth _ _ _ i) in B by lia. rewrite (linspace_nth _ _ _ (S i)) in D by lia.
    split; [lia|]. split; [exact B|]. replace (i + 1)%nat with (S i) by lia. destruct D as [D|[D E]]; [left; exact D|right].
    split; [lia|]. assert (S i = n) by lia. rewrite H, LAST in E. exact E.
  - intros (A & B & D). rewrite (linspace_nth _ _ _ i) by lia. rewrite (linspace_nth _ _ _ (S i)) by lia.
    split; [lia|]. split; [exact B|]. replace (i + 1)%nat with (S i) in D by lia. destruct D as [D|[D E]]; [left; exact D|right].
    split; [lia|]. assert (S i = n) by lia. rewrite H, LAST. exact E.
Qed.
Lemma bin_inside lo hi n x : lo < hi -> (0 < n)%nat -> lo <= x <= hi -> exists i, (i < n)%nat /\ bin_of (linspace lo hi n) (Some x) = Some i.
Proof.
  intros L N X. pose proof (linspace_increasing lo hi n L N) as INC.
  destruct (C27_each_sample_once (linspace lo hi n) x INC) as (E & _).
  destruct E as (i & I & _).
  - assert (NP : 0 < INR n) by (apply lt_0_INR; exact N).
    rewrite last_nth by (intro Q; apply (f_equal (@List.length R)) in Q; rewrite linspace_length in Q; cbn in Q; lia).
    rewrite linspace_length. replace (n + 1 - 1)%nat with n by lia. rewrite linspace_nth by lia.
    replace (lo + (hi - lo) * INR n / INR n) with hi by (field; lra).
    replace (hd 0 (linspace lo hi n)) with (nth 0 (linspace lo hi n) 0) by (destruct (linspace lo hi n); reflexivity).
    rewrite linspace_nth by lia. cbn [INR]. unfold Rdiv. rewrite Rmult_0_r, Rmult_0_l, Rplus_0_r. exact X.
  - exists i. split; [destruct I as (I & _); rewrite linspace_length in I; lia|]. apply C27_bin_found; assumption.
Qed.
Lemma bin_range lo hi n x i : lo < hi -> (0 < n)%nat -> bin_of (linspace lo hi n) (Some x) = Some i -> (i < n)%nat /\ lo <= x <= hi.
Proof.
  intros L N B. apply C27_bin_found in B; [|apply linspace_increasing; assumption]. apply equal_bin in B; try assumption.
  destruct B as (I & A & D). assert (NP : 0 < INR n) by (apply lt_0_INR; exact N). split; [exact I|].
  assert (0 <= (hi - lo) * INR i / INR n).
  { apply Rmult_le_pos; [apply Rmult_le_pos; [lra|apply pos_INR]|]. apply Rlt_le, Rinv_0_lt_compat; exact NP. }
  assert ((hi - lo) * INR (i + 1) / INR n <= hi - lo).
  { assert (INR (i + 1) <= INR n) by (apply le_INR; lia). apply Rmult_le_reg_r with (INR n); [exact NP|]. unfold Rdiv.
    rewrite Rmult_assoc, Rinv_l, Rmult_1_r by lra. apply Rmult_le_compat_l; lra. }
  destruct D as [D|[_ D]]; lra.
Qed.

(** ** Along directions *)
Definition proper (a : axis) : Prop := (0 < bins a)%nat /\ low a < high a.
Definition pointing (a : axis) : Prop := norm 3 (direction a) <> 0.
Lemma dims_cart axes : dims (cart_spec axes) = map (fun a => linspace (low a) (high a) (bins a)) (sorted_axes axes).
Proof. unfold dims, cart_spec. cbn [fst snd]. induction (sorted_axes axes) as [|a l IH]; cbn; [reflexivity|]. f_equal. exact IH. Qed.
Lemma sum_div n f c : sum n (fun i => f i / c) = sum n f / c.
Proof. unfold Rdiv. apply sum_scal_r. Qed.
Lemma extract_one a r : pointing a -> match normalised (direction a) with None => None | Some u => Some (dot 3 r u) end = Some (component (direction a) r).
Proof.
  intros P. unfold normalised. destruct (Req_EM_T _ 0) as [E|_]; [exfalso; apply P; exact E|]. f_equal. unfold component, dot.
  rewrite <- sum_div. apply sum_ext. intros i _. unfold Rdiv. ring.
Qed.
Lemma increasing_dims axes : Forall proper (sorted_axes axes) -> Forall increasing (dims (cart_spec axes)).
Proof.
  intro F. rewrite dims_cart. apply Forall_forall. intros e I. apply in_map_iff in I. destruct I as (a & <- & I).
  rewrite Forall_forall in F. destruct (F a I). apply linspace_increasing; assumption.
Qed.

(** An electron is counted in a cell exactly if its component along every enabled direction, in the
    order of the configuration, is in that bin of the axis; so in none if it is outside the box. *)
Theorem C94_cartesian : forall axes, (forall a, In (Some a) axes -> proper a /\ pointing a) ->
  forall r,
  (forall cell, cell_of (dims (cart_spec axes)) (cart_extract axes r) = Some cell <->
     Forall2 (fun a i => in_equal_bin (low a) (high a) (bins a) i (component (direction a) r)) (sorted_axes axes) cell) /\
  ((exists cell, cell_of (dims (cart_spec axes)) (cart_extract axes r) = Some cell) <->
     forall a, In (Some a) axes -> low a <= component (direction a) r <= high a) /\
  (forall a, In a (sorted_axes axes) <-> In (Some a) axes) /\
  map Some (sorted_axes axes) = filter (fun o => match o with Some _ => true | None => false end) axes.
Proof.
  intros axes HA r.
  assert (MEM : forall a, In a (sorted_axes axes) <-> In (Some a) axes).
  { intro a. unfold sorted_axes. rewrite in_flat_map. split.
    - intros ([b|] & I & J); [|destruct J]. destruct J as [<-|[]]. exact I.
    - intro I. exists (Some a). split; [exact I|left; reflexivity]. }
  assert (HS : forall a, In a (sorted_axes axes) -> proper a /\ pointing a) by (intros a I; apply HA, MEM; exact I).
  assert (EX : cart_extract axes r = map (fun a => Some (component (direction a) r)) (sorted_axes axes)).
  { unfold cart_extract. apply map_ext_in. intros a I. apply extract_one. apply HS; exact I. }
  rewrite dims_cart, EX. split; [|split; [|split; [exact MEM|]]].
  3: { clear. unfold sorted_axes. induction axes as [|[a|] l IH]; cbn; [reflexivity| |exact IH]. f_equal. exact IH. }
  - clear EX MEM. induction (sorted_axes axes) as [|a l IH]; intro cell; cbn [map cell_of].
    + split; [intro H; injection H as <-; constructor|]. intro H. inversion H. reflexivity.
    + destruct (HS a (or_introl eq_refl)) as ((N & L) & _). specialize (IH (fun b I => HS b (or_intror I))).
      split.
      * destruct (bin_of _ _) as [i|] eqn:B; [|discriminate]. destruct (cell_of _ _) as [c|] eqn:C; [|discriminate].
        intro H. injection H as <-. constructor; [|apply IH; reflexivity].
        apply equal_bin; try assumption. apply C27_bin_found; [apply linspace_increasing; assumption|exact B].
      * intro H. inversion H as [|? i ? c Hb Hc]; subst. apply equal_bin in Hb; try assumption.
        apply C27_bin_found in Hb; [|apply linspace_increasing; assumption]. rewrite Hb. apply IH in Hc. rewrite Hc. reflexivity.
  - assert (G : (exists cell, cell_of (map (fun a => linspace (low a) (high a) (bins a)) (sorted_axes axes)) (map (fun a => Some (component (direction a) r)) (sorted_axes axes)) = Some cell)
      <-> forall a, In a (sorted_axes axes) -> low a <= component (direction a) r <= high a).
    { clear EX MEM. induction (sorted_axes axes) as [|a l IH]; cbn [map cell_of].
      - split; [intros _ a []|eauto].
      - destruct (HS a (or_introl eq_refl)) as ((N & L) & _). specialize (IH (fun b I => HS b (or_intror I))). split.
        + destruct (bin_of _ _) as [i|] eqn:B; [|intros (c & X); discriminate].
          apply bin_range in B; try assumption. destruct (cell_of _ _) as [c|] eqn:C; [|intros (c & X); discriminate].
          intros _ b [<-|I]; [apply B|]. apply IH; eauto.
        + intro H. destruct (bin_inside (low a) (high a) (bins a) (component (direction a) r)) as (i & _ & ->); try assumption; [apply H; left; reflexivity|].
          destruct IH as (_ & IH). destruct IH as (c & ->); [intros b I; apply H; right; exact I|]. eauto. }
    rewrite G. split; intros H a I; apply H, MEM; exact I.
Qed.

(** Only the directions count: stretching one changes nothing, reversing it mirrors the axis, and turning
    the molecule together with the directions changes nothing. Disabled axes are as if not there. *)
Lemma norm_scale c d : 0 < c -> norm 3 (fun i => c * d i) = c * norm 3 d.
Proof.
  intro H. unfold norm. replace (dot 3 (fun i => c * d i) (fun i => c * d i)) with ((c * c) * dot 3 d d).
  - rewrite sqrt_mult_alt by nra. rewrite sqrt_square by lra. reflexivity.
  - unfold dot. rewrite <- sum_scal_l. apply sum_ext. intros. ring.
Qed.
Theorem C94_direction : forall d r, norm 3 d <> 0 ->
  (forall c, 0 < c -> component (fun i => c * d i) r = component d r) /\
  component (fun i => - d i) r = - component d r /\
  (forall o, rotation o -> component (rotated o d) (rotated o r) = component d r).
Proof.
  intros d r N. unfold component. split; [|split].
  - intros c H. rewrite norm_scale by exact H. unfold dot at 1. rewrite (sum_ext 3 _ (fun i => c * (r i * d i))) by (intros; ring).
    rewrite sum_scal_l. fold (dot 3 r d). field. split; lra.
  - replace (norm 3 (fun i => - d i)) with (norm 3 d) by (unfold norm, dot; f_equal; apply sum_ext; intros; ring).
    unfold dot. rewrite (sum_ext 3 _ (fun i => - (r i * d i))) by (intros; ring). rewrite sum_opp. unfold Rdiv. ring.
  - intros o O.
    assert (D : forall u v, dot 3 (rotated o u) (rotated o v) = dot 3 u v).
    { intros u v. unfold dot, rotated.
      pose proof (O 0 0 ltac:(lia) ltac:(lia))%nat as E00. pose proof (O 0 1 ltac:(lia) ltac:(lia))%nat as E01. pose proof (O 0 2 ltac:(lia) ltac:(lia))%nat as E02.
      pose proof (O 1 1 ltac:(lia) ltac:(lia))%nat as E11. pose proof (O 1 2 ltac:(lia) ltac:(lia))%nat as E12. pose proof (O 2 2 ltac:(lia) ltac:(lia))%nat as E22.
      unfold delta in *. cbn [sum Nat.eqb] in *.
      transitivity (u 0%nat * v 0%nat * (0 + o 0%nat 0%nat * o 0%nat 0%nat + o 1%nat 0%nat * o 1%nat 0%nat + o 2%nat 0%nat * o 2%nat 0%nat)
        + u 1%nat * v 1%nat * (0 + o 0%nat 1%nat * o 0%nat 1%nat + o 1%nat 1%nat * o 1%nat 1%nat + o 2%nat 1%nat * o 2%nat 1%nat)
        + u 2%nat * v 2%nat * (0 + o 0%nat 2%nat * o 0%nat 2%nat + o 1%nat 2%nat * o 1%nat 2%nat + o 2%nat 2%nat * o 2%nat 2%nat)
        + (u 0%nat * v 1%nat + u 1%nat * v 0%nat) * (0 + o 0%nat 0%nat * o 0%nat 1%nat + o 1%nat 0%nat * o 1%nat 1%nat + o 2%nat 0%nat * o 2%nat 1%nat)
        + (u 0%nat * v 2%nat + u 2%nat * v 0%nat) * (0 + o 0%nat 0%nat * o 0%nat 2%nat + o 1%nat 0%nat * o 1%nat 2%nat + o 2%nat 0%nat * o 2%nat 2%nat)
        + (u 1%nat * v 2%nat + u 2%nat * v 1%nat) * (0 + o 0%nat 1%nat * o 0%nat 2%nat + o 1%nat 1%nat * o 1%nat 2%nat + o 2%nat 1%nat * o 2%nat 2%nat)); [ring|].
      rewrite E00, E01, E02, E11, E12, E22. ring. }
    unfold norm. rewrite !D. reflexivity.
Qed.
Theorem C94_disabled : forall before after, sorted_axes (before ++ None :: after) = sorted_axes (before ++ after) /\
  cart_spec (before ++ None :: after) = cart_spec (before ++ after) /\
  forall r, cart_extract (before ++ None :: after) r = cart_extract (before ++ after) r.
Proof.
  intros before after. assert (E : sorted_axes (before ++ None :: after) = sorted_axes (before ++ after)) by (unfold sorted_axes; rewrite !flat_map_app; reflexivity).
  unfold cart_spec, cart_extract. rewrite E. auto.
Qed.
(** Without a length the direction means nothing: no electron is ever counted. *)
Theorem C94_no_direction : forall axes a r, In (Some a) axes -> (forall i, (i < 3)%nat -> direction a i = 0) ->
  cell_of (dims (cart_spec axes)) (cart_extract axes r) = None.
Proof.
  intros axes a r I Z. rewrite dims_cart. unfold cart_extract.
  assert (J : In a (sorted_axes axes)) by (apply in_flat_map; exists (Some a); split; [exact I|left; reflexivity]).
  induction (sorted_axes axes) as [|b l IH]; [destruct J|]. cbn [map cell_of]. destruct J as [->|J].
  - unfold normalised. destruct (Req_EM_T (norm 3 (direction a)) 0) as [_|N]; [reflexivity|]. exfalso. apply N.
    unfold norm, dot. rewrite sum_0; [apply sqrt_0|]. intros i Hi. rewrite Z by exact Hi. ring.
  - rewrite (IH J). destruct (bin_of _ _); reflexivity.
Qed.

(** ** Totals *)
Lemma nsum_app a b : nsum (a ++ b) = (nsum a + nsum b)%nat.
Proof. unfold nsum. induction a as [|x a IH]; cbn; [reflexivity|]. rewrite IH. lia. Qed.
Lemma nsum_indicator (c : list nat) l : NoDup l -> nsum (map (fun x => if list_eq_dec Nat.eq_dec c x then 1 else 0)%nat l) = if in_dec (list_eq_dec Nat.eq_dec) c l then 1%nat else 0%nat.
Proof.
  induction 1 as [|x l NI ND IH]; [reflexivity|]. cbn [map]. change (nsum (?a :: ?b)) with (a + nsum b)%nat. 
  change (nsum ((if list_eq_dec Nat.eq_dec c x then 1%nat else 0%nat) :: ?b)) with ((if list_eq_dec Nat.eq_dec c x then 1 else 0) + nsum b)%nat. rewrite IH.
  destruct (list_eq_dec Nat.eq_dec c x) as [->|E], (in_dec (list_eq_dec Nat.eq_dec) _ l) as [I|I], (in_dec (list_eq_dec Nat.eq_dec) _ (_ :: l)) as [J|J]; try reflexivity; exfalso;
    first [contradiction | apply J; left; reflexivity | apply J; right; exact I | destruct J as [J|J]; [congruence|contradiction] | idtac].
Qed.
Lemma cells_nodup bs : NoDup (cells bs).
Proof.
  induction bs as [|n bs IH]; cbn [cells]; [constructor; [intros []|constructor]|].
  generalize (seq_NoDup n 0). generalize (seq 0 n) as l. induction l as [|i l IHl]; intro N; cbn [flat_map]; [constructor|].
  inversion N as [|? ? NI N']; subst. specialize (IHl N').
  assert (D : forall x, In x (map (cons i) (cells bs)) -> In x (flat_map (fun i => map (cons i) (cells bs)) l) -> False).
  { intros x A B. apply in_map_iff in A. destruct A as (c & <- & _). apply in_flat_map in B. destruct B as (j & J & B).
    apply in_map_iff in B. destruct B as (c' & E & _). injection E as -> _. contradiction. }
  assert (M : NoDup (map (cons i) (cells bs))) by (apply FinFun.Injective_map_NoDup; [intros a b E; injection E; auto|exact IH]).
  revert M D IHl. generalize (map (cons i) (cells bs)) as a, (flat_map (fun i => map (cons i) (cells bs)) l) as b. clear.
  induction a as [|x a IH]; intros b M D NB; cbn; [exact NB|]. inversion M; subst. constructor.
  - intro I. apply in_app_or in I. destruct I as [I|I]; [contradiction|]. apply (D x); [left; reflexivity|exact I].
  - apply IH; try assumption. intros y A B. apply (D y); [right; exact A|exact B].
Qed.
Lemma number_cons d c v vs : number_in d c (v :: vs) = (number_in d c [v] + number_in d c vs)%nat.
Proof. unfold number_in. cbn [filter]. destruct (hits d c v); reflexivity. Qed.
Lemma number_one d c v : number_in d c [v] = match cell_of d v with Some c' => if list_eq_dec Nat.eq_dec c' c then 1%nat else 0%nat | None => 0%nat end.
Proof. unfold number_in, hits. cbn [filter]. destruct (cell_of d v) as [c'|]; [destruct (list_eq_dec _ _ _)|]; reflexivity. Qed.
Lemma nsum_add {A} (f g : A -> nat) l : nsum (map (fun x => f x + g x)%nat l) = (nsum (map f l) + nsum (map g l))%nat.
Proof. unfold nsum. induction l as [|x l IH]; cbn; [reflexivity|]. rewrite IH. lia. Qed.
Lemma total_count bs d values : (forall v c, In v values -> cell_of d v = Some c -> In c (cells bs)) ->
  nsum (map (fun c => number_in d c values) (cells bs)) = length (filter (fun v => match cell_of d v with Some _ => true | None => false end) values).
Proof.
  induction values as [|v vs IH]; intro H.
  - unfold number_in. cbn [filter length]. generalize (cells bs). induction l as [|x l IHl]; [reflexivity|]. exact IHl.
  - rewrite (map_ext _ (fun c => number_in d c [v] + number_in d c vs)%nat) by (intro; apply number_cons).
    rewrite nsum_add, IH by (intros w c I; apply H; right; exact I).
    rewrite (map_ext _ (fun c => match cell_of d v with Some c' => if list_eq_dec Nat.eq_dec c' c then 1%nat else 0%nat | None => 0%nat end)) by (intro; apply number_one).
    cbn [filter]. destruct (cell_of d v) as [c'|] eqn:E.
    + rewrite nsum_indicator by apply cells_nodup. specialize (H v c' (or_introl eq_refl) E). destruct (in_dec _ _ _); [reflexivity|contradiction].
    + assert (Z : nsum (map (fun _ : list nat => 0%nat) (cells bs)) = 0%nat) by (generalize (cells bs); induction l as [|x l IHl]; [reflexivity|exact IHl]).
      rewrite Z. reflexivity.
Qed.
Lemma cell_bound : forall (l : list axis) v c, (forall a, In a l -> proper a) ->
  cell_of (map (fun a => linspace (low a) (high a) (bins a)) l) v = Some c -> In c (cells (map bins l)).
Proof.
  induction l as [|a l IH]; intros v c HP H; cbn [map cell_of cells] in *.
  - destruct v; [injection H as <-; left; reflexivity|discriminate].
  - destruct v as [|x v]; [discriminate|]. destruct (bin_of _ x) as [i|] eqn:B; [|discriminate]. destruct (cell_of _ v) as [c'|] eqn:C; [|discriminate].
    injection H as <-. destruct (HP a (or_introl eq_refl)) as (N & L). destruct x as [x|]; [|discriminate]. apply bin_range in B; try assumption.
    apply in_flat_map. exists i. split; [apply in_seq; lia|]. apply in_map. apply (IH v); [intros b I; apply HP; right; exact I|exact C].
Qed.

(** The counts of all cells add up to the number of electrons in the box, over all walkers. *)
Theorem C94_total : forall axes, (forall a, In (Some a) axes -> proper a /\ pointing a) -> forall walkers,
  exists inside : list vec,
    nsum (map (fun cell => number_in (dims (cart_spec axes)) cell (cart_values axes walkers)) (cells (fst (cart_spec axes)))) = length inside /\
    Permutation (inside ++ filter (fun r => match cell_of (dims (cart_spec axes)) (cart_extract axes r) with Some _ => false | None => true end) (concat walkers)) (concat walkers) /\
    Forall (fun r => forall a, In (Some a) axes -> low a <= component (direction a) r <= high a) inside.
Proof.
  intros axes HA walkers. set (counted := fun r => match cell_of (dims (cart_spec axes)) (cart_extract axes r) with Some _ => true | None => false end).
  exists (filter counted (concat walkers)). split; [|split].
  - rewrite total_count.
    + unfold cart_values. generalize (concat walkers). induction l as [|r l IH]; [reflexivity|]. cbn [map filter]. unfold counted at 1. destruct (cell_of _ _); cbn [length]; rewrite IH; reflexivity.
    + intros v c _ H. rewrite dims_cart in H. apply cell_bound in H; [exact H|]. intros a I. apply in_flat_map in I. destruct I as ([b|] & I & J); [|destruct J].
      destruct J as [<-|[]]. apply (HA b I).
  - rewrite (filter_ext (fun r => match cell_of (dims (cart_spec axes)) (cart_extract axes r) with Some _ => false | None => true end) (fun r => negb (counted r))) by (intro r; unfold counted; destruct (cell_of _ _); reflexivity).
    generalize (concat walkers). induction l as [|r l IH]; [constructor|]. cbn [filter]. destruct (counted r); cbn [negb].
    + cbn. constructor. exact IH.
    + rewrite <- Permutation_middle. constructor. exact IH.
  - apply Forall_forall. intros r I. apply filter_In in I. destruct I as (_ & I). unfold counted in I.
    destruct (C94_cartesian axes HA r) as (_ & (B & _) & _ & _). apply B. destruct (cell_of _ _) as [c|]; [eauto|discriminate].
Qed.

(** ** The default axes of molecules: coordinates, with every atom at least 5 bohr inside *)
Lemma fold_min l x : (forall y, In y (x :: l) -> fold_left Rmin l x <= y) /\ In (fold_left Rmin l x) (x :: l).
Proof.
  revert x. induction l as [|z l IH]; intro x; cbn [fold_left].
  - split; [intros y [->|[]]; lra|left; reflexivity].
  - destruct (IH (Rmin x z)) as (A & B). split.
    + intros y [->|[->|I]].
      * eapply Rle_trans; [apply A; left; reflexivity|apply Rmin_l].
      * eapply Rle_trans; [apply A; left; reflexivity|apply Rmin_r].
      * apply A. right. exact I.
    + destruct B as [B|B]; [|right; right; exact B]. rewrite <- B. unfold Rmin. destruct (Rle_dec x z); [left|right; left]; reflexivity.
Qed.
Lemma fold_max l x : (forall y, In y (x :: l) -> y <= fold_left Rmax l x) /\ In (fold_left Rmax l x) (x :: l).
Proof.
  revert x. induction l as [|z l IH]; intro x; cbn [fold_left].
  - split; [intros y [->|[]]; lra|left; reflexivity].
  - destruct (IH (Rmax x z)) as (A & B). split.
    + intros y [->|[->|I]].
      * eapply Rle_trans; [apply Rmax_l|apply A; left; reflexivity].
      * eapply Rle_trans; [apply Rmax_r|apply A; left; reflexivity].
      * apply A. right. exact I.
    + destruct B as [B|B]; [|right; right; exact B]. rewrite <- B. unfold Rmax. destruct (Rle_dec x z); [right; left|left]; reflexivity.
Qed.
Lemma unit_norm idx : (idx < 3)%nat -> norm 3 (fun i => if Nat.eqb i idx then 1 else 0) = 1.
Proof.
  intro H. unfold norm, dot. cbn [sum]. replace (_ + _) with 1; [apply sqrt_1|]. destruct idx as [|[|[|]]]; cbn; lra || lia.
Qed.
Theorem C94_default_axes : forall atoms, atoms <> [] ->
  exists x y z, default_axes atoms = [Some x; Some y; Some z] /\
  (forall i a, nth_error [x; y; z] i = Some a ->
     proper a /\ pointing a /\ bins a = 50%nat /\
     (forall r, component (direction a) r = r i) /\
     (forall r, In r atoms -> low a + 5 <= r i <= high a - 5) /\
     (exists r, In r atoms /\ low a + 5 = r i) /\ (exists r, In r atoms /\ high a - 5 = r i)).
Proof.
  intros atoms NE. unfold default_axes. cbn [map]. do 3 eexists. split; [reflexivity|].
  assert (G : forall i, (i < 3)%nat -> let a := {| direction := fun j => if Nat.eqb j i then 1 else 0; bins := 50;
      low := minimum (map (fun a : vec => a i) atoms) - 5; high := maximum (map (fun a : vec => a i) atoms) + 5 |} in
     proper a /\ pointing a /\ bins a = 50%nat /\
     (forall r, component (direction a) r = r i) /\
     (forall r, In r atoms -> low a + 5 <= r i <= high a - 5) /\
     (exists r, In r atoms /\ low a + 5 = r i) /\ (exists r, In r atoms /\ high a - 5 = r i)).
  { intros i Hi a. destruct atoms as [|r0 atoms]; [congruence|].
    destruct (fold_min (map (fun a : vec => a i) atoms) (r0 i)) as (A & B). destruct (fold_max (map (fun a : vec => a i) atoms) (r0 i)) as (C & D).
    assert (R0 : minimum (map (fun a : vec => a i) (r0 :: atoms)) <= r0 i <= maximum (map (fun a : vec => a i) (r0 :: atoms))).
    { cbn [map minimum maximum]. split; [apply A|apply C]; left; reflexivity. }
    split; [split; cbn; [lia|cbn in R0; lra]|]. split; [unfold pointing; cbn [direction a]; rewrite unit_norm by exact Hi; lra|]. split; [reflexivity|].
    split; [|split; [|split]].
    - intro r. unfold component. cbn [direction a]. rewrite unit_norm by exact Hi. unfold dot. cbn [sum]. destruct i as [|[|[|]]]; cbn; lra || lia.
    - intros r I. cbn [low high a]. assert (J : In (r i) (r0 i :: map (fun a : vec => a i) atoms)).
      { destruct I as [->|I]; [left; reflexivity|right; apply in_map_iff; exists r; auto]. }
      specialize (A _ J). specialize (C _ J). cbn [map minimum maximum]. lra.
    - cbn [low a map minimum]. destruct B as [B|B]; [exists r0; split; [left; reflexivity|lra]|].
      apply in_map_iff in B. destruct B as (r & E & I). exists r. split; [right; exact I|rewrite E; lra].
    - cbn [high a map maximum]. destruct D as [D|D]; [exists r0; split; [left; reflexivity|lra]|].
      apply in_map_iff in D. destruct D as (r & E & I). exists r. split; [right; exact I|rewrite E; lra]. }
  intros i a H. destruct i as [|[|[|i]]]; cbn in H; [injection H as <-; apply (G 0%nat); lia|injection H as <-; apply (G 1%nat); lia|injection H as <-; apply (G 2%nat); lia|destruct i; discriminate].
Qed.
