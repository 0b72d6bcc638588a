(** Lemmas for C63. *)
From Coq Require Import Reals List Arith ZArith String Bool Lia Lra Permutation Sorted.
From Coquelicot Require Import Coquelicot.
From Verif Require Import Quad_Spec Quad_Sphere Quad_Rot Quad_Model Lin Geom_Spec Geom_Model Branch_Model Branch_Lemmas Ecp_Spec Ecp_Model.
Import ListNotations.
Open Scope list_scope.
Open Scope R_scope.
Local Notation S := Datatypes.S.

(** ** The padded arrays *)
Fixpoint flat (n : nat) (gs : list group) : list (R * R * Z) :=
  match gs with [] => [] | g :: gs' => map (fun ac => (fst ac, snd ac, (Z.of_nat n - 2)%Z)) g ++ flat (S n) gs' end.
Lemma flat_length : forall gs n, List.length (flat n gs) = n_terms gs.
Proof. induction gs as [|g gs IH]; intros n; [reflexivity|]. cbn [flat]. rewrite app_length, map_length, IH. reflexivity. Qed.
Definition overlay (w : row) (c k0 : nat) (vs : list (R * R * Z)) : row :=
  fun c' k' => if andb (Nat.eqb c' c) (andb (Nat.leb k0 k') (Nat.ltb k' (k0 + List.length vs))) then nth (k' - k0) vs (0, 0, 0%Z) else w c' k'.
Lemma overlay_nil w c k0 c' k' : overlay w c k0 [] c' k' = w c' k'.
Proof. unfold overlay. cbn [List.length]. rewrite Nat.add_0_r. destruct (Nat.eqb c' c), (Nat.leb_spec k0 k'), (Nat.ltb_spec k' k0); cbn [andb]; try reflexivity; lia. Qed.
Lemma overlay_cons w c k0 v vs c' k' : overlay (write w c k0 v) c (S k0) vs c' k' = overlay w c k0 (v :: vs) c' k'.
Proof.
  unfold overlay, write. cbn [List.length]. destruct (Nat.eqb c' c); cbn [andb]; [|reflexivity].
  destruct (Nat.leb_spec (S k0) k'), (Nat.leb_spec k0 k'), (Nat.ltb_spec k' (S k0 + List.length vs)), (Nat.ltb_spec k' (k0 + S (List.length vs))), (Nat.eqb_spec k' k0); cbn [andb]; try reflexivity; try lia.
  - replace (k' - k0)%nat with (S (k' - S k0)) by lia. reflexivity.
  - subst. rewrite Nat.sub_diag. reflexivity.
Qed.
Lemma overlay_app w c k0 a b c' k' : overlay (overlay w c k0 a) c (k0 + List.length a) b c' k' = overlay w c k0 (a ++ b) c' k'.
Proof.
  revert w k0. induction a as [|v a IH]; intros w k0.
  - cbn [List.length app]. rewrite Nat.add_0_r. unfold overlay at 1 3. destruct (andb _ _); [reflexivity|apply overlay_nil].
  - cbn [app]. rewrite <- overlay_cons, <- IH. cbn [List.length]. replace (k0 + S (List.length a))%nat with (S k0 + List.length a)%nat by lia.
    unfold overlay at 1 3. destruct (andb _ _); [reflexivity|]. symmetry. apply overlay_cons.
Qed.
Lemma overlay_ext w w' c k0 vs : (forall c k, w c k = w' c k) -> forall c' k', overlay w c k0 vs c' k' = overlay w' c k0 vs c' k'.
Proof. intros H c' k'. unfold overlay. destruct (andb _ _); auto. Qed.
Lemma write_group_is c n : forall g w k0, snd (write_group c n (w, k0) g) = (k0 + List.length g)%nat /\
  forall c' k', fst (write_group c n (w, k0) g) c' k' = overlay w c k0 (map (fun ac => (fst ac, snd ac, (Z.of_nat n - 2)%Z)) g) c' k'.
Proof.
  induction g as [|ac g IH]; intros w k0.
  - cbn. split; [lia|]. intros. symmetry. apply overlay_nil.
  - assert (U : write_group c n (w, k0) (ac :: g) = write_group c n (write w c k0 (fst ac, snd ac, (Z.of_nat n - 2)%Z), S k0) g) by reflexivity. rewrite U.
    destruct (IH (write w c k0 (fst ac, snd ac, (Z.of_nat n - 2)%Z)) (S k0)) as [A B]. split; [rewrite A; cbn; lia|].
    intros c' k'. rewrite B. cbn [map]. apply overlay_cons.
Qed.
Lemma write_groups_is c : forall gs n w k0 c' k', fst (write_groups c n gs (w, k0)) c' k' = overlay w c k0 (flat n gs) c' k'.
Proof.
  induction gs as [|g gs IH]; intros n w k0 c' k'; [symmetry; apply overlay_nil|].
  cbn [write_groups flat]. destruct (write_group c n (w, k0) g) as [w1 k1] eqn:E. pose proof (write_group_is c n g w k0) as [A B]. rewrite E in A, B. cbn [fst snd] in A, B. rewrite IH. subst k1.
  rewrite (overlay_ext w1 (overlay w c k0 (map (fun ac => (fst ac, snd ac, (Z.of_nat n - 2)%Z)) g)) c _ _ B).
  rewrite <- (map_length (fun ac : R * R => (fst ac, snd ac, (Z.of_nat n - 2)%Z)) g). apply overlay_app.
Qed.
Lemma find_none_notin (t : table) l : ~ In l (map fst t) -> find (fun e => Z.eqb (fst e) l) t = None.
Proof. induction t as [|e t IH]; cbn; intros H; [reflexivity|]. destruct (Z.eqb_spec (fst e) l); [exfalso; auto|]. apply IH. auto. Qed.
Lemma write_atom_is t c : proper t -> forall k,
  write_atom t c k = match find (fun e => Z.eqb (fst e) (Z.of_nat c - 1)) t with Some e => overlay zeros c 0 (flat 0 (snd e)) c k | None => zeros c k end.
Proof.
  unfold write_atom. generalize zeros as w. intros w [ND LO]. revert w. induction t as [|e t IH]; intros w k; [reflexivity|].
  inversion ND as [|? ? NI ND']; subst. pose proof (LO e (or_introl eq_refl)) as E1. cbn [fold_left find].
  rewrite (IH ND' (fun e' I => LO e' (or_intror I))). set (w' := fst (write_groups (Z.to_nat (fst e + 1)) 0 (snd e) (w, 0%nat))).
  assert (W : forall c' k', w' c' k' = overlay w (Z.to_nat (fst e + 1)) 0 (flat 0 (snd e)) c' k') by (intros; apply write_groups_is).
  destruct (Z.eqb_spec (fst e) (Z.of_nat c - 1)) as [EQ|NE].
  - assert (C : Z.to_nat (fst e + 1) = c) by lia. rewrite find_none_notin by (rewrite <- EQ; exact NI). rewrite W, C. reflexivity.
  - assert (C : Z.to_nat (fst e + 1) <> c) by lia. assert (WC : forall k', w' c k' = w c k') by (intros k'; rewrite W; unfold overlay; destruct (Nat.eqb_spec c (Z.to_nat (fst e + 1))); [congruence|reflexivity]).
    destruct (find _ t); [|apply WC]. unfold overlay. destruct (andb _ _); [reflexivity|apply WC].
Qed.
Definition tvalue (r : R) (v : R * R * Z) : R := snd (fst v) * powerRZ r (snd v) * exp (- fst (fst v) * r ^ 2).
Lemma flat_value r : forall gs n, fold_right Rplus 0 (map (tvalue r) (flat n gs)) = groups_value n gs r.
Proof.
  assert (A : forall a b : list R, fold_right Rplus 0 (a ++ b) = fold_right Rplus 0 a + fold_right Rplus 0 b) by (induction a as [|x a IH]; intros b; cbn [app fold_right]; [lra|rewrite IH; lra]).
  induction gs as [|g gs IH]; intros n; [reflexivity|]. cbn [flat groups_value]. rewrite map_app, A, IH. f_equal. f_equal. rewrite map_map. apply map_ext. intros ac. reflexivity.
Qed.
Lemma sum_list (f : R * R * Z -> R) d : forall vs m, (List.length vs <= m)%nat -> f d = 0 -> sum m (fun k => f (nth k vs d)) = fold_right Rplus 0 (map f vs).
Proof.
  intros vs m L Z. assert (A : forall vs m, sum (m + List.length vs) (fun k => f (nth k vs d)) = fold_right Rplus 0 (map f vs)).
  { clear vs m L. induction vs as [|v vs IH] using rev_ind; intros m.
    - rewrite Nat.add_0_r. apply sum_0. intros i _. destruct i; exact Z.
    - rewrite map_app. rewrite app_length. cbn [List.length]. replace (m + (List.length vs + 1))%nat with (S m + List.length vs)%nat by lia.
      transitivity (sum (S m + List.length vs) (fun k => f (nth k vs d) + (if Nat.eqb k (List.length vs) then f v else 0))).
      + apply sum_ext. intros k _. destruct (Nat.eqb_spec k (List.length vs)) as [-> | N].
        * rewrite app_nth2, Nat.sub_diag by lia. rewrite (nth_overflow vs) by lia. cbn [nth]. rewrite Z. ring.
        * destruct (Nat.lt_ge_cases k (List.length vs)); [rewrite app_nth1 by lia; ring|]. rewrite !nth_overflow by (rewrite ?app_length; cbn; lia). rewrite Z. ring.
      + rewrite sum_plus, IH. assert (F : forall l a, fold_right Rplus 0 (l ++ [a]) = fold_right Rplus 0 l + a) by (induction l; intros; cbn [app fold_right]; [lra|rewrite IHl; lra]).
        cbn [map]. rewrite F. f_equal. transitivity (sum (S m + List.length vs) (fun k => f v * delta k (List.length vs))); [apply sum_ext; intros; unfold delta; destruct (Nat.eqb _ _); ring|].
        apply (sum_delta_r _ (fun _ => f v)). lia. }
  replace m with ((m - List.length vs) + List.length vs)%nat by lia. apply A.
Qed.
Lemma max_terms_ge ts t e : In t ts -> In e t -> (n_terms (snd e) <= max_terms ts)%nat.
Proof.
  intros T E. unfold max_terms. assert (M : forall l x, In x l -> (x <= fold_right Nat.max 0 l)%nat) by (induction l as [|y l IH]; cbn; intros x []; [subst; lia|]; pose proof (IH x H); lia).
  eapply Nat.le_trans; [|apply M; apply in_map_iff; exists t; split; [reflexivity|exact T]]. apply M. apply in_map_iff. exists e. auto.
Qed.
Lemma radial_is ts t c r : In t ts -> proper t -> radial (write_atom t) (max_terms ts) c r = V t (Z.of_nat c - 1) r.
Proof.
  intros T PR. unfold radial, V. destruct (find (fun e => Z.eqb (fst e) (Z.of_nat c - 1)) t) as [e|] eqn:F.
  - transitivity (sum (max_terms ts) (fun k => tvalue r (nth k (flat 0 (snd e)) (0, 0, 0%Z)))).
    + apply sum_ext. intros k _. cbv zeta. rewrite (write_atom_is t c PR k), F. unfold overlay. rewrite Nat.eqb_refl, Nat.sub_0_r. cbn [andb Nat.leb Nat.add]. destruct (Nat.ltb_spec k (List.length (flat 0 (snd e)))); [reflexivity|]. rewrite nth_overflow by lia. reflexivity.
    + rewrite sum_list; [apply flat_value|rewrite flat_length; apply (max_terms_ge ts t); [exact T|apply find_some in F; tauto]|unfold tvalue; cbn [fst snd]; ring].
  - apply sum_0. intros k _. cbv zeta. rewrite (write_atom_is t c PR k), F. unfold zeros. cbn [fst snd]. ring.
Qed.

(** ** Nearest cores *)
Definition le_by (w : list R) (i j : nat) : Prop := at_ w i <= at_ w j.
Lemma place_sorted w i : forall l, StronglySorted (le_by w) l -> StronglySorted (le_by w) (place (fun i j => rleb (at_ w i) (at_ w j)) i l).
Proof.
  induction l as [|j l IH]; intros H; cbn [place]; [repeat constructor|]. inversion H as [|? ? S1 F1]; subst.
  destruct (rleb (at_ w i) (at_ w j)) eqn:E.
  - apply rleb_true in E. constructor; [exact H|]. constructor; [exact E|]. eapply List.Forall_impl; [|exact F1]. intros k K. unfold le_by in *. lra.
  - constructor; [apply IH; exact S1|]. apply (Permutation_Forall (Permutation_sym (place_perm _ i l))). constructor; [|exact F1]. unfold le_by. destruct (Rle_dec (at_ w i) (at_ w j)) as [L|L]; [apply rleb_true in L; congruence|lra].
Qed.
Lemma order_sorted w : StronglySorted (le_by w) (order (fun i j => rleb (at_ w i) (at_ w j)) (List.length w)).
Proof. unfold order. induction (seq 0 (List.length w)) as [|i l IH]; cbn [fold_right]; [constructor|apply place_sorted; exact IH]. Qed.
Lemma sorted_split w k : forall l, StronglySorted (le_by w) l -> forall i j, In i (firstn k l) -> In j (skipn k l) -> le_by w i j.
Proof.
  induction k as [|k IH]; intros l S i j I J; [destruct I|]. destruct l as [|x l]; [destruct I|]. inversion S as [|? ? S1 F1]; subst. cbn [firstn skipn] in *.
  destruct I as [-> | I]; [|exact (IH l S1 i j I J)]. eapply List.Forall_forall in F1; [exact F1|]. rewrite <- (firstn_skipn k l). apply in_or_app. auto.
Qed.

(** ** Moments *)
Definition mono_list := list (R * (nat * nat * nat)).
Definition pol (l : mono_list) : fn := fun x y z => fold_right Rplus 0 (map (fun m => fst m * (x ^ fst (fst (snd m)) * y ^ snd (fst (snd m)) * z ^ snd (snd m))) l).
Definition pint (l : mono_list) : R := fold_right Rplus 0 (map (fun m => fst m * mom (fst (fst (snd m))) (snd (fst (snd m))) (snd (snd m))) l).
Lemma pol_is l : sphere_integral (pol l) (pint l).
Proof.
  induction l as [|[k [[a b] c]] l IH].
  - eapply sphere_ext; [|replace (pint []) with (0 * mom 0 0 0) by (cbn; ring); apply (mono_is 0 0 0 0)]. intros x y z. cbn. ring.
  - exact (sphere_plus _ _ _ _ (mono_is k a b c) IH).
Qed.
Lemma mom_values : mom 0 0 0 = 4 * PI /\ mom 2 0 0 = 4 * PI / 3 /\ mom 0 2 0 = 4 * PI / 3 /\ mom 0 0 2 = 4 * PI / 3 /\
  mom 4 0 0 = 4 * PI / 5 /\ mom 0 4 0 = 4 * PI / 5 /\ mom 0 0 4 = 4 * PI / 5 /\ mom 2 2 0 = 4 * PI / 15 /\ mom 2 0 2 = 4 * PI / 15 /\ mom 0 2 2 = 4 * PI / 15.
Proof.
  pose proof (mom_even 0 0 0). pose proof (mom_even 1 0 0). pose proof (mom_even 0 1 0). pose proof (mom_even 0 0 1). pose proof (mom_even 2 0 0). pose proof (mom_even 0 2 0). pose proof (mom_even 0 0 2). pose proof (mom_even 1 1 0). pose proof (mom_even 1 0 1). pose proof (mom_even 0 1 1).
  cbn [Nat.mul Nat.add odds dens INR] in *. repeat split; match goal with E : mom ?a ?b ?c = _ |- mom ?a ?b ?c = _ => rewrite E; field end.
Qed.
Lemma mom_odds a b c : (Nat.odd a || Nat.odd b || Nat.odd c = true)%bool -> mom a b c = 0.
Proof. intros H. apply mom_odd. rewrite !Bool.orb_true_iff, !Nat.odd_spec in H. tauto. Qed.
(** ** The projector *)
Definition proj_ok (l l' : nat) : Prop := forall f n v, harmonic l' f -> vdot n n = 1 ->
  sphere_integral (fun x y z => INR (2 * l + 1) / (4 * PI) * P l (vdot (x, y, z) n) * f x y z) v -> v = if Nat.eqb l l' then at_pt f n else 0.
Ltac by_monos ms := match goal with H : sphere_integral _ ?v |- ?v = _ => let E := fresh in assert (E : sphere_integral (pol ms) v); [eapply sphere_ext; [|exact H]; let x := fresh in let y := fresh in let z := fresh in intros x y z; unfold pol, P, vdot; cbn [map fold_right fst snd INR Nat.mul Nat.add]; field; exact PI_neq0|rewrite (sphere_unique _ _ _ E (pol_is ms)); clear E H] end;
  unfold pint, at_pt; cbn [map fold_right fst snd Nat.eqb]; destruct mom_values as [M0 [M1 [M2 [M3 [M4 [M5 [M6 [M7 [M8 M9]]]]]]]]]; rewrite ?M0, ?M1, ?M2, ?M3, ?M4, ?M5, ?M6, ?M7, ?M8, ?M9; rewrite ?mom_odds by reflexivity; pose proof PI_neq0.
Lemma proj_00 : proj_ok 0 0.
Proof. intros f n v F N H. inversion F; subst. by_monos [(a / (4 * PI), (0, 0, 0)%nat)]. field. assumption. Qed.
Lemma proj_01 : proj_ok 0 1.
Proof. intros f n v F N H. inversion F; subst. by_monos [(a / (4 * PI), (1, 0, 0)%nat); (b / (4 * PI), (0, 1, 0)%nat); (c / (4 * PI), (0, 0, 1)%nat)]. field. assumption. Qed.
Lemma proj_02 : proj_ok 0 2.
Proof. intros f n v F N H. inversion F; subst. by_monos [(a / (4 * PI), (2, 0, 0)%nat); (b / (4 * PI), (0, 2, 0)%nat); (- (a + b) / (4 * PI), (0, 0, 2)%nat); (d / (4 * PI), (1, 1, 0)%nat); (e / (4 * PI), (0, 1, 1)%nat); (f0 / (4 * PI), (1, 0, 1)%nat)]. field. assumption. Qed.
Lemma proj_10 : proj_ok 1 0.
Proof. intros f [[p q] r] v F N H. inversion F; subst. by_monos [(3 * a * p / (4 * PI), (1, 0, 0)%nat); (3 * a * q / (4 * PI), (0, 1, 0)%nat); (3 * a * r / (4 * PI), (0, 0, 1)%nat)]. field. assumption. Qed.
Lemma proj_11 : proj_ok 1 1.
Proof.
  intros f [[p q] r] v F N H. inversion F; subst. by_monos [(3 * a * p / (4 * PI), (2, 0, 0)%nat); (3 * b * q / (4 * PI), (0, 2, 0)%nat); (3 * c * r / (4 * PI), (0, 0, 2)%nat);
   (3 * (a * q + b * p) / (4 * PI), (1, 1, 0)%nat); (3 * (b * r + c * q) / (4 * PI), (0, 1, 1)%nat); (3 * (a * r + c * p) / (4 * PI), (1, 0, 1)%nat)]. field. assumption.
Qed.
Lemma proj_12 : proj_ok 1 2.
Proof.
  intros f [[p q] r] v F N H. inversion F; subst. rename f0 into g. set (k := 3 / (4 * PI)).
  by_monos [(3 / (4 * PI) * (p * a), (3, 0, 0)%nat); (3 / (4 * PI) * (q * b), (0, 3, 0)%nat); (3 / (4 * PI) * (r * - (a + b)), (0, 0, 3)%nat);
   (3 / (4 * PI) * (p * d + q * a), (2, 1, 0)%nat); (3 / (4 * PI) * (p * b + q * d), (1, 2, 0)%nat); (3 / (4 * PI) * (q * e + r * b), (0, 2, 1)%nat); (3 / (4 * PI) * (q * - (a + b) + r * e), (0, 1, 2)%nat);
   (3 / (4 * PI) * (p * g + r * a), (2, 0, 1)%nat); (3 / (4 * PI) * (p * - (a + b) + r * g), (1, 0, 2)%nat); (3 / (4 * PI) * (p * e + q * g + r * d), (1, 1, 1)%nat)]. field. assumption.
Qed.
Lemma proj_20 : proj_ok 2 0.
Proof.
  intros f [[p q] r] v F N H. inversion F; subst. unfold vdot in N; cbn [fst snd] in N.
  by_monos [(5 / (4 * PI) * (3 / 2 * (p * p) * a), (2, 0, 0)%nat); (5 / (4 * PI) * (3 / 2 * (q * q) * a), (0, 2, 0)%nat); (5 / (4 * PI) * (3 / 2 * (r * r) * a), (0, 0, 2)%nat);
   (5 / (4 * PI) * (3 * p * q * a), (1, 1, 0)%nat); (5 / (4 * PI) * (3 * q * r * a), (0, 1, 1)%nat); (5 / (4 * PI) * (3 * p * r * a), (1, 0, 1)%nat); (- (5 / (4 * PI) * (a / 2)), (0, 0, 0)%nat)].
  match goal with |- ?x = 0 => transitivity (5 / 2 * a * ((p * p + q * q + r * r) - 1)) end; [field; assumption|rewrite N; ring].
Qed.
Lemma proj_21 : proj_ok 2 1.
Proof.
  intros f [[p q] r] v F N H. inversion F; subst.
  by_monos [(5 / (4 * PI) * (3 / 2) * (p * p * a), (3, 0, 0)%nat); (5 / (4 * PI) * (3 / 2) * (q * q * b), (0, 3, 0)%nat); (5 / (4 * PI) * (3 / 2) * (r * r * c), (0, 0, 3)%nat);
   (5 / (4 * PI) * (3 / 2) * (p * p * b + 2 * p * q * a), (2, 1, 0)%nat); (5 / (4 * PI) * (3 / 2) * (q * q * a + 2 * p * q * b), (1, 2, 0)%nat);
   (5 / (4 * PI) * (3 / 2) * (q * q * c + 2 * q * r * b), (0, 2, 1)%nat); (5 / (4 * PI) * (3 / 2) * (r * r * b + 2 * q * r * c), (0, 1, 2)%nat);
   (5 / (4 * PI) * (3 / 2) * (p * p * c + 2 * p * r * a), (2, 0, 1)%nat); (5 / (4 * PI) * (3 / 2) * (r * r * a + 2 * p * r * c), (1, 0, 2)%nat);
   (5 / (4 * PI) * (3 / 2) * (2 * p * q * c + 2 * q * r * a + 2 * p * r * b), (1, 1, 1)%nat);
   (- (5 / (4 * PI) * (a / 2)), (1, 0, 0)%nat); (- (5 / (4 * PI) * (b / 2)), (0, 1, 0)%nat); (- (5 / (4 * PI) * (c / 2)), (0, 0, 1)%nat)]. field. assumption.
Qed.
Lemma proj_22 : proj_ok 2 2.
Proof.
  intros f [[p q] r] v F N H. inversion F; subst. rename f0 into g.
  by_monos [(15 / (8 * PI) * (p * p * a), (4, 0, 0)%nat); (15 / (8 * PI) * (q * q * b), (0, 4, 0)%nat); (15 / (8 * PI) * (r * r * - (a + b)), (0, 0, 4)%nat);
   (15 / (8 * PI) * (p * p * b + q * q * a + 2 * p * q * d), (2, 2, 0)%nat); (15 / (8 * PI) * (q * q * - (a + b) + r * r * b + 2 * q * r * e), (0, 2, 2)%nat); (15 / (8 * PI) * (p * p * - (a + b) + r * r * a + 2 * p * r * g), (2, 0, 2)%nat);
   (15 / (8 * PI) * (p * p * d + 2 * p * q * a), (3, 1, 0)%nat); (15 / (8 * PI) * (q * q * d + 2 * p * q * b), (1, 3, 0)%nat);
   (15 / (8 * PI) * (q * q * e + 2 * q * r * b), (0, 3, 1)%nat); (15 / (8 * PI) * (r * r * e + 2 * q * r * - (a + b)), (0, 1, 3)%nat);
   (15 / (8 * PI) * (p * p * g + 2 * p * r * a), (3, 0, 1)%nat); (15 / (8 * PI) * (r * r * g + 2 * p * r * - (a + b)), (1, 0, 3)%nat);
   (15 / (8 * PI) * (p * p * e + 2 * q * r * a + 2 * p * q * g + 2 * p * r * d), (2, 1, 1)%nat); (15 / (8 * PI) * (q * q * g + 2 * p * r * b + 2 * p * q * e + 2 * q * r * d), (1, 2, 1)%nat); (15 / (8 * PI) * (r * r * d + 2 * p * q * - (a + b) + 2 * q * r * g + 2 * p * r * e), (1, 1, 2)%nat);
   (- (5 / (8 * PI) * a), (2, 0, 0)%nat); (- (5 / (8 * PI) * b), (0, 2, 0)%nat); (5 / (8 * PI) * (a + b), (0, 0, 2)%nat); (- (5 / (8 * PI) * d), (1, 1, 0)%nat); (- (5 / (8 * PI) * e), (0, 1, 1)%nat); (- (5 / (8 * PI) * g), (1, 0, 1)%nat)].
  field. assumption.
Qed.
Lemma proj_all l l' : (l <= 2)%nat -> (l' <= 2)%nat -> proj_ok l l'.
Proof.
  intros A B. destruct l as [|[|[|l]]]; [| | |lia]; (destruct l' as [|[|[|l']]]; [| | |lia]).
  - apply proj_00. - apply proj_01. - apply proj_02. - apply proj_10. - apply proj_11. - apply proj_12. - apply proj_20. - apply proj_21. - apply proj_22.
Qed.
