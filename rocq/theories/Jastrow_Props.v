(** C68: the electron-electron Jastrow factor. *)
From Coq Require Import Reals List Arith Bool Lra Lia.
From Coquelicot Require Import Coquelicot.
From Verif Require Import Lin Geom_Model Wf_Model Wf_Spec Wf_Lemmas.
Import ListNotations.
Open Scope R_scope.

(** ** Specification *)
(** electrons of equal spin: cusp 1/4 and the parallel parameter; otherwise 1/2 and the other parameter *)
Definition spin_up (ns : nat * nat) (i : nat) : bool := Nat.ltb i (fst ns).
Definition kato (ns : nat * nat) (i j : nat) : R := if Bool.eqb (spin_up ns i) (spin_up ns j) then 1 / 4 else 1 / 2.
Definition range_of (ns : nat * nat) (apar aanti : R) (i j : nat) : R := if Bool.eqb (spin_up ns i) (spin_up ns j) then apar else aanti.
(** f(r) = - c a^2 / (a + r), summed over the pairs i < j of n electrons *)
Definition f (c a r : R) : R := - c * a ^ 2 / (a + r).
Definition pair_sum (n : nat) (g : nat -> nat -> R) : R := sum n (fun i => sum n (fun j => if Nat.ltb i j then g i j else 0)).

(** ** Sums over lists *)
Lemma rsum_app l l' : rsum (l ++ l') = rsum l + rsum l'.
Proof. induction l as [|x l IH]; cbn [app rsum fold_right] in *; [unfold rsum; simpl; lra|]. unfold rsum in *. simpl. lra. Qed.
Lemma rsum_seq lo n g : rsum (map g (seq lo n)) = sum n (fun i => g (lo + i)%nat).
Proof.
  induction n as [|n IH]; [reflexivity|]. rewrite seq_S, map_app, rsum_app, IH. cbn [map sum]. unfold rsum. simpl. lra.
Qed.
Lemma rsum_concat {A} (g : A -> R) ll : rsum (map g (concat ll)) = rsum (map (fun l => rsum (map g l)) ll).
Proof. induction ll as [|l ll IH]; [reflexivity|]. cbn [concat map]. rewrite map_app, rsum_app, IH. reflexivity. Qed.
Lemma sum_app a b g : sum (a + b) g = sum a g + sum b (fun i => g (a + i)%nat).
Proof. induction b as [|b IH]; [rewrite Nat.add_0_r; simpl; lra|]. rewrite Nat.add_succ_r. cbn [sum]. rewrite IH. lra. Qed.
Lemma sum_triangle len i (h : nat -> R) : (i < len)%nat -> sum (len - S i) (fun j => h (S i + j)%nat) = sum len (fun j => if Nat.ltb i j then h j else 0).
Proof.
  intros H. replace len with (S i + (len - S i))%nat at 2 by lia. rewrite sum_app. rewrite (sum_0 (S i)).
  - rewrite Rplus_0_l. apply sum_ext. intros j _. destruct (Nat.ltb_spec i (S i + j)); [reflexivity|lia].
  - intros j Hj. destruct (Nat.ltb_spec i j); [lia|reflexivity].
Qed.
Lemma rsum_upper lo len g : rsum (map (fun p => g (fst p) (snd p)) (upper_pairs lo len)) = sum len (fun i => sum len (fun j => if Nat.ltb i j then g (lo + i)%nat (lo + j)%nat else 0)).
Proof.
  unfold upper_pairs. rewrite rsum_concat, map_map, rsum_seq. apply sum_ext. intros i Hi. rewrite map_map. cbn [fst snd].
  rewrite (rsum_seq (S (lo + i)) _ (fun j => g (lo + i)%nat j)). rewrite <- (sum_triangle len i (fun j => g (lo + i)%nat (lo + j)%nat) Hi).
  replace (lo + len - S (lo + i))%nat with (len - S i)%nat by lia. apply sum_ext. intros j _. f_equal. lia.
Qed.
Lemma rsum_prod a b g : rsum (map (fun p : nat * nat => g (fst p) (snd p)) (list_prod (seq 0 a) (seq a b))) = sum a (fun i => sum b (fun j => g i (a + j)%nat)).
Proof.
  assert (G : forall l l', rsum (map (fun p : nat * nat => g (fst p) (snd p)) (list_prod l l')) = rsum (map (fun i => rsum (map (g i) l')) l)).
  { induction l as [|x l IH]; intros l'; [reflexivity|]. cbn [list_prod map]. rewrite map_app, rsum_app, IH, map_map. reflexivity. }
  rewrite G, rsum_seq. apply sum_ext. intros i _. rewrite rsum_seq. reflexivity.
Qed.

(** Every unordered pair counts once, with the coefficient and parameter of its spins. *)
Theorem C68_pairs : forall ns apar aanti r,
  jastrow ns apar aanti r = pair_sum (fst ns + snd ns) (fun i j => f (kato ns i j) (range_of ns apar aanti i j) (r i j)).
Proof.
  intros [u d] apar aanti r. unfold jastrow. cbn [fst snd]. rewrite map_app, rsum_app.
  rewrite (rsum_upper 0 _ (fun i j => cusp (/ 4) apar (r i j))), (rsum_upper _ _ (fun i j => cusp (/ 4) apar (r i j))), (rsum_prod u d (fun i j => cusp (/ 2) aanti (r i j))).
  cbn [fst snd].
  set (g := fun i j => f (kato (u, d) i j) (range_of (u, d) apar aanti i j) (r i j)).
  unfold pair_sum. rewrite (sum_app u d (fun i => sum (u + d) (fun j => if Nat.ltb i j then g i j else 0))).
  assert (CU : forall c a x, cusp c a x = f c a x) by (intros; unfold cusp, f; simpl; unfold Rdiv; ring).
  rewrite (sum_ext u (fun i => sum (u + d) (fun j => if Nat.ltb i j then g i j else 0)) (fun i => sum u (fun j => if Nat.ltb i j then cusp (/ 4) apar (r (0 + i)%nat (0 + j)%nat) else 0) + sum d (fun j => cusp (/ 2) aanti (r i (u + j)%nat)))).
  - rewrite sum_plus. rewrite (sum_ext d (fun i => sum (u + d) (fun j => if Nat.ltb (u + i) j then g (u + i)%nat j else 0)) (fun i => sum d (fun j => if Nat.ltb i j then cusp (/ 4) apar (r (u + i)%nat (u + j)%nat) else 0))); [lra|].
    intros i Hi. rewrite sum_app. rewrite (sum_0 u); [|intros j Hj; destruct (Nat.ltb_spec (u + i) j); [lia|reflexivity]]. rewrite Rplus_0_l. apply sum_ext. intros j Hj.
    destruct (Nat.ltb_spec i j), (Nat.ltb_spec (u + i) (u + j)); try lia; [|reflexivity]. unfold g, kato, range_of, spin_up. cbn [fst].
    destruct (Nat.ltb_spec (u + i) u), (Nat.ltb_spec (u + j) u); try lia. cbn. rewrite CU. f_equal. lra.
  - intros i Hi. rewrite sum_app. f_equal; apply sum_ext; intros j Hj.
    + cbn [Nat.add]. destruct (Nat.ltb_spec i j); [|reflexivity]. unfold g, kato, range_of, spin_up. cbn [fst]. destruct (Nat.ltb_spec i u), (Nat.ltb_spec j u); try lia. cbn. rewrite CU. f_equal. lra.
    + destruct (Nat.ltb_spec i (u + j)); [|lia]. unfold g, kato, range_of, spin_up. cbn [fst]. destruct (Nat.ltb_spec i u), (Nat.ltb_spec (u + j) u); try lia. cbn. rewrite CU. f_equal. lra.
Qed.

Lemma f_derive c a x : a + x <> 0 -> is_derive (f c a) x (c * a ^ 2 / (a + x) ^ 2).
Proof. intros H. unfold f. auto_derive; [exact H|]. field. exact H. Qed.
(** distances with that of one pair changed *)
Definition with_distance (r : nat -> nat -> R) (a b : nat) (x : R) : nat -> nat -> R := fun i j => if Nat.eqb i a && Nat.eqb j b then x else r i j.
Lemma sum_single n k (g h : nat -> R) : (k < n)%nat -> (forall i, (i < n)%nat -> i <> k -> g i = h i) -> sum n g = sum n h + (g k - h k).
Proof.
  induction n as [|n IH]; intros K E; [lia|]. cbn [sum]. destruct (Nat.eq_dec k n) as [->|N].
  - rewrite (sum_ext n g h) by (intros; apply E; lia). lra.
  - rewrite IH by (auto; lia). rewrite (E n) by lia. lra.
Qed.
Lemma pair_sum_single n a b (g h : nat -> nat -> R) : (a < b < n)%nat -> (forall i j, ~ (i = a /\ j = b) -> g i j = h i j) -> pair_sum n g = pair_sum n h + (g a b - h a b).
Proof.
  intros AB E. unfold pair_sum. rewrite (sum_single n a _ (fun i => sum n (fun j => if Nat.ltb i j then h i j else 0))); [|lia|].
  - f_equal. rewrite (sum_single n b (fun j => if Nat.ltb a j then g a j else 0) (fun j => if Nat.ltb a j then h a j else 0)); [|lia|].
    + destruct (Nat.ltb_spec a b); [lra|lia].
    + intros j _ N. rewrite (E a j) by tauto. reflexivity.
  - intros i _ N. apply sum_ext. intros j _. rewrite (E i j) by tauto. reflexivity.
Qed.
(** As two electrons meet, the logarithm of the factor has slope 1/4 (equal spin) or 1/2 in their distance, whatever
    the other distances and the (non-zero) parameters. *)
Theorem C68_cusp : forall ns apar aanti r a b, (a < b < fst ns + snd ns)%nat -> apar <> 0 -> aanti <> 0 ->
  is_derive (fun x => jastrow ns apar aanti (with_distance r a b x)) 0 (kato ns a b).
Proof.
  intros ns apar aanti r a b AB P Q. set (al := range_of ns apar aanti a b). assert (AL : al <> 0) by (unfold al, range_of; destruct (Bool.eqb _ _); auto).
  apply (is_derive_ext (fun x => (jastrow ns apar aanti (with_distance r a b 0) - f (kato ns a b) al 0) + f (kato ns a b) al x)).
  - intros x. rewrite !C68_pairs. rewrite (pair_sum_single _ a b (fun i j => f (kato ns i j) (range_of ns apar aanti i j) (with_distance r a b x i j)) (fun i j => f (kato ns i j) (range_of ns apar aanti i j) (with_distance r a b 0 i j)) AB).
    + assert (W : forall y, with_distance r a b y a b = y) by (intros; unfold with_distance; rewrite !Nat.eqb_refl; reflexivity). cbv beta. rewrite !W. fold al.
      match goal with |- ?p = ?q => change (@eq R p q) end. lra.
    + intros i j N. unfold with_distance. destruct (Nat.eqb_spec i a), (Nat.eqb_spec j b); cbn [andb]; auto. tauto.
  - set (J0 := jastrow ns apar aanti (with_distance r a b 0) - f (kato ns a b) al 0). set (c := kato ns a b). unfold f.
    auto_derive; [lra|]. field. exact AL.
Qed.
(** ** The factor in the wavefunctions *)
Definition separation (d : nat) (e : nat -> Lin.vec) (i j : nat) : R := sqrt (sum d (fun k => (e i k - e j k) ^ 2)).
Definition factor (ns : nat * nat) (p : R * R) (d : nat) (e : nat -> Lin.vec) : R :=
  exp (pair_sum (fst ns + snd ns) (fun i j => f (kato ns i j) (range_of ns (fst p) (snd p) i j) (separation d e i j))).
Lemma ee_dist_separation d e i j : i <> j -> ee_dist d e i j = separation d e i j.
Proof.
  intros N. unfold ee_dist, ee_disp, separation, norm, delta. destruct (Nat.eqb_spec i j) as [|_]; [contradiction|].
  rewrite Rminus_0_r, Rmult_1_r. f_equal. unfold dot. apply sum_ext. intros k _. ring.
Qed.
Lemma jastrow_factor ns p d e : exp (jastrow ns (fst p) (snd p) (ee_dist d e)) = factor ns p d e.
Proof.
  unfold factor. f_equal. rewrite C68_pairs. unfold pair_sum. apply sum_ext. intros i _. apply sum_ext. intros j _.
  destruct (Nat.ltb_spec i j); [|reflexivity]. rewrite ee_dist_separation by lia. reflexivity.
Qed.
Lemma plus_jastrow_psi o v : psi (plus_jastrow o (Some v)) = option_map (fun x => x * exp v) (psi o).
Proof.
  destruct o as [[s|] [l| |]]; unfold psi; cbn; try reflexivity; f_equal; [rewrite exp_plus|]; ring.
Qed.
(** With the Jastrow factor, psi is exp of the pair sum over the distances times psi of the same network without it (and is not a
    number where that is not). *)
Theorem C68_psiformer_factor : forall ns c bb p d na e atoms,
  psi (psiformer_wf ns {| pf_common := c; pf_backbone := bb; pf_jastrow := Some p |} d na e atoms) =
  option_map (fun x => x * factor ns p d e) (psi (psiformer_wf ns {| pf_common := c; pf_backbone := bb; pf_jastrow := None |} d na e atoms)).
Proof. intros. unfold psiformer_wf. cbn [pf_common pf_backbone pf_jastrow ee_jastrow option_map]. rewrite plus_jastrow_psi, jastrow_factor. reflexivity. Qed.
Theorem C68_lapnet_factor : forall ns c bb p d na e atoms,
  psi (lapnet_wf ns {| lp_common := c; lp_backbone := bb; lp_jastrow := Some p |} d na e atoms) =
  option_map (fun x => x * factor ns p d e) (psi (lapnet_wf ns {| lp_common := c; lp_backbone := bb; lp_jastrow := None |} d na e atoms)).
Proof. intros. unfold lapnet_wf. cbn [lp_common lp_backbone lp_jastrow ee_jastrow option_map]. rewrite plus_jastrow_psi, jastrow_factor. reflexivity. Qed.
(** With positive parameters the factor is bounded: each pair contributes between - c a and 0, growing with distance. *)
Theorem C68_positive_bounded : forall c a r r', 0 < c -> 0 < a -> 0 <= r <= r' -> - (c * a) <= f c a r <= f c a r' /\ f c a r' < 0.
Proof.
  intros c a r r' C A [R RR]. assert (I : 0 < / (a + r') <= / (a + r)). { split; [apply Rinv_0_lt_compat; lra|apply Rinv_le_contravar; lra]. }
  assert (I2 : / (a + r) <= / a) by (apply Rinv_le_contravar; lra). assert (CA : 0 < c * a ^ 2) by (apply Rmult_lt_0_compat; [lra|apply pow_lt; lra]).
  assert (E : c * a ^ 2 * / a = c * a) by (field; lra). unfold f, Rdiv. split; [split|]; nra.
Qed.
(** The parameter is a free weight of the network: when training makes it negative the factor has a pole at a positive
    distance, where it exceeds every bound. *)
Theorem C68_negative_parameter_refuted : forall a c bound, a < 0 -> 0 < c -> exists r, 0 < r /\ bound < f c a r.
Proof.
  intros a c bound A C. set (B := Rmax bound 1). assert (B1 : 1 <= B) by apply Rmax_r. assert (B2 : bound <= B) by apply Rmax_l.
  set (k := c * a ^ 2). assert (K : 0 < k) by (unfold k; apply Rmult_lt_0_compat; [lra|]; simpl; nra).
  set (e := Rmin (- a / 2) (k / (2 * B))).
  assert (E0 : 0 < e). { unfold e. apply Rmin_glb_lt; [lra|]. apply Rdiv_lt_0_compat; lra. }
  assert (E1 : e <= - a / 2) by apply Rmin_l. assert (E2 : e <= k / (2 * B)) by apply Rmin_r.
  exists (- a - e). split; [lra|]. unfold f. replace (- c * a ^ 2 / (a + (- a - e))) with (k / e) by (unfold k; field; lra).
  apply Rle_lt_trans with B; [exact B2|]. apply Rmult_lt_reg_r with e; [exact E0|]. unfold Rdiv. rewrite Rmult_assoc, Rinv_l by lra. 
  apply Rle_lt_trans with (B * (k / (2 * B))); [apply Rmult_le_compat_l; lra|]. replace (B * (k / (2 * B))) with (k / 2) by (field; lra). lra.
Qed.
(** Two up and one down electron, both parameters 1: pairs (0,1) parallel, (0,2) and (1,2) antiparallel. *)
Example C68_example : jastrow (2, 1)%nat 1 1 (fun i j => INR (i + j)) = - (1 / 4) / 2 - (1 / 2) / 3 - (1 / 2) / 4 /\
  is_derive (fun x => jastrow (2, 1)%nat 1 1 (with_distance (fun _ _ => 3) 0 2 x)) 0 (1 / 2).
Proof.
  split.
  - rewrite C68_pairs. unfold pair_sum, f, kato, range_of, spin_up. cbn [fst snd Nat.add sum Nat.ltb Nat.leb Bool.eqb INR]. field.
  - apply (C68_cusp (2, 1)%nat 1 1 (fun _ _ => 3) 0 2); cbn; lia || lra.
Qed.
