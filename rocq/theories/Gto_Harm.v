(** The solid harmonics of the code are the polynomials of the specification, homogeneous and harmonic. *)
From Coq Require Import Reals List Arith Lra Lia ZArith Factorial.
From Coquelicot Require Import Coquelicot.
From Verif Require Import Lin Wf_Model Wf_Logdet Gto_Model Gto_Spec.
Import ListNotations.
Open Scope R_scope.

Lemma atan2_spec y x : let s := sqrt (x * x + y * y) in s * cos (atan2 y x) = x /\ s * sin (atan2 y x) = y /\ (s = 0 -> atan2 y x = 0).
Proof.
  cbv zeta. assert (D : (x = 0 /\ y = 0) \/ (x, y) <> RtoC 0).
  { destruct (Req_dec x 0) as [->|N]; [destruct (Req_dec y 0) as [->|N]; [left; auto|right]|right]; intros E; injection E; intros; lra. }
  destruct D as [[-> ->]|N].
  - replace (0 * 0 + 0 * 0) with 0 by ring. rewrite sqrt_0. unfold atan2. destruct (Req_EM_T 0 0); [|lra]. repeat split; lra.
  - assert (A : atan2 y x = carg (x, y)).
    { unfold atan2. destruct (Req_EM_T x 0) as [->|]; [|reflexivity]. destruct (Req_EM_T y 0) as [->|]; [exfalso; apply N; reflexivity|reflexivity]. }
    rewrite A. pose proof (carg_spec _ N) as S. pose proof (proj1 (Cmod_gt_0 _) N) as P. 
    assert (M : Cmod (x, y) = sqrt (x * x + y * y)) by (unfold Cmod; cbn [fst snd]; f_equal; ring).
    rewrite M in *. unfold Cdiv in S. rewrite <- RtoC_inv in S by lra. unfold RtoC, Cmult in S. cbn [fst snd] in S. injection S. intros E1 E2.
    rewrite E1, E2. set (s := sqrt (x * x + y * y)) in *. repeat split; try (field; lra). intros Z. lra.
Qed.
Lemma angle_power s phi x y m : s * cos phi = x -> s * sin phi = y ->
  s ^ m * cos (INR m * phi) = re_pow m x y /\ s ^ m * sin (INR m * phi) = im_pow m x y.
Proof.
  intros A B. induction m as [|m [IH1 IH2]].
  - simpl INR. replace (0 * phi) with 0 by ring. rewrite cos_0, sin_0. simpl. split; ring.
  - rewrite S_INR. replace ((INR m + 1) * phi) with (INR m * phi + phi) by ring. rewrite cos_plus, sin_plus. cbn [re_pow im_pow pow].
    rewrite <- IH1, <- IH2, <- A, <- B. split; ring.
Qed.
Lemma dfact_odd m : dfact m = odd_factorial m.
Proof. induction m as [|m IH]; simpl; [reflexivity|]. rewrite IH. reflexivity. Qed.
Lemma legendre_zonal rho x sq s z m k : rho * x = z -> rho * sq = s ->
  let '(p, q) := legendre_pair m x sq k in
  let '(P, Q) := zonal_pair m z (rho * rho) k in
  rho ^ (m + k) * p = (-1) ^ m * s ^ m * P /\ rho ^ (m + k) * rho * q = rho * rho * ((-1) ^ m * s ^ m * Q).
Proof.
  intros A B. induction k as [|k IH].
  - cbn [legendre_pair zonal_pair]. rewrite Nat.add_0_r, dfact_odd. split; [|ring]. rewrite <- B, Rpow_mult_distr. ring.
  - cbn [legendre_pair zonal_pair]. destruct (legendre_pair m x sq k) as [p q], (zonal_pair m z (rho * rho) k) as [P Q]. destruct IH as [I1 I2].
    rewrite <- plus_n_Sm. cbn [pow]. pose proof (pos_INR k). split.
    + replace (rho * rho ^ (m + k) * (((2 * (INR m + INR k) + 1) * x * p - (INR m + INR k + INR m) * q) / (INR k + 1)))
        with (((2 * (INR m + INR k) + 1) * (rho * x) * (rho ^ (m + k) * p) - (INR m + INR k + INR m) * (rho ^ (m + k) * rho * q)) / (INR k + 1)) by (field; lra).
      rewrite A, I1, I2. field. lra.
    + replace (rho * rho ^ (m + k) * rho * p) with (rho * rho * (rho ^ (m + k) * p)) by ring. rewrite I1. ring.
Qed.

Lemma norm3_sq r : norm 3 r * norm 3 r = r 0%nat * r 0%nat + r 1%nat * r 1%nat + r 2%nat * r 2%nat.
Proof. unfold norm, dot. simpl. rewrite sqrt_sqrt; [ring|]. nra. Qed.
Lemma polar r rho phi theta : cart2sph r = (rho, phi, theta) ->
  let s := norm 2 r in
  rho * rho = r 0%nat * r 0%nat + r 1%nat * r 1%nat + r 2%nat * r 2%nat /\ rho * cos theta = r 2%nat /\ rho * sqrt (1 - cos theta * cos theta) = s /\
  s * cos phi = r 0%nat /\ s * sin phi = r 1%nat.
Proof.
  unfold cart2sph. intros E. injection E. intros <- <- <-. cbv zeta.
  assert (S2 : norm 2 r = sqrt (r 0%nat * r 0%nat + r 1%nat * r 1%nat)) by (unfold norm, dot; simpl; f_equal; ring).
  pose proof (atan2_spec (r 1%nat) (r 0%nat)) as (P1 & P2 & _). rewrite <- S2 in P1, P2.
  pose proof (atan2_spec (norm 2 r) (r 2%nat)) as (T1 & T2 & T3).
  assert (S3 : sqrt (r 2%nat * r 2%nat + norm 2 r * norm 2 r) = norm 3 r).
  { rewrite S2, sqrt_sqrt by nra. unfold norm, dot. simpl. f_equal. ring. }
  rewrite S3 in *. set (th := atan2 (norm 2 r) (r 2%nat)) in *. split; [apply norm3_sq|]. split; [exact T1|]. split; [|auto].
  assert (SN : 0 <= norm 2 r) by (rewrite S2; apply sqrt_pos). assert (RN : 0 <= norm 3 r) by (unfold norm; apply sqrt_pos).
  replace (1 - cos th * cos th) with (sin th * sin th) by (pose proof (sin2_cos2 th) as Q; unfold Rsqr in Q; lra).
  destruct (Req_dec (norm 3 r) 0) as [Z|NZ].
  - rewrite Z in *. rewrite <- T2. ring.
  - rewrite sqrt_square; [exact T2|]. apply Rmult_le_reg_l with (norm 3 r); [lra|]. rewrite T2. lra.
Qed.

Lemma nth_rev_app {A} (neg : list A) z pos d k : (k < length neg)%nat -> nth k (rev neg ++ z ++ pos) d = nth (length neg - 1 - k) neg d.
Proof. intros H. rewrite app_nth1 by (rewrite rev_length; auto). rewrite rev_nth by auto. f_equal. lia. Qed.

(** Row m + l_max, column l of the table of solid harmonics is the polynomial of degree l and order m. *)
Theorem solid_harmonic_entry : forall r lm l m, (l <= lm)%nat -> (Z.abs m <= Z.of_nat l)%Z ->
  (nth (Z.to_nat (m + Z.of_nat lm)) (solid_harmonic r lm) (fun _ => 0)) l = solid l m (r 0%nat) (r 1%nat) (r 2%nat).
Proof.
  intros r lm l m L M. unfold solid_harmonic. destruct (cart2sph r) as [[rho phi] theta] eqn:C.
  destruct (polar r rho phi theta C) as (P0 & P1 & P2 & P3 & P4). set (s := norm 2 r) in *.
  assert (LEN : length (harmonic_rows r lm) = (2 * lm + 1)%nat).
  { unfold harmonic_rows. rewrite C. rewrite !app_length, rev_length, !map_length, seq_length. simpl. lia. }
  rewrite (nth_indep _ _ ((fun h l => h l * rho ^ l) (fun _ => 0))) by (rewrite map_length, LEN; lia).
  rewrite (map_nth (fun (h : nat -> R) l => h l * rho ^ l)). unfold harmonic_rows. rewrite C.
  assert (K : forall a, (a <= l)%nat -> lpmn a l (cos theta) * rho ^ l = sphere_factor l a * ((-1) ^ a * s ^ a * zonal l a (r 2%nat) (rho * rho))).
  { intros a Ha. unfold lpmn, legendre, zonal. destruct (Nat.leb_spec a l); [|lia].
    pose proof (legendre_zonal rho (cos theta) (sqrt (1 - cos theta * cos theta)) s (r 2%nat) a (l - a) P1 P2) as Q.
    destruct (legendre_pair _ _ _ _) as [p q], (zonal_pair _ _ _ _) as [PP QQ]. destruct Q as [Q _]. cbn [fst].
    replace (a + (l - a))%nat with l in Q by lia. unfold sph_norm, sphere_factor. set (N := sqrt _). replace (N * p * rho ^ l) with (N * (rho ^ l * p)) by ring. rewrite Q. ring. }
  assert (SG : forall a, (-1) ^ a * (-1) ^ a = 1).
  { intros a. rewrite <- Rpow_mult_distr. replace (-1 * -1) with 1 by ring. apply pow1. }
  rewrite P0 in K. destruct m as [|p|p].
  - replace (Z.to_nat (0 + Z.of_nat lm)) with lm by lia. rewrite app_nth2 by (rewrite rev_length, map_length, seq_length; lia).
    rewrite rev_length, map_length, seq_length, Nat.sub_diag. cbn [nth app]. rewrite (K 0%nat) by lia. unfold solid. cbn [Z.abs_nat pow]. ring.
  - set (a := Pos.to_nat p). assert (Ha : (1 <= a <= l)%nat) by (unfold a; lia).
    replace (Z.to_nat (Z.pos p + Z.of_nat lm)) with (lm + a)%nat by (unfold a; lia).
    rewrite app_nth2 by (rewrite rev_length, map_length, seq_length; lia). rewrite rev_length, map_length, seq_length.
    replace (lm + a - lm)%nat with (S (a - 1)) by lia. cbn [nth app].
    rewrite (nth_indep _ _ ((fun m l => sqrt 2 * (lpmn m l (cos theta) * cos (INR m * phi)) * (-1) ^ m) 0%nat)) by (rewrite map_length, seq_length; lia).
    rewrite (map_nth (fun m l => sqrt 2 * (lpmn m l (cos theta) * cos (INR m * phi)) * (-1) ^ m)). rewrite seq_nth by lia. replace (1 + (a - 1))%nat with a by lia.
    unfold solid. change (Z.abs_nat (Z.pos p)) with a. destruct (angle_power s phi _ _ a P3 P4) as [E _]. rewrite <- E.
    replace (sqrt 2 * (lpmn a l (cos theta) * cos (INR a * phi)) * (-1) ^ a * rho ^ l)
      with (sqrt 2 * cos (INR a * phi) * (-1) ^ a * (lpmn a l (cos theta) * rho ^ l)) by ring.
    rewrite (K a) by lia. set (Zn := zonal _ _ _ _). set (Sf := sphere_factor _ _).
    replace (sqrt 2 * cos (INR a * phi) * (-1) ^ a * (Sf * ((-1) ^ a * s ^ a * Zn))) with ((-1) ^ a * (-1) ^ a * (sqrt 2 * cos (INR a * phi) * (Sf * (s ^ a * Zn)))) by ring.
    rewrite SG. ring.
  - set (a := Pos.to_nat p). assert (Ha : (1 <= a <= l)%nat) by (unfold a; lia).
    replace (Z.to_nat (Z.neg p + Z.of_nat lm)) with (lm - a)%nat by (unfold a; lia).
    rewrite nth_rev_app by (rewrite map_length, seq_length; lia). rewrite map_length, seq_length. replace (lm - 1 - (lm - a))%nat with (a - 1)%nat by lia.
    rewrite (nth_indep _ _ ((fun m l => sqrt 2 * (lpmn m l (cos theta) * sin (INR m * phi) * (-1) ^ m)) 0%nat)) by (rewrite map_length, seq_length; lia).
    rewrite (map_nth (fun m l => sqrt 2 * (lpmn m l (cos theta) * sin (INR m * phi) * (-1) ^ m))). rewrite seq_nth by lia. replace (1 + (a - 1))%nat with a by lia.
    unfold solid. change (Z.abs_nat (Z.neg p)) with a. destruct (angle_power s phi _ _ a P3 P4) as [_ E]. rewrite <- E.
    replace (sqrt 2 * (lpmn a l (cos theta) * sin (INR a * phi) * (-1) ^ a) * rho ^ l)
      with (sqrt 2 * sin (INR a * phi) * (-1) ^ a * (lpmn a l (cos theta) * rho ^ l)) by ring.
    rewrite (K a) by lia. set (Zn := zonal _ _ _ _). set (Sf := sphere_factor _ _).
    replace (sqrt 2 * sin (INR a * phi) * (-1) ^ a * (Sf * ((-1) ^ a * s ^ a * Zn))) with ((-1) ^ a * (-1) ^ a * (sqrt 2 * sin (INR a * phi) * (Sf * (s ^ a * Zn)))) by ring.
    rewrite SG. ring.
Qed.

(** ** Homogeneity *)
Lemma pow_scale m t x y : re_pow m (t * x) (t * y) = t ^ m * re_pow m x y /\ im_pow m (t * x) (t * y) = t ^ m * im_pow m x y.
Proof. induction m as [|m [I J]]; cbn [re_pow im_pow pow]; [split; ring|]. rewrite I, J. split; ring. Qed.
Lemma zonal_scale m t z w k :
  let '(P, Q) := zonal_pair m (t * z) (t * t * w) k in let '(P', Q') := zonal_pair m z w k in
  P = t ^ k * P' /\ t * Q = t ^ k * Q'.
Proof.
  induction k as [|k IH]; cbn [zonal_pair]; [simpl; split; ring|]. destruct (zonal_pair m (t * z) (t * t * w) k) as [P Q], (zonal_pair m z w k) as [P' Q'].
  destruct IH as [I J]. pose proof (pos_INR k). cbn [pow]. split; [|rewrite I; ring].
  replace (t * t * w * Q) with (t * w * (t * Q)) by ring. rewrite I, J. field. lra.
Qed.
Theorem solid_homogeneous : forall l m t x y z, (Z.abs m <= Z.of_nat l)%Z -> solid l m (t * x) (t * y) (t * z) = t ^ l * solid l m x y z.
Proof.
  intros l m t x y z M. unfold solid. set (a := Z.abs_nat m). assert (Ha : (a <= l)%nat) by (unfold a; lia).
  replace (t * x * (t * x) + t * y * (t * y) + t * z * (t * z)) with (t * t * (x * x + y * y + z * z)) by ring. unfold zonal.
  pose proof (zonal_scale a t z (x * x + y * y + z * z) (l - a)) as ZS.
  destruct (zonal_pair a (t * z) (t * t * (x * x + y * y + z * z)) (l - a)) as [P Q], (zonal_pair a z (x * x + y * y + z * z) (l - a)) as [P' Q']. destruct ZS as [-> _].
  destruct (pow_scale a t x y) as [E1 E2]. cbn [fst]. assert (T : t ^ l = t ^ (l - a) * t ^ a) by (rewrite <- pow_add; f_equal; lia). rewrite T.
  destruct m as [|p|p].
  - unfold a. cbn [Z.abs_nat]. simpl. ring.
  - rewrite E1. ring.
  - rewrite E2. ring.
Qed.

(** ** Harmonicity *)
Record smooth (f fx fy fz fxx fyy fzz : R -> R -> R -> R) : Prop := {
  d_x : forall x y z, is_derive (fun t => f t y z) x (fx x y z);
  d_y : forall x y z, is_derive (fun t => f x t z) y (fy x y z);
  d_z : forall x y z, is_derive (fun t => f x y t) z (fz x y z);
  d_xx : forall x y z, is_derive (fun t => fx t y z) x (fxx x y z);
  d_yy : forall x y z, is_derive (fun t => fy x t z) y (fyy x y z);
  d_zz : forall x y z, is_derive (fun t => fz x y t) z (fzz x y z) }.
(** harmonic, homogeneous of degree d (Euler), with z-derivative g *)
Definition nice (d : R) (f g : R -> R -> R -> R) : Prop := exists fx fy fz fxx fyy fzz,
  smooth f fx fy fz fxx fyy fzz /\ forall x y z,
  fxx x y z + fyy x y z + fzz x y z = 0 /\ x * fx x y z + y * fy x y z + z * fz x y z = d * f x y z /\ fz x y z = g x y z.

Lemma is_derive_eq (f : R -> R) (x a b : R) : is_derive f x a -> a = b -> is_derive f x b.
Proof. intros H ->. exact H. Qed.
Lemma der_ext (f g : R -> R) (x a : R) : (forall t : R, f t = g t) -> is_derive f x a -> is_derive g x a.
Proof. intros E. apply is_derive_ext. exact E. Qed.
Lemma der_mult (f g : R -> R) (x a b : R) : is_derive f x a -> is_derive g x b -> is_derive (fun t => f t * g t) x (a * g x + f x * b).
Proof. intros F G. apply (is_derive_mult f g x a b F G). intros; apply Rmult_comm. Qed.
Lemma der_minus (f g : R -> R) (x a b : R) : is_derive f x a -> is_derive g x b -> is_derive (fun t => f t - g t) x (a - b).
Proof. intros F G. apply (is_derive_minus f g x a b F G). Qed.
Lemma der_plus (f g : R -> R) (x a b : R) : is_derive f x a -> is_derive g x b -> is_derive (fun t => f t + g t) x (a + b).
Proof. intros F G. apply (is_derive_plus f g x a b F G). Qed.
Lemma der_scal (c : R) (f : R -> R) (x a : R) : is_derive f x a -> is_derive (fun t => c * f t) x (c * a).
Proof. intros F. apply (is_derive_scal f x c a F). Qed.
Lemma der_id (x : R) : is_derive (fun t : R => t) x 1.
Proof. apply @is_derive_id. Qed.
Lemma der_const (c x : R) : is_derive (fun _ : R => c) x 0.
Proof. apply @is_derive_const. Qed.
Lemma der_sq (x a b : R) : is_derive (fun t => a + t * t + b) x (2 * x).
Proof. eapply is_derive_eq; [apply der_plus; [apply der_plus; [apply der_const|apply der_mult; apply der_id]|apply der_const]|]. cbv beta. ring. Qed.


Lemma smooth_z f fx fy fz fxx fyy fzz : smooth f fx fy fz fxx fyy fzz ->
  smooth (fun x y z => z * f x y z) (fun x y z => z * fx x y z) (fun x y z => z * fy x y z) (fun x y z => f x y z + z * fz x y z)
    (fun x y z => z * fxx x y z) (fun x y z => z * fyy x y z) (fun x y z => 2 * fz x y z + z * fzz x y z).
Proof.
  intros H. split; intros x y z.
  - apply der_scal. apply H.
  - apply der_scal. apply H.
  - eapply is_derive_eq; [apply der_mult; [apply der_id|apply (d_z _ _ _ _ _ _ _ H)]|]. cbv beta. ring.
  - apply der_scal. apply H.
  - apply der_scal. apply H.
  - eapply is_derive_eq; [apply der_plus; [apply (d_z _ _ _ _ _ _ _ H)|apply der_mult; [apply der_id|apply (d_zz _ _ _ _ _ _ _ H)]]|]. cbv beta. ring.
Qed.
Definition sq3 (x y z : R) := x * x + y * y + z * z.
Lemma d_sq_x x y z : is_derive (fun t => sq3 t y z) x (2 * x).
Proof. eapply der_ext; [|apply (der_sq x 0 (y * y + z * z))]. intros t. unfold sq3. ring. Qed.
Lemma d_sq_y x y z : is_derive (fun t => sq3 x t z) y (2 * y).
Proof. eapply der_ext; [|apply (der_sq y (x * x) (z * z))]. intros t. unfold sq3. ring. Qed.
Lemma d_sq_z x y z : is_derive (fun t => sq3 x y t) z (2 * z).
Proof. eapply der_ext; [|apply (der_sq z (x * x + y * y) 0)]. intros t. unfold sq3. ring. Qed.
Lemma smooth_w f fx fy fz fxx fyy fzz : smooth f fx fy fz fxx fyy fzz ->
  smooth (fun x y z => sq3 x y z * f x y z) (fun x y z => 2 * x * f x y z + sq3 x y z * fx x y z)
    (fun x y z => 2 * y * f x y z + sq3 x y z * fy x y z) (fun x y z => 2 * z * f x y z + sq3 x y z * fz x y z)
    (fun x y z => 2 * f x y z + 4 * x * fx x y z + sq3 x y z * fxx x y z) (fun x y z => 2 * f x y z + 4 * y * fy x y z + sq3 x y z * fyy x y z)
    (fun x y z => 2 * f x y z + 4 * z * fz x y z + sq3 x y z * fzz x y z).
Proof.
  intros H. split; intros x y z.
  - eapply is_derive_eq; [apply der_mult; [apply d_sq_x|apply (d_x _ _ _ _ _ _ _ H)]|]. cbv beta. ring.
  - eapply is_derive_eq; [apply der_mult; [apply d_sq_y|apply (d_y _ _ _ _ _ _ _ H)]|]. cbv beta. ring.
  - eapply is_derive_eq; [apply der_mult; [apply d_sq_z|apply (d_z _ _ _ _ _ _ _ H)]|]. cbv beta. ring.
  - eapply is_derive_eq; [apply der_plus; [apply der_mult; [apply der_scal, der_id|apply (d_x _ _ _ _ _ _ _ H)]|apply der_mult; [apply d_sq_x|apply (d_xx _ _ _ _ _ _ _ H)]]|]. cbv beta. ring.
  - eapply is_derive_eq; [apply der_plus; [apply der_mult; [apply der_scal, der_id|apply (d_y _ _ _ _ _ _ _ H)]|apply der_mult; [apply d_sq_y|apply (d_yy _ _ _ _ _ _ _ H)]]|]. cbv beta. ring.
  - eapply is_derive_eq; [apply der_plus; [apply der_mult; [apply der_scal, der_id|apply (d_z _ _ _ _ _ _ _ H)]|apply der_mult; [apply d_sq_z|apply (d_zz _ _ _ _ _ _ _ H)]]|]. cbv beta. ring.
Qed.
Lemma smooth_lin a b f fx fy fz fxx fyy fzz h hx hy hz hxx hyy hzz : smooth f fx fy fz fxx fyy fzz -> smooth h hx hy hz hxx hyy hzz ->
  smooth (fun x y z => a * f x y z - b * h x y z) (fun x y z => a * fx x y z - b * hx x y z) (fun x y z => a * fy x y z - b * hy x y z)
    (fun x y z => a * fz x y z - b * hz x y z) (fun x y z => a * fxx x y z - b * hxx x y z) (fun x y z => a * fyy x y z - b * hyy x y z)
    (fun x y z => a * fzz x y z - b * hzz x y z).
Proof. intros H K. split; intros x y z; (apply der_minus; apply der_scal; [apply H|apply K]). Qed.
Lemma smooth_ext f g fx fy fz fxx fyy fzz : (forall x y z, f x y z = g x y z) -> smooth f fx fy fz fxx fyy fzz -> smooth g fx fy fz fxx fyy fzz.
Proof.
  intros E H. split; intros x y z; try apply H; (eapply der_ext; [|apply H]); intros t; apply E.
Qed.

(** (x + i y)^m: harmonic in the plane *)
Lemma pow_derivs m : (forall x y, is_derive (fun t => re_pow (S m) t y) x ((INR m + 1) * re_pow m x y) /\ is_derive (fun t => im_pow (S m) t y) x ((INR m + 1) * im_pow m x y)) /\
  (forall x y, is_derive (fun t => re_pow (S m) x t) y (- ((INR m + 1) * im_pow m x y)) /\ is_derive (fun t => im_pow (S m) x t) y ((INR m + 1) * re_pow m x y)).
Proof.
  induction m as [|m [I J]].
  - simpl INR. split; intros x y; split; cbn [re_pow im_pow].
    + eapply der_ext with (f := fun t => t); [intros; cbv beta; ring|]. eapply is_derive_eq; [apply der_id|ring].
    + eapply der_ext with (f := fun t => y); [intros; cbv beta; ring|]. eapply is_derive_eq; [apply der_const|ring].
    + eapply der_ext with (f := fun t => x); [intros; cbv beta; ring|]. eapply is_derive_eq; [apply der_const|ring].
    + eapply der_ext with (f := fun t => t); [intros; cbv beta; ring|]. eapply is_derive_eq; [apply der_id|ring].
  - rewrite S_INR. split; intros x y; destruct (I x y) as [I1 I2], (J x y) as [J1 J2]; split.
    + eapply der_ext with (f := fun t => t * re_pow (S m) t y - y * im_pow (S m) t y); [intros; reflexivity|].
      eapply is_derive_eq; [apply der_minus; [apply der_mult; [apply der_id|exact I1]|apply der_scal; exact I2]|]. cbv beta. cbn [re_pow im_pow]. ring.
    + eapply der_ext with (f := fun t => t * im_pow (S m) t y + y * re_pow (S m) t y); [intros; reflexivity|].
      eapply is_derive_eq; [apply der_plus; [apply der_mult; [apply der_id|exact I2]|apply der_scal; exact I1]|]. cbv beta. cbn [re_pow im_pow]. ring.
    + eapply der_ext with (f := fun t => x * re_pow (S m) x t - t * im_pow (S m) x t); [intros; reflexivity|].
      eapply is_derive_eq; [apply der_minus; [apply der_scal; exact J1|apply der_mult; [apply der_id|exact J2]]|]. cbv beta. cbn [re_pow im_pow]. ring.
    + eapply der_ext with (f := fun t => x * im_pow (S m) x t + t * re_pow (S m) x t); [intros; reflexivity|].
      eapply is_derive_eq; [apply der_plus; [apply der_scal; exact J2|apply der_mult; [apply der_id|exact J1]]|]. cbv beta. cbn [re_pow im_pow]. ring.
Qed.
(** derivative of the pair of order m, with (m-1) read as 0 for m = 0 *)
Definition dre (m : nat) (x y : R) := match m with O => 0 | S k => (INR k + 1) * re_pow k x y end.
Definition dim (m : nat) (x y : R) := match m with O => 0 | S k => (INR k + 1) * im_pow k x y end.
Lemma pow_dx m x y : is_derive (fun t => re_pow m t y) x (dre m x y) /\ is_derive (fun t => im_pow m t y) x (dim m x y).
Proof. destruct m; [split; cbn; apply der_const|apply pow_derivs]. Qed.
Lemma pow_dy m x y : is_derive (fun t => re_pow m x t) y (- dim m x y) /\ is_derive (fun t => im_pow m x t) y (dre m x y).
Proof. destruct m; [split; cbn; [rewrite Ropp_0|]; apply der_const|apply pow_derivs]. Qed.
Lemma pow_euler m x y : x * dre m x y - y * dim m x y = INR m * re_pow m x y /\ x * dim m x y + y * dre m x y = INR m * im_pow m x y.
Proof. destruct m; [simpl; split; ring|]. unfold dre, dim. rewrite S_INR. cbn [re_pow im_pow]. split; ring. Qed.
Definition ddre (m : nat) (x y : R) := match m with O => 0 | S k => (INR k + 1) * dre k x y end.
Definition ddim (m : nat) (x y : R) := match m with O => 0 | S k => (INR k + 1) * dim k x y end.
Lemma pow_ddx m x y : is_derive (fun t => dre m t y) x (ddre m x y) /\ is_derive (fun t => dim m t y) x (ddim m x y).
Proof. destruct m; [split; cbn; apply der_const|split; cbn [dre dim ddre ddim]; apply der_scal; apply pow_dx]. Qed.
Lemma pow_ddy m x y : is_derive (fun t => - dim m x t) y (- ddre m x y) /\ is_derive (fun t => dre m x t) y (- ddim m x y).
Proof.
  destruct m; [split; cbn; [rewrite Ropp_0; apply der_const|rewrite Ropp_0; apply der_const]|].
  destruct (pow_dy m x y) as [A B]. split; cbn [dre dim ddre ddim].
  - eapply der_ext with (f := fun t => (- (INR m + 1)) * im_pow m x t); [intros; cbv beta; ring|]. eapply is_derive_eq; [apply der_scal; exact B|ring].
  - eapply is_derive_eq; [apply der_scal; exact A|ring].
Qed.
Lemma nice_base m c : nice (INR m) (fun x y z => c * re_pow m x y) (fun _ _ _ => 0) /\ nice (INR m) (fun x y z => c * im_pow m x y) (fun _ _ _ => 0).
Proof.
  split.
  - exists (fun x y z => c * dre m x y), (fun x y z => c * - dim m x y), (fun _ _ _ => 0), (fun x y z => c * ddre m x y), (fun x y z => c * - ddre m x y), (fun _ _ _ => 0).
    split; [split; intros x y z; try apply der_const; apply der_scal; [apply pow_dx|apply pow_dy|apply pow_ddx|apply pow_ddy]|].
    intros x y z. destruct (pow_euler m x y) as [E _]. repeat split; try ring. replace (INR m * (c * re_pow m x y)) with (c * (INR m * re_pow m x y)) by ring. rewrite <- E. ring.
  - exists (fun x y z => c * dim m x y), (fun x y z => c * dre m x y), (fun _ _ _ => 0), (fun x y z => c * ddim m x y), (fun x y z => c * - ddim m x y), (fun _ _ _ => 0).
    split; [split; intros x y z; try apply der_const; apply der_scal; [apply pow_dx|apply pow_dy|apply pow_ddx|apply pow_ddy]|].
    intros x y z. destruct (pow_euler m x y) as [_ E]. repeat split; try ring. replace (INR m * (c * im_pow m x y)) with (c * (INR m * im_pow m x y)) by ring. rewrite <- E. ring.
Qed.

(** one step of the recurrence in l; l = m + k, p of degree l, q of degree l - 1 with d/dz p = (l + m) q *)
Definition zp (b : R -> R -> R -> R) (m k : nat) (x y z : R) := fst (zonal_pair m z (sq3 x y z) k) * b x y z.
Definition zq (b : R -> R -> R -> R) (m k : nat) (x y z : R) := snd (zonal_pair m z (sq3 x y z) k) * b x y z.
Lemma nice_ext d f g f' g' : (forall x y z, f x y z = f' x y z) -> (forall x y z, g x y z = g' x y z) -> nice d f g -> nice d f' g'.
Proof.
  intros E G (fx & fy & fz & fxx & fyy & fzz & S & H). exists fx, fy, fz, fxx, fyy, fzz. split; [eapply smooth_ext; eauto|].
  intros x y z. destruct (H x y z) as (A & B & C). rewrite <- E, <- G. auto.
Qed.
Lemma zero_nice d : nice d (fun _ _ _ => 0) (fun _ _ _ => 0).
Proof.
  exists (fun _ _ _ => 0), (fun _ _ _ => 0), (fun _ _ _ => 0), (fun _ _ _ => 0), (fun _ _ _ => 0), (fun _ _ _ => 0).
  split; [split; intros; apply der_const|intros; repeat split; ring].
Qed.
Lemma nice_step b m : nice (INR m) (fun x y z => odd_factorial m * b x y z) (fun _ _ _ => 0) -> forall k,
  nice (INR m + INR k) (zp b m k) (fun x y z => (INR m + INR k + INR m) * zq b m k x y z) /\
  exists h, nice (INR m + INR k - 1) (zq b m k) h /\
    forall x y z, (INR k) * zp b m k x y z = (2 * (INR m + INR k) - 1) * z * zq b m k x y z - sq3 x y z * h x y z.
Proof.
  intros B. induction k as [|k (IP & h & IQ & REC)].
  - split.
    + simpl INR. rewrite Rplus_0_r. eapply nice_ext; [..|exact B]; intros; unfold zp, zq; cbn [zonal_pair fst snd]; ring.
    + exists (fun _ _ _ => 0). split.
      * eapply nice_ext; [..|apply zero_nice]; intros; unfold zq; cbn [zonal_pair snd]; ring.
      * intros. unfold zq. cbn [zonal_pair snd]. simpl INR. ring.
  - assert (QS : forall x y z, zq b m (S k) x y z = zp b m k x y z).
    { intros. unfold zq, zp. cbn [zonal_pair]. destruct (zonal_pair m z (sq3 x y z) k). reflexivity. }
    pose proof (pos_INR k) as PK. pose proof (pos_INR m) as PM.
    assert (PS : forall x y z, zp b m (S k) x y z = ((2 * (INR m + INR k) + 1) / (INR k + 1)) * (z * zp b m k x y z) - ((INR m + INR k + INR m) / (INR k + 1)) * (sq3 x y z * zq b m k x y z)).
    { intros. unfold zp, zq. cbn [zonal_pair]. destruct (zonal_pair m z (sq3 x y z) k) as [p q]. cbn [fst snd]. field. lra. }
    destruct IP as (fx & fy & fz & fxx & fyy & fzz & S1 & H1). destruct IQ as (hx & hy & hz & hxx & hyy & hzz & S2 & H2).
    rewrite S_INR. split.
    + pose proof (smooth_lin ((2 * (INR m + INR k) + 1) / (INR k + 1)) ((INR m + INR k + INR m) / (INR k + 1)) _ _ _ _ _ _ _ _ _ _ _ _ _ _ (smooth_z _ _ _ _ _ _ _ S1) (smooth_w _ _ _ _ _ _ _ S2)) as SM.
      eapply smooth_ext in SM; [|intros; symmetry; apply PS]. eexists _, _, _, _, _, _. split; [exact SM|].
      intros x y z. destruct (H1 x y z) as (L1 & E1 & D1). destruct (H2 x y z) as (L2 & E2 & D2). specialize (REC x y z). rewrite PS, QS. cbv beta.
      set (p := zp b m k x y z) in *. set (q := zq b m k x y z) in *. set (M := INR m) in *. set (K := INR k) in *. set (w := sq3 x y z).
      repeat split.
      * match goal with |- ?L = 0 => replace L with ((2 * (M + K) + 1) / (K + 1) * (z * (fxx x y z + fyy x y z + fzz x y z) + 2 * fz x y z) -
          (M + K + M) / (K + 1) * (6 * q + 4 * (x * hx x y z + y * hy x y z + z * hz x y z) + w * (hxx x y z + hyy x y z + hzz x y z))) by (field; lra) end.
        rewrite L1, L2, E2, D1. field. lra.
      * match goal with |- ?L = _ => replace L with ((2 * (M + K) + 1) / (K + 1) * (z * (x * fx x y z + y * fy x y z + z * fz x y z) + z * p) -
          (M + K + M) / (K + 1) * (2 * w * q + w * (x * hx x y z + y * hy x y z + z * hz x y z))) by (unfold w, sq3; field; lra) end.
        rewrite E1, E2. field. lra.
      * fold w in REC. rewrite D1, D2. apply Rmult_eq_reg_r with (K + 1); [|lra].
        match goal with |- ?L = _ => replace L with ((2 * (M + K) + 1) * p + (2 * M + K) * ((2 * (M + K) - 1) * z * q - w * h x y z)) by (field; lra) end.
        rewrite <- REC. ring.
    + exists (fun x y z => (INR m + INR k + INR m) * zq b m k x y z). split.
      * replace (INR m + (INR k + 1) - 1) with (INR m + INR k) by ring. eapply nice_ext; [intros; symmetry; apply QS|intros; reflexivity|].
        exists fx, fy, fz, fxx, fyy, fzz. split; [exact S1|exact H1].
      * intros x y z. rewrite PS, QS. field. lra.
Qed.
Theorem solid_is_harmonic : forall l m, (Z.abs m <= Z.of_nat l)%Z -> harmonic (solid l m).
Proof.
  intros l m M. set (a := Z.abs_nat m).
  assert (G : forall b c, nice (INR a) (fun x y z => odd_factorial a * b x y z) (fun _ _ _ => 0) -> (forall x y z, solid l m x y z = c * zp b a (l - a) x y z) -> harmonic (solid l m)).
  { intros b c B E. destruct (nice_step b a B (l - a)) as [(fx & fy & fz & fxx & fyy & fzz & SM & H) _].
    exists (fun x y z => c * fx x y z), (fun x y z => c * fy x y z), (fun x y z => c * fz x y z), (fun x y z => c * fxx x y z), (fun x y z => c * fyy x y z), (fun x y z => c * fzz x y z).
    intros x y z. refine (conj _ (conj _ (conj _ (conj _ (conj _ (conj _ _)))))).
    - refine (der_ext _ _ _ _ _ (der_scal c _ _ _ (d_x _ _ _ _ _ _ _ SM x y z))). intros t. symmetry. apply E.
    - refine (der_ext _ _ _ _ _ (der_scal c _ _ _ (d_y _ _ _ _ _ _ _ SM x y z))). intros t. symmetry. apply E.
    - refine (der_ext _ _ _ _ _ (der_scal c _ _ _ (d_z _ _ _ _ _ _ _ SM x y z))). intros t. symmetry. apply E.
    - exact (der_scal c _ _ _ (d_xx _ _ _ _ _ _ _ SM x y z)).
    - exact (der_scal c _ _ _ (d_yy _ _ _ _ _ _ _ SM x y z)).
    - exact (der_scal c _ _ _ (d_zz _ _ _ _ _ _ _ SM x y z)).
    - destruct (H x y z) as (L & _). replace (c * fxx x y z + c * fyy x y z + c * fzz x y z) with (c * (fxx x y z + fyy x y z + fzz x y z)) by ring. rewrite L. ring. }
  destruct (nice_base a (odd_factorial a)) as [B1 B2]. destruct m as [|p|p].
  - apply (G (fun x y z => re_pow a x y) (sphere_factor l a)); [exact B1|]. intros. unfold solid, zp, zonal, sq3. subst a. cbn [Z.abs_nat re_pow]. ring.
  - apply (G (fun x y z => re_pow a x y) (sqrt 2 * sphere_factor l a)); [exact B1|]. intros. unfold solid, zp, zonal, sq3. fold a. ring.
  - apply (G (fun x y z => im_pow a x y) (sqrt 2 * sphere_factor l a)); [exact B2|]. intros. unfold solid, zp, zonal, sq3. fold a. ring.
Qed.
