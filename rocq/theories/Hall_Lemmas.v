(** Lemmas for C69. *)
From Coq Require Import Reals List Arith Bool Lra Lia Permutation.
From Coquelicot Require Import Coquelicot.
From Verif Require Import Lin Geom_Model Det Wf_Model Wf_Spec Wf_Lemmas Wf_Logdet Wf_Props Hall_Model Hall_Spec Vandermonde.
Import ListNotations.
Open Scope R_scope.
Local Notation vec := Lin.vec.

Lemma C_eq (a b : C) : fst a = fst b -> snd a = snd b -> a = b.
Proof. destruct a, b; cbn; intros -> ->; reflexivity. Qed.
Lemma spinor_u_eq x : spinor_u x = u_of x.
Proof. unfold spinor_u, u_of, cexp. cbn [fst snd]. rewrite exp_0. replace (/ 2 * snd x) with (snd x / 2) by field. apply C_eq; cbn [fst snd Cmult RtoC]; ring. Qed.
Lemma spinor_v_eq x : spinor_v x = v_of x.
Proof. unfold spinor_v, v_of, cexp. cbn [fst snd]. rewrite exp_0. replace (- / 2 * snd x) with (- (snd x / 2)) by field. rewrite cos_neg, sin_neg. apply C_eq; cbn [fst snd Cmult RtoC]; ring. Qed.
Lemma cpow_eq z k : cpow z k = power z k.
Proof. induction k as [|k IH]; [reflexivity|]. cbn. rewrite IH. reflexivity. Qed.
Lemma cprod_eq n f : cprod n f = product n f.
Proof. induction n as [|n IH]; [reflexivity|]. rewrite cprod_S, IH. reflexivity. Qed.
Lemma product_S n f : product (S n) f = Cmult (product n f) (f n). Proof. reflexivity. Qed.
Lemma product_ext n f g : (forall i, (i < n)%nat -> f i = g i) -> product n f = product n g.
Proof. rewrite <- !cprod_eq. apply cprod_ext. Qed.
Lemma product_mult n f g : product n (fun i => Cmult (f i) (g i)) = Cmult (product n f) (product n g).
Proof. rewrite <- !cprod_eq. apply cprod_mult. Qed.
Lemma product_first n f : product (S n) f = Cmult (f 0%nat) (product n (fun i => f (S i))).
Proof. rewrite <- !cprod_eq. apply cprod_first. Qed.
Lemma pair_product_S n f : pair_product (S n) f = Cmult (pair_product n f) (product n (fun i => f i n)).
Proof. reflexivity. Qed.
Lemma pair_product_ext n f g : (forall i j, (i < j)%nat -> (j < n)%nat -> f i j = g i j) -> pair_product n f = pair_product n g.
Proof. intros H. apply product_ext. intros j J. apply product_ext. intros i I. apply H; lia. Qed.
Lemma pair_product_mult n f g : pair_product n (fun i j => Cmult (f i j) (g i j)) = Cmult (pair_product n f) (pair_product n g).
Proof. unfold pair_product. rewrite <- product_mult. apply product_ext. intros. apply product_mult. Qed.
Lemma pair_product_first n f : pair_product (S n) f = Cmult (product n (fun j => f 0%nat (S j))) (pair_product n (fun i j => f (S i) (S j))).
Proof.
  unfold pair_product at 1. rewrite product_first. change (product 0 (fun i => f i 0%nat)) with (RtoC 1). rewrite Cmult_1_l. unfold pair_product. rewrite <- product_mult. apply product_ext. intros j _. apply product_first.
Qed.
Lemma vprod_eq n : forall u v, vprod n u v = pair_product n (fun i j => Cminus (Cmult (u j) (v i)) (Cmult (u i) (v j))).
Proof.
  induction n as [|n IH]; intros u v; [reflexivity|]. cbn [vprod]. rewrite pair_product_first, IH, cprod_eq. reflexivity.
Qed.
Lemma product_nz n f : (forall i, (i < n)%nat -> f i <> RtoC 0) -> product n f <> RtoC 0.
Proof.
  induction n as [|n IH]; intros H; [cbn; intros E; apply (f_equal fst) in E; cbn in E; lra|]. rewrite product_S. apply Cmult_neq_0; [apply IH; intros; apply H; lia|apply H; lia].
Qed.
Lemma pair_product_nz n f : (forall i j, (i < j)%nat -> (j < n)%nat -> f i j <> RtoC 0) -> pair_product n f <> RtoC 0.
Proof. intros H. apply product_nz. intros j J. apply product_nz. intros i I. apply H; lia. Qed.
Lemma power_S z k : power z (S k) = Cmult z (power z k). Proof. reflexivity. Qed.
Lemma power_nz z k : z <> RtoC 0 -> power z k <> RtoC 0.
Proof. rewrite <- cpow_eq. apply cpow_nz. Qed.
Lemma power_mult x y k : power (Cmult x y) k = Cmult (power x k) (power y k).
Proof. induction k as [|k IH]; cbn [power]; [ring|]. rewrite IH. ring. Qed.
Lemma power_opp z k : power (Copp z) k = sign_of k (power z k).
Proof. induction k as [|k IH]; [reflexivity|]. cbn [power]. rewrite IH. unfold sign_of. rewrite Nat.even_succ, <- Nat.negb_even. destruct (Nat.even k); cbn [negb]; ring. Qed.
Lemma product_power n f k : product n (fun i => power (f i) k) = power (product n f) k.
Proof. induction n as [|n IH]; cbn [product]; [induction k as [|k IHk]; cbn [power]; [reflexivity|rewrite <- IHk; ring]|]. rewrite IH, power_mult. reflexivity. Qed.
Lemma pair_product_power n f k : pair_product n (fun i j => power (f i j) k) = power (pair_product n f) k.
Proof. unfold pair_product. rewrite <- product_power. apply product_ext. intros. apply product_power. Qed.
Lemma double_product n g : (forall i, g i i = RtoC 1) -> product n (fun i => product n (g i)) = pair_product n (fun i j => Cmult (g i j) (g j i)).
Proof.
  intros D. induction n as [|n IH]; [reflexivity|]. rewrite product_S, pair_product_S, <- IH.
  rewrite (product_ext n (fun i => product (S n) (g i)) (fun i => Cmult (product n (g i)) (g i n))) by reflexivity. rewrite !product_mult, product_S, D. ring.
Qed.

(** ** The pair factor is half the distance *)
Lemma cos_sin_half t : cos t = cos (t / 2) * cos (t / 2) - sin (t / 2) * sin (t / 2) /\ sin t = 2 * (sin (t / 2) * cos (t / 2)).
Proof. split; replace t with (2 * (t / 2)) at 1 by field; [apply cos_2a|rewrite sin_2a; ring]. Qed.
Lemma pair_factor_mod e i j : Cmod (pair_factor e i j) = distance (e i) (e j) / 2.
Proof.
  assert (X : fst (pair_factor e i j) ^ 2 + snd (pair_factor e i j) ^ 2 = ((x_of (e i) - x_of (e j)) ^ 2 + (y_of (e i) - y_of (e j)) ^ 2 + (z_of (e i) - z_of (e j)) ^ 2) / (2 * 2)).
  { unfold pair_factor. destruct (e i) as [t1 p1], (e j) as [t2 p2]. unfold x_of, y_of, z_of, u_of, v_of. cbn [fst snd Cminus Cplus Copp Cmult].
    destruct (cos_sin_half t1) as [-> ->]. destruct (cos_sin_half t2) as [-> ->]. destruct (cos_sin_half p1) as [-> ->]. destruct (cos_sin_half p2) as [-> ->].
    pose proof (sin2_cos2 (t1 / 2)) as T1. pose proof (sin2_cos2 (t2 / 2)) as T2. pose proof (sin2_cos2 (p1 / 2)) as P1. pose proof (sin2_cos2 (p2 / 2)) as P2. unfold Rsqr in *.
    set (a := cos (t1 / 2)) in *. set (b := sin (t1 / 2)) in *. set (c := cos (t2 / 2)) in *. set (d := sin (t2 / 2)) in *.
    set (f := cos (p1 / 2)) in *. set (g := sin (p1 / 2)) in *. set (h := cos (p2 / 2)) in *. set (k := sin (p2 / 2)) in *.
    set (x1 := 2 * (b * a) * (f * f - g * g)). set (y1 := 2 * (b * a) * (2 * (g * f))). set (x2 := 2 * (d * c) * (h * h - k * k)). set (y2 := 2 * (d * c) * (2 * (k * h))).
    assert (N1 : x1 * x1 + y1 * y1 + (a * a - b * b) * (a * a - b * b) = 1).
    { transitivity (4 * (a * a) * (b * b) * ((g * g + f * f) * (g * g + f * f)) + (a * a - b * b) * (a * a - b * b)); [unfold x1, y1; ring|]. rewrite P1.
      transitivity ((b * b + a * a) * (b * b + a * a)); [ring|rewrite T1; ring]. }
    assert (N2 : x2 * x2 + y2 * y2 + (c * c - d * d) * (c * c - d * d) = 1).
    { transitivity (4 * (c * c) * (d * d) * ((k * k + h * h) * (k * k + h * h)) + (c * c - d * d) * (c * c - d * d)); [unfold x2, y2; ring|]. rewrite P2.
      transitivity ((d * d + c * c) * (d * d + c * c)); [ring|rewrite T2; ring]. }
    match goal with |- ?w = _ => set (W := w) end.
    assert (D : x1 * x2 + y1 * y2 + (a * a - b * b) * (c * c - d * d) * ((g * g + f * f) * (k * k + h * h)) =
                (b * b + a * a) * (d * d + c * c) * ((g * g + f * f) * (k * k + h * h)) - 2 * W) by (unfold W, x1, x2, y1, y2; ring).
    rewrite T1, T2, P1, P2 in D. field_simplify. replace (2 * 2) with 4 by ring. nra. }
  unfold Cmod, distance. rewrite X. rewrite sqrt_div_alt by lra. rewrite sqrt_square by lra. reflexivity.
Qed.
Lemma pair_factor_nz e i j : distance (e i) (e j) <> 0 -> pair_factor e i j <> RtoC 0.
Proof. intros D E. apply D. pose proof (pair_factor_mod e i j) as M. rewrite E, Cmod_R, Rabs_R0 in M. lra. Qed.
Lemma pair_factor_anti e i j : pair_factor e j i = Copp (pair_factor e i j).
Proof. unfold pair_factor. ring. Qed.
Lemma chord_distance e i j : i <> j -> chord e i j = distance (e i) (e j).
Proof.
  intros N. unfold chord, delta. destruct (Nat.eqb_spec i j); [congruence|]. unfold norm, distance. rewrite Rminus_0_r, Rmult_1_r. f_equal. unfold dot, bigsum. cbn. unfold x_of, y_of, z_of. ring.
Qed.
Lemma chord_sym e i j : chord e i j = chord e j i.
Proof.
  destruct (Nat.eq_dec i j) as [->|N]; [reflexivity|]. rewrite !chord_distance by auto. unfold distance. f_equal. ring.
Qed.
