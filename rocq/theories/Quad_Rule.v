(** C53: exactness survives the random rotation. *)
From Coq Require Import Reals List Arith Lia Lra.
From Coquelicot Require Import Coquelicot.
From Verif Require Import Quad_Spec Quad_Sphere Quad_Rot Quad_Model Quad_Oct.
Import ListNotations.
Open Scope R_scope.

Definition draw (u : R) : Prop := 0 <= u <= 1.
Lemma rotation_factors u1 u2 f x y z : draw u2 ->
  at_pt f (apply (rotation u1 u2) (x, y, z)) = rotz (- (u1 * PI * 2)) (roty (acos (1 - 2 * u2)) (rotz (u1 * PI * 2) f)) x y z.
Proof.
  intros U. unfold draw in U. unfold rotz, roty. rewrite cos_neg, sin_neg, cos_acos, sin_acos by lra. unfold at_pt, apply, rotation, Rsqr. cbn [fst snd m11 m12 m13 m21 m22 m23 m31 m32 m33].
  set (s := sin (u1 * PI * 2)). set (c := cos (u1 * PI * 2)). set (st := sqrt _). f_equal; ring.
Qed.
Lemma acos_range x : 0 <= acos x <= 2 * PI.
Proof. pose proof (acos_bound x). pose proof PI_RGT_0. lra. Qed.
Lemma rotated_integral d f v u1 u2 : Poly d f -> draw u1 -> draw u2 -> sphere_integral f v ->
  sphere_integral (fun x y z => at_pt f (apply (rotation u1 u2) (x, y, z))) v.
Proof.
  intros F U1 U2 H. unfold draw in U1. pose proof PI_RGT_0 as PP. assert (A : 0 <= u1 * PI * 2 <= 2 * PI) by (split; [apply Rmult_le_pos; [apply Rmult_le_pos|]; lra|]; replace (u1 * PI * 2) with (u1 * (2 * PI)) by ring; rewrite <- (Rmult_1_l (2 * PI)) at 2; apply Rmult_le_compat_r; lra).
  eapply sphere_ext; [intros x y z; symmetry; apply rotation_factors; exact U2|]. apply rotz_neg_is; [exact A|]. apply (roty_is d); [apply acos_range|apply poly_rotz; exact F|]. apply rotz_is; [exact A|exact H].
Qed.
Lemma rotated_poly d f u1 u2 : Poly d f -> draw u2 -> Poly d (fun x y z => at_pt f (apply (rotation u1 u2) (x, y, z))).
Proof. intros F U. eapply Ext; [apply (poly_rotz d), (poly_roty d), (poly_rotz d), F|]. intros x y z. cbn beta. symmetry. apply rotation_factors. exact U. Qed.
Lemma exact_rotated q d : exact q d -> forall f u1 u2, Poly d f -> draw u1 -> draw u2 -> sphere_integral f (integrate q (map (at_pt f) (rotated q u1 u2))).
Proof.
  intros E f u1 u2 F U1 U2. destruct (poly_integrable d f F) as [v V].
  pose proof (E _ (rotated_poly d f u1 u2 F U2)) as X. pose proof (rotated_integral d f v u1 u2 F U1 U2 V) as Y. pose proof (sphere_unique _ _ _ Y X) as Q.
  unfold rotated. rewrite map_map. replace (map (fun x => at_pt f (apply (rotation u1 u2) x)) (pts q)) with (map (at_pt (fun x y z => at_pt f (apply (rotation u1 u2) (x, y, z)))) (pts q)); [rewrite <- Q; exact V|].
  apply map_ext. intros [[x y] z]. reflexivity.
Qed.
(** the rotation is a rotation *)
Definition dot (p q : vec) : R := fst (fst p) * fst (fst q) + snd (fst p) * snd (fst q) + snd p * snd q.
Definition det (m : mat) : R := m11 m * (m22 m * m33 m - m23 m * m32 m) - m12 m * (m21 m * m33 m - m23 m * m31 m) + m13 m * (m21 m * m32 m - m22 m * m31 m).
Lemma rotation_isometry u1 u2 p q : draw u2 -> dot (apply (rotation u1 u2) p) (apply (rotation u1 u2) q) = dot p q.
Proof.
  intros U. unfold draw in U. destruct p as [[x y] z], q as [[x' y'] z']. unfold dot, apply, rotation. cbn [fst snd m11 m12 m13 m21 m22 m23 m31 m32 m33].
  set (ct := 1 - 2 * u2). assert (ST : sqrt (1 - ct * ct) * sqrt (1 - ct * ct) = 1 - ct * ct) by (apply sqrt_sqrt; unfold ct; nra). pose proof (sin2_cos2 (u1 * PI * 2)) as SC. unfold Rsqr in SC.
  set (st := sqrt (1 - ct * ct)) in *. set (s := sin (u1 * PI * 2)) in *. set (c := cos (u1 * PI * 2)) in *. clearbody st s c ct. clear U.
  assert (C2 : c * c = 1 - s * s) by lra. clear SC.
  replace ((s * s + ct * (c * c)) * x + s * c * (ct - 1) * y + st * c * z) with ((s * s + ct * (c * c)) * x + s * c * (ct - 1) * y + st * c * z) by ring. rewrite C2.
  ring_simplify. 
  replace (c ^ 2) with (1 - s ^ 2) by (cbn; lra). replace (st ^ 2) with (1 - ct ^ 2) by (cbn; lra). ring.
Qed.
Lemma rotation_det u1 u2 : draw u2 -> det (rotation u1 u2) = 1.
Proof.
  intros U. unfold draw in U. unfold det, rotation. cbn [m11 m12 m13 m21 m22 m23 m31 m32 m33].
  set (ct := 1 - 2 * u2). assert (ST : sqrt (1 - ct * ct) * sqrt (1 - ct * ct) = 1 - ct * ct) by (apply sqrt_sqrt; unfold ct; nra). pose proof (sin2_cos2 (u1 * PI * 2)) as SC. unfold Rsqr in SC.
  set (st := sqrt (1 - ct * ct)) in *. set (s := sin (u1 * PI * 2)) in *. set (c := cos (u1 * PI * 2)) in *. clearbody st s c ct. clear U.
  assert (C2 : c * c = 1 - s * s) by lra. assert (E1 : forall k, st * k * (st * k) = (1 - ct * ct) * (k * k)) by (intros k; rewrite <- ST; ring).
  rewrite C2. ring_simplify. replace (c ^ 4) with ((1 - s ^ 2) * (1 - s ^ 2)) by (replace (c ^ 4) with (c * c * (c * c)) by ring; rewrite C2; ring).
  replace (c ^ 2) with (1 - s ^ 2) by (cbn; lra). replace (st ^ 2) with (1 - ct ^ 2) by (cbn; lra). ring.
Qed.
