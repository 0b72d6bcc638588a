(** C53: the spherical quadrature of the effective core potentials. *)
From Coq Require Import Reals List Arith Lia Lra String.
From Coquelicot Require Import Coquelicot.
From Verif Require Import Quad_Spec Quad_Sphere Quad_Rot Quad_Model Quad_Oct Quad_Rule Quad_Ico.
Import ListNotations.
Open Scope list_scope.
Open Scope R_scope.

(** The degree each rule promises. *)
Inductive degree_of : option (string * nat) -> nat -> Prop :=
| DDefault : degree_of None 5
| DIco12 : degree_of (Some ("icosahedron"%string, 12%nat)) 5
| DIco32 : degree_of (Some ("icosahedron"%string, 32%nat)) 9
| DOct6 : degree_of (Some ("octahedron"%string, 6%nat)) 3
| DOct18 : degree_of (Some ("octahedron"%string, 18%nat)) 5
| DOct26 : degree_of (Some ("octahedron"%string, 26%nat)) 7
| DOct50 : degree_of (Some ("octahedron"%string, 50%nat)) 11.

Lemma degree_exact id d q : degree_of id d -> get_quadrature id = Some q -> exact q d.
Proof.
  intros D Q. destruct D; cbn [get_quadrature String.eqb Ascii.eqb Bool.eqb] in Q; first [exact (ico_exact 12 q Q)|exact (ico_exact 32 q Q)|exact (oct_exact 6 q Q)|exact (oct_exact 18 q Q)|exact (oct_exact 26 q Q)|exact (oct_exact 50 q Q)].
Qed.
(** For every rule, every polynomial of its degree and every pair of uniform draws that choose the
    rotation, the quadrature of the values at the rotated points is the surface integral. *)
Theorem C53_exact : forall id d q f u1 u2, degree_of id d -> get_quadrature id = Some q -> Poly d f -> 0 <= u1 <= 1 -> 0 <= u2 <= 1 ->
  sphere_integral f (integrate q (map (at_pt f) (rotated q u1 u2))).
Proof. intros id d q f u1 u2 D Q F U1 U2. apply (exact_rotated q d); [exact (degree_exact id d q D Q)|exact F|exact U1|exact U2]. Qed.
(** [sphere_integral] has at most one value, and every polynomial has one. *)
Theorem C53_integral_functional : (forall f u v, sphere_integral f u -> sphere_integral f v -> u = v) /\ (forall d f, Poly d f -> exists v, sphere_integral f v).
Proof. split; [exact sphere_unique|exact poly_integrable]. Qed.
(** Exactly the seven identifiers above are accepted. *)
Theorem C53_identifiers : forall id, (exists q, get_quadrature id = Some q) <-> (exists d, degree_of id d).
Proof.
  assert (O : forall n, (exists q, octahedron n = Some q) <-> (n = 6 \/ n = 18 \/ n = 26 \/ n = 50)%nat).
  { intros n. unfold octahedron. split; [intros [q Q]|intros [-> |[-> |[-> | ->]]]; eexists; reflexivity]. destruct (oct_coefs n) eqn:C; [|discriminate]. do 51 (destruct n as [|n]; [cbn in C; auto; congruence|]). cbn in C. congruence. }
  assert (I : forall n, (exists q, icosahedron n = Some q) <-> (n = 12 \/ n = 32)%nat).
  { intros n. split; [intros [q Q]; destruct (ico_cases n q Q) as [[-> _]|[-> _]]; auto|intros [-> | ->]; eexists; reflexivity]. }
  intros id. split.
  - intros [q Q]. destruct id as [[t n]|]; [|exists 5%nat; constructor]. unfold get_quadrature in Q. destruct (String.eqb t "octahedron") eqn:E1.
    + apply String.eqb_eq in E1. subst t. destruct (proj1 (O n) (ex_intro _ q Q)) as [-> |[-> |[-> | ->]]]; eexists; constructor.
    + destruct (String.eqb t "icosahedron") eqn:E2; [|discriminate]. apply String.eqb_eq in E2. subst t. destruct (proj1 (I n) (ex_intro _ q Q)) as [-> | ->]; eexists; constructor.
  - intros [d D]. destruct D; cbn [get_quadrature String.eqb Ascii.eqb Bool.eqb]; first [apply I; lia|apply O; lia].
Qed.
(** ** Shape of the rules *)
Definition on_unit_sphere (p : vec) : Prop := dot p p = 1.
Lemma cartesian_unit p : on_unit_sphere (cartesian p).
Proof. destruct p as [th ph]. unfold on_unit_sphere, dot, cartesian. cbn [fst snd]. pose proof (sin2_cos2 th) as A. pose proof (sin2_cos2 ph) as B. unfold Rsqr in *. set (s := sin th) in *. set (c := cos th) in *. set (s' := sin ph) in *. set (c' := cos ph) in *. transitivity (s * s * (s' * s' + c' * c') + c * c); [ring|rewrite B; lra]. Qed.
Lemma orbit_unit x y z : x * x + y * y + z * z = 1 -> List.Forall on_unit_sphere (orbit x y z).
Proof.
  intros E. unfold orbit. cbn [expand_sign]. destruct (Req_EM_T z 0), (Req_EM_T y 0), (Req_EM_T x 0); cbn [map app]; repeat constructor; unfold on_unit_sphere, dot, to_vec; cbn [fst snd nth]; lra.
Qed.
Lemma oct_unit : List.Forall on_unit_sphere oct_pts.
Proof.
  assert (K : forall k n, 0 < k -> 0 < n -> (n / sqrt k) * (n / sqrt k) = n * n / k) by (intros k n Hk Hn; destruct (sqrt_facts k n Hk Hn) as [_ E]; rewrite <- E; ring).
  unfold oct_pts. cbv zeta. rewrite !Forall_app. repeat match goal with |- _ /\ _ => split end; apply orbit_unit; rewrite ?(K 2 1), ?(K 3 1), ?(K 11 1), ?(K 11 3) by lra; lra.
Qed.
Lemma Forall_firstn {A} (P : A -> Prop) n l : List.Forall P l -> List.Forall P (firstn n l).
Proof. intros H. rewrite <- (firstn_skipn n l), Forall_app in H. tauto. Qed.
(** the number of points asked for is the number returned, there is one weight for each, they are
    positive and sum to one, and the points stay on the unit sphere whatever rotation is drawn *)
Theorem C53_rule_shape : forall t n q u1 u2, get_quadrature (Some (t, n)) = Some q -> 0 <= u2 <= 1 ->
  List.length (rotated q u1 u2) = n /\ List.length (coefs q) = n /\ List.Forall (fun w => 0 < w) (coefs q) /\ fold_right Rplus 0 (coefs q) = 1 /\
  List.Forall on_unit_sphere (rotated q u1 u2).
Proof.
  intros t n q u1 u2 Q U.
  assert (H : List.length (pts q) = n /\ List.length (coefs q) = n /\ List.Forall (fun w => 0 < w) (coefs q) /\ fold_right Rplus 0 (coefs q) = 1 /\ List.Forall on_unit_sphere (pts q)).
  { assert (D : exists d, degree_of (Some (t, n)) d) by (apply C53_identifiers; exists q; exact Q). destruct D as [d D].
    assert (IC : forall n q, icosahedron n = Some q -> List.length (pts q) = n /\ List.length (coefs q) = n /\ List.Forall (fun w => 0 < w) (coefs q) /\ fold_right Rplus 0 (coefs q) = 1 /\ List.Forall on_unit_sphere (pts q)).
    { clear. intros n q Q. assert (SU : List.Forall on_unit_sphere shell12 /\ List.Forall on_unit_sphere shell20) by (split; apply Forall_map; apply Forall_forall; intros p _; apply cartesian_unit).
      destruct SU as [S1 S2]. destruct (ico_cases n q Q) as [[-> ->]|[-> ->]]; cbn [pts coefs].
      - split; [reflexivity|]. split; [reflexivity|]. split; [cbn [repeat]; repeat constructor; lra|]. split; [cbn [repeat fold_right]; lra|exact S1].
      - split; [reflexivity|]. split; [reflexivity|]. split; [cbn [repeat app]; repeat constructor; lra|]. split; [cbn [repeat app fold_right]; lra|]. apply Forall_app. auto. }
    assert (OC : forall n q, octahedron n = Some q -> List.length (pts q) = n /\ List.length (coefs q) = n /\ List.Forall (fun w => 0 < w) (coefs q) /\ fold_right Rplus 0 (coefs q) = 1 /\ List.Forall on_unit_sphere (pts q)).
    { clear. intros n q Q. destruct orb_lengths as [LA [LB [LC LD]]]. assert (L : List.length oct_pts = 50%nat) by (rewrite oct_pts_orbits, !app_length, LA, LB, LC, LD; reflexivity).
      unfold octahedron in Q. destruct (oct_coefs n) as [cs|] eqn:C; [|discriminate]. assert (N : (n = 6 \/ n = 18 \/ n = 26 \/ n = 50)%nat) by (do 51 (destruct n as [|n]; [cbn in C; auto; congruence|]); cbn in C; congruence).
      assert (QE : q = {| pts := firstn n oct_pts; coefs := cs |}) by congruence. subst q. cbn [pts coefs].
      split; [rewrite firstn_length, L; lia|].
      assert (R : List.length cs = n /\ List.Forall (fun w => 0 < w) cs /\ fold_right Rplus 0 cs = 1).
      { destruct N as [-> |[-> |[-> | ->]]]; unfold oct_coefs in C; match type of C with Some ?x = _ => assert (CE : cs = x) by congruence end; clear C; subst cs; (split; [reflexivity|]); (split; [cbn [repeat app]; repeat constructor; lra|cbn [repeat app fold_right]; lra]). }
      destruct R as [R1 [R2 R3]]. split; [exact R1|]. split; [exact R2|]. split; [exact R3|]. apply Forall_firstn, oct_unit. }
    unfold get_quadrature in Q. destruct (String.eqb t "octahedron"); [exact (OC n q Q)|]. destruct (String.eqb t "icosahedron"); [exact (IC n q Q)|discriminate]. }
  destruct H as [H1 [H2 [H3 [H4 H5]]]]. split; [unfold rotated; rewrite map_length; exact H1|]. split; [exact H2|]. split; [exact H3|]. split; [exact H4|].
  unfold rotated. apply Forall_map. eapply Forall_impl; [|exact H5]. intros p P. unfold on_unit_sphere. rewrite rotation_isometry by exact U. exact P.
Qed.
(** every matrix that can be drawn is a proper rotation *)
Theorem C53_rotation_proper : forall u1 u2, 0 <= u2 <= 1 -> (forall p q, dot (apply (rotation u1 u2) p) (apply (rotation u1 u2) q) = dot p q) /\ det (rotation u1 u2) = 1.
Proof. intros u1 u2 U. split; [intros p q; apply rotation_isometry; exact U|apply rotation_det; exact U]. Qed.
(** the degree of the six-point rule is sharp: without rotation it does not integrate x^4 *)
Example C53_sharp : forall q v, get_quadrature (Some ("octahedron"%string, 6%nat)) = Some q -> sphere_integral (fun x y z => x ^ 4) v -> integrate q (map (at_pt (fun x y z => x ^ 4)) (pts q)) <> v.
Proof.
  intros q v Q H. assert (V : v = 4 * PI * (1 / 5)).
  { apply (sphere_unique _ _ _ H). eapply sphere_ext; [|pose proof (mono_is 1 (2 * 2) (2 * 0) (2 * 0)) as M; rewrite mom_even in M; cbn [odds dens Nat.add Nat.mul INR] in M; replace (4 * PI * (1 / 5)) with (1 * (4 * PI * (1 * (1) * (1 + 1 + 1) * 1 * 1 / (1 * (1 + 1 + 1) * (1 + 1 + 1 + 1 + 1))))) by field; exact M]. intros x y z. cbn. ring. }
  change (integrate q (map (at_pt (fun x y z => x ^ 4)) (pts q))) with (wsum (coefs q) (pts q) (fun x y z => x ^ 4) * 4 * PI). rewrite (oct_wsum 6 q _ Q). cbn [oct_weights].
  rewrite (wsum_ext [] [] (fun x y z => x ^ 4) (mono (2 * 2) (2 * 0) (2 * 0))) || idtac.
  assert (TA : total orbA (fun x y z => x ^ 4) = 2). { replace (total orbA (fun x y z => x ^ 4)) with (total orbA (mono (2 * 2) (2 * 0) (2 * 0))); [rewrite orbA_even; cbn [d0]; ring|]. unfold total. f_equal. apply map_ext. intros p. unfold at_pt, mono. cbn. ring. }
  rewrite TA. pose proof PI_RGT_0. intros C. rewrite V in C. nra.
Qed.
(** ** "Random rotations are used to remove bias": they do not.
    Averaged over the two uniform draws, the six-point rule gives 13/60 of the sphere for x^4, whose
    integral is 1/5 of it: the drawn rotations are not uniformly distributed over all rotations. *)
Lemma unit_average (g : R -> R) v : is_RInt g 0 (2 * PI) v -> is_RInt (fun u => g (u * PI * 2)) 0 1 (v / (2 * PI)).
Proof.
  intros G. pose proof PI_RGT_0 as P. pose proof (@is_RInt_comp_lin R_NormedModule g (2 * PI) 0 0 1 v) as C. replace (2 * PI * 0 + 0) with 0 in C by ring. replace (2 * PI * 1 + 0) with (2 * PI) in C by ring. specialize (C G).
  apply (@is_RInt_scal R_NormedModule _ _ _ (/ (2 * PI))) in C. replace (v / (2 * PI)) with (scal (/ (2 * PI)) v) by (unfold scal; cbn; unfold mult; cbn; field; lra).
  eapply (@is_RInt_ext R_NormedModule); [|exact C]. intros x _. unfold scal. cbn. unfold mult. cbn. replace (2 * PI * x + 0) with (x * PI * 2) by ring. field. lra.
Qed.
Lemma pow_is n : is_RInt (fun u => u ^ n) 0 1 (/ INR (Datatypes.S n)).
Proof.
  assert (N : INR (Datatypes.S n) <> 0) by (apply not_0_INR; discriminate).
  pose proof (@is_RInt_derive R_CompleteNormedModule (fun u => u ^ Datatypes.S n / INR (Datatypes.S n)) (fun u => u ^ n) 0 1) as D. cbn beta in D.
  match type of D with _ -> _ -> is_RInt _ _ _ ?w => replace (/ INR (Datatypes.S n)) with w end.
  2: { unfold minus, plus, opp. change (1 ^ Datatypes.S n / INR (Datatypes.S n) + - (0 ^ Datatypes.S n / INR (Datatypes.S n)) = / INR (Datatypes.S n)). rewrite pow1, pow_i by lia. field. exact N. }
  apply D.
  - intros x _. auto_derive; [exact I|]. change (pred (Datatypes.S n)) with n. change (match n with O => 1 | Datatypes.S _ => INR n + 1 end) with (INR (Datatypes.S n)). field. exact N.
  - intros x _. apply (ex_derive_continuous (fun u => u ^ n)). auto_derive. exact I.
Qed.
Lemma quartic_is k0 k1 k2 k3 k4 : is_RInt (fun u => k0 + k1 * u + k2 * u ^ 2 + k3 * u ^ 3 + k4 * u ^ 4) 0 1 (k0 + k1 / 2 + k2 / 3 + k3 / 4 + k4 / 5).
Proof.
  pose proof (is_RInt_lin _ _ _ _ _ _ k0 k1 (pow_is 0) (pow_is 1)) as A. pose proof (is_RInt_lin _ _ _ _ _ _ k2 k3 (pow_is 2) (pow_is 3)) as B.
  pose proof (is_RInt_lin _ _ _ _ _ _ 1 1 A B) as C. pose proof (is_RInt_lin _ _ _ _ _ _ 1 k4 C (pow_is 4)) as D. cbn [INR] in D.
  match type of D with is_RInt _ _ _ ?x => replace (k0 + k1 / 2 + k2 / 3 + k3 / 4 + k4 / 5) with x by field end.
  eapply (@is_RInt_ext R_NormedModule); [|exact D]. intros x _. cbn beta. cbn [pow]. match goal with |- ?a = ?b => change (@eq R a b) end. ring.
Qed.
Lemma S_values : Quad_Sphere.S 2 0 = PI /\ Quad_Sphere.S 4 0 = 3 / 4 * PI /\ Quad_Sphere.S 6 0 = 5 / 8 * PI /\ Quad_Sphere.S 8 0 = 35 / 64 * PI /\ Quad_Sphere.S 4 4 = 3 / 64 * PI.
Proof.
  pose proof S_0_0 as E0. pose proof (S_step 0 0) as E2. pose proof (S_step 2 0) as E4. pose proof (S_step 4 0) as E6. pose proof (S_step 6 0) as E8. pose proof (S_step' 4 0) as E42. pose proof (S_step' 4 2) as E44. cbn [Nat.add INR] in *.
  assert (V2 : Quad_Sphere.S 2 0 = PI) by (rewrite E2, E0; field). assert (V4 : Quad_Sphere.S 4 0 = 3 / 4 * PI) by (rewrite E4, V2; field). assert (V6 : Quad_Sphere.S 6 0 = 5 / 8 * PI) by (rewrite E6, V4; field).
  assert (V8 : Quad_Sphere.S 8 0 = 35 / 64 * PI) by (rewrite E8, V6; field). assert (V44 : Quad_Sphere.S 4 4 = 3 / 64 * PI) by (rewrite E44, E42, V4; field). auto.
Qed.
Theorem C53_unbiased_refuted : exists q f v w, get_quadrature (Some ("octahedron"%string, 6%nat)) = Some q /\ Poly 4 f /\ sphere_integral f v /\
  average2 (fun u1 u2 => integrate q (map (at_pt f) (rotated q u1 u2))) w /\ w = 13 / 12 * v /\ w <> v.
Proof.
  exists {| pts := orbA; coefs := repeat (1 / 6) 6 |}, (fun x y z => 1 * (x ^ 4 * y ^ 0 * z ^ 0)), (1 * mom 4 0 0), (4 * PI * (13 / 60)).
  assert (V : mom 4 0 0 = 4 * PI * (1 / 5)) by (change (mom 4 0 0) with (mom (2 * 2) (2 * 0) (2 * 0)); rewrite mom_even; cbn [odds dens Nat.add Nat.mul INR]; field).
  destruct orb_lengths as [LA _]. split; [|split; [|split; [|split; [|split]]]].
  - cbn [get_quadrature String.eqb Ascii.eqb Bool.eqb]. unfold octahedron. cbn [oct_coefs]. rewrite oct_pts_orbits, (firstn_exact 6) by exact LA. reflexivity.
  - apply Mono. lia.
  - apply mono_is.
  - exists (fun u1 => 4 * PI / 3 * (fun p => 1 - 4 * trig 2 0 p + (8 + 8 / 15) * trig 4 0 p - 8 * trig 6 0 p + 16 / 5 * trig 8 0 p + 16 / 5 * trig 4 4 p) (u1 * PI * 2)). split.
    + intros u1. set (p := u1 * PI * 2). set (c := cos p). set (s := sin p).
      pose proof (quartic_is 1 (- 8 * c ^ 2) (24 * c ^ 4 + 16 * c ^ 4) (- 32 * c ^ 6 - 32 * c ^ 4) (16 * c ^ 8 + 16 * (s ^ 4 * c ^ 4) + 16 * c ^ 4)) as Q.
      apply (@is_RInt_scal R_NormedModule _ _ _ (4 * PI / 3)) in Q. unfold scal in Q. cbn in Q. unfold mult in Q. cbn in Q.
      match type of Q with is_RInt _ _ _ ?x => match goal with |- is_RInt _ _ _ ?y => replace y with x end end.
      2: { unfold trig. fold c s. cbn [pow]. field. }
      eapply (@is_RInt_ext R_NormedModule); [|exact Q]. intros u U. rewrite Rmin_left, Rmax_right in U by lra. cbn beta.
      assert (C2 : s * s = 1 - c * c) by (pose proof (sin2_cos2 p) as H; unfold Rsqr in H; unfold s, c; lra).
      set (q := {| pts := orbA; coefs := repeat (1 / 6) 6 |}).
      assert (EO : forall g, integrate q (map (at_pt g) (rotated q u1 u)) = 1 / 6 * (total orbA (fun x y z => at_pt g (apply (rotation u1 u) (x, y, z)))) * 4 * PI).
      { intros g. rewrite <- (wsum_repeat (1 / 6) orbA _ 6) by (symmetry; exact LA). unfold integrate, rotated, wsum. cbn [pts coefs q]. rewrite map_map. reflexivity. }
      rewrite EO. unfold orbA. rewrite !total_app. unfold total, orbit. cbn [expand_sign]. destruct (Req_EM_T 0 0) as [_|N]; [|congruence]. destruct (Req_EM_T 1 0) as [N|_]; [lra|]. cbn [map app fold_right]. unfold at_pt, to_vec, apply, rotation. cbn [fst snd nth m11 m12 m13 m21 m22 m23 m31 m32 m33]. fold p. fold c. fold s.
      assert (ST : sqrt (1 - (1 - 2 * u) * (1 - 2 * u)) * sqrt (1 - (1 - 2 * u) * (1 - 2 * u)) = 4 * u * (1 - u)) by (rewrite sqrt_sqrt by nra; ring).
      set (st := sqrt _) in *. clearbody st c s. 
      transitivity (4 * PI / 3 * ((1 - 2 * u * (c * c)) ^ 4 + 16 * u ^ 4 * (s * s) ^ 2 * (c * c) ^ 2 + (4 * u * (1 - u)) ^ 2 * (c * c) ^ 2)); [cbn [pow]; match goal with |- ?a = ?b => change (@eq R a b) end; field|].
      rewrite <- ST. replace (1 - 2 * u * (c * c)) with (s * s + (1 - 2 * u) * (c * c)) by (rewrite C2; ring). cbn [pow]. match goal with |- ?a = ?b => change (@eq R a b) end. field.
    + pose proof S_values as [V2 [V4 [V6 [V8 V44]]]].
      assert (TT : is_RInt (fun p => 1 - 4 * trig 2 0 p + (8 + 8 / 15) * trig 4 0 p - 8 * trig 6 0 p + 16 / 5 * trig 8 0 p + 16 / 5 * trig 4 4 p) 0 (2 * PI) (13 / 20 * (2 * PI))).
      { pose proof (is_RInt_lin _ _ _ _ _ _ 1 (-4) (S_is 0 0) (S_is 2 0)) as A. pose proof (is_RInt_lin _ _ _ _ _ _ (8 + 8 / 15) (-8) (S_is 4 0) (S_is 6 0)) as B. pose proof (is_RInt_lin _ _ _ _ _ _ (16 / 5) (16 / 5) (S_is 8 0) (S_is 4 4)) as C.
        pose proof (is_RInt_lin _ _ _ _ _ _ 1 1 A B) as D. pose proof (is_RInt_lin _ _ _ _ _ _ 1 1 D C) as E. rewrite S_0_0, V2, V4, V6, V8, V44 in E.
        match type of E with is_RInt _ _ _ ?x => replace (13 / 20 * (2 * PI)) with x by field end. eapply (@is_RInt_ext R_NormedModule); [|exact E]. intros x _. cbn beta. unfold trig at 1. cbn [pow]. match goal with |- ?a = ?b => change (@eq R a b) end. ring. }
      apply unit_average in TT. apply (@is_RInt_scal R_NormedModule _ _ _ (4 * PI / 3)) in TT. pose proof PI_RGT_0.
      match type of TT with is_RInt _ _ _ ?x => replace (4 * PI * (13 / 60)) with x by (unfold scal; cbn; unfold mult; cbn; field; lra) end. exact TT.
  - rewrite V. field.
  - rewrite V. pose proof PI_RGT_0. lra.
Qed.
(** a polynomial that meets the hypotheses of [C53_exact] for the default rule and is not constant *)
Example C53_nonvacuous : Poly 5 (fun x y z => 1 * (x ^ 2 * y ^ 2 * z ^ 0) + 3 * (x ^ 0 * y ^ 0 * z ^ 1)) /\ exists q, get_quadrature None = Some q /\ degree_of None 5.
Proof. split; [apply Plus; apply Mono; lia|]. eexists. split; [reflexivity|constructor]. Qed.
