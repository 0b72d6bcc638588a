(** The surface integral of a polynomial is invariant under rotations. *)
From Coq Require Import Reals List Arith Lia Lra.
From Coquelicot Require Import Coquelicot.
From Verif Require Import Quad_Spec Quad_Sphere.
Import ListNotations.
Open Scope R_scope.
Local Notation RNM := R_NormedModule.
Local Notation RCM := R_CompleteNormedModule.

Lemma sphere_unique f u v : sphere_integral f u -> sphere_integral f v -> u = v.
Proof.
  intros [g [G1 G2]] [h [H1 H2]]. refine (is_RInt_eq _ G2 H2). intros phi. exact (is_RInt_eq (fun _ => eq_refl) (G1 phi) (H1 phi)).
Qed.
Lemma sphere_ext f g v : (forall x y z, f x y z = g x y z) -> sphere_integral f v -> sphere_integral g v.
Proof. intros E [h [H1 H2]]. exists h. split; [|exact H2]. intros phi. eapply (@is_RInt_ext RNM); [|exact (H1 phi)]. intros z _. unfold on_sphere. apply E. Qed.
Lemma sphere_plus f g u v : sphere_integral f u -> sphere_integral g v -> sphere_integral (fun x y z => f x y z + g x y z) (u + v).
Proof. intros [h [H1 H2]] [k [K1 K2]]. exists (fun phi => h phi + k phi). split; [intros phi; exact (@is_RInt_plus RNM _ _ _ _ _ _ (H1 phi) (K1 phi))|exact (@is_RInt_plus RNM _ _ _ _ _ _ H2 K2)]. Qed.
Lemma poly_integrable d f : Poly d f -> exists v, sphere_integral f v.
Proof.
  induction 1 as [k a b c L|f g F [u IF] G [v IG]|f g F [v IF] E]; [eexists; apply mono_is|exists (u + v); apply sphere_plus; assumption|exists v; eapply sphere_ext; eauto].
Qed.
(** ** Polynomials are closed under linear substitutions *)
Lemma poly_le d e f : (d <= e)%nat -> Poly d f -> Poly e f.
Proof. intros L. induction 1 as [k a b c H|f g F IF G IG|f g F IF E]; [apply Mono; lia|apply Plus; assumption|eapply Ext; eauto]. Qed.
Lemma poly_mult d e f g : Poly d f -> Poly e g -> Poly (d + e) (fun x y z => f x y z * g x y z).
Proof.
  intros F G. induction F as [k a b c H|f1 f2 F1 I1 F2 I2|f f' F IF E].
  - induction G as [k' a' b' c' H'|g1 g2 G1 J1 G2 J2|g g' G JG E'].
    + eapply Ext; [apply (Mono (d + e) (k * k') (a + a') (b + b') (c + c')); lia|]. intros x y z. cbn beta. rewrite !pow_add. ring.
    + eapply Ext; [apply Plus; [exact J1|exact J2]|]. intros x y z. cbn beta. ring.
    + eapply Ext; [exact JG|]. intros x y z. cbn beta. rewrite E'. reflexivity.
  - eapply Ext; [apply Plus; [exact I1|exact I2]|]. intros x y z. cbn beta. ring.
  - eapply Ext; [exact IF|]. intros x y z. cbn beta. rewrite E. reflexivity.
Qed.
Lemma poly_pow d f n : Poly d f -> Poly (n * d) (fun x y z => f x y z ^ n).
Proof.
  intros F. induction n as [|n IH]; [eapply Ext; [apply (Mono (0 * d) 1 0 0 0); lia|]; intros; cbn; ring|]. change (Datatypes.S n * d)%nat with (d + n * d)%nat. apply (poly_mult d (n * d)); assumption.
Qed.
Lemma poly_lin a b c : Poly 1 (fun x y z => a * x + b * y + c * z).
Proof.
  eapply Ext; [apply Plus; [apply Plus; [apply (Mono 1 a 1 0 0); lia|apply (Mono 1 b 0 1 0); lia]|apply (Mono 1 c 0 0 1); lia]|]. intros x y z. cbn. ring.
Qed.
Lemma poly_subst d f a1 b1 c1 a2 b2 c2 a3 b3 c3 : Poly d f -> Poly d (fun x y z => f (a1 * x + b1 * y + c1 * z) (a2 * x + b2 * y + c2 * z) (a3 * x + b3 * y + c3 * z)).
Proof.
  induction 1 as [k a b c H|f g F IF G IG|f g F IF E].
  - apply (poly_le (a + b + c)); [exact H|]. eapply Ext; [apply (poly_mult 0 (a + b + c)); [apply (Mono 0 k 0 0 0); lia|]|].
    + apply (poly_mult (a + b) c); [apply (poly_mult a b)|]; [replace a with (a * 1)%nat at 1 by lia|replace b with (b * 1)%nat at 1 by lia|replace c with (c * 1)%nat at 1 by lia]; apply poly_pow, poly_lin.
    + intros x y z. cbn beta. cbn [pow]. rewrite !Rmult_1_r. reflexivity.
  - apply (Plus d _ _ IF IG).
  - eapply Ext; [exact IF|]. intros x y z. cbn beta. apply E.
Qed.
(** ** Rotation about the z axis *)
Definition rotz (al : R) (f : fn) : fn := fun x y z => f (cos al * x - sin al * y) (sin al * x + cos al * y) z.
Lemma shift_is (g : R -> R) s a b l : is_RInt g (a + s) (b + s) l -> is_RInt (fun y => g (y + s)) a b l.
Proof.
  intros H. pose proof (@is_RInt_comp_lin RNM g 1 s a b l) as C. rewrite !Rmult_1_l in C. specialize (C H). eapply (@is_RInt_ext RNM); [|exact C]. intros x _. unfold scal. cbn. unfold mult. cbn. rewrite !Rmult_1_l. reflexivity.
Qed.
Lemma period_shift (g : R -> R) v al : 0 <= al <= 2 * PI -> (forall x, g (x + 2 * PI) = g x) -> is_RInt g 0 (2 * PI) v -> is_RInt (fun x => g (x + al)) 0 (2 * PI) v.
Proof.
  intros A PER G. apply shift_is. rewrite Rplus_0_l.
  assert (E : ex_RInt g 0 (2 * PI)) by (exists v; exact G).
  pose proof (@ex_RInt_Chasles_1 RCM g 0 al (2 * PI) A E) as [u U]. pose proof (@ex_RInt_Chasles_2 RCM g 0 al (2 * PI) A E) as [w W].
  pose proof (@is_RInt_Chasles RNM _ _ _ _ _ _ U W) as UW. assert (Q : plus u w = v) by exact (is_RInt_eq (fun _ => eq_refl) UW G).
  assert (U2 : is_RInt g (2 * PI) (2 * PI + al) u).
  { assert (H : is_RInt (fun y => g (y + - (2 * PI))) (2 * PI) (2 * PI + al) u) by (apply shift_is; replace (2 * PI + - (2 * PI)) with 0 by ring; replace (2 * PI + al + - (2 * PI)) with al by ring; exact U).
    eapply (@is_RInt_ext RNM); [|exact H]. intros x _. cbn beta. rewrite <- PER. f_equal. ring. }
  replace v with (plus w u) by (rewrite <- Q; apply plus_comm). exact (@is_RInt_Chasles RNM _ _ _ _ _ _ W U2).
Qed.
Lemma rotz_is al f v : 0 <= al <= 2 * PI -> sphere_integral f v -> sphere_integral (rotz al f) v.
Proof.
  intros A [g [G1 G2]]. exists (fun phi => g (phi + al)). split.
  - intros phi. eapply (@is_RInt_ext RNM); [|exact (G1 (phi + al))]. intros z _. unfold on_sphere, rotz. rewrite cos_plus, sin_plus. f_equal; ring.
  - apply period_shift; [exact A| |exact G2]. intros x. refine (is_RInt_eq _ (G1 (x + 2 * PI)) (G1 x)). intros z. unfold on_sphere. rewrite cos_plus, sin_plus, cos_2PI, sin_2PI. f_equal; ring.
Qed.
Lemma rotz_neg_is al f v : 0 <= al <= 2 * PI -> sphere_integral f v -> sphere_integral (rotz (- al) f) v.
Proof.
  intros A H. eapply sphere_ext; [|apply (rotz_is (2 * PI - al) f v); [lra|exact H]]. intros x y z. unfold rotz, Rminus. rewrite cos_plus, sin_plus, cos_2PI, sin_2PI. f_equal; ring.
Qed.
(** ** Permutation of the coordinates *)
Lemma mom_cycle a b c : mom a b c = mom c a b.
Proof.
  destruct (Nat.Even_or_Odd a) as [EA|OA]; [|rewrite !mom_odd by auto; reflexivity]. destruct (Nat.Even_or_Odd b) as [EB|OB]; [|rewrite !mom_odd by auto; reflexivity]. destruct (Nat.Even_or_Odd c) as [EC|OC]; [|rewrite !mom_odd by auto; reflexivity].
  destruct EA as [i ->], EB as [j ->], EC as [k ->]. rewrite !mom_even. replace (k + i + j)%nat with (i + j + k)%nat by lia. f_equal. f_equal. ring.
Qed.
Definition cycle (f : fn) : fn := fun x y z => f y z x.
Lemma cycle_both d f : Poly d f -> exists v, sphere_integral f v /\ sphere_integral (cycle f) v.
Proof.
  induction 1 as [k a b c L|f g F [u [IF IF']] G [v [IG IG']]|f g F [v [IF IF']] E].
  - exists (k * mom a b c). split; [apply mono_is|]. rewrite mom_cycle. eapply sphere_ext; [|apply (mono_is k c a b)]. intros x y z. unfold cycle. ring.
  - exists (u + v). split; [apply sphere_plus; assumption|]. apply (sphere_plus _ _ _ _ IF' IG').
  - exists v. split; [eapply sphere_ext; eauto|]. eapply sphere_ext; [|exact IF']. intros x y z. unfold cycle. apply E.
Qed.
Lemma cycle_is d f v : Poly d f -> sphere_integral f v -> sphere_integral (cycle f) v.
Proof. intros F H. destruct (cycle_both d f F) as [u [A B]]. rewrite (sphere_unique _ _ _ H A). exact B. Qed.
Lemma poly_cycle d f : Poly d f -> Poly d (cycle f).
Proof. intros F. eapply Ext; [apply (poly_subst d f 0 1 0 0 0 1 1 0 0 F)|]. intros x y z. unfold cycle. cbn beta. f_equal; ring. Qed.
Lemma poly_rotz d al f : Poly d f -> Poly d (rotz al f).
Proof. intros F. eapply Ext; [apply (poly_subst d f (cos al) (- sin al) 0 (sin al) (cos al) 0 0 0 1 F)|]. intros x y z. unfold rotz. cbn beta. f_equal; ring. Qed.
(** ** Rotation about the y axis, by conjugation with the cyclic permutation *)
Definition roty (th : R) (f : fn) : fn := fun x y z => f (cos th * x + sin th * z) y (- sin th * x + cos th * z).
Lemma roty_cycle th f x y z : roty th f x y z = cycle (cycle (rotz th (cycle f))) x y z.
Proof. unfold roty, cycle, rotz. f_equal; ring. Qed.
Lemma roty_is d th f v : 0 <= th <= 2 * PI -> Poly d f -> sphere_integral f v -> sphere_integral (roty th f) v.
Proof.
  intros A F H. eapply sphere_ext; [intros x y z; symmetry; apply roty_cycle|]. pose proof (poly_cycle d f F) as F1. pose proof (poly_rotz d th _ F1) as F2. pose proof (poly_cycle d _ F2) as F3.
  apply (cycle_is d); [exact F3|]. apply (cycle_is d); [exact F2|]. apply rotz_is; [exact A|]. apply (cycle_is d); assumption.
Qed.
Lemma poly_roty d th f : Poly d f -> Poly d (roty th f).
Proof. intros F. eapply Ext; [apply (poly_subst d f (cos th) 0 (sin th) 0 1 0 (- sin th) 0 (cos th) F)|]. intros x y z. unfold roty. cbn beta. f_equal; ring. Qed.
