(** C71, C72: the kinetic energy and the angular momentum of electrons on a sphere around a monopole. *)
From Coq Require Import Reals List Arith Lra Lia FunctionalExtensionality.
From Coquelicot Require Import Coquelicot.
From Verif Require Import Det Sph_Model Sph_Spec Sph_Ops Sph_Sym.
Import ListNotations.
Open Scope R_scope.

(** The tables the estimator reads at e. *)
Definition tables (e : configuration) (ft fp : nat -> configuration -> C) (ftt ftp fpp : nat -> nat -> C) : log_tables :=
  {| dt := fun i => ft i e; dp := fun i => fp i e; dtt := ftt; dtp := ftp; dpp := fpp |}.

Ltac cring := match goal with |- ?a = ?b => change (@eq C a b) end; ring.
Lemma total_csigma n f : total n f = csigma n f.
Proof. unfold total. induction n as [|n IH]; [reflexivity|]. cbn [bigsum csigma]. rewrite IH. reflexivity. Qed.
Lemma inv_tan t : / tan t = cos t / sin t.
Proof.
  unfold tan, Rdiv. destruct (Req_dec (sin t) 0) as [->|S0]; [rewrite Rmult_0_l, !Rinv_0; ring|].
  destruct (Req_dec (cos t) 0) as [->|C0]; [rewrite Rinv_0, Rmult_0_r, Rinv_0; ring|]. field. auto.
Qed.
Lemma over_tan x t : x / tan t = x * (cos t / sin t).
Proof. unfold Rdiv at 1. rewrite inv_tan. reflexivity. Qed.
Lemma RtoC_inv_all x : Cinv (RtoC x) = RtoC (/ x).
Proof.
  destruct (Req_dec x 0) as [->|N]; [|symmetry; apply RtoC_inv; exact N].
  apply Ceq; unfold Cinv, RtoC; cbn [fst snd]; rewrite ?Rmult_0_l; unfold Rdiv; rewrite ?Rinv_0; ring.
Qed.
Lemma Cdiv_real z x : Cdiv z (RtoC x) = Cmult (RtoC (/ x)) z.
Proof. unfold Cdiv. rewrite RtoC_inv_all. ring. Qed.
Lemma Cdiv_tan z t : Cdiv z (RtoC (tan t)) = Cmult (RtoC (cos t / sin t)) z.
Proof. rewrite Cdiv_real, inv_tan. reflexivity. Qed.
Lemma theta_hat_eq x a : theta_hat' x a = thvec x a / sin (fst x) \/ sin (fst x) = 0.
Proof.
  destruct (Req_dec (sin (fst x)) 0) as [Z|N]; [right; exact Z|left]. unfold theta_hat', thvec. destruct a as [|[|[|a]]]; cbn [nth]; rewrite ?over_tan; try (field; exact N).
  destruct a; unfold Rdiv; ring.
Qed.
Lemma exp_nz z : exp_of z <> RtoC 0.
Proof.
  intros E. assert (N : Cmod (exp_of z) = 0) by (rewrite E; apply Cmod_0). unfold exp_of in N. rewrite Cmod_mult, Cmod_R, Rabs_pos_eq in N by (left; apply exp_pos).
  assert (U : Cmod (cos (snd z), sin (snd z)) = 1). { unfold Cmod. cbn [fst snd]. replace (cos (snd z) ^ 2 + sin (snd z) ^ 2) with 1; [apply sqrt_1|]. rewrite sc. ring. }
  rewrite U in N. pose proof (exp_pos (fst z)). lra.
Qed.
Lemma ld_nz n psi f e ft fp ftt ftp fpp : log_derivatives n psi f e ft fp ftt ftp fpp -> psi e <> RtoC 0.
Proof. intros LD. destruct (ld_first _ _ _ _ _ _ _ _ _ LD) as (eps & E & H). destruct (H e (near_refl eps n e E)) as [-> _]. apply exp_nz. Qed.

Lemma kinetic_sum n Q r e ft fp ftt ftp fpp : (forall i, (i < n)%nat -> sin (fst (e i)) <> 0) ->
  kinetic_hessian n Q r e (tables e ft fp ftt ftp fpp) =
  Cdiv (csigma n (fun i => lambda_sq Q (e i) (ft i e) (fp i e) (ftt i i) (fpp i i))) (RtoC (2 * r ^ 2)).
Proof.
  intros SN. unfold kinetic_hessian, square_grad, magnetic_contribution, tables. cbn [dt dp dtt dpp]. rewrite !total_csigma, <- csigma_opp, <- csigma_minus, <- csigma_plus.
  rewrite !Cdiv_real, Rinv_mult, RtoC_mult. rewrite (csigma_ext n _ (fun i => lambda_sq Q (e i) (ft i e) (fp i e) (ftt i i) (fpp i i))); [ring|].
  intros i I. rewrite Cdiv_tan, !Cdiv_real. unfold lambda_sq. replace ((Q / tan (fst (e i))) ^ 2) with (Q ^ 2 * cos (fst (e i)) ^ 2 / sin (fst (e i)) ^ 2) by (rewrite over_tan; field; apply SN; exact I).
  replace (Cmult (Cmult (RtoC 2) Ci) (RtoC (Q * cos (fst (e i)) / sin (fst (e i)) ^ 2))) with (imag (2 * Q * cos (fst (e i)) / sin (fst (e i)) ^ 2))
    by (apply Ceq; unfold imag, Ci; cbn [Cmult RtoC fst snd]; unfold Rdiv; ring).
  ring.
Qed.

(** The kinetic energy is the local value of sum_i |Lambda_i|^2 / (2 r^2), for every wavefunction, flux and configuration away from the poles. *)
Theorem C71_kinetic_energy : forall n Q r psi f e ft fp ftt ftp fpp, log_derivatives n psi f e ft fp ftt ftp fpp ->
  (forall i, (i < n)%nat -> sin (fst (e i)) <> 0) ->
  psi e <> RtoC 0 /\ kinetic_hessian n Q r e (tables e ft fp ftt ftp fpp) = Cdiv (kinetic_operator n Q r psi e) (psi e).
Proof.
  intros n Q r psi f e ft fp ftt ftp fpp LD SN. pose proof (ld_nz _ _ _ _ _ _ _ _ _ LD) as NZ. split; [exact NZ|]. rewrite kinetic_sum by exact SN.
  assert (K : kinetic_operator n Q r psi e = Cmult (psi e) (Cdiv (csigma n (fun i => lambda_sq Q (e i) (ft i e) (fp i e) (ftt i i) (fpp i i))) (RtoC (2 * r ^ 2)))).
  { unfold kinetic_operator. rewrite Cdiv_real, <- !csigma_scal. apply csigma_ext. intros i I. rewrite !(Lambda_twice n psi f e ft fp ftt ftp fpp LD SN) by exact I.
    pose proof (lambda_contract Q (e i) (ft i e) (fp i e) (ftt i i) (ftp i i) (fpp i i) (SN i I)) as K. cbv zeta in K. rewrite <- K, !Cdiv_real. ring. }
  rewrite K. generalize (Cdiv (csigma n (fun i => lambda_sq Q (e i) (ft i e) (fp i e) (ftt i i) (fpp i i))) (RtoC (2 * r ^ 2))). intros z. unfold Cdiv.
  transitivity (Cmult z (Cmult (psi e) (Cinv (psi e)))); [rewrite Cinv_r by exact NZ|]; ring.
Qed.

(** The forward-Laplacian mode returns the same number: its jacobian is the gradient times the weights, its laplacian the
    sum of the second derivatives times the squared weights. *)
Theorem C71_modes_agree : forall n Q r e ft fp ftt ftp fpp jac lap, (forall i, (i < n)%nat -> sin (fst (e i)) <> 0) ->
  (forall i, (i < n)%nat -> jac i = (ft i e, Cdiv (fp i e) (RtoC (sin (fst (e i)))))) ->
  lap = csigma n (fun i => Cplus (ftt i i) (Cdiv (fpp i i) (RtoC (sin (fst (e i)) ^ 2)))) ->
  kinetic_forward n Q r e jac lap = kinetic_hessian n Q r e (tables e ft fp ftt ftp fpp).
Proof.
  intros n Q r e ft fp ftt ftp fpp jac lap SN J ->. unfold kinetic_forward, kinetic_hessian, square_grad, magnetic_contribution, tables. cbn [dt dp dtt dpp]. rewrite !total_csigma.
  apply (f_equal2 Cdiv); [apply (f_equal2 Cdiv)|]; try reflexivity. rewrite <- csigma_plus.
  assert (G : forall i, (i < n)%nat -> Cdiv (fst (jac i)) (RtoC (fst (fwdlap_weight (e i)))) = ft i e /\ Cdiv (snd (jac i)) (RtoC (snd (fwdlap_weight (e i)))) = fp i e).
  { intros i I. rewrite (J i I). unfold fwdlap_weight. cbn [fst snd]. rewrite !Cdiv_real. rewrite Rinv_1, Rinv_inv. split; [ring|]. rewrite Cmult_assoc, <- RtoC_mult, Rinv_r by (apply SN; exact I). ring. }
  apply (f_equal2 Cplus); [apply (f_equal2 Cminus)|]; [apply f_equal| |]; apply csigma_ext; intros i I; destruct (G i I) as [G1 G2]; rewrite ?G1, ?G2; try reflexivity; ring.
Qed.

(** ** Angular momentum *)
Lemma csigma2_sym n (F G : nat -> nat -> C) : (forall i j, (i < n)%nat -> (j < n)%nat -> Cplus (F i j) (F j i) = Cplus (G i j) (G j i)) ->
  csigma n (fun i => csigma n (fun j => F i j)) = csigma n (fun i => csigma n (fun j => G i j)).
Proof.
  intros H.
  assert (D : forall K : nat -> nat -> C, Cmult (RtoC 2) (csigma n (fun i => csigma n (fun j => K i j))) = csigma n (fun i => csigma n (fun j => Cplus (K i j) (K j i)))).
  { intros K. rewrite (csigma_ext n (fun i => csigma n (fun j => Cplus (K i j) (K j i))) (fun i => Cplus (csigma n (fun j => K i j)) (csigma n (fun j => K j i)))) by (intros; apply csigma_plus).
    rewrite csigma_plus, (csigma_exch n n (fun i j => K j i)). apply Ceq; cbn [Cmult Cplus RtoC fst snd]; ring. }
  assert (T : RtoC 2 <> RtoC 0) by (intros X; apply RtoC_inj in X; lra).
  assert (E : Cmult (RtoC 2) (csigma n (fun i => csigma n (fun j => F i j))) = Cmult (RtoC 2) (csigma n (fun i => csigma n (fun j => G i j)))).
  { rewrite !D. apply csigma_ext. intros i I. apply csigma_ext. intros j J. apply H; assumption. }
  rewrite <- (Cmult_1_l (csigma n (fun i => csigma n (fun j => F i j)))), <- (Cmult_1_l (csigma n (fun i => csigma n (fun j => G i j)))).
  rewrite <- (Cinv_l _ T), <- !Cmult_assoc, E. reflexivity.
Qed.

Section Angular.
  Context (n : nat) (Q : R) (psi f : configuration -> C) (e : configuration) (ft fp : nat -> configuration -> C) (ftt ftp fpp : nat -> nat -> C).
  Hypothesis LD : log_derivatives n psi f e ft fp ftt ftp fpp.
  Hypothesis SN : forall i, (i < n)%nat -> sin (fst (e i)) <> 0.

  Lemma Aa_phi x a : Aa a x = Cmult (Copp Ci) (RtoC (phi_hat x a)).
  Proof. apply Ceq; unfold Aa, imag, Ci, phi_hat, phvec; cbn [Cmult Copp RtoC fst snd]; ring. Qed.
  Lemma Ba_theta x a : sin (fst x) <> 0 -> Ba a x = Cmult Ci (RtoC (theta_hat' x a)).
  Proof. intros S0. destruct (theta_hat_eq x a) as [->|Z]; [|contradiction]. apply Ceq; unfold Ba, imag, Ci; cbn [Cmult Copp RtoC fst snd]; ring. Qed.
  Lemma MM_magnetic x a : sin (fst x) <> 0 -> MM Q a x = RtoC (magnetic Q x a).
  Proof. intros S0. unfold MM, magnetic. destruct (theta_hat_eq x a) as [->|Z]; [|contradiction]. apply f_equal. unfold r_hat, rvec. field. exact S0. Qed.
  Lemma Ci2 : Cmult Ci Ci = Copp (RtoC 1).
  Proof. apply Ceq; unfold Ci; cbn; ring. Qed.

  Definition axis_term (a i j : nat) : C :=
    Cplus (Cminus (Cminus (Cminus
         (Cmult (RtoC (2 * phi_hat (e i) a * theta_hat' (e j) a)) (Cplus (ftp i j) (Cmult (ft i e) (fp j e))))
         (Cmult (RtoC (phi_hat (e i) a * phi_hat (e j) a)) (Cplus (ftt i j) (Cmult (ft i e) (ft j e)))))
         (Cmult (RtoC (theta_hat' (e i) a * theta_hat' (e j) a)) (Cplus (fpp i j) (Cmult (fp i e) (fp j e)))))
         (Cmult (Cmult (Cmult (RtoC 2) Ci) (RtoC (magnetic Q (e j) a))) (Cminus (Cmult (RtoC (phi_hat (e i) a)) (ft i e)) (Cmult (RtoC (theta_hat' (e i) a)) (fp i e)))))
         (RtoC (magnetic Q (e i) a * magnetic Q (e j) a)).
  Definition local_term (a j : nat) : C := Cplus
       (Cmult (Aa a (e j)) (Cplus (Cplus (Cmult (At a (e j)) (ft j e)) (Cmult (Bt a (e j)) (fp j e))) (MMt Q a (e j))))
       (Cmult (Ba a (e j)) (Cplus (Cplus (Cmult (Ap a (e j)) (ft j e)) (Cmult (Bp a (e j)) (fp j e))) (MMp Q a (e j)))).
  Lemma L_axis a : L n Q a (L n Q a psi) e = Cmult (psi e) (Cplus (csigma n (fun i => csigma n (axis_term a i))) (csigma n (local_term a))).
  Proof.
    rewrite (L_twice n psi f e ft fp ftt ftp fpp LD SN Q a). apply f_equal. rewrite (Cplus_comm (csigma n (fun j => Cplus _ _)) _), Cplus_assoc. apply (f_equal2 Cplus); [|reflexivity].
    rewrite <- csigma_plus.
    rewrite (csigma_ext n _ (fun i => csigma n (fun j => Cplus (Cplus
       (Cmult (Aa a (e i)) (Cplus (Cmult (Aa a (e j)) (ftt j i)) (Cmult (Ba a (e j)) (ftp i j))))
       (Cmult (Ba a (e i)) (Cplus (Cmult (Aa a (e j)) (ftp j i)) (Cmult (Ba a (e j)) (fpp j i)))))
       (Cmult (Cplus (Cplus (Cmult (Aa a (e i)) (ft i e)) (Cmult (Ba a (e i)) (fp i e))) (MM Q a (e i)))
        (Cplus (Cplus (Cmult (Aa a (e j)) (ft j e)) (Cmult (Ba a (e j)) (fp j e))) (MM Q a (e j))))))) by (intros; rewrite <- csigma_plus; reflexivity).
    apply csigma2_sym. intros i j I J. unfold axis_term. rewrite !Aa_phi, !Ba_theta, !MM_magnetic by (apply SN; assumption).
    rewrite !RtoC_mult. generalize (RtoC (phi_hat (e i) a)) (RtoC (phi_hat (e j) a)) (RtoC (theta_hat' (e i) a)) (RtoC (theta_hat' (e j) a)) (RtoC (magnetic Q (e i) a)) (RtoC (magnetic Q (e j) a)).
    pose proof Ci2 as H. intros p1 p2 b1 b2 m1 m2. replace (RtoC 2) with (Cplus (RtoC 1) (RtoC 1)) by (rewrite <- RtoC_plus; apply f_equal; ring). ring [H].
  Qed.
  Lemma axes_sum (F : nat -> C) : axes F = Cplus (Cplus (F 0%nat) (F 1%nat)) (F 2%nat). Proof. reflexivity. Qed.
  Lemma L_square_value : L_square n Q psi e = Cmult (psi e) (angular_square_hessian n Q e (tables e ft fp ftt ftp fpp)).
  Proof.
    unfold L_square. rewrite !L_axis. change (angular_square_hessian n Q e (tables e ft fp ftt ftp fpp)) with
      (Cminus (Cplus (Cplus (csigma n (fun i => csigma n (axis_term 0 i))) (csigma n (fun i => csigma n (axis_term 1 i)))) (csigma n (fun i => csigma n (axis_term 2 i))))
         (csigma n (fun i => Cdiv (ft i e) (RtoC (tan (fst (e i))))))).
    assert (Lc : Cplus (Cplus (csigma n (local_term 0)) (csigma n (local_term 1))) (csigma n (local_term 2)) = Copp (csigma n (fun i => Cdiv (ft i e) (RtoC (tan (fst (e i))))))).
    { rewrite <- !csigma_plus, <- csigma_opp. apply csigma_ext. intros i I. rewrite Cdiv_tan. apply (local_contract Q (e i) (ft i e) (fp i e) (SN i I)). }
    unfold Cminus. rewrite <- Lc. ring.
  Qed.
  Lemma L_first a : L n Q a psi e = Cmult (psi e) (l_on_log n Q e (fun i => ft i e) (fun i => fp i e) a).
  Proof.
    rewrite L_op. destruct (op_first n (fun _ => RtoC 1) (Aa a) (Ba a) (MM Q a) psi f e ft fp ftt ftp fpp LD) as (eps & E & H). destruct (H e (near_refl eps n e E)) as [-> _].
    apply f_equal. unfold ell, l_on_log, differential_term, magnetic_term. change (total n) with (csigma n). rewrite <- csigma_scal, <- csigma_plus. apply csigma_ext. intros i I.
    rewrite Aa_phi, Ba_theta, MM_magnetic by (apply SN; exact I). unfold magnetic. rewrite RtoC_mult. ring.
  Qed.
  Lemma z_axis x : phi_hat x 2 = 0 /\ theta_hat' x 2 = - (1) /\ magnetic Q x 2 = 0.
  Proof. unfold magnetic, phi_hat, theta_hat', r_hat. cbn [nth]. split; [reflexivity|split; [reflexivity|ring]]. Qed.
  Lemma Cdiv_mult_l z w : z <> RtoC 0 -> Cdiv (Cmult z w) z = w.
  Proof. intros N. unfold Cdiv. transitivity (Cmult w (Cmult z (Cinv z))); [ring|]. rewrite Cinv_r by exact N. ring. Qed.
  Lemma local_z : csigma n (local_term 2) = RtoC 0.
  Proof.
    apply csigma_zero. intros i I. unfold local_term, Aa, Ba, At, Ap, Bt, Bp, MMt, MMp, phvec, thvec, pick3. cbn [nth]. apply Ceq; cbn [Cplus Cmult RtoC imag fst snd]; ring.
  Qed.
End Angular.

(** lz, lz_square and l_square are the real parts of the local values of L_z, L_z^2 and L^2. *)
Theorem C72_angular_momentum : forall n Q psi f e ft fp ftt ftp fpp, log_derivatives n psi f e ft fp ftt ftp fpp ->
  (forall i, (i < n)%nat -> sin (fst (e i)) <> 0) ->
  psi e <> RtoC 0 /\ let s := angular_hessian n Q e (tables e ft fp ftt ftp fpp) in
  lz s = fst (Cdiv (L n Q 2 psi e) (psi e)) /\ lz_square s = fst (Cdiv (L n Q 2 (L n Q 2 psi) e) (psi e)) /\ l_square s = fst (Cdiv (L_square n Q psi e) (psi e)).
Proof.
  intros n Q psi f e ft fp ftt ftp fpp LD SN. pose proof (ld_nz _ _ _ _ _ _ _ _ _ LD) as NZ. split; [exact NZ|]. cbv zeta. unfold angular_hessian. cbn [lz lz_square l_square tables dp dpp].
  rewrite (L_square_value n Q psi f e ft fp ftt ftp fpp LD SN), (L_first n Q psi f e ft fp ftt ftp fpp LD SN), (L_axis n Q psi f e ft fp ftt ftp fpp LD SN), !Cdiv_mult_l by exact NZ.
  split; [|split]; [| |reflexivity].
  - unfold l_on_log, differential_term, magnetic_term. change (total n) with (csigma n).
    assert (Z : csigma n (fun i => RtoC (theta_hat' (e i) 2 * cos (fst (e i)) + r_hat (e i) 2)) = RtoC 0)
      by (apply csigma_zero; intros i I; apply f_equal; unfold theta_hat', r_hat; cbn [nth]; ring). rewrite Z.
    assert (Y : csigma n (fun i => Cmult (Copp Ci) (Cminus (Cmult (RtoC (phi_hat (e i) 2)) (ft i e)) (Cmult (RtoC (theta_hat' (e i) 2)) (fp i e)))) = Cmult (Copp Ci) (csigma n (fun i => fp i e))).
    { rewrite <- csigma_scal. apply csigma_ext. intros i I. destruct (z_axis Q (e i)) as (-> & -> & _). apply Ceq; unfold Ci; cbn [Cplus Cmult Cminus Copp RtoC fst snd]; ring. }
    rewrite Y. generalize (csigma n (fun i => fp i e)). intros z. unfold Ci. cbn [Cplus Cmult Copp RtoC fst snd]. ring.
  - rewrite local_z. change (total n) with (csigma n). rewrite (csigma_ext n (fun i => csigma n (axis_term Q e ft fp ftt ftp fpp 2 i)) (fun i => Copp (csigma n (fun j => Cplus (fpp i j) (Cmult (fp i e) (fp j e)))))).
    + rewrite csigma_opp.
      cbn [Cplus Copp RtoC fst]. ring.
    + intros i I. rewrite <- csigma_opp. apply csigma_ext. intros j J. unfold axis_term. destruct (z_axis Q (e i)) as (-> & -> & ->). destruct (z_axis Q (e j)) as (-> & -> & ->).
      apply Ceq; unfold Ci; cbn [Cplus Cmult Cminus Copp RtoC fst snd]; ring.
Qed.

Lemma l_on_log_ell n Q c ft fp a : (forall i, (i < n)%nat -> sin (fst (c i)) <> 0) ->
  l_on_log n Q c (fun k => ft k c) (fun k => fp k c) a = ell n (fun _ => RtoC 1) (Aa a) (Ba a) (MM Q a) ft fp c.
Proof.
  intros SN. unfold ell, l_on_log, differential_term, magnetic_term. change (total n) with (csigma n). rewrite <- csigma_scal, <- csigma_plus. apply csigma_ext. intros i I.
  rewrite Aa_phi, Ba_theta, MM_magnetic by (apply SN; exact I). unfold magnetic. rewrite RtoC_mult. ring.
Qed.
Lemma sin_nz_near t : sin t <> 0 -> locally t (fun x => sin x <> 0).
Proof. intros H. apply (continuous_sin t (fun y => y <> 0)). apply open_neq. exact H. Qed.
(** Applying the operator twice (the forward-Laplacian mode) gives the same three numbers. *)
Theorem C72_modes_agree : forall n Q psi f e ft fp ftt ftp fpp jt jp, log_derivatives n psi f e ft fp ftt ftp fpp ->
  (forall i, (i < n)%nat -> sin (fst (e i)) <> 0) ->
  (forall a i, (i < n)%nat -> cderive (fun t => let c := set_theta e i t in l_on_log n Q c (fun k => ft k c) (fun k => fp k c) a) (fst (e i)) (jt a i)) ->
  (forall a i, (i < n)%nat -> cderive (fun t => let c := set_phi e i t in l_on_log n Q c (fun k => ft k c) (fun k => fp k c) a) (snd (e i)) (jp a i)) ->
  angular_double n Q e (fun i => ft i e) (fun i => fp i e) jt jp = angular_hessian n Q e (tables e ft fp ftt ftp fpp).
Proof.
  intros n Q psi f e ft fp ftt ftp fpp jt jp LD SN JT JP.
  destruct (C72_angular_momentum n Q psi f e ft fp ftt ftp fpp LD SN) as (NZ & A & B & D). cbv zeta in A, B, D.
  assert (ET : forall a i, (i < n)%nat -> jt a i = ell_t n (fun _ => RtoC 1) (Aa a) (Ba a) e ft fp ftt ftp (At a) (Bt a) (MMt Q a) i).
  { intros a i I. rewrite <- (cderive_unique _ _ _ (JT a i I)). apply cderive_unique. 
    apply (cderive_ext_loc (fun t => ell n (fun _ => RtoC 1) (Aa a) (Ba a) (MM Q a) ft fp (set_theta e i t))).
    - apply (filter_imp (fun x => sin x <> 0)); [|apply sin_nz_near, SN; exact I]. intros t T. symmetry. apply l_on_log_ell. intros k K.
      destruct (Nat.eq_dec k i) as [->|N]; [rewrite set_theta_same; exact T|rewrite set_theta_other by exact N; apply SN; exact K].
    - eapply ell_theta; try exact I; [exact LD|intros k K; apply dAt; auto|intros k K; apply dBt; auto|intros k K; apply dMMt; auto]. }
  assert (EP : forall a i, (i < n)%nat -> jp a i = ell_p n (fun _ => RtoC 1) (Aa a) (Ba a) e ft fp ftp fpp (Ap a) (Bp a) (MMp Q a) i).
  { intros a i I. rewrite <- (cderive_unique _ _ _ (JP a i I)). apply cderive_unique. 
    apply (cderive_ext (fun t => ell n (fun _ => RtoC 1) (Aa a) (Ba a) (MM Q a) ft fp (set_phi e i t))).
    - intros t. symmetry. apply l_on_log_ell. intros k K.
      destruct (Nat.eq_dec k i) as [->|N]; [rewrite set_phi_same; cbn [fst]; auto|rewrite set_phi_other by exact N; apply SN; exact K].
    - eapply ell_phi; try exact I; [exact LD|intros k K; apply dAp; auto|intros k K; apply dBp; auto|intros k K; apply dMMp; auto]. }
  assert (E2 : forall a, Cplus (differential_term n e (jt a) (jp a) a) (Cmult (l_on_log n Q e (fun i => ft i e) (fun i => fp i e) a) (l_on_log n Q e (fun i => ft i e) (fun i => fp i e) a)) =
      Cdiv (L n Q a (L n Q a psi) e) (psi e)).
  { intros a. rewrite !L_op.
    rewrite (op_second n (fun _ => RtoC 1) (Aa a) (Ba a) (MM Q a) psi f e ft fp ftt ftp fpp LD (At a) (Ap a) (Bt a) (Bp a) (MMt Q a) (MMp Q a));
      try (intros j J; first [apply dAt|apply dAp|apply dBt|apply dBp|apply dMMt|apply dMMp]; auto; apply SN; exact J).
    rewrite Cdiv_mult_l by exact NZ. rewrite (l_on_log_ell n Q e ft fp a SN). apply (f_equal2 Cplus); [|reflexivity]. unfold differential_term. change (total n) with (csigma n). apply csigma_ext.
    intros i I. rewrite Aa_phi, Ba_theta, ET, EP by auto. ring. }
  unfold angular_double. rewrite !E2.
  destruct (angular_hessian n Q e (tables e ft fp ftt ftp fpp)) as [z z2 l2]. cbn [lz lz_square l_square] in A, B, D. rewrite A, B, D, (L_first n Q psi f e ft fp ftt ftp fpp LD SN), Cdiv_mult_l by exact NZ.
  f_equal. unfold axes. rewrite !E2. unfold L_square, Cdiv. rewrite !Cmult_plus_distr_r. reflexivity.
Qed.
