(** C75: the angular momentum penalty. *)
From Coq Require Import Reals List Arith Lra Lia.
From Coquelicot Require Import Coquelicot.
From Verif Require Import Det Hall_Spec Hall_Lemmas Sph_Spec Sph_Model Sph_Ops Sph_Sym Sph_Props Sph_Level Sphere_Model.
Import ListNotations.
Open Scope R_scope.

Lemma Cdiv_plus a b z : Cdiv (Cplus a b) z = Cplus (Cdiv a z) (Cdiv b z).
Proof. unfold Cdiv. ring. Qed.
Lemma penalty_value cz lzp l2p E a b d : penalized_loss cz lzp l2p E a b d = Cplus E (RtoC (lzp * (b - 2 * cz * a + cz ^ 2) + l2p * d)).
Proof.
  unfold penalized_loss. destruct (Req_EM_T lzp 0) as [->|], (Req_EM_T l2p 0) as [->|]; apply C_eq; cbn [Cplus RtoC fst snd]; ring.
Qed.
(** The loss is the energy plus the real part of the local value of  lz_penalty (L_z - lz_center)^2 + l2_penalty L^2. *)
Theorem C75_penalty : forall n Q psi f e ft fp ftt ftp fpp cz lzp l2p E, log_derivatives n psi f e ft fp ftt ftp fpp ->
  (forall i, (i < n)%nat -> sin (fst (e i)) <> 0) ->
  let s := angular_hessian n Q e (tables e ft fp ftt ftp fpp) in
  penalized_loss cz lzp l2p E (lz s) (lz_square s) (l_square s) =
  Cplus E (RtoC (fst (Cdiv (Cplus
    (Cmult (RtoC lzp) (Cplus (Cminus (L n Q 2 (L n Q 2 psi) e) (Cmult (RtoC (2 * cz)) (L n Q 2 psi e))) (Cmult (RtoC (cz ^ 2)) (psi e))))
    (Cmult (RtoC l2p) (L_square n Q psi e))) (psi e)))).
Proof.
  intros n Q psi f e ft fp ftt ftp fpp cz lzp l2p E LD SN s. destruct (C72_angular_momentum n Q psi f e ft fp ftt ftp fpp LD SN) as (NZ & A & B & D). fold s in A, B, D.
  rewrite penalty_value, A, B, D. f_equal. f_equal.
  set (x := L n Q 2 psi e). set (y := L n Q 2 (L n Q 2 psi) e). set (w := L_square n Q psi e). set (z := psi e) in *.
  replace (Cdiv (Cplus (Cmult (RtoC lzp) (Cplus (Cminus y (Cmult (RtoC (2 * cz)) x)) (Cmult (RtoC (cz ^ 2)) z))) (Cmult (RtoC l2p) w)) z)
    with (Cplus (Cmult (RtoC lzp) (Cplus (Cminus (Cdiv y z) (Cmult (RtoC (2 * cz)) (Cdiv x z))) (RtoC (cz ^ 2)))) (Cmult (RtoC l2p) (Cdiv w z))).
  - generalize (Cdiv y z) (Cdiv x z) (Cdiv w z). intros [a a'] [b b'] [d d']. cbn [fst snd Cplus Cminus Copp Cmult RtoC]. ring.
  - field. exact NZ.
Qed.

(** ** A state of definite angular momentum *)
Lemma CDerive_ext_loc f g x : locally x (fun t => f t = g t) -> CDerive f x = CDerive g x.
Proof. intros H. unfold CDerive. f_equal; apply Derive_ext_loc; (eapply filter_imp; [|exact H]); intros t E; cbn beta in E; rewrite E; reflexivity. Qed.
Lemma CDerive_scal_real f x m : CDerive (fun t => Cmult (RtoC m) (f t)) x = Cmult (RtoC m) (CDerive f x).
Proof.
  unfold CDerive. apply C_eq; cbn [fst snd Cmult RtoC].
  - rewrite (Derive_ext _ (fun t => m * fst (f t))) by (intros; ring). rewrite Derive_scal. ring.
  - rewrite (Derive_ext _ (fun t => m * snd (f t))) by (intros; ring). rewrite Derive_scal. ring.
Qed.
Lemma near_theta eps n e i : 0 < eps -> locally (fst (e i)) (fun t => near eps n e (set_theta e i t)).
Proof.
  intros E. exists (mkposreal eps E). intros t B k K. unfold set_theta. destruct (Nat.eqb_spec k i) as [->|]; cbn [fst snd].
  - split; [exact B|]. rewrite Rminus_eq_0, Rabs_R0. exact E.
  - rewrite !Rminus_eq_0, !Rabs_R0. split; exact E.
Qed.
Lemma near_phi eps n e i : 0 < eps -> locally (snd (e i)) (fun t => near eps n e (set_phi e i t)).
Proof.
  intros E. exists (mkposreal eps E). intros t B k K. unfold set_phi. destruct (Nat.eqb_spec k i) as [->|]; cbn [fst snd].
  - split; [|exact B]. rewrite Rminus_eq_0, Rabs_R0. exact E.
  - rewrite !Rminus_eq_0, !Rabs_R0. split; exact E.
Qed.
Lemma csigma_mul n f z : csigma n (fun i => Cmult z (f i)) = Cmult z (csigma n f).
Proof. induction n as [|n IH]; cbn [csigma]; [ring|]. rewrite IH. ring. Qed.
Lemma L_near n Q a psi chi e M eps : 0 < eps -> (forall c, near eps n e c -> chi c = Cmult (RtoC M) (psi c)) -> L n Q a chi e = Cmult (RtoC M) (L n Q a psi e).
Proof.
  intros E H. assert (HE : chi e = Cmult (RtoC M) (psi e)). { apply H. intros i _. rewrite !Rminus_eq_0, !Rabs_R0. split; exact E. }
  unfold L. rewrite <- csigma_mul. apply csigma_ext. intros i I. unfold Lambda.
  assert (T : d_theta i chi e = Cmult (RtoC M) (d_theta i psi e)).
  { unfold d_theta. rewrite <- CDerive_scal_real. apply CDerive_ext_loc. eapply filter_imp; [|apply (near_theta eps n e i E)]. intros t N. apply H, N. }
  assert (P : d_phi i chi e = Cmult (RtoC M) (d_phi i psi e)).
  { unfold d_phi. rewrite <- CDerive_scal_real. apply CDerive_ext_loc. eapply filter_imp; [|apply (near_phi eps n e i E)]. intros t N. apply H, N. }
  rewrite T, P, HE. ring.
Qed.
Lemma L_eigen n Q a psi e M eps : 0 < eps -> (forall c, near eps n e c -> L n Q a psi c = Cmult (RtoC M) (psi c)) ->
  L n Q a (L n Q a psi) e = Cmult (RtoC (M * M)) (psi e).
Proof.
  intros E H. rewrite (L_near n Q a psi _ e M eps E H), H; [|intros i _; rewrite !Rminus_eq_0, !Rabs_R0; split; exact E]. rewrite RtoC_mult. ring.
Qed.
(** A state with L_z = M and L^2 = l is charged lz_penalty (M - lz_center)^2 + l2_penalty l, at every configuration. *)
Theorem C75_definite : forall n Q psi f e ft fp ftt ftp fpp cz lzp l2p E M l eps, log_derivatives n psi f e ft fp ftt ftp fpp ->
  (forall i, (i < n)%nat -> sin (fst (e i)) <> 0) -> 0 < eps -> (forall c, near eps n e c -> L n Q 2 psi c = Cmult (RtoC M) (psi c)) -> L_square n Q psi e = Cmult (RtoC l) (psi e) ->
  let s := angular_hessian n Q e (tables e ft fp ftt ftp fpp) in
  penalized_loss cz lzp l2p E (lz s) (lz_square s) (l_square s) = Cplus E (RtoC (lzp * (M - cz) ^ 2 + l2p * l)).
Proof.
  intros n Q psi f e ft fp ftt ftp fpp cz lzp l2p E M l eps LD SN EP HM HL s. destruct (C72_angular_momentum n Q psi f e ft fp ftt ftp fpp LD SN) as (NZ & _).
  unfold s. rewrite (C75_penalty n Q psi f e) by assumption. rewrite (L_eigen n Q 2 psi e M eps EP HM), HL. rewrite (HM e) by (intros i _; rewrite !Rminus_eq_0, !Rabs_R0; split; exact EP).
  f_equal. f_equal. set (z := psi e) in *.
  replace (Cdiv _ z) with (RtoC (lzp * (M - cz) ^ 2 + l2p * l)); [reflexivity|].
  replace (lzp * (M - cz) ^ 2 + l2p * l) with (lzp * (M * M + - (2 * cz * M) + cz * cz) + l2p * l) by ring.
  replace (cz ^ 2) with (cz * cz) by ring. rewrite !RtoC_plus, !RtoC_mult, !RtoC_plus, RtoC_opp, !RtoC_mult. field. exact NZ.
Qed.
(** The Laughlin states pay nothing for L^2, and for L_z only the distance of the target from 0. *)
Theorem C75_laughlin : forall n k f e ft fp ftt ftp fpp cz lzp l2p E,
  log_derivatives n (fun c => pair_product n (fun i j => power (pair_factor c i j) k)) f e ft fp ftt ftp fpp -> (forall i, (i < n)%nat -> sin (fst (e i)) <> 0) ->
  let s := angular_hessian n (INR (k * (n - 1)) / 2) e (tables e ft fp ftt ftp fpp) in
  penalized_loss cz lzp l2p E (lz s) (lz_square s) (l_square s) = Cplus E (RtoC (lzp * cz ^ 2)).
Proof. intros. unfold s. rewrite (C72_laughlin_zero n k f e ft fp ftt ftp fpp) by assumption. cbn [lz lz_square l_square]. rewrite penalty_value. f_equal. f_equal. ring. Qed.
(** One electron in the orbital u of one flux quantum (L_z = 1/2, L^2 = 3/4), energy 1, both penalties 4: with target 1/2 only
    L^2 costs, with target 0 both do. *)
Theorem C75_example : let s := angular_hessian 1 (/ 2) ex_e (tables ex_e ex_t ex_p (fun _ _ => RtoC (- / 2)) (fun _ _ => RtoC 0) (fun _ _ => RtoC 0)) in
  penalized_loss (/ 2) 4 4 (RtoC 1) (lz s) (lz_square s) (l_square s) = RtoC 4 /\ penalized_loss 0 4 4 (RtoC 1) (lz s) (lz_square s) (l_square s) = RtoC 5.
Proof.
  intros s. destruct C72_example as [A B]. fold s in A, B. rewrite A, B.
  assert (D : lz_square s = / 4). { unfold s, angular_hessian. cbn [lz_square]. unfold tables. cbn [dpp dp]. unfold total. cbn [bigsum]. unfold ex_p, imag. cbn [Cplus Cmult RtoC fst snd]. field. }
  rewrite D, !penalty_value, <- !RtoC_plus. split; apply f_equal; field.
Qed.
