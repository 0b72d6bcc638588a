(** Complex derivatives: products, the inverse, powers and the exponential. *)
From Coq Require Import Reals List Arith Bool Lra Lia.
From Coquelicot Require Import Complex.
From Verif Require Import Lin Lap_Spec Cx_Model Cx_Spec Cx_Lemmas.
Open Scope C_scope.

Lemma Cmod_le_abs (z : C) : (Cmod z <= Rabs (fst z) + Rabs (snd z))%R.
Proof.
  apply Rsqr_incr_0_var.
  - unfold Cmod. rewrite Rsqr_sqrt by (apply Rplus_le_le_0_compat; apply pow2_ge_0). cbn. unfold Rsqr.
    pose proof (Rabs_pos (fst z)). pose proof (Rabs_pos (snd z)).
    pose proof (Rsqr_abs (fst z)) as A1. pose proof (Rsqr_abs (snd z)) as A2. unfold Rsqr in A1, A2. nra.
  - pose proof (Rabs_pos (fst z)). pose proof (Rabs_pos (snd z)). lra.
Qed.
Lemma abs_le_Cmod (z : C) : (Rabs (fst z) <= Cmod z /\ Rabs (snd z) <= Cmod z)%R.
Proof. pose proof (Rmax_Cmod z) as M. pose proof (Rmax_l (Rabs (fst z)) (Rabs (snd z))). pose proof (Rmax_r (Rabs (fst z)) (Rabs (snd z))). lra. Qed.
Lemma derivative_const c z : complex_derivative (fun _ => c) z (RtoC 0).
Proof. intros eps E. exists 1%R. split; [lra|]. intros u _. replace (c - c - RtoC 0 * (u - z)) with (RtoC 0) by ring. rewrite Cmod_0. pose proof (Cmod_ge_0 (u - z)). nra. Qed.
Lemma derivative_id z : complex_derivative (fun u => u) z (RtoC 1).
Proof. intros eps E. exists 1%R. split; [lra|]. intros u _. replace (u - z - RtoC 1 * (u - z)) with (RtoC 0) by ring. rewrite Cmod_0. pose proof (Cmod_ge_0 (u - z)). nra. Qed.
Lemma derivative_eq f g z d d' : complex_derivative f z d -> (forall u, f u = g u) -> d = d' -> complex_derivative g z d'.
Proof. intros H E <- eps P. destruct (H eps P) as (del & Dp & K). exists del. split; [exact Dp|]. intros u U. rewrite <- !E. auto. Qed.
Lemma derivative_mult f g z a c : complex_derivative f z a -> complex_derivative g z c -> complex_derivative (fun u => f u * g u) z (a * g z + c * f z).
Proof.
  intros Hf Hg eps E.
  set (Mg := (Cmod (g z) + 1 + Cmod c)%R). set (Ma := (Cmod a * (1 + Cmod c) + 1)%R). set (Mf := (Cmod (f z) + 1)%R).
  pose proof (Cmod_ge_0 (g z)) as G0. pose proof (Cmod_ge_0 c) as C0. pose proof (Cmod_ge_0 a) as A0. pose proof (Cmod_ge_0 (f z)) as F0.
  assert (MgP : (1 <= Mg)%R) by (unfold Mg; lra). assert (MfP : (1 <= Mf)%R) by (unfold Mf; lra). assert (MaP : (1 <= Ma)%R) by (unfold Ma; nra).
  destruct (Hf (eps / 3 / Mg)%R) as (d1 & P1 & K1); [apply Rdiv_lt_0_compat; lra|].
  destruct (Hg (Rmin 1 (eps / 3 / Mf))%R) as (d2 & P2 & K2); [apply Rmin_glb_lt; [lra|apply Rdiv_lt_0_compat; lra]|].
  assert (Q : (0 < eps / 3 / Ma)%R) by (apply Rdiv_lt_0_compat; lra).
  exists (Rmin (Rmin d1 d2) (Rmin 1 (eps / 3 / Ma))). split; [repeat apply Rmin_glb_lt; lra|]. intros u U.
  pose proof (Rmin_l (Rmin d1 d2) (Rmin 1 (eps / 3 / Ma))). pose proof (Rmin_r (Rmin d1 d2) (Rmin 1 (eps / 3 / Ma))).
  pose proof (Rmin_l d1 d2). pose proof (Rmin_r d1 d2). pose proof (Rmin_l 1 (eps / 3 / Ma)). pose proof (Rmin_r 1 (eps / 3 / Ma)).
  specialize (K1 u ltac:(lra)). specialize (K2 u ltac:(lra)). pose proof (Rmin_l 1 (eps / 3 / Mf)) as R1'. pose proof (Rmin_r 1 (eps / 3 / Mf)) as R2'.
  set (h := u - z) in *. set (ef := f u - f z - a * h) in *. set (eg := g u - g z - c * h) in *. pose proof (Cmod_ge_0 h) as HM.
  assert (EG1 : (Cmod eg <= Cmod h)%R) by nra. assert (EG2 : (Cmod eg <= eps / 3 / Mf * Cmod h)%R) by nra.
  assert (D : (Cmod (g u - g z)%C <= (1 + Cmod c) * Cmod h)%R).
  { replace (g u - g z) with (eg + c * h) by (unfold eg; ring). eapply Rle_trans; [apply Cmod_triangle|]. rewrite Cmod_mult. lra. }
  assert (DU : (Cmod (g u) <= Mg)%R).
  { replace (g u) with (g z + (g u - g z)) by ring. eapply Rle_trans; [apply Cmod_triangle|]. unfold Mg. nra. }
  replace (f u * g u - f z * g z - (a * g z + c * f z) * h) with (ef * g u + a * h * (g u - g z) + f z * eg) by (unfold ef, eg; ring).
  eapply Rle_trans; [apply Cmod_triangle|]. eapply Rle_trans; [apply Rplus_le_compat_r, Cmod_triangle|]. rewrite !Cmod_mult.
  assert (B1 : (Cmod ef * Cmod (g u) <= eps / 3 * Cmod h)%R).
  { apply (Rle_trans _ (eps / 3 / Mg * Cmod h * Mg)); [apply Rmult_le_compat; auto using Cmod_ge_0|]. apply Req_le. field. lra. }
  assert (B3 : (Cmod (f z) * Cmod eg <= eps / 3 * Cmod h)%R).
  { apply (Rle_trans _ (Mf * (eps / 3 / Mf * Cmod h))); [apply Rmult_le_compat; auto using Cmod_ge_0; unfold Mf; lra|]. apply Req_le. field. lra. }
  assert (B2 : (Cmod a * Cmod h * Cmod (g u - g z)%C <= eps / 3 * Cmod h)%R).
  { apply (Rle_trans _ (Cmod a * Cmod h * ((1 + Cmod c) * Cmod h))); [apply Rmult_le_compat_l; [apply Rmult_le_pos; auto|exact D]|].
    replace (Cmod a * Cmod h * ((1 + Cmod c) * Cmod h))%R with (Cmod a * (1 + Cmod c) * Cmod h * Cmod h)%R by ring. apply Rmult_le_compat_r; [exact HM|].
    apply (Rle_trans _ (Ma * (eps / 3 / Ma))); [apply Rmult_le_compat; try lra; [apply Rmult_le_pos; lra|unfold Ma; lra]|]. apply Req_le. field. lra. }
  lra.
Qed.
Lemma derivative_inv z : z <> RtoC 0 -> complex_derivative Cinv z (- (/ z * / z)).
Proof.
  intros NZ eps E. assert (MP : (0 < Cmod z)%R) by (apply Cmod_gt_0; exact NZ). set (m := Cmod z) in *.
  assert (Q : (0 < eps * (m * m * m) / 2)%R) by (apply Rdiv_lt_0_compat; [repeat apply Rmult_lt_0_compat; lra|lra]).
  exists (Rmin (m / 2) (eps * (m * m * m) / 2)). split; [apply Rmin_glb_lt; lra|]. intros u U.
  pose proof (Rmin_l (m / 2) (eps * (m * m * m) / 2)). pose proof (Rmin_r (m / 2) (eps * (m * m * m) / 2)).
  assert (UM : (m / 2 <= Cmod u)%R).
  { assert (T : (Cmod z <= Cmod u + Cmod (z - u)%C)%R) by (replace z with (u + (z - u)) at 1 by ring; apply Cmod_triangle).
    replace (Cmod (z - u)%C) with (Cmod (u - z)%C) in T by (rewrite <- Cmod_opp; f_equal; ring). fold m in T. lra. }
  assert (NU : u <> RtoC 0) by (intros ->; rewrite Cmod_0 in UM; lra).
  replace (/ u - / z - - (/ z * / z) * (u - z)) with ((u - z) * (u - z) * (/ u * (/ z * / z))) by (field; auto).
  pose proof (Cmod_ge_0 (u - z)) as HM. rewrite !Cmod_mult, !Cmod_inv by auto. fold m.
  assert (I : (/ Cmod u <= 2 / m)%R). { replace (2 / m)%R with (/ (m / 2))%R by (field; lra). apply Rinv_le_contravar; lra. }
  assert (IU : (0 < / Cmod u)%R) by (apply Rinv_0_lt_compat; lra).
  replace (Cmod (u - z)%C * Cmod (u - z)%C * (/ Cmod u * (/ m * / m)))%R with (Cmod (u - z)%C * (Cmod (u - z)%C * / Cmod u * (/ m * / m)))%R by ring.
  rewrite (Rmult_comm eps). apply Rmult_le_compat_l; [exact HM|].
  apply (Rle_trans _ (eps * (m * m * m) / 2 * (2 / m) * (/ m * / m))%R).
  - apply Rmult_le_compat_r; [apply Rlt_le, Rmult_lt_0_compat; apply Rinv_0_lt_compat; exact MP|]. apply Rmult_le_compat; lra.
  - apply Req_le. field. lra.
Qed.
Lemma open_nonzero : open_in_plane (fun z => z <> RtoC 0).
Proof.
  intros z NZ. exists (Cmod z). split; [apply Cmod_gt_0; exact NZ|]. intros u U ->. revert U. replace (RtoC 0 - z) with (- z) by ring. rewrite Cmod_opp. lra.
Qed.
Lemma open_all : open_in_plane (fun _ => True).
Proof. intros z _. exists 1%R. split; [lra|auto]. Qed.
Lemma holomorphic_inv : holomorphic (fun z => z <> RtoC 0) Cinv (fun z => - (/ z * / z)) (fun z => RtoC 2 * (/ z * / z * / z)).
Proof.
  split; [exact open_nonzero|]. intros z NZ. split; [apply derivative_inv; exact NZ|].
  pose proof (derivative_scal (- RtoC 1) _ _ _ (derivative_mult _ _ _ _ _ (derivative_inv z NZ) (derivative_inv z NZ))) as H.
  eapply derivative_eq; [exact H| |]; intros; cbn beta; [ring|]. replace (RtoC 2) with (RtoC 1 + RtoC 1) by (rewrite <- RtoC_plus; f_equal; ring). ring.
Qed.
(** z^k by repeated multiplication *)
Fixpoint cpow (z : C) (k : nat) : C := match k with O => RtoC 1 | S k => z * cpow z k end.
Lemma derivative_pow k z : complex_derivative (fun u => cpow u k) z (RtoC (INR k) * cpow z (Nat.pred k)).
Proof.
  induction k as [|k IH].
  - eapply derivative_eq; [apply (derivative_const (RtoC 1))|reflexivity|cbn; ring].
  - eapply derivative_eq; [apply (derivative_mult _ _ _ _ _ (derivative_id z) IH)|reflexivity|]. cbn beta. rewrite S_INR, RtoC_plus. destruct k as [|k]; cbn [Nat.pred cpow INR]; ring.
Qed.
Lemma holomorphic_pow k : holomorphic (fun _ => True) (fun z => cpow z k) (fun z => RtoC (INR k) * cpow z (Nat.pred k)) (fun z => RtoC (INR k) * (RtoC (INR (Nat.pred k)) * cpow z (Nat.pred (Nat.pred k)))).
Proof. split; [exact open_all|]. intros z _. split; [apply derivative_pow|apply derivative_scal, derivative_pow]. Qed.

(** exp(x + iy) = e^x (cos y + i sin y) *)
Definition cexp (z : C) : C := (exp (fst z) * cos (snd z), exp (fst z) * sin (snd z))%R.
Lemma cexp_plus a c : cexp (a + c) = cexp a * cexp c.
Proof. apply C_ext; cbn; rewrite exp_plus, ?cos_plus, ?sin_plus; ring. Qed.
Lemma near_zero f d eps : derivable_pt_lim f 0 d -> (0 < eps)%R -> exists del, (0 < del)%R /\ forall h, (Rabs h < del)%R -> (Rabs (f h - f 0 - d * h) <= eps * Rabs h)%R.
Proof.
  intros H E. destruct (H eps E) as (del & K). exists (pos del). split; [apply cond_pos|]. intros h Hh. destruct (Req_dec h 0) as [->|N].
  - rewrite Rmult_0_r. replace (f 0 - f 0 - 0)%R with 0%R by ring. rewrite Rabs_R0. lra.
  - specialize (K h N Hh). rewrite Rplus_0_l in K. replace (f h - f 0 - d * h)%R with (((f h - f 0) / h - d) * h)%R by (field; exact N). rewrite Rabs_mult. apply Rmult_le_compat_r; [apply Rabs_pos|lra].
Qed.
Lemma cexp_0 : complex_derivative cexp (RtoC 0) (RtoC 1).
Proof.
  intros eps E. set (e := (eps / 10)%R). assert (EP : (0 < e)%R) by (unfold e; lra).
  destruct (near_zero exp 1 e) as (d1 & P1 & K1); [rewrite <- exp_0; apply derivable_pt_lim_exp|exact EP|].
  destruct (near_zero cos 0 e) as (d2 & P2 & K2); [replace 0%R with (- sin 0)%R at 2 by (rewrite sin_0; ring); apply derivable_pt_lim_cos|exact EP|].
  destruct (near_zero sin 1 e) as (d3 & P3 & K3); [rewrite <- cos_0; apply derivable_pt_lim_sin|exact EP|].
  exists (Rmin (Rmin d1 d2) (Rmin d3 (Rmin 1 e))). split; [repeat apply Rmin_glb_lt; lra|]. intros u U. replace (u - RtoC 0) with u in * by ring.
  pose proof (Rmin_l (Rmin d1 d2) (Rmin d3 (Rmin 1 e))). pose proof (Rmin_r (Rmin d1 d2) (Rmin d3 (Rmin 1 e))).
  pose proof (Rmin_l d1 d2). pose proof (Rmin_r d1 d2). pose proof (Rmin_l d3 (Rmin 1 e)). pose proof (Rmin_r d3 (Rmin 1 e)). pose proof (Rmin_l 1 e). pose proof (Rmin_r 1 e).
  destruct (abs_le_Cmod u) as [A1 A2]. set (m := Cmod u) in *. pose proof (Cmod_ge_0 u) as M0. fold m in M0.
  specialize (K1 (fst u) ltac:(lra)). specialize (K2 (snd u) ltac:(lra)). specialize (K3 (snd u) ltac:(lra)).
  rewrite exp_0 in K1. rewrite cos_0 in K2. rewrite sin_0 in K3.
  set (x := fst u) in *. set (y := snd u) in *.
  assert (X1 : (Rabs (exp x - 1 - 1 * x) <= e * m)%R) by (eapply Rle_trans; [exact K1|apply Rmult_le_compat_l; lra]).
  assert (X2 : (Rabs (cos y - 1 - 0 * y) <= e * m)%R) by (eapply Rle_trans; [exact K2|apply Rmult_le_compat_l; lra]).
  assert (X3 : (Rabs (sin y - 0 - 1 * y) <= e * m)%R) by (eapply Rle_trans; [exact K3|apply Rmult_le_compat_l; lra]).
  assert (CB : (Rabs (cos y) <= 1)%R) by (apply Rabs_le; pose proof (COS_bound y); lra).
  assert (SB : (Rabs (sin y) <= 1)%R) by (apply Rabs_le; pose proof (SIN_bound y); lra).
  assert (XB : (Rabs (1 + x) <= 2)%R) by (eapply Rle_trans; [apply Rabs_triang|rewrite Rabs_R1; lra]).
  assert (MU : forall a b A B : R, (Rabs a <= A -> Rabs b <= B -> Rabs (a * b) <= A * B)%R) by (intros; rewrite Rabs_mult; apply Rmult_le_compat; auto using Rabs_pos).
  eapply Rle_trans; [apply Cmod_le_abs|]. cbn [cexp fst snd RtoC Cminus Cplus Copp Cmult]. rewrite exp_0, cos_0, sin_0. fold x y.
  replace (exp x * cos y + - (1 * 1) + - (1 * x - 0 * y))%R with ((exp x - 1 - 1 * x) * cos y + (1 + x) * (cos y - 1 - 0 * y))%R by ring.
  replace (exp x * sin y + - (1 * 0) + - (1 * y + 0 * x))%R with ((exp x - 1 - 1 * x) * sin y + (1 + x) * (sin y - 0 - 1 * y) + x * y)%R by ring.
  pose proof (Rabs_triang ((exp x - 1 - 1 * x) * cos y) ((1 + x) * (cos y - 1 - 0 * y))) as T1.
  pose proof (Rabs_triang ((exp x - 1 - 1 * x) * sin y + (1 + x) * (sin y - 0 - 1 * y)) (x * y)) as T2.
  pose proof (Rabs_triang ((exp x - 1 - 1 * x) * sin y) ((1 + x) * (sin y - 0 - 1 * y))) as T3.
  pose proof (MU _ _ _ _ X1 CB). pose proof (MU _ _ _ _ X1 SB). pose proof (MU _ _ _ _ XB X2). pose proof (MU _ _ _ _ XB X3).
  assert (XY : (Rabs (x * y) <= e * m)%R) by (apply MU; lra).
  replace (eps * m)%R with (10 * (e * m))%R by (unfold e; field). assert (0 <= e * m)%R by (apply Rmult_le_pos; lra). lra.
Qed.
Lemma derivative_exp z : complex_derivative cexp z (cexp z).
Proof.
  intros eps E. pose proof (Cmod_ge_0 (cexp z)) as M. destruct (cexp_0 (eps / (Cmod (cexp z) + 1))%R) as (del & P & H); [apply Rdiv_lt_0_compat; lra|].
  exists del. split; [exact P|]. intros u U. specialize (H (u - z)). replace (u - z - RtoC 0) with (u - z) in H by ring. specialize (H U).
  replace (cexp u) with (cexp z * cexp (u - z)) by (rewrite <- cexp_plus; f_equal; ring).
  assert (E0 : cexp (RtoC 0) = RtoC 1) by (apply C_ext; cbn; rewrite exp_0, ?cos_0, ?sin_0; ring).
  replace (cexp z * cexp (u - z) - cexp z - cexp z * (u - z)) with (cexp z * (cexp (u - z) - cexp (RtoC 0) - RtoC 1 * (u - z))) by (rewrite E0; ring).
  rewrite Cmod_mult. pose proof (Cmod_ge_0 (u - z)) as H0. apply (Rle_trans _ (Cmod (cexp z) * (eps / (Cmod (cexp z) + 1) * Cmod (u - z)%C))); [apply Rmult_le_compat_l; auto|].
  replace (Cmod (cexp z) * (eps / (Cmod (cexp z) + 1) * Cmod (u - z)%C))%R with (eps * Cmod (u - z)%C * (Cmod (cexp z) / (Cmod (cexp z) + 1)))%R by (field; lra).
  rewrite <- (Rmult_1_r (eps * Cmod (u - z)%C)) at 2. apply Rmult_le_compat_l; [nra|]. apply Rmult_le_reg_r with (Cmod (cexp z) + 1)%R; [lra|]. replace (Cmod (cexp z) / (Cmod (cexp z) + 1) * (Cmod (cexp z) + 1))%R with (Cmod (cexp z)) by (field; lra). lra.
Qed.
Lemma holomorphic_exp : holomorphic (fun _ => True) cexp cexp cexp.
Proof. split; [exact open_all|]. intros z _. split; apply derivative_exp. Qed.
(** The exponential, inverse and integer powers are twice complex differentiable. *)
Theorem C92_functions : holomorphic (fun _ => True) cexp cexp cexp /\
  holomorphic (fun z => z <> RtoC 0) Cinv (fun z => - (/ z * / z)) (fun z => RtoC 2 * (/ z * / z * / z)) /\
  forall k, holomorphic (fun _ => True) (fun z => cpow z k) (fun z => RtoC (INR k) * cpow z (Nat.pred k)) (fun z => RtoC (INR k) * (RtoC (INR (Nat.pred k)) * cpow z (Nat.pred (Nat.pred k)))).
Proof. exact (conj holomorphic_exp (conj holomorphic_inv holomorphic_pow)). Qed.
