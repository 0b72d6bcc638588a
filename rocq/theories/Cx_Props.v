(** C92: complex values under sparse and dense propagation carry exact derivatives. *)
From Coq Require Import Reals ZArith List Arith Bool Lra Lia.
From Coquelicot Require Import Complex.
From Verif Require Import Lin Shape Jet Lap_Spec Lap_Lang Lap_Model Lap_Props Sparse_Model Sparse_Spec Sparse_Lemmas Sparse_Layout Sparse_Rules Gather_Model Gather_Pointwise Lap_Examples Fl_Spec Cx_Model Cx_Spec Cx_Lemmas.
Import ListNotations.
Open Scope C_scope.
Local Notation "a =? b" := (Nat.eqb a b).

Lemma gl_zero n w p f : (forall q, f q = 0%R) -> gradient_and_laplacian n w p f 0%R (fun _ => 0%R) 0%R.
Proof. intros H. apply (gl_ext n w p (fun _ => 0%R)); [intros; symmetry; auto|apply gl_const]. Qed.
(** Expanding the Jacobian changes nothing. *)
Theorem C92_densify : forall b w p sh F x, x_exact b w p sh F x <-> x_exact b w p sh F (x_densify b sh x).
Proof. intros. unfold x_exact. destruct x; reflexivity. Qed.

(** ** Complex differentiable functions *)
Theorem C92_unary : forall b sh h D x w p F, wf_basis b -> holomorphic D (xf h) (xf1 h) (xf2 h) -> x_wf b sh x -> x_exact b w p sh F x ->
  (forall o, (o < size sh)%nat -> D (F p o)) ->
  x_wf b sh (x_unary b sh h x) /\ x_exact b w p sh (fun q o => xf h (F q o)) (x_unary b sh h x).
Proof.
  intros b sh h D x w p F WB H W E DF. split; [destruct x; exact W|]. intros o O. specialize (E o O). pose proof (cgl_value _ _ _ _ _ _ _ E) as V.
  assert (DV : D (x_value x o)) by (rewrite V; apply DF; exact O). pose proof (cgl_holo _ _ _ D _ _ _ _ _ _ _ H DV E) as G.
  eapply cgl_eq; [exact G| | |]; destruct x as [a|t|t]; cbn [x_unary x_value x_jacobian x_laplacian]; auto; cbn [xdx xdj xdl xsx xsl].
  - intros k K. ring.
  - intros k K. rewrite (x_dense_scale b sh t (fun o => xf1 h (xsx t o))). ring.
  - rewrite (csum_0 (b_n b) (fun _ => _)) by (intros; cbn beta; ring). ring.
  - destruct W as [P [S FW]]. rewrite (x_trace_T b sh t o WB S FW P O). reflexivity.
Qed.

(** ** Modulus *)
Lemma sqrt_d1 x : (0 < x)%R -> derivable_pt_lim sqrt x (/ (2 * sqrt x))%R.
Proof. apply derivable_pt_lim_sqrt. Qed.
Lemma sqrt_d2 x : (0 < x)%R -> derivable_pt_lim (fun u => / (2 * sqrt u))%R x (- / (4 * x * sqrt x))%R.
Proof. exact (d_sqrt2 x). Qed.
Lemma open_pos : open1 (fun x => (0 < x)%R).
Proof. intros x X. exists x. split; auto. intros y Y. apply Rabs_def2 in Y. lra. Qed.
Lemma Cmod_norm (z : C) : Cmod z = sqrt (fst z * fst z + snd z * snd z)%R.
Proof. unfold Cmod. f_equal. ring. Qed.
Lemma cgl_Cmod n w p f x J L : complex_gradient_and_laplacian n w p f x J L -> x <> RtoC 0 ->
  let r := Cmod x in let jr := fun k => ((fst x * fst (J k) + snd x * snd (J k)) / r)%R in
  gradient_and_laplacian n w p (fun q => Cmod (f q)) r jr
    ((fst x * fst L + snd x * snd L) / r + (sum n (fun k => fst (J k) * fst (J k) + snd (J k) * snd (J k)) - sum n (fun k => jr k * jr k)) / r)%R.
Proof.
  intros [A B] NZ r jr. pose proof (Cmod_gt_0 x) as [MP _]. specialize (MP NZ). pose proof (Cmod_norm x) as MN.
  assert (NP : (0 < fst x * fst x + snd x * snd x)%R). { apply sqrt_lt_0_alt. rewrite sqrt_0, <- MN. exact MP. }
  pose proof (gl_plus n w p _ _ _ _ _ _ _ _ (gl_mult n w p _ _ _ _ _ _ _ _ A A) (gl_mult n w p _ _ _ _ _ _ _ _ B B)) as N.
  pose proof (gl_comp n w p sqrt (fun u => / (2 * sqrt u))%R (fun u => - / (4 * u * sqrt u))%R _ _ _ _ _ open_pos sqrt_d1 sqrt_d2 NP N) as G.
  cbv beta in G. rewrite <- MN in G. fold r in G, MN, MP. assert (RR : (r * r = fst x * fst x + snd x * snd x)%R) by (rewrite MN; apply sqrt_sqrt; lra).
  eapply gl_eq; [eapply gl_ext; [|exact G]| | |].
  - intros q. cbn beta. symmetry. apply Cmod_norm.
  - reflexivity.
  - intros k K. unfold jr. cbn beta. field. lra.
  - cbn beta. rewrite <- RR.
    rewrite (sum_ext n (fun k => (fst (J k) * fst x + fst x * fst (J k) + (snd (J k) * snd x + snd x * snd (J k))) * _)%R (fun k => (4 * (r * r)) * (jr k * jr k))%R) by (intros; unfold jr; field; lra).
    rewrite sum_scal_l, sum_plus. set (s1 := sum n (fun k => jr k * jr k)%R). field. lra.
Qed.
Lemma cgl_of_real n w p f x J L : gradient_and_laplacian n w p f x J L -> complex_gradient_and_laplacian n w p (fun q => RtoC (f q)) (RtoC x) (fun k => RtoC (J k)) (RtoC L).
Proof. intros H. split; [exact H|]. apply gl_zero. reflexivity. Qed.
Theorem C92_abs : forall b sh x w p F, wf_basis b -> x_wf b sh x -> x_exact b w p sh F x -> (forall o, (o < size sh)%nat -> F p o <> RtoC 0) ->
  x_wf b sh (x_abs b sh x) /\ x_exact b w p sh (fun q o => RtoC (Cmod (F q o))) (x_abs b sh x).
Proof.
  intros b sh x w p F WB W E NZ. split; [destruct x; exact W|]. intros o O. specialize (E o O). pose proof (cgl_value _ _ _ _ _ _ _ E) as V.
  assert (NV : x_value x o <> RtoC 0) by (rewrite V; apply NZ; exact O). pose proof (cgl_Cmod _ _ _ _ _ _ _ E NV) as G. cbv zeta in G.
  assert (MP : (0 < Cmod (x_value x o))%R) by (apply Cmod_gt_0; exact NV).
  assert (RJ : forall t k, x = XSparse t -> x_to_dense b sh {| xsx := fun o => RtoC (Cmod (xsx t o)); xowners := xowners t; xblk := fun s c o => radial (xsx t o) (xblk t s c o); xsl := fun o => radial (xsx t o) (xsl t o) |} k o
     = radial (xsx t o) (x_to_dense b sh t k o)).
  { intros t k ->. cbn [x_value] in MP. apply C_ext; rewrite !x_dense_spread.
    - rewrite xspread_fst. unfold radial. cbn [xblk fst RtoC]. rewrite xspread_fst, xspread_snd. unfold x_slots, x_owner. cbn [xowners]. fold (x_slots t).
      unfold spread, Rdiv. rewrite <- !sum_scal_l, <- sum_plus, <- sum_scal_r. apply sum_ext. intros s _. ring.
    - rewrite xspread_snd. unfold radial. cbn [xblk snd RtoC]. unfold spread. apply sum_0. intros. ring. }
  eapply cgl_eq; [exact (cgl_of_real _ _ _ _ _ _ _ G)| | |]; destruct x as [a|t|t]; cbn [x_abs x_value x_jacobian x_laplacian] in *; auto; cbn [xdx xdj xdl xsx xsl].
  - intros k K. apply C_ext; cbn; [field; lra|reflexivity].
  - intros k K. cbn beta. specialize (RJ t k eq_refl). unfold x_to_dense, x_slots, x_owner in *. cbn [xsx xowners xblk xsl] in *. rewrite RJ. reflexivity.
  - rewrite (sum_0 (b_n b)) by (intros; cbn; ring). rewrite (sum_0 (b_n b)) by (intros; cbn; unfold Rdiv; ring). apply C_ext; cbn; [field; lra|reflexivity].
  - unfold radial at 1. rewrite (csum_ext (b_n b) _ (fun k => RtoC (((fst (xdx t o) * fst (xdj t k o) + snd (xdx t o) * snd (xdj t k o)) / Cmod (xdx t o)) * ((fst (xdx t o) * fst (xdj t k o) + snd (xdx t o) * snd (xdj t k o)) / Cmod (xdx t o)))%R)) by (intros; unfold radial; rewrite <- RtoC_mult; reflexivity).
    rewrite csum_real. rewrite <- RtoC_minus, <- RtoC_div, <- RtoC_plus by lra. f_equal. f_equal. f_equal. f_equal. apply sum_ext. intros k _. rewrite Cmod_norm.
    rewrite <- Rsqr_pow2, Rsqr_sqrt; [reflexivity|]. nra.
  - destruct W as [P [S FW]]. rewrite (x_trace_H b sh t o WB S FW P O).
    set (t' := {| xsx := fun o => RtoC (Cmod (xsx t o)); xowners := xowners t; xblk := fun s c o => radial (xsx t o) (xblk t s c o); xsl := fun o => radial (xsx t o) (xsl t o) |}).
    rewrite (x_trace_T b sh t' o WB S FW P O). cbn [t' xsl xsx]. unfold radial at 1.
    rewrite (csum_ext (b_n b) _ (fun k => RtoC (((fst (xsx t o) * fst (x_to_dense b sh t k o) + snd (xsx t o) * snd (x_to_dense b sh t k o)) / Cmod (xsx t o)) * ((fst (xsx t o) * fst (x_to_dense b sh t k o) + snd (xsx t o) * snd (x_to_dense b sh t k o)) / Cmod (xsx t o)))%R)) by (intros k _; unfold t'; rewrite (RJ t k eq_refl); unfold radial; rewrite <- RtoC_mult; reflexivity).
    rewrite csum_real. rewrite <- RtoC_minus, <- RtoC_div, <- RtoC_plus by lra. reflexivity.
Qed.

(** ** Components, conjugate, negation *)
Lemma gl_const0 n w p x : gradient_and_laplacian n w p (fun _ => x) x (fun _ => 0%R) 0%R.
Proof. apply gl_const. Qed.
Lemma dense_map b sh t k o (f : C -> C) : (forall a c, f (a + c) = f a + f c) -> (forall (r : R) c, f (RtoC r * c) = RtoC r * f c) ->
  x_to_dense b sh {| xsx := fun o => f (xsx t o); xowners := xowners t; xblk := fun s c o => f (xblk t s c o); xsl := fun o => f (xsl t o) |} k o = f (x_to_dense b sh t k o).
Proof.
  intros Fa Fs. unfold x_to_dense, x_slots, x_owner. cbn [xowners xblk]. generalize (length (xowners t)) as m. induction m as [|m IH].
  - change (RtoC 0 = f (RtoC 0)). pose proof (Fs 0%R (RtoC 0)) as H. replace (RtoC 0 * RtoC 0) with (RtoC 0) in H by ring. rewrite H. ring.
  - rewrite !csum_S, Fa, IH, Fs. reflexivity.
Qed.
(** An additive, real-homogeneous map of the components. *)
Lemma map_exact b sh x w p F f : (forall a c, f (a + c) = f a + f c) -> (forall (r : R) c, f (RtoC r * c) = RtoC r * f c) ->
  (forall n w p g x J L, complex_gradient_and_laplacian n w p g x J L -> complex_gradient_and_laplacian n w p (fun q => f (g q)) (f x) (fun k => f (J k)) (f L)) ->
  x_exact b w p sh F x -> x_exact b w p sh (fun q o => f (F q o)) (x_map f x).
Proof.
  intros Fa Fs G E o O. specialize (G _ _ _ _ _ _ _ (E o O)). destruct x as [a|t|t]; cbn [x_map x_value x_jacobian x_laplacian xdx xdj xdl xsx xsl] in *; [| exact G |].
  - assert (Z : f (RtoC 0) = RtoC 0). { pose proof (Fs 0%R (RtoC 0)) as H. replace (RtoC 0 * RtoC 0) with (RtoC 0) in H by ring. rewrite H. ring. }
    rewrite Z in G. exact G.
  - eapply cgl_eq; [exact G|reflexivity| |reflexivity]. intros k _. symmetry. apply dense_map; auto.
Qed.
Theorem C92_components : forall b sh x w p F, x_wf b sh x -> x_exact b w p sh F x ->
  (x_wf b sh (x_real x) /\ x_exact b w p sh (fun q o => RtoC (fst (F q o))) (x_real x)) /\
  (x_wf b sh (x_imag x) /\ x_exact b w p sh (fun q o => RtoC (snd (F q o))) (x_imag x)) /\
  (x_wf b sh (x_conj x) /\ x_exact b w p sh (fun q o => Cconj (F q o)) (x_conj x)) /\
  (x_wf b sh (x_neg x) /\ x_exact b w p sh (fun q o => - F q o) (x_neg x)).
Proof.
  intros b sh x w p F W E.
  assert (WM : forall f, x_wf b sh (x_map f x)) by (intros f; destruct x; exact W).
  refine (conj (conj (WM _) _) (conj (conj (WM _) _) (conj (conj (WM _) _) (conj (WM _) _)))).
  - apply (map_exact b sh x w p F (fun z => RtoC (fst z))); auto.
    + intros. apply C_ext; cbn; ring.
    + intros. apply C_ext; cbn; ring.
    + intros n w0 p0 g y J L [A B]. split; [exact A|]. apply gl_zero. reflexivity.
  - apply (map_exact b sh x w p F (fun z => RtoC (snd z))); auto.
    + intros. apply C_ext; cbn; ring.
    + intros. apply C_ext; cbn; ring.
    + intros n w0 p0 g y J L [A B]. split; [exact B|]. apply gl_zero. reflexivity.
  - apply (map_exact b sh x w p F Cconj); auto.
    + intros. apply C_ext; cbn; ring.
    + intros. apply C_ext; cbn; ring.
    + intros n w0 p0 g y J L [A B]. split; [exact A|]. eapply gl_eq; [eapply gl_ext; [|exact (gl_scal n w0 p0 (-1) _ _ _ _ B)]| | |]; intros; cbn; ring.
  - apply (map_exact b sh x w p F Copp); auto.
    + intros. ring.
    + intros. ring.
    + intros n w0 p0 g y J L H. eapply cgl_eq; [eapply cgl_ext; [|exact (cgl_scal _ _ _ (- RtoC 1) _ _ _ _ H)]| | |]; intros; cbn beta; ring.
Qed.

(** ** Conversions *)
Theorem C92_convert : forall b sh x w p F, x_wf b sh x -> x_exact b w p sh F x ->
  x_exact b w p sh F (x_convert Complex x) /\
  x_exact b w p sh (fun q o => RtoC (fst (F q o))) (x_convert Floating x) /\
  ((forall o z, (o < size sh)%nat -> z <> 0%Z -> fst (F p o) <> IZR z) -> x_exact b w p sh (fun q o => RtoC (trunc (fst (F q o)))) (x_convert Integer x)).
Proof.
  intros b sh x w p F W E. split; [exact E|]. split; [apply (C92_components b sh x w p F W E)|].
  intros N o O. specialize (E o O). pose proof (cgl_value _ _ _ _ _ _ _ E) as V. destruct E as [A _].
  destruct (trunc_local (fst (F p o)) (fun z => N o z O)) as (e & P & H).
  split.
  - eapply gl_eq; [apply (gl_local _ _ _ (fun _ => trunc (fst (F p o))) _ _ _ _ (gl_const0 (b_n b) w p _))| | |].
    + reflexivity.
    + intros k K. pose proof (gl_near _ _ _ _ _ _ _ e k K A P) as G. revert G. apply near_imp. intros s S. symmetry. apply (H (fst (F (line p w k s) o))). rewrite V in S. exact S.
    + rewrite <- V. destruct x; reflexivity.
    + intros k K. destruct x; reflexivity.
    + destruct x; reflexivity.
  - eapply gl_eq; [apply gl_zero; reflexivity| | |]; destruct x; reflexivity.
Qed.
