(** C95: concrete functions that meet the hypotheses, and a mixed-dtype function for which the Hessian
    strategy and the trace strategy differ. *)
From Coq Require Import Reals List Arith Bool Lra Lia FunctionalExtensionality.
From Coquelicot Require Import Complex Derive.
From Verif Require Import Lin Jet Lap_Spec Lap_Props Fl_Spec Cx_Spec Cx_Lemmas Ad_Model Ad_Spec Ad_Lemmas Ad_Props Ad_Main Ad_Cases.
Import ListNotations.
Open Scope R_scope.
Local Notation total := Lap_Spec.total.

Lemma one_le_sum N (t : nat -> R) b : (forall a, 0 <= t a) -> (b < N)%nat -> t b <= sum N t.
Proof.
  intros P. induction N as [|N IH]; intros B; [lia|]. cbn [sum]. pose proof (P N). assert (0 <= sum N t) by (apply sum_nonneg; auto).
  destruct (Nat.eq_dec b N) as [->|]; [lra|]. pose proof (IH ltac:(lia)). lra.
Qed.
Lemma t_prod N a b v : (a < N)%nat -> (b < N)%nat -> total N (fun w => w a * w b) v (fun c => delta c a * v b + delta c b * v a).
Proof.
  intros A B eps E. exists eps. split; [exact E|]. intros w W.
  rewrite (sum_ext N _ (fun c => v b * (w c - v c) * delta c a + v a * (w c - v c) * delta c b)) by (intros; ring).
  rewrite sum_plus, (sum_delta_r N (fun c => v b * (w c - v c)) a A), (sum_delta_r N (fun c => v a * (w c - v c)) b B).
  replace (w a * w b - v a * v b - (v b * (w a - v a) + v a * (w b - v b))) with ((w a - v a) * (w b - v b)) by ring. rewrite Rabs_mult.
  pose proof (W a A). pose proof (Rabs_pos (w a - v a)). pose proof (Rabs_pos (w b - v b)).
  apply Rle_trans with (eps * Rabs (w b - v b)); [apply Rmult_le_compat_r; lra|]. apply Rmult_le_compat_l; [lra|].
  apply (one_le_sum N (fun a => Rabs (w a - v a)) b); [intros; apply Rabs_pos|exact B].
Qed.
Lemma t_coord N a v : (a < N)%nat -> total N (fun w => w a) v (fun c => delta c a).
Proof.
  intros A eps E. exists 1. split; [lra|]. intros w _. rewrite (sum_ext N _ (fun c => (w c - v c) * delta c a)) by (intros; ring).
  rewrite (sum_delta_r N (fun c => w c - v c) a A). replace (w a - v a - (w a - v a)) with 0 by ring. rewrite Rabs_R0.
  apply Rmult_le_pos; [lra|]. apply sum_nonneg. intros; apply Rabs_pos.
Qed.
Lemma t_zero N v : total N (fun _ => 0) v (fun _ => 0).
Proof.
  intros eps E. exists 1. split; [lra|]. intros w _. rewrite (sum_0 N) by (intros; ring). rewrite !Rminus_0_r, Rabs_R0.
  apply Rmult_le_pos; [lra|]. apply sum_nonneg. intros; apply Rabs_pos.
Qed.
Lemma t_plus N F F' v g g' : total N F v g -> total N F' v g' -> total N (fun w => F w + F' w) v (fun a => g a + g' a).
Proof.
  intros T T' eps E. destruct (T (eps / 2) ltac:(lra)) as (d & D & H). destruct (T' (eps / 2) ltac:(lra)) as (d' & D' & H').
  exists (Rmin d d'). split; [apply Rmin_glb_lt; auto|]. intros w W.
  specialize (H w (fun a L => Rlt_le_trans _ _ _ (W a L) (Rmin_l d d'))). specialize (H' w (fun a L => Rlt_le_trans _ _ _ (W a L) (Rmin_r d d'))).
  rewrite (sum_ext N _ (fun a => g a * (w a - v a) + g' a * (w a - v a))) by (intros; ring). rewrite sum_plus.
  set (s := sum N (fun a => Rabs (w a - v a))) in *. set (p := sum N (fun a => g a * (w a - v a))) in *. set (p' := sum N (fun a => g' a * (w a - v a))) in *.
  replace (F w + F' w - (F v + F' v) - (p + p')) with ((F w - F v - p) + (F' w - F' v - p')) by ring. eapply Rle_trans; [apply Rabs_triang|]. lra.
Qed.
Lemma t_scal N F v c g : total N F v g -> total N (fun w => c * F w) v (fun a => c * g a).
Proof.
  intros T eps E. set (e := eps / (Rabs c + 1)). pose proof (Rabs_pos c) as P. assert (E0 : 0 < e) by (apply Rdiv_lt_0_compat; lra).
  destruct (T e E0) as (d & D & H). exists d. split; [exact D|]. intros w W. specialize (H w W).
  rewrite (sum_ext N _ (fun a => c * (g a * (w a - v a)))) by (intros; ring). rewrite sum_scal_l.
  replace (c * F w - c * F v - c * sum N (fun a => g a * (w a - v a))) with (c * (F w - F v - sum N (fun a => g a * (w a - v a)))) by ring. rewrite Rabs_mult.
  set (s := sum N (fun a => Rabs (w a - v a))) in *. assert (0 <= s) by (apply sum_nonneg; intros; apply Rabs_pos).
  apply Rle_trans with (Rabs c * (e * s)); [apply Rmult_le_compat_l; auto|]. rewrite <- Rmult_assoc. apply Rmult_le_compat_r; [auto|].
  apply Rmult_le_reg_r with (Rabs c + 1); [lra|]. unfold e. replace (Rabs c * (eps / (Rabs c + 1)) * (Rabs c + 1)) with (Rabs c * eps) by (field; lra). nra.
Qed.
Lemma t_eq N F F' v g g' : total N F v g -> (forall w, F w = F' w) -> (forall a, (a < N)%nat -> g a = g' a) -> total N F' v g'.
Proof.
  intros T E G eps P. destruct (T eps P) as (d & D & H). exists d. split; [exact D|]. intros w W. rewrite <- !E.
  rewrite <- (sum_ext N (fun a => g a * (w a - v a))) by (intros a A; cbn beta; rewrite (G a A); reflexivity). apply H. exact W.
Qed.
(** s * w_a * w_b + u * w_c * w_d *)
Definition quadric (s u : R) (a b c e : nat) (w : vec) : R := s * (w a * w b) + u * (w c * w e).
Definition quadric_g (s u : R) (a b c e : nat) (v : vec) (k : nat) : R := s * (delta k a * v b + delta k b * v a) + u * (delta k c * v e + delta k e * v c).
Definition quadric_h (s u : R) (a b c e k l : nat) : R := s * (delta k a * delta l b + delta k b * delta l a) + u * (delta k c * delta l e + delta k e * delta l c).
Lemma quadric_smooth N s u a b c e D : (a < N)%nat -> (b < N)%nat -> (c < N)%nat -> (e < N)%nat ->
  differentiable_twice N D (quadric s u a b c e) (quadric_g s u a b c e) (fun _ => quadric_h s u a b c e).
Proof.
  intros A B C E v _. split.
  - apply (t_plus N (fun w => s * (w a * w b)) (fun w => u * (w c * w e))); apply t_scal; apply t_prod; auto.
  - intros k K. unfold quadric_g, quadric_h.
    assert (L : forall a b, (a < N)%nat -> (b < N)%nat -> total N (fun w => delta k a * w b + delta k b * w a) v (fun l => delta k a * delta l b + delta k b * delta l a)).
    { intros x y X Y. apply (t_plus N (fun w => delta k x * w y) (fun w => delta k y * w x)); apply t_scal; apply t_coord; auto. }
    apply (t_plus N (fun w => s * (delta k a * w b + delta k b * w a)) (fun w => u * (delta k c * w e + delta k e * w c))); apply t_scal; apply L; auto.
Qed.
Definition all_points : vec -> Prop := fun _ => True.
Lemma all_open N : openn N all_points. Proof. intros v _. exists 1. split; [lra|intros; exact I]. Qed.
Lemma twice_eq N D F F' G H : differentiable_twice N D F G H -> (forall w, F w = F' w) -> differentiable_twice N D F' G H.
Proof. intros T E v Dv. destruct (T v Dv) as [A B]. split; [|exact B]. eapply t_eq; [exact A|exact E|reflexivity]. Qed.

(** z0 * z1, complex differentiable. *)
Definition product_fn : cvec -> nat -> C := fun z _ => Cmult (z 0%nat) (z 1%nat).
Definition product_d : partials := {| g_re := quadric_g 1 (-1) 0 1 2 3; h_re := fun _ => quadric_h 1 (-1) 0 1 2 3; g_im := quadric_g 1 1 0 3 2 1; h_im := fun _ => quadric_h 1 1 0 3 2 1 |}.
Example C95_product : smooth 2 (fun _ => CX) all_points (fun y => product_fn y 0%nat) product_d /\ cauchy_riemann 2 all_points product_d.
Proof.
  split; [split; [apply all_open|split; [|split]]|].
  - intros x y E. unfold product_fn. rewrite (E 0%nat), (E 1%nat) by lia. reflexivity.
  - eapply twice_eq; [apply (quadric_smooth 4 1 (-1) 0 1 2 3 all_points); lia|]. intros w. unfold quadric, product_fn, point. cbn. ring.
  - eapply twice_eq; [apply (quadric_smooth 4 1 1 0 3 2 1 all_points); lia|]. intros w. unfold quadric, product_fn, point. cbn. ring.
  - intros v _. split.
    + intros [|[|a]] A; [| |lia]; unfold product_d, quadric_g, delta; cbn; split; ring.
    + intros a b A B. unfold product_d, quadric_h. cbn [h_re h_im]. split; ring.
Qed.
(** |z|^2, a real function of a complex number: not complex differentiable, covered by the third case. *)
Definition square_fn : cvec -> nat -> C := fun z _ => RtoC (fst (z 0%nat) * fst (z 0%nat) + snd (z 0%nat) * snd (z 0%nat)).
Definition square_d : partials := {| g_re := quadric_g 1 1 0 0 1 1; h_re := fun _ => quadric_h 1 1 0 0 1 1; g_im := fun _ _ => 0; h_im := fun _ _ _ => 0 |}.
Example C95_square : smooth 1 (fun _ => CX) all_points (fun y => square_fn y 0%nat) square_d /\ (forall y, snd (square_fn y 0%nat) = 0) /\ ~ cauchy_riemann 1 all_points square_d.
Proof.
  split; [split; [apply all_open|split; [|split]]|split].
  - intros x y E. unfold square_fn. rewrite (E 0%nat) by lia. reflexivity.
  - eapply twice_eq; [apply (quadric_smooth 2 1 1 0 0 1 1 all_points); lia|]. intros w. unfold quadric, square_fn, point. cbn. ring.
  - intros v _. split; [|intros a _; apply t_zero]. eapply t_eq; [apply t_zero|reflexivity|reflexivity].
  - reflexivity.
  - intros H. destruct (H (fun _ => 1) I) as [G _]. destruct (G 0%nat ltac:(lia)) as [E _]. unfold square_d, quadric_g, delta in E. cbn in E. lra.
Qed.
(** Full case: three coordinates, one complex entry z = q0 + i q1 (so that more coordinates than entries are tracked): |z|^2 = q0^2 + q1^2 has Laplacian 4. *)
Definition plane : vec -> cvec := fun q _ => (q 0%nat, q 1%nat).
Definition plane_J : nat -> cvec := fun k _ => match k with 0%nat => RtoC 1 | 1%nat => Ci | _ => RtoC 0 end.
Lemma jet_line p k j a b : a = p j -> (b = if Nat.eqb j k then 1 else 0) -> jet (fun s => line p (fun _ => 1) k s j) a b 0.
Proof.
  intros -> ->. split; [unfold line; destruct (Nat.eqb j k); ring|]. exists (fun _ => if Nat.eqb j k then 1 else 0). split; [|split; [reflexivity|apply derivable_pt_lim_const]].
  exists 1. split; [lra|]. intros t _. unfold line. apply (derivable_ext (fun s => (if Nat.eqb j k then 1 else 0) * s + p j)); [intros; destruct (Nat.eqb j k); ring|].
  apply (derivable_eq _ _ ((if Nat.eqb j k then 1 else 0) * 1 + 0)); [ring|]. apply (derivable_pt_lim_plus (fun s => (if Nat.eqb j k then 1 else 0) * s) (fun _ => p j)); [|apply derivable_pt_lim_const].
  apply (derivable_pt_lim_scal id). apply derivable_pt_lim_id.
Qed.
Example C95_tracked : forall p, tracked 1 3 (fun _ => 1) p (fun _ => CX) plane (plane p) plane_J (fun _ => RtoC 0).
Proof.
  intros p. split; [|split; [|split; [|split]]]; try (intros; intros i _ E; discriminate). intros i Hi. split.
  - split; [reflexivity|]. exists (fun _ => 0). split; [|cbn; ring]. intros k K. apply (jet_line p k 0); [reflexivity|]. destruct k as [|[|k]]; reflexivity.
  - split; [reflexivity|]. exists (fun _ => 0). split; [|cbn; ring]. intros k K. apply (jet_line p k 1); [reflexivity|]. destruct k as [|[|k]]; reflexivity.
Qed.
Example C95_square_laplacian : forall p,
  complex_gradient_and_laplacian 3 (fun _ => 1) p (fun q => RtoC (q 0%nat * q 0%nat + q 1%nat * q 1%nat)) (square_fn (plane p) 0%nat)
    (fun k => general_grad square_fn (plane p) plane_J k 0%nat) (general_lap 1 3 (fun _ => CX) 1 RE square_fn (plane p) plane_J (fun _ => RtoC 0) 0%nat) /\
  general_lap 1 3 (fun _ => CX) 1 RE square_fn (plane p) plane_J (fun _ => RtoC 0) 0%nat = RtoC 4.
Proof.
  intros p. destruct C95_square as (S & Z & _).
  assert (SS : forall o, (o < 1)%nat -> smooth 1 (fun _ => CX) all_points (fun y => square_fn y o) square_d) by (intros o _; exact S).
  split.
  - apply (C95_general 1 3 1 (fun _ => CX) RE all_points square_fn (fun _ => square_d) (fun _ => 1) p plane); auto; [apply C95_tracked|exact I].
  - assert (TX : typed 1 (fun _ => CX) (plane p)) by (intros i _ E; discriminate).
    assert (TJ : forall k, (k < 3)%nat -> typed 1 (fun _ => CX) (plane_J k)) by (intros k _ i _ E; discriminate).
    destruct (jhj_value 1 3 1 (fun _ => CX) RE all_points square_fn (fun _ => square_d) SS (fun _ y o _ => eq_refl) (plane p) plane_J 0 ltac:(lia) I TJ TX (or_intror (or_introl eq_refl))) as [F G].
    unfold general_lap. rewrite (jvp_smooth 1 (fun _ => CX) all_points (fun y => square_fn y 0%nat) square_d (coords 1 (plane p)) (plane p)); [|exact S|exact I| |intros i _ E; discriminate].
    + apply C_ext; cbn [fst snd Cplus]; [rewrite F|rewrite G]; cbn; unfold quad, quadric_g, quadric_h, delta, coords; cbn; ring.
    + intros i Hi. symmetry. apply point_coords; [intros j _ E; discriminate|exact Hi].
Qed.

(** i r z with r a real array and z a complex one, both tracked: with more coordinates than entries the
    handler takes the Hessian and returns half of the second-order term, which the trace strategy gives. *)
Definition mixed_kind (i : nat) : dtype := match i with O => RE | _ => CX end.
Definition mixed_fn : cvec -> nat -> C := fun z _ => Cmult Ci (Cmult (z 0%nat) (z 1%nat)).
Definition mixed_d : partials := {| g_re := quadric_g (-1) 0 0 3 0 0; h_re := fun _ => quadric_h (-1) 0 0 3 0 0; g_im := quadric_g 1 0 0 1 0 0; h_im := fun _ => quadric_h 1 0 0 1 0 0 |}.
Lemma mixed_smooth : smooth 2 mixed_kind all_points (fun y => mixed_fn y 0%nat) mixed_d.
Proof.
  split; [apply all_open|split; [|split]].
  - intros x y E. unfold mixed_fn. rewrite (E 0%nat), (E 1%nat) by lia. reflexivity.
  - eapply twice_eq; [apply (quadric_smooth 4 (-1) 0 0 3 0 0 all_points); lia|]. intros w. unfold quadric, mixed_fn, point. cbn. ring.
  - eapply twice_eq; [apply (quadric_smooth 4 1 0 0 1 0 0 all_points); lia|]. intros w. unfold quadric, mixed_fn, point. cbn. ring.
Qed.
Theorem C95_mixed_strategies_differ : exists (x : cvec) (J : nat -> cvec), typed 2 mixed_kind x /\ (forall k, typed 2 mixed_kind (J k)) /\
  general_jhj 2 3 mixed_kind 1 CX mixed_fn x J 0 = (0, 3) /\
  JHJ_via_trace 3 (flat_wrap 2 mixed_kind mixed_fn) x (fun i k => J k i) 0 = (0, 6).
Proof.
  exists (fun _ => RtoC 0), (fun _ _ => RtoC 1). split; [intros i _ _; reflexivity|]. split; [intros k i _ _; reflexivity|].
  pose proof (smooth_flat 2 mixed_kind all_points (fun y => mixed_fn y 0%nat) mixed_d mixed_smooth) as SF.
  change (smooth 2 (fun _ => CX) all_points (fun y => flat_wrap 2 mixed_kind mixed_fn y 0%nat) mixed_d) in SF.
  assert (X : forall i, (i < 2)%nat -> (fun _ => RtoC 0) i = point 2 (fun _ => CX) (fun _ => 0) i) by reflexivity.
  split.
  - change (JHJ_via_hessian 2 3 1 CX CX (flat_wrap 2 mixed_kind mixed_fn) (fun _ => RtoC 0) (fun i k => RtoC 1) 0 = (0, 3)).
    unfold JHJ_via_hessian, frobenius.
    assert (HE : forall i j, (i < 2)%nat -> (j < 2)%nat -> hessian 2 (fun _ => CX) 1 CX (flat_wrap 2 mixed_kind mixed_fn) (fun _ => RtoC 0) 0 i j = (h_re mixed_d (fun _ => 0) i j, - h_re mixed_d (fun _ => 0) (2 + i)%nat j)).
    { intros i j Hi Hj. unfold hessian, jacfwd. rewrite (d_jacrev_cx 2 all_points 1 CX _ mixed_d (fun _ => 0) (fun _ => RtoC 0) (eye j) 0 i SF I X ltac:(lia) Hi).
      assert (P : forall a, sum (2 * 2) (fun b => h_re mixed_d (fun _ => 0) a b * coords 2 (eye j) b) = h_re mixed_d (fun _ => 0) a j).
      { intros a. rewrite <- (sum_delta_r (2 * 2) (h_re mixed_d (fun _ => 0) a) j ltac:(lia)). apply sum_ext. intros b B. rewrite coords_eye by (auto; lia). reflexivity. }
      rewrite !P. reflexivity. }
    unfold csum at 1. cbn [sum]. unfold csum at 1 3 5 7. cbn [sum]. rewrite !HE by lia. apply C_ext; unfold mixed_d, quadric_h, delta; cbn; ring.
  - rewrite (trace_any 2 3 1 all_points (flat_wrap 2 mixed_kind mixed_fn) 0 mixed_d (fun _ => 0) (fun _ => RtoC 0) (fun _ _ => RtoC 1) ltac:(lia) I (fun _ => CX) SF X) by (intros k _ i _ E; discriminate).
    apply C_ext; cbn [fst snd]; unfold quad, mixed_d, quadric_h, delta, coords; cbn; ring.
Qed.
