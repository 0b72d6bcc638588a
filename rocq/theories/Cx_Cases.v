(** C92: the sign of a complex value, and concrete cases. *)
From Coq Require Import Reals ZArith List Arith Bool Lra Lia.
From Coquelicot Require Import Complex.
From Verif Require Import Lin Shape Jet Lap_Spec Lap_Lang Lap_Model Lap_Props Sparse_Model Sparse_Spec Sparse_Lemmas Sparse_Layout Sparse_Rules Gather_Model Sparse_Program Gather_Cases Fl_Spec Cx_Model Cx_Spec Cx_Lemmas Cx_Props Cx_Holo Cx_Binary.
Import ListNotations.
Open Scope C_scope.

(** The documented sign of a complex number: z / |z|, and 0 at 0. *)
Definition complex_sign (z : C) : C := if Req_EM_T (Cmod z) 0 then RtoC 0 else z / RtoC (Cmod z).
(** Real values: the sign is locally constant away from 0. *)
Theorem C92_sign_partial : forall b sh x w p (F : vec -> nat -> R), x_exact b w p sh (fun q o => RtoC (F q o)) x -> (forall o, (o < size sh)%nat -> F p o <> 0%R) ->
  x_exact b w p sh (fun q o => complex_sign (RtoC (F q o))) (x_sign x).
Proof.
  intros b sh x w p F E NZ o O. specialize (E o O). specialize (NZ o O). pose proof (cgl_value _ _ _ _ _ _ _ E) as V. destruct E as [A _]. cbn [fst RtoC] in A.
  assert (P : (0 < Rabs (F p o))%R) by (apply Rabs_pos_lt; exact NZ).
  assert (S : forall r, (Rabs (r - F p o) < Rabs (F p o))%R -> complex_sign (RtoC r) = complex_sign (RtoC (F p o))).
  { intros r H. unfold complex_sign. rewrite !Cmod_R. destruct (Req_EM_T (Rabs (F p o)) 0) as [Z|_]; [lra|]. destruct (Req_EM_T (Rabs r) 0) as [Z|NR].
    - exfalso. destruct (Req_dec r 0) as [->|N]; [|apply Rabs_no_R0 in N; contradiction]. rewrite Rminus_0_l, Rabs_Ropp in H. lra.
    - rewrite <- (RtoC_div r), <- (RtoC_div (F p o)) by (assumption || lra). f_equal. destruct (Rlt_le_dec 0 (F p o)) as [FP|FN].
      + rewrite (Rabs_right (F p o)) in * by lra. apply Rabs_def2 in H. rewrite Rabs_right by lra. field. lra.
      + rewrite (Rabs_left (F p o)) in * by lra. apply Rabs_def2 in H. rewrite Rabs_left by lra. field. lra. }
  assert (XS : x_value (x_sign x) o = complex_sign (RtoC (F p o))) by (rewrite <- V; destruct x; reflexivity).
  assert (NR : forall k, (k < b_n b)%nat -> near (fun s => complex_sign (RtoC (F p o)) = complex_sign (RtoC (F (line p w k s) o)))).
  { intros k K. pose proof (gl_near _ _ _ _ _ _ _ (Rabs (F p o)) k K A P) as G. revert G. apply near_imp. intros s H. symmetry. apply S. rewrite V in H. exact H. }
  split.
  - eapply gl_eq; [apply (gl_local _ _ _ (fun _ => fst (complex_sign (RtoC (F p o)))) _ _ _ _ (gl_const0 (b_n b) w p _))| | |].
    + reflexivity.
    + intros k K. generalize (NR k K). apply near_imp. intros s H. rewrite H. reflexivity.
    + rewrite XS. reflexivity.
    + intros k K. destruct x; reflexivity.
    + destruct x; reflexivity.
  - eapply gl_eq; [apply (gl_local _ _ _ (fun _ => snd (complex_sign (RtoC (F p o)))) _ _ _ _ (gl_const0 (b_n b) w p _))| | |].
    + reflexivity.
    + intros k K. generalize (NR k K). apply near_imp. intros s H. rewrite H. reflexivity.
    + rewrite XS. reflexivity.
    + intros k K. destruct x; reflexivity.
    + destruct x; reflexivity.
Qed.

(** One real coordinate q and the complex value q + i at q = 0, tracked exactly: the phase turns
    with q, but the code returns it without derivatives. *)
Definition one_basis : basis := basis_of [] 1 [].
Definition q_plus_i : xval := XSparse {| xsx := fun _ => (0%R, 1%R); xowners := [mk_role None [0%nat]]; xblk := fun _ _ _ => RtoC 1; xsl := fun _ => RtoC 0 |}.
Lemma q_plus_i_wf : x_wf one_basis [1]%nat q_plus_i.
Proof. split; [cbn; lia|]. split; [left; reflexivity|]. repeat constructor; cbn; auto. Qed.
Lemma q_plus_i_exact : x_exact one_basis (fun _ => 1%R) (fun _ => 0%R) [1]%nat (fun q _ => (q 0%nat, 1%R)) q_plus_i.
Proof.
  intros o O. cbn in O. assert (o = 0%nat) as -> by lia. split.
  - cbn [fst]. eapply gl_eq; [exact (correct_gl _ _ _ _ _ _ 0%nat (seed_correct 1 (fun _ => 1%R) (fun _ => 0%R) 0 1) ltac:(lia))| | |]; try reflexivity.
    intros k K. assert (k = 0%nat) as -> by (cbn in K; lia). cbn. ring.
  - eapply gl_eq; [apply (gl_const0 (b_n one_basis) (fun _ => 1%R) (fun _ => 0%R) 1%R)|reflexivity| |reflexivity]. intros k K. assert (k = 0%nat) as -> by (cbn in K; lia). cbn. ring.
Qed.
Theorem C92_sign_refuted : ~ (forall b sh x w p F, wf_basis b -> x_wf b sh x -> x_exact b w p sh F x -> (forall o, (o < size sh)%nat -> F p o <> RtoC 0) ->
  x_exact b w p sh (fun q o => complex_sign (F q o)) (x_sign x)).
Proof.
  intros H. specialize (H one_basis [1]%nat q_plus_i (fun _ => 1%R) (fun _ => 0%R) _ (basis_of_wf [] 1 []) q_plus_i_wf q_plus_i_exact).
  destruct (H (fun o _ E => R1_neq_R0 (f_equal snd E)) 0%nat ltac:(cbn; lia)) as [(_ & h & J & _) _].
  destruct (J 0%nat ltac:(cbn; lia)) as (_ & d & N & D0 & _). cbn in D0. destruct N as (e & E & N). specialize (N 0%R ltac:(rewrite Rabs_R0; exact E)). rewrite D0 in N.
  destruct (N (/ 4)%R ltac:(lra)) as (del & K). pose proof (cond_pos del) as DP. set (s := Rmin (del / 2) 1) in *.
  assert (SP : (0 < s <= 1)%R) by (split; [apply Rmin_glb_lt; lra|apply Rmin_r]). assert (SD : (s < del)%R) by (pose proof (Rmin_l (del / 2) 1); fold s in H0; lra).
  specialize (K s ltac:(lra) ltac:(rewrite Rabs_right; lra)). unfold line in K. cbn [Nat.eqb] in K.
  set (m := Cmod (s, 1%R)). assert (M1 : (1 <= m <= 2)%R).
  { split.
    - destruct (abs_le_Cmod (s, 1%R)) as [_ B]. cbn [snd] in B. rewrite Rabs_R1 in B. exact B.
    - eapply Rle_trans; [apply Cmod_le_abs|]. cbn [fst snd]. rewrite Rabs_R1, Rabs_right; lra. }
  replace (0 + 1 * (0 + s))%R with s in K by ring. replace (0 + 1 * 0)%R with 0%R in K by ring.
  unfold complex_sign in K. fold m in K. destruct (Req_EM_T m 0) as [Z|_]; [lra|].
  assert (C0 : Cmod (0%R, 1%R) = 1%R) by (unfold Cmod; cbn; replace (0 * (0 * 1) + 1 * (1 * 1))%R with 1%R by ring; apply sqrt_1). rewrite C0 in K. destruct (Req_EM_T 1 0) as [Z|_]; [lra|].
  replace (fst ((s, 1%R) / RtoC m)) with (s / m)%R in K by (cbn; field; lra). replace (fst ((0%R, 1%R) / RtoC 1)) with 0%R in K by (cbn; field).
  replace ((s / m - 0) / s - 0)%R with (/ m)%R in K by (field; lra). rewrite Rabs_right in K by (apply Rle_ge, Rlt_le, Rinv_0_lt_compat; lra).
  assert (/ 2 <= / m)%R by (apply Rinv_le_contravar; lra). lra.
Qed.

(** ** Concrete cases: four electrons in three dimensions *)
Definition as_complex (v : sval) : xval :=
  match v with
  | SPlain a => XPlain (fun o => RtoC (a o))
  | SDense t => XDense {| xdx := fun o => RtoC (lx t o); xdj := fun k o => RtoC (jac t k o); xdl := fun o => RtoC (lapl t o) |}
  | SSparse t => XSparse {| xsx := fun o => RtoC (sx t o); xowners := owners t; xblk := fun s c o => RtoC (blk t s c o); xsl := fun o => RtoC (sl t o) |}
  end.
Definition c_electrons (p : vec) : xval := as_complex (electrons p).
Lemma c_electrons_wf p : x_wf el_basis [4; 3]%nat (c_electrons p).
Proof. exact (electrons_wf p). Qed.
Lemma c_electrons_exact p : x_exact el_basis (fun _ => 1%R) p [4; 3]%nat (fun q o => RtoC (q o)) (c_electrons p).
Proof.
  intros o O. pose proof (seed_exact [] 4 [3%nat] (fun _ => 1%R) p ltac:(cbn; lia) o O) as G. split.
  - eapply gl_eq; [exact G| | |]; try reflexivity. intros k K. cbn [c_electrons as_complex electrons seed_sparse x_jacobian]. unfold x_to_dense. rewrite csum_fst. cbn. ring.
  - eapply gl_eq; [apply (gl_zero (b_n el_basis) (fun _ => 1%R) p (fun _ => 0%R)); reflexivity| | |]; try reflexivity. intros k K. cbn. ring.
Qed.
Definition x_is_sparse (v : xval) : bool := match v with XSparse _ => true | _ => false end.
(** exp(i x) of every coordinate keeps one owner per electron. *)
Definition phases (p : vec) : xval := x_unary el_basis [4; 3]%nat {| xf := cexp; xf1 := cexp; xf2 := cexp |} (x_complex el_basis [4; 3]%nat (XPlain (fun _ => RtoC 0)) (c_electrons p)).
Example phases_exact : forall p, x_is_sparse (phases p) = true /\ x_wf el_basis [4; 3]%nat (phases p) /\ x_exact el_basis (fun _ => 1%R) p [4; 3]%nat (fun q o => cexp (0%R, q o)) (phases p).
Proof.
  intros p. split; [reflexivity|].
  destruct (C92_complex el_basis [4; 3]%nat (XPlain (fun _ => RtoC 0)) (c_electrons p) (fun _ => 1%R) p (fun _ _ => 0%R) (fun q o => q o) (basis_of_wf [] 4 [3%nat])) as [W E].
  - split; [cbn; lia|exact I].
  - apply c_electrons_wf.
  - intros o O. apply cgl_const.
  - apply c_electrons_exact.
  - apply (C92_unary el_basis [4; 3]%nat {| xf := cexp; xf1 := cexp; xf2 := cexp |} (fun _ => True) _ _ _ (fun q o => (0%R, q o)) (basis_of_wf [] 4 [3%nat]) holomorphic_exp W E). auto.
Qed.
(** |q + i| and 1 / (q + i) at q = 0. *)
Example modulus_case : x_exact one_basis (fun _ => 1%R) (fun _ => 0%R) [1]%nat (fun q _ => RtoC (Cmod (q 0%nat, 1%R))) (x_abs one_basis [1]%nat q_plus_i).
Proof. apply (C92_abs one_basis [1]%nat q_plus_i (fun _ => 1%R) (fun _ => 0%R) (fun q _ => (q 0%nat, 1%R)) (basis_of_wf [] 1 []) q_plus_i_wf q_plus_i_exact). intros o _ E. exact (R1_neq_R0 (f_equal snd E)). Qed.
Example modulus_curvature : x_laplacian (x_abs one_basis [1]%nat q_plus_i) 0 = RtoC 1 /\ x_jacobian one_basis [1]%nat (x_abs one_basis [1]%nat q_plus_i) 0 0 = RtoC 0.
Proof.
  assert (C0 : Cmod (0%R, 1%R) = 1%R) by (unfold Cmod; cbn; replace (0 * (0 * 1) + 1 * (1 * 1))%R with 1%R by ring; apply sqrt_1).
  split.
  - cbn - [Cmod]. unfold x_trace, radial. cbn - [Cmod]. rewrite C0. apply C_ext; cbn; field.
  - cbn - [Cmod]. unfold x_to_dense, radial. cbn - [Cmod]. rewrite C0. apply C_ext; cbn; field.
Qed.
Example reciprocal_case : x_is_sparse (x_div one_basis [] [1]%nat [1]%nat (XPlain (fun _ => RtoC 1)) q_plus_i) = true /\
  x_exact one_basis (fun _ => 1%R) (fun _ => 0%R) [1]%nat (fun q _ => RtoC 1 / (q 0%nat, 1%R)) (x_div one_basis [] [1]%nat [1]%nat (XPlain (fun _ => RtoC 1)) q_plus_i).
Proof.
  split; [reflexivity|]. apply (C92_div one_basis [] [1]%nat [1]%nat (XPlain (fun _ => RtoC 1)) q_plus_i (fun _ => 1%R) (fun _ => 0%R) (fun _ _ => RtoC 1) (fun q _ => (q 0%nat, 1%R)) (basis_of_wf [] 1 [])).
  - cbn. lia.
  - split; [cbn; lia|intros a A; cbn in A; lia].
  - apply bc_self.
  - split; [cbn; lia|exact I].
  - exact q_plus_i_wf.
  - intros o O. apply cgl_const.
  - exact q_plus_i_exact.
  - intros o _ E. exact (R1_neq_R0 (f_equal snd E)).
Qed.
(** exp(i x) times its conjugate: the same owners again. *)
Example phase_product : forall p, let y := x_conj (phases p) in let v := x_mul el_basis [4; 3]%nat [4; 3]%nat [4; 3]%nat (phases p) y in
  x_is_sparse v = true /\ x_exact el_basis (fun _ => 1%R) p [4; 3]%nat (fun q o => cexp (0%R, q (bsrc [4; 3]%nat [4; 3]%nat o)) * Cconj (cexp (0%R, q (bsrc [4; 3]%nat [4; 3]%nat o)))) v.
Proof.
  intros p y v. split; [reflexivity|]. destruct (phases_exact p) as (_ & W & E). destruct (C92_components _ _ _ _ _ _ W E) as (_ & _ & (WC & EC) & _).
  apply (C92_mul el_basis [4; 3]%nat [4; 3]%nat [4; 3]%nat (phases p) y (fun _ => 1%R) p _ _ (basis_of_wf [] 4 [3%nat]) ltac:(cbn; lia) (bc_self _) (bc_self _) W WC E EC).
Qed.
(** A real operand converted to complex, and its integer part. *)
Example convert_case : forall p, (forall o z, (o < 12)%nat -> z <> 0%Z -> p o <> IZR z) ->
  x_exact el_basis (fun _ => 1%R) p [4; 3]%nat (fun q o => RtoC (trunc (q o))) (x_convert Integer (c_electrons p)).
Proof. intros p N. apply (C92_convert el_basis [4; 3]%nat (c_electrons p) (fun _ => 1%R) p (fun q o => RtoC (q o)) (c_electrons_wf p) (c_electrons_exact p)). exact N. Qed.
