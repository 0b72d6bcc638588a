(** Non-vacuity of C38: primitives that satisfy the smoothness records, and programs that
    satisfy the hypotheses of the theorem. *)
From Coq Require Import Reals List Arith Bool Lra Lia.
From Verif Require Import Lin Lap_Spec Lap_Lang Lap_Model Jet Lap_Props.
Import ListNotations.
Open Scope R_scope.

Lemma open_all : open1 (fun _ => True).
Proof. intros x _. exists 1. split; [lra|auto]. Qed.
Lemma open_pos : open1 (fun x => 0 < x).
Proof. intros x X. exists x. split; [auto|]. intros y Y. apply abs_near in Y. lra. Qed.
Lemma d_opp f x l : derivable_pt_lim f x l -> derivable_pt_lim (fun u => - f u) x (- l).
Proof. apply derivable_pt_lim_opp. Qed.

(** elementwise.py: exp, log, sin, cos, sqrt, rsqrt-free selection of wrap_elementwise entries *)
Definition s_exp : smooth1 := {| sf := exp; sf1 := exp; sf2 := exp; sdom := fun _ => True; sopen := open_all;
  sd1 := fun x _ => derivable_pt_lim_exp x; sd2 := fun x _ => derivable_pt_lim_exp x |}.
Definition s_sin : smooth1 := {| sf := sin; sf1 := cos; sf2 := fun x => - sin x; sdom := fun _ => True; sopen := open_all;
  sd1 := fun x _ => derivable_pt_lim_sin x; sd2 := fun x _ => derivable_pt_lim_cos x |}.
Definition s_cos : smooth1 := {| sf := cos; sf1 := fun x => - sin x; sf2 := fun x => - cos x; sdom := fun _ => True; sopen := open_all;
  sd1 := fun x _ => derivable_pt_lim_cos x; sd2 := fun x _ => d_opp sin x (cos x) (derivable_pt_lim_sin x) |}.
Definition s_log : smooth1 := {| sf := ln; sf1 := Rinv; sf2 := fun x => - / x ^ 2; sdom := fun x => 0 < x; sopen := open_pos;
  sd1 := fun x X => derivable_pt_lim_ln x X; sd2 := fun x X => d_inv x (Rgt_not_eq x 0 X) |}.
Lemma d_sqrt2 x : 0 < x -> derivable_pt_lim (fun u => / (2 * sqrt u)) x (- / (4 * x * sqrt x)).
Proof.
  intros X. pose proof (sqrt_lt_R0 x X) as S.
  apply (derivable_eq _ _ (- / (2 * sqrt x) ^ 2 * (2 * / (2 * sqrt x)))).
  - replace (4 * x * sqrt x) with (4 * (sqrt x * sqrt x) * sqrt x) by (rewrite sqrt_sqrt by lra; ring). field. lra.
  - apply (derivable_pt_lim_comp (fun u => 2 * sqrt u) Rinv).
    + apply (derivable_pt_lim_scal sqrt). apply derivable_pt_lim_sqrt. exact X.
    + apply d_inv. lra.
Qed.
Definition s_sqrt : smooth1 := {| sf := sqrt; sf1 := fun x => / (2 * sqrt x); sf2 := fun x => - / (4 * x * sqrt x); sdom := fun x => 0 < x; sopen := open_pos;
  sd1 := fun x X => derivable_pt_lim_sqrt x X; sd2 := fun x X => d_sqrt2 x X |}.

(** integer_pow *)
Lemma d_pow n x : derivable_pt_lim (fun u => u ^ n) x (INR n * x ^ pred n).
Proof. apply derivable_pt_lim_pow. Qed.
Lemma d_pow2 n x : derivable_pt_lim (fun u => INR n * u ^ pred n) x (INR n * (INR (pred n) * x ^ pred (pred n))).
Proof. apply (derivable_pt_lim_scal (fun u => u ^ pred n)). apply d_pow. Qed.
Definition s_pow (n : nat) : smooth1 := {| sf := fun x => x ^ n; sf1 := fun x => INR n * x ^ pred n; sf2 := fun x => INR n * (INR (pred n) * x ^ pred (pred n));
  sdom := fun _ => True; sopen := open_all; sd1 := fun x _ => d_pow n x; sd2 := fun x _ => d_pow2 n x |}.

(** A two-argument primitive for the general (Hessian) path. *)
Lemma total_prod v : total 2 (fun v => v 0%nat * v 1%nat) v (fun a => match a with 0%nat => v 1%nat | _ => v 0%nat end).
Proof.
  intros eps E. exists eps. split; auto. intros w H. pose proof (H 0%nat ltac:(lia)) as H0. pose proof (H 1%nat ltac:(lia)) as H1. cbn [sum].
  replace (w 0%nat * w 1%nat - v 0%nat * v 1%nat - (0 + v 1%nat * (w 0%nat - v 0%nat) + v 0%nat * (w 1%nat - v 1%nat))) with ((w 0%nat - v 0%nat) * (w 1%nat - v 1%nat)) by ring.
  rewrite Rabs_mult. pose proof (Rabs_pos (w 0%nat - v 0%nat)). pose proof (Rabs_pos (w 1%nat - v 1%nat)).
  assert (Rabs (w 0%nat - v 0%nat) * Rabs (w 1%nat - v 1%nat) <= eps * Rabs (w 1%nat - v 1%nat)) by (apply Rmult_le_compat_r; lra).
  assert (0 <= eps * Rabs (w 0%nat - v 0%nat)) by (apply Rmult_le_pos; lra). lra.
Qed.
Lemma total_coord c v : (c < 2)%nat -> total 2 (fun v => v c) v (fun b => if Nat.eqb b c then 1 else 0).
Proof.
  intros C eps E. exists 1. split; [lra|]. intros w _. cbn [sum].
  assert (Q : w c - v c - (0 + (if Nat.eqb 0 c then 1 else 0) * (w 0%nat - v 0%nat) + (if Nat.eqb 1 c then 1 else 0) * (w 1%nat - v 1%nat)) = 0).
  { destruct c as [|[|c]]; [| |lia]; cbn; ring. }
  rewrite Q, Rabs_R0. apply Rmult_le_pos; [lra|]. pose proof (Rabs_pos (w 0%nat - v 0%nat)). pose proof (Rabs_pos (w 1%nat - v 1%nat)). lra.
Qed.
Definition g_prod : smoothn.
Proof.
  refine {| marity := 2; mf := fun _ v => v 0%nat * v 1%nat; mg := fun _ v a => match a with 0%nat => v 1%nat | _ => v 0%nat end;
            mh := fun _ v a b => match a with 0%nat => if Nat.eqb b 1 then 1 else 0 | _ => if Nat.eqb b 0 then 1 else 0 end; mdom := fun _ => True |}.
  - intros _ v w H. rewrite (H 0%nat), (H 1%nat) by lia. reflexivity.
  - intros v _. exists 1. split; [lra|auto].
  - intros _ v _. apply total_prod.
  - intros _ v a _ A. destruct a as [|[|a]]; [| |lia]; apply total_coord; lia.
Defined.

(** exp(x)*y, then its logarithm plus |x|, with one constant: hypotheses of the theorem *)
Definition demo : list (instr * nat) :=
  [ (Unary s_exp 0, 1); (Mul (fun _ => 0) (fun _ => 0) 3 1, 1); (Unary s_log 4, 1); (Abs 0, 1);
    (Linear [5; 6] (fun _ => [((5, 0), 2%R); ((6, 0), (-1)%R)]), 1); (General g_prod (fun a => (match a with 0 => 7 | _ => 2 end, 0)) [7; 2], 1) ]%nat.
Example C38_hypotheses_met : forall p c, 0 < p 1%nat -> p 0%nat <> 0 ->
  well_formed_program [1; 1; 1]%nat demo /\ smooth_program [true; true; false] (inputs [0; 1]%nat [fun _ => c] p) demo.
Proof.
  intros p c P0 P1. split.
  - cbn [well_formed_program demo app]. unfold well_formed.
    repeat (split; [intros o O v j I; cbn in I; repeat (destruct I as [I|I]; [injection I as <- <-; cbn; split; [tauto|lia]|]); destruct I|]). exact I.
  - cbn [smooth_program demo app]. unfold smooth. repeat split; intros; cbn [nthv nth prim inputs map app leaf sf s_exp s_log sdom mdom g_prod]; auto.
    + apply Rmult_lt_0_compat; [apply exp_pos|]. exact P0.
    + assert (o = 0%nat) as -> by lia. exact P1.
Qed.
(** and what the theorem says for exp(x)*y: the Laplacian of exp(x)*y is exp(x)*y *)
Example C38_demo : forall p, let r := run_lap 2 (map fst (firstn 2 demo)) (seeds [0; 1]%nat [fun _ => 0] (fun _ => 1) p) in
  exists t, nth 4 r (Plain zero_arr) = Tracked t /\ lx t 0%nat = exp (p 0%nat) * p 1%nat /\ lapl t 0%nat = exp (p 0%nat) * p 1%nat
  /\ jac t 0%nat 0%nat = exp (p 0%nat) * p 1%nat /\ jac t 1%nat 0%nat = exp (p 0%nat).
Proof.
  intros p. eexists. split; [reflexivity|]. cbn [lx lapl jac sum]. cbn. unfold leaf, delta. cbn. repeat split; ring.
Qed.
Print Assumptions C38_from_any_inputs.
Print Assumptions C38_forward_laplacian.
Print Assumptions C38_gradient_is_unique.
