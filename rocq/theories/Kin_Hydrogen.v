(** C83: the hydrogen atom of app/hydrogen_atom.py. *)
From Coq Require Import Reals List Arith Lra Lia String FunctionalExtensionality.
From Coquelicot Require Import Coquelicot.
From Verif Require Import Lin Sph_Ops Kin_Spec Kin_Model Kin_Props.
Import ListNotations.
Open Scope R_scope.
Local Notation vec := Lin.vec.

Definition rest (x : vec) (k : nat) : R := sum 3 (fun j => if Nat.eqb j k then 0 else x j ^ 2).
Lemma norm_put x k t : (k < 3)%nat -> norm 3 (put x k t) = sqrt (t ^ 2 + rest x k).
Proof. intros K. unfold norm, rest, Lin.dot, put. destruct k as [|[|[|k]]]; try lia; cbn; f_equal; ring. Qed.
Lemma norm_sq x : norm 3 x ^ 2 = x 0%nat ^ 2 + x 1%nat ^ 2 + x 2%nat ^ 2.
Proof. unfold norm, Lin.dot. cbn [sum]. simpl pow. rewrite Rmult_1_r. rewrite sqrt_sqrt by nra. ring. Qed.
Lemma norm_rest x k : (k < 3)%nat -> sqrt (x k ^ 2 + rest x k) = norm 3 x.
Proof. intros K. rewrite <- norm_put by exact K. rewrite put_self. reflexivity. Qed.
Lemma root_derive c t : 0 < t ^ 2 + c -> is_derive (fun s => sqrt (s ^ 2 + c)) t (t / sqrt (t ^ 2 + c)).
Proof. intros P. assert (Q : sqrt (t ^ 2 + c) <> 0) by (pose proof (sqrt_lt_R0 _ P); lra). auto_derive; [simpl in *; lra|]. replace (t * (t * 1) + c) with (t ^ 2 + c) by (simpl; ring). field. exact Q. Qed.
Lemma root_derive2 c t : 0 < t ^ 2 + c -> is_derive (fun s => s / sqrt (s ^ 2 + c)) t (/ sqrt (t ^ 2 + c) - t ^ 2 / sqrt (t ^ 2 + c) ^ 3).
Proof.
  intros P. pose proof (sqrt_lt_R0 _ P) as Q. pose proof (is_derive_div (fun s => s) (fun s => sqrt (s ^ 2 + c)) t 1 _ (is_derive_id t) (root_derive c t P)) as D.
  eapply der_eq; [|apply D; lra]. field. lra.
Qed.
Lemma near_positive c t : 0 < t ^ 2 + c -> locally t (fun s => 0 < s ^ 2 + c).
Proof.
  intros P. assert (CT : continuous (fun s => s ^ 2 + c) t).
  { apply (continuous_plus (fun s => s ^ 2) (fun _ => c)); [|apply continuous_const]. apply ex_derive_continuous. auto_derive. exact I. }
  exact (CT _ (open_gt 0 _ P)).
Qed.
Lemma line_derivatives alpha c a : 0 < a ^ 2 + c -> let r := sqrt (a ^ 2 + c) in let u := fun t => sqrt (t ^ 2 + c) * alpha in
  Derive u a = alpha * (a / r) /\ Derive_n u 2 a = alpha * (/ r - a ^ 2 / r ^ 3).
Proof.
  intros P r u. assert (D : forall t, 0 < t ^ 2 + c -> is_derive u t (alpha * (t / sqrt (t ^ 2 + c)))).
  { intros t T. pose proof (is_derive_scal (fun s => sqrt (s ^ 2 + c)) t alpha _ (root_derive c t T)) as Q. apply (is_derive_ext (fun s => alpha * sqrt (s ^ 2 + c))); [intros s; unfold u; apply Rmult_comm|exact Q]. }
  split; [apply is_derive_unique, D, P|]. change (Derive_n u 2 a) with (Derive (Derive u) a). apply is_derive_unique.
  apply (is_derive_ext_loc (fun t => alpha * (t / sqrt (t ^ 2 + c)))).
  - generalize (near_positive c a P). apply filter_imp. intros t T. symmetry. apply is_derive_unique, D, T.
  - pose proof (is_derive_scal (fun s => s / sqrt (s ^ 2 + c)) a alpha _ (root_derive2 c a P)) as Q. exact Q.
Qed.
(** The local energy away from the nucleus: at alpha = -1 it is exactly -1/2 everywhere, and for no other alpha is
    it constant. *)
Theorem C83_hydrogen : forall alpha mode d, shape (d "electrons"%string) = [3%nat] -> let r := norm 3 (buf (d "electrons"%string)) in 0 < r ->
  hydrogen_local_energy alpha mode d = RealS (- alpha ^ 2 / 2 - (alpha + 1) / r).
Proof.
  intros alpha mode d SH r P. unfold hydrogen_local_energy, hydrogen_log_psi. rewrite standard_real. cbv zeta. unfold size_of. rewrite SH. cbn [fold_right Nat.mul Nat.add]. f_equal.
  unfold potential_energy. fold r. set (x := flatten (d "electrons"%string)). change (buf (d "electrons"%string)) with x in r.
  assert (E : forall k, (k < 3)%nat -> Derive_n (fun t => at_positions (fun (d0 : data) (_ : unit) => norm 3 (buf (d0 "electrons"%string)) * alpha) "electrons" d (put x k t)) 2 (x k) +
    partial (at_positions (fun (d0 : data) (_ : unit) => norm 3 (buf (d0 "electrons"%string)) * alpha) "electrons" d) x k ^ 2 = alpha * (/ r - x k ^ 2 / r ^ 3) + (alpha * (x k / r)) ^ 2).
  { intros k K. assert (U : forall t, at_positions (fun (d0 : data) (_ : unit) => norm 3 (buf (d0 "electrons"%string)) * alpha) "electrons" d (put x k t) = sqrt (t ^ 2 + rest x k) * alpha).
    { intros t. unfold at_positions. rewrite merge_at. cbn [buf reshape]. rewrite norm_put by exact K. reflexivity. }
    assert (PR : 0 < x k ^ 2 + rest x k). { pose proof (norm_rest x k K) as NR. fold r in NR. destruct (Rlt_dec 0 (x k ^ 2 + rest x k)) as [|N]; [assumption|]. rewrite sqrt_neg_0 in NR by lra. lra. }
    destruct (line_derivatives alpha (rest x k) (x k) PR) as [A B]. rewrite (norm_rest x k K) in A, B. fold r in A, B. unfold partial.
    rewrite (Derive_n_ext _ _ 2 (x k) U), (Derive_ext _ _ (x k) U), A, B. reflexivity. }
  etransitivity; [apply (f_equal (fun s => - (1 / 2) * s + -1 / r)); exact (sum_ext 3 _ _ E)|]. cbn [sum]. pose proof (norm_sq x) as SQ. fold r in SQ. clearbody r. clear E.
  assert (Q2 : x 2%nat ^ 2 = r ^ 2 - x 0%nat ^ 2 - x 1%nat ^ 2) by lra.
  replace ((alpha * (x 2%nat / r)) ^ 2) with (alpha ^ 2 * x 2%nat ^ 2 / r ^ 2) by (field; lra). rewrite Q2. field. lra.
Qed.
Theorem C83_hydrogen_ground_state : forall mode d, shape (d "electrons"%string) = [3%nat] -> 0 < norm 3 (buf (d "electrons"%string)) ->
  hydrogen_local_energy (-1) mode d = RealS (- (1 / 2)).
Proof. intros mode d S P. rewrite C83_hydrogen by assumption. f_equal. field. lra. Qed.
Theorem C83_hydrogen_only : forall alpha mode e, (forall d, shape (d "electrons"%string) = [3%nat] -> 0 < norm 3 (buf (d "electrons"%string)) -> hydrogen_local_energy alpha mode d = RealS e) -> alpha = -1.
Proof.
  intros alpha mode e H. set (at_ := fun r (_ : string) => {| shape := [3%nat]; buf := fun i => if Nat.eqb i 0 then r else 0 |}).
  assert (N : forall r, 0 < r -> norm 3 (buf (at_ r "electrons"%string)) = r). { intros r R. unfold norm, Lin.dot. cbn. replace (_ + _ + _ + _) with (r * r) by ring. apply sqrt_square. lra. }
  assert (G : forall r, 0 < r -> - alpha ^ 2 / 2 - (alpha + 1) / r = e).
  { intros r R. pose proof (H (at_ r) eq_refl ltac:(rewrite N by exact R; exact R)) as Q. rewrite C83_hydrogen in Q; [|reflexivity|rewrite N by exact R; exact R]. rewrite N in Q by exact R. injection Q. auto. }
  pose proof (G 1 ltac:(lra)). pose proof (G 2 ltac:(lra)). lra.
Qed.
(** The initial walkers are at the drawn distance from the nucleus. *)
Theorem C83_hydrogen_init : forall r theta phi, 0 <= r -> norm 3 (hydrogen_init r theta phi) = r.
Proof.
  intros r th ph R. unfold norm, Lin.dot, hydrogen_init. cbn [sum nth]. replace (_ + _) with (r * r); [apply sqrt_square; exact R|].
  pose proof (sin2_cos2 th) as A. pose proof (sin2_cos2 ph) as B. unfold Rsqr in *.
  transitivity (r * r * (sin th * sin th * (sin ph * sin ph + cos ph * cos ph) + cos th * cos th)); [rewrite B, Rmult_1_r, A; ring|ring].
Qed.
