(** C39: a program that meets the hypotheses, and the four places where the sparse rules of
    the code differ from the dense ones. *)
From Coq Require Import Reals List Arith Bool Lra Lia.
From Verif Require Import Lin Shape Lap_Spec Lap_Lang Lap_Model Lap_Props Lap_Examples Sparse_Model Sparse_Spec Sparse_Lemmas Sparse_Layout Sparse_Dot Sparse_Rules Sparse_Props Sparse_Program.
Import ListNotations.
Open Scope R_scope.
Local Notation "a =? b" := (Nat.eqb a b).

(** sum over pairs of exp(|r_i - r_j|^2), r_i = (x_i, c_i): positions 0 (input), 1 (constant),
    2 concatenation along the feature axis, 3 and 4 the two broadcasts, 5 differences, 6
    squares, 7 squared distances, 8 exponentials, 9 the sum over all pairs *)
Definition pairs_program : list sinstr :=
  [ SConcat 1 [0; 1]; SLayout (BroadcastInDim [2; 2; 2] [0; 2]) 2; SLayout (BroadcastInDim [2; 2; 2] [1; 2]) 2;
    SSub 3 4 [2; 2; 2]; SMul 5 5 [2; 2; 2]; SSum [2] 6; SUnary s_exp 7; SSum [0; 1] 8 ]%nat.
Definition pairs_shapes : list (list nat) := [[2; 1]; [2; 1]]%nat.
Definition pairs_env (w p : vec) (c : arr) : list sval := [seed_sparse [] 2 [1%nat] w p; SPlain c].
Lemma bcast_same s : broadcasts s s.
Proof. split; [lia|]. intros a A. right. rewrite Nat.sub_diag, Nat.add_0_r. reflexivity. Qed.
Lemma fits_cons i prog shapes s : shape_of (fun v => nth v shapes []) i = s -> fits (length shapes) (fun v => nth v shapes []) i -> fits_program prog (shapes ++ [s]) -> fits_program (i :: prog) shapes.
Proof. intros <- A B. split; assumption. Qed.
Lemma safe_simple b prog : Forall (fun i => match i with SDiv _ _ _ | SMax _ _ | SMin _ _ | SAbs _ | SConcat _ _ => False | _ => True end) prog -> forall shapes env, safe_program b prog shapes env.
Proof. induction 1 as [|i prog H F IH]; intros shapes env; [exact I|]. cbn [safe_program]. split; [destruct i; try contradiction; exact I|]. intros. apply IH. Qed.
Lemma smooth_simple prog : Forall (fun q => forall dep e, smooth dep e (fst q) (snd q)) prog -> forall dep env, smooth_program dep env prog.
Proof. induction 1 as [|[i z] prog H F IH]; intros dep env; [exact I|]. cbn [smooth_program]. split; [apply H|apply IH]. Qed.
Example C39_hypotheses_met : forall w p c,
  fits_program pairs_program pairs_shapes /\ safe_program (basis_of [] 2 [1%nat]) pairs_program pairs_shapes (pairs_env w p c) /\
  smooth_program [true; false] (inputs [0%nat] [c] p) (map (fun q => (fst q, size (snd q))) (lower_program pairs_program pairs_shapes)).
Proof.
  intros w p c. split; [|split].
  - unfold pairs_program, pairs_shapes.
    eapply fits_cons; [vm_compute; reflexivity| |cbn [app]].
    { split; [intros x [<-|[<-|[]]]; cbn; lia|]. split; [discriminate|]. intros s I. cbn in I. destruct I as [<-|[<-|[]]]; cbn; (split; [lia|split; [reflexivity|]]); intros [|[|a]] A NE; first [reflexivity|exfalso; lia]. }
    eapply fits_cons; [vm_compute; reflexivity| |cbn [app]].
    { split; [cbn; lia|]. split; [reflexivity|]. split; [vm_compute; lia|]. cbn. intros [|[|a]] A; cbn; try lia; split; try lia; auto. }
    eapply fits_cons; [vm_compute; reflexivity| |cbn [app]].
    { split; [cbn; lia|]. split; [reflexivity|]. split; [vm_compute; lia|]. cbn. intros [|[|a]] A; cbn; try lia; split; try lia; auto. }
    eapply fits_cons; [vm_compute; reflexivity| |cbn [app]]. { split; [cbn; lia|split; [cbn; lia|split; [vm_compute; lia|split; apply bcast_same]]]. }
    eapply fits_cons; [vm_compute; reflexivity| |cbn [app]]. { split; [cbn; lia|split; [cbn; lia|split; [vm_compute; lia|split; apply bcast_same]]]. }
    eapply fits_cons; [vm_compute; reflexivity| |cbn [app]]. { split; [cbn; lia|split; [repeat constructor; cbn; tauto|intros a [<-|[]]; cbn; lia]]. }
    eapply fits_cons; [vm_compute; reflexivity| |cbn [app]]. { cbn; lia. }
    eapply fits_cons; [vm_compute; reflexivity| |cbn [app]]. { split; [cbn; lia|split; [repeat constructor; cbn; intuition lia|intros a [<-|[<-|[]]]; cbn; lia]]. }
    exact I.
  - unfold pairs_program. split.
    + intros x y t r X TX Y E RT AX. unfold pairs_env in E. cbn in X, Y. destruct Y as [<-|[<-|[]]]; [|discriminate E]. injection E as <-. cbn in RT. destruct RT as [<-|[]]. cbn in AX. discriminate.
    + intros v _. apply safe_simple. repeat constructor.
  - apply smooth_simple. unfold pairs_program. cbn [lower_program map]. repeat (apply Forall_cons; [intros dep e X o O; cbn [fst lower]; exact I|]). apply Forall_nil.
Qed.
(** number of owners per element: 0 plain, 1 or 2 sparse, 3 dense *)
Definition kind (v : sval) : nat := match v with SPlain _ => 0 | SSparse t => slots t | SDense _ => 3 end.
(** the pair stages stay sparse with two owners; the final sum is dense *)
Example C39_demo : forall w p c, option_map (map kind) (run_sparse (basis_of [] 2 [1%nat]) pairs_program pairs_shapes (pairs_env w p c)) = Some [1; 0; 1; 1; 1; 2; 2; 2; 2; 3]%nat.
Proof. intros w p c. vm_compute. reflexivity. Qed.

(** ** Differences between the sparse and the dense rules of the code *)
(** 1. Concatenating the (sparse) input with a plain array of another length along the owner
    axis raises an exception; the dense rule has no such restriction. *)
Theorem C39_concat_error_refuted : forall N m w p c, (2 <= N)%nat -> (1 <= m)%nat -> m <> N ->
  let sh := fun v => if v =? 0 then [N] else [m] in
  let e := fun v => if v =? 0 then seed_sparse [] N [] w p else SPlain c in
  fits 2 sh (SConcat 0 [0; 1]%nat) /\ (forall v, wf_value (basis_of [] N []) (sh v) (e v)) /\ eval_sparse (basis_of [] N []) sh e (SConcat 0 [0; 1]%nat) = None.
Proof.
  intros N m w p c HN Hm NE sh e. split; [|split].
  - split; [intros x [<-|[<-|[]]]; lia|]. split; [discriminate|]. intros s I. cbn in I. destruct I as [<-|[<-|[]]]; cbn; (split; [lia|split; [reflexivity|]]); intros a A; destruct a; lia.
  - intros v. destruct v as [|v]; cbn [sh e Nat.eqb].
    + apply (proj1 (C39_seed [] N [] w p ltac:(cbn; lia))).
    + split; [cbn; lia|exact I].
  - assert (K : mk_role (Some (length (@nil nat))) (seq 0 N) = {| ax := Some 0%nat; vals := seq 0 N |}).
    { unfold mk_role. rewrite seq_length. replace (N =? 1) with false by (symmetry; apply Nat.eqb_neq; lia). reflexivity. }
    set (r := {| ax := Some 0%nat; vals := seq 0 N |}).
    assert (CR : concat_role 0 [N; m] [r; r] = Some {| ax := Some 0%nat; vals := seq 0 N ++ seq 0 N |}).
    { unfold concat_role, r. cbn. rewrite app_nil_r. unfold mk_role. rewrite app_length, seq_length. replace (N + N =? 1) with false by (symmetry; apply Nat.eqb_neq; lia). reflexivity. }
    unfold eval_sparse, concat, e, seed_sparse. cbn [existsb Nat.eqb is_dense orb find is_sparse forallb]. rewrite K. fold r.
    unfold slots. cbn [owners length Nat.eqb andb map nth]. unfold sh. cbn [Nat.eqb at_ nth]. rewrite CR. cbn [forallb ax vals].
    rewrite app_length, seq_length. unfold cat_shape, at_. cbn [map nth length seq Nat.eqb fold_right].
    replace (N + N =? N + (m + 0)) with false by (symmetry; apply Nat.eqb_neq; lia). reflexivity.
Qed.
(** 2. If the lengths happen to add up, the owners are shifted and the Jacobian is wrong:
    [a, x0, x1, b, b, b] reports that element 1 (= x0) depends on x1. *)
Theorem C39_concat_owners_refuted : forall p c,
  let sh := fun v => nth v [[1]; [2]; [3]]%nat [] in
  let e := fun v => nth v [SPlain c; seed_sparse [] 2 [] (fun _ => 1) p; SPlain c] (SPlain zero_arr) in
  let b := basis_of [] 2 [] in let i := SConcat 0 [0; 1; 2]%nat in
  fits 3 sh i /\ exists t d, eval_sparse b sh e i = Some (SSparse t) /\ eval_eqn (b_n b) (fun v => densify b (sh v) (e v)) (lower sh i) = Tracked d /\
    to_dense b (shape_of sh i) t 0 1 = 0 /\ jac d 0 1%nat = 1 /\ to_dense b (shape_of sh i) t 1 1 = 1 /\ jac d 1 1%nat = 0.
Proof.
  intros p c sh e b i. split.
  - split; [intros x [<-|[<-|[<-|[]]]]; lia|]. split; [discriminate|]. intros s I. cbn in I. destruct I as [<-|[<-|[<-|[]]]]; cbn; (split; [lia|split; [reflexivity|]]); intros a A; destruct a; lia.
  - eexists. eexists. split; [reflexivity|]. split; [reflexivity|]. cbn. repeat split; ring.
Qed.
(** 3. On a tie between a sparse and a plain operand, max gives the sparse operand the whole
    derivative; the dense rule gives it half. *)
Theorem C39_max_tie_refuted : forall p, 
  let sh := fun _ : nat => [2%nat] in let e := fun v => if v =? 0 then seed_sparse [] 2 [] (fun _ => 1) p else SPlain (leaf 0 p) in
  let b := basis_of [] 2 [] in
  exists t d, eval_sparse b sh e (SMax 0 1) = Some (SSparse t) /\ eval_eqn (b_n b) (fun v => densify b (sh v) (e v)) (lower sh (SMax 0 1)) = Tracked d /\
    to_dense b [2%nat] t 0 0 = 1 /\ jac d 0 0%nat = / 2.
Proof.
  intros p sh e b. eexists. eexists. split; [reflexivity|]. split; [reflexivity|]. cbn. unfold leaf, geb, weight, Rmax, scale. cbn. split.
  - destruct (Rle_dec (p 0%nat) (p 0%nat)); [ring|lra].
  - destruct (Rle_dec (p 0%nat) (p 0%nat)); [|lra]. destruct (Req_EM_T (p 0%nat) (p 0%nat)); [field|lra].
Qed.
(** 4. At zero, abs has derivative 1 in the sparse rule and 0 in the dense rule. *)
Theorem C39_abs_kink_refuted : 
  let sh := fun _ : nat => [2%nat] in let e := fun _ : nat => seed_sparse [] 2 [] (fun _ => 1) (fun _ => 0) in
  let b := basis_of [] 2 [] in
  exists t d, eval_sparse b sh e (SAbs 0) = Some (SSparse t) /\ eval_eqn (b_n b) (fun v => densify b (sh v) (e v)) (lower sh (SAbs 0)) = Tracked d /\
    to_dense b [2%nat] t 0 0 = 1 /\ jac d 0 0%nat = 0.
Proof.
  intros sh e b. eexists. eexists. split; [reflexivity|]. split; [reflexivity|]. cbn. unfold sgn, leaf, scale. cbn. split.
  - destruct (Rle_dec 0 0); [ring|lra].
  - destruct (Rlt_dec 0 0); [lra|]. ring.
Qed.
Print Assumptions C39_equation.
Print Assumptions C39_program.
Print Assumptions C39_seed.
Print Assumptions C39_sparse_laplacian.
