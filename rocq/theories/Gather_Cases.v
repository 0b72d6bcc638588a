(** Concrete cases that meet the hypotheses of C91: four electrons in three dimensions, tracked
    with one owner per electron. *)
From Coq Require Import Reals ZArith List Arith Bool Lra Lia.
From Verif Require Import Lin Shape Jet Lap_Spec Lap_Lang Lap_Model Lap_Props Sparse_Model Sparse_Spec Sparse_Lemmas Sparse_Rules Sparse_Program Attn_Spec Gather_Model Gather_Spec Gather_Lemmas Gather_Props Gather_Reduce Gather_More Gather_Pointwise.
Import ListNotations.
Open Scope R_scope.

Lemma seed_exact pre N post w p : (0 < size (pre ++ N :: post))%nat -> exact (basis_of pre N post) w p (pre ++ N :: post) (fun q o => q o) (seed_sparse pre N post w p).
Proof.
  intros P. destruct (C39_seed pre N post w p P) as (W & A & E). eapply exact_good; [split; [exact W|exact A]|]. intros o O.
  pose proof (seed_correct (b_n (basis_of pre N post)) w p 0 (size (pre ++ N :: post))) as S. pose proof (correct_gl _ _ _ _ _ _ o S O) as G.
  eapply gl_eq; [apply (gl_local _ _ _ _ _ _ _ _ G)| | |]; try reflexivity. intros k K. apply near_all. reflexivity.
Qed.
Definition electrons (p : vec) : sval := seed_sparse [] 4 [3%nat] (fun _ => 1) p.
Definition el_basis : basis := basis_of [] 4 [3%nat].
Lemma electrons_wf p : wf_value el_basis [4; 3]%nat (electrons p).
Proof. apply (C39_seed [] 4 [3%nat] (fun _ => 1) p). cbn. lia. Qed.

(** x[[2, 0]] keeps one owner per row: electrons 2 and 0. *)
Definition two_rows : gather := take [4; 3]%nat 0 2 (fun i => if Nat.eqb i 0 then 2%Z else 0%Z) Clip.
Example take_rows : forall p, gather_ok two_rows [4; 3]%nat /\ g_shape two_rows [4; 3]%nat = [2; 3]%nat /\
  exists t, handle_gather two_rows true 0 el_basis [4; 3]%nat (electrons p) = SSparse t /\ owners t = [mk_role (Some 0%nat) [2; 0]%nat] /\ sx t 1%nat = p 7%nat /\
  exact el_basis (fun _ => 1) p [2; 3]%nat (fun q => gather_arr two_rows [4; 3]%nat 0 (fun o => q o)) (SSparse t).
Proof.
  intros p. destruct (C91_take [4; 3]%nat 0 2 (fun i => if Nat.eqb i 0 then 2%Z else 0%Z) Clip) as (OK & S & _); [cbn; lia|cbn; lia|intros i I; destruct (Nat.eqb i 0); cbn; lia|].
  split; [exact OK|]. split; [exact S|]. eexists. split; [reflexivity|]. split; [reflexivity|]. split; [reflexivity|].
  apply (C91_gather_exact el_basis [4; 3]%nat two_rows true 0 (electrons p) (fun _ => 1) p (fun q o => q o)); [apply basis_of_wf|exact OK|cbn; lia|apply electrons_wf|apply (seed_exact [] 4 [3%nat]); cbn; lia].
Qed.
(** With indices unknown at trace time the owner axis cannot be indexed sparsely. *)
Example take_rows_traced : forall p, is_sparse (handle_gather two_rows false 0 el_basis [4; 3]%nat (electrons p)) = false.
Proof. reflexivity. Qed.
(** Position 9 is out of bounds: filled, with zero derivative; the rest is electron 1. *)
Example take_dropped : forall p, let g := take [4; 3]%nat 0 2 (fun i => if Nat.eqb i 0 then 9%Z else 1%Z) FillOrDrop in
  g_src g [4; 3]%nat 0 = None /\ g_src g [4; 3]%nat 3 = Some 3%nat /\
  exists t, handle_gather g true 5 el_basis [4; 3]%nat (electrons p) = SSparse t /\ owners t = [mk_role None [1%nat]] /\ sx t 0%nat = 5 /\ to_dense el_basis [2; 3]%nat t 0 0 = 0.
Proof.
  intros p g. split; [reflexivity|]. split; [reflexivity|]. eexists. split; [reflexivity|]. split; [reflexivity|]. split; [reflexivity|]. cbn. ring.
Qed.
(** The largest of three coordinates, where it is unique. *)
Definition at_point : vec := fun k => match k with O => 1 | S O => 3 | _ => 2 end.
Example maximum : let x := seed_sparse [] 3 [] (fun _ => 1) at_point in let b := basis_of [] 3 [] in
  exact b (fun _ => 1) at_point [] (fun q => reduced (best_of true) [0%nat] [3%nat] (fun o => q o)) (handle_reduce (best_of true) [0%nat] b [3%nat] x) /\
  is_sparse (handle_reduce (best_of true) [0%nat] b [3%nat] x) = false.
Proof.
  intros x b. split; [|reflexivity]. apply (C91_reduce_exact b [3%nat] true [0%nat] x (fun _ => 1) at_point (fun q o => q o)).
  - repeat constructor. intros [].
  - apply (C39_seed [] 3 [] (fun _ => 1) at_point). cbn. lia.
  - apply (seed_exact [] 3 []). cbn. lia.
  - intros o O. cbn in O. assert (o = 0%nat) as -> by lia. exists 1%nat. split; [split; [cbn; lia|cbn; lia]|]. intros m [M _] N. cbn in M. destruct m as [|[|[|m]]]; [|congruence| |lia]; cbn; lra.
Qed.
(** Along the coordinate axis the owners survive. *)
Example maximum_rows : forall p, is_sparse (handle_reduce Rmax [1%nat] el_basis [4; 3]%nat (electrons p)) = true.
Proof. reflexivity. Qed.
(** The electrons split into the first and the other three. *)
Example split_spins : forall p, let ys := handle_split el_basis [4; 3]%nat 0 0 [1; 3]%nat (electrons p) in
  exists s t, ys = [SSparse s; SSparse t] /\ owners s = [mk_role None [0%nat]] /\ owners t = [mk_role (Some 0%nat) [1; 2; 3]%nat] /\ sx t 0%nat = p 3%nat /\ agree 12 9 (densify el_basis [3; 3]%nat (SSparse t)) (dense_piece [4; 3]%nat 0 1 3 (densify el_basis [4; 3]%nat (electrons p))).
Proof.
  intros p ys. do 2 eexists. split; [reflexivity|]. do 3 (split; [reflexivity|]).
  apply (C91_split el_basis [4; 3]%nat 0 [1; 3]%nat (electrons p)) with (j := 1%nat); [cbn; lia|intros len [<-|[<-|[]]]; lia|reflexivity|apply electrons_wf|cbn; lia].
Qed.
Definition sevens : vec := fun _ => 7.
Lemma self_broadcast : broadcasts [4; 3]%nat [4; 3]%nat.
Proof. split; [cbn; lia|]. intros a A. right. rewrite Nat.sub_diag, Nat.add_0_r. reflexivity. Qed.
(** 7 rem 2 = 1, with derivative 1. *)
Example remainder : let x := electrons sevens in let y := SPlain (fun _ => 2) in
  value_of (handle_rem el_basis [4; 3]%nat [] [4; 3]%nat x y) 0%nat = 1 /\
  exact el_basis (fun _ => 1) sevens [4; 3]%nat (fun q o => rem (q o) 2) (handle_rem el_basis [4; 3]%nat [] [4; 3]%nat x y).
Proof.
  intros x y. assert (B0 : broadcasts [] [4; 3]%nat) by (split; [cbn; lia|cbn; lia]).
  assert (NI : forall z, z <> 0%Z -> 7 / 2 <> IZR z) by (intros z _ E; assert (Q : IZR 7 = IZR (2 * z)) by (rewrite mult_IZR; lra); apply eq_IZR in Q; lia).
  assert (E : exact el_basis (fun _ => 1) sevens [4; 3]%nat (fun q o => rem (q (bsrc [4; 3]%nat [4; 3]%nat o)) 2) (handle_rem el_basis [4; 3]%nat [] [4; 3]%nat x y)).
  { apply (C91_rem_exact el_basis [4; 3]%nat [] [4; 3]%nat x y (fun _ => 1) sevens (fun q o => q o) (fun _ _ => 2)); auto using self_broadcast, electrons_wf; [cbn; lia|apply electrons_wf|split; [cbn; lia|exact I]|apply (seed_exact [] 4 [3%nat]); cbn; lia|intros o O; apply gl_const|].
    intros o O. cbv zeta. unfold sevens. split; [lra|exact NI]. }
  split.
  - cbn. unfold leaf, sevens, rem. destruct (trunc_parts (7 / 2)) as [T _]. rewrite T by lra. rewrite (floor_unique (7 / 2) 3) by lra. lra.
  - intros o O. specialize (E o O). eapply gl_local; [exact E|cbn beta; rewrite Sparse_Layout.bsrc_same by (cbn; lia || exact O); reflexivity|].
    intros k K. apply near_all. intros s. rewrite Sparse_Layout.bsrc_same by (cbn; lia || exact O). reflexivity.
Qed.
Example power : exact el_basis (fun _ => 1) sevens [4; 3]%nat (fun q o => Rpower (q (bsrc [4; 3]%nat [4; 3]%nat o)) 3) (handle_pow el_basis [4; 3]%nat [] [4; 3]%nat (electrons sevens) (fun _ => 3)).
Proof.
  apply (C91_pow_exact el_basis [4; 3]%nat [] [4; 3]%nat (electrons sevens) (fun _ => 3) (fun _ => 1) sevens (fun q o => q o)); [apply basis_of_wf|apply self_broadcast|cbn; lia|apply electrons_wf|apply (seed_exact [] 4 [3%nat]); cbn; lia|].
  intros o O. unfold sevens. lra.
Qed.
Example rounding : exact el_basis (fun _ => 1) sevens [4; 3]%nat (fun q o => round_half ToNearestEven (q o)) (handle_round ToNearestEven (electrons sevens)) /\
  round_half ToNearestEven (5 / 2) = 2 /\ round_half AwayFromZero (5 / 2) = 3 /\ round_half AwayFromZero (- (5 / 2)) = -3.
Proof.
  split; [|split; [|split]].
  - apply (C91_round el_basis [4; 3]%nat ToNearestEven (electrons sevens) (fun _ => 1) sevens (fun q o => q o)); [apply electrons_wf|apply (seed_exact [] 4 [3%nat]); cbn; lia|].
    intros o O z E. unfold sevens in E. assert (Q : IZR 13 = IZR (2 * z)) by (rewrite mult_IZR; lra). apply eq_IZR in Q. lia.
  - unfold round_half. rewrite (floor_unique (5 / 2) 2) by lra. destruct (Rlt_dec (5 / 2 - 2) (1 / 2)); [lra|]. destruct (Rlt_dec (1 / 2) (5 / 2 - 2)); [lra|]. reflexivity.
  - unfold round_half. rewrite (floor_unique (5 / 2) 2) by lra. destruct (Rlt_dec (5 / 2 - 2) (1 / 2)); [lra|]. destruct (Rlt_dec (1 / 2) (5 / 2 - 2)); [lra|]. reflexivity.
  - unfold round_half. rewrite (floor_unique (- (5 / 2)) (-3)) by lra. destruct (Rlt_dec (- (5 / 2) - -3) (1 / 2)); [lra|]. destruct (Rlt_dec (1 / 2) (- (5 / 2) - -3)); [lra|]. reflexivity.
Qed.
Print Assumptions C91_gather.
Print Assumptions C91_gather_exact.
Print Assumptions C91_reduce_exact.
Print Assumptions C91_split.
Print Assumptions C91_rem_exact.
Print Assumptions C91_pow_exact.
