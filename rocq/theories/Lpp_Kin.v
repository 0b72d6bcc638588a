(** C89: kinetic and Coulomb energies of the legacy package. *)
From Coq Require Import String Reals List Arith Lra Lia FunctionalExtensionality Bool.
From Coquelicot Require Import Coquelicot.
From Verif Require Import Lin Lap_Spec Kin_Spec Kin_Props Ph_Spec Ph_Model Ph_Lemmas Ph_Props Lpp_Model.
Import ListNotations.
Open Scope list_scope.
Open Scope R_scope.
Local Notation vec := Lin.vec.
Local Notation S := Datatypes.S.
Local Notation grad := Lpp_Model.grad.

(** ** Kinetic energy *)
Definition kvalue (n : nat) (f : vec -> R) (x : vec) : R := - (1 / 2) * sum n (fun k => Derive_n (fun t => f (put x k t)) 2 (x k) + partial f x k ^ 2).
Lemma grad_is f x k : grad f x k = partial f x k. Proof. reflexivity. Qed.
Lemma tangent_is f x i : snd (jvp (grad f) x (unit_row i)) i = Derive_n (fun t => f (put x i t)) 2 (x i).
Proof. exact (jvp_diagonal f x i). Qed.
Lemma hessian_is f x i : hessian f x i i = Derive_n (fun t => f (put x i t)) 2 (x i).
Proof.
  unfold hessian. cbn [Derive_n]. apply Derive_ext. intros t. unfold grad. rewrite Nat.eqb_refl. apply Derive_ext. intros s. f_equal.
  apply functional_extensionality. intros j. unfold put. destruct (Nat.eqb j i); reflexivity.
Qed.
Lemma hessian_mode_is n f x : hessian_mode n f x = kvalue n f x.
Proof. unfold hessian_mode, kvalue. f_equal. rewrite sum_plus. f_equal. apply sum_ext. intros i _. apply hessian_is. Qed.
Lemma cut_concat {A} : forall sizes (l : list A), list_sum sizes = length l -> concat (cut sizes l) = l.
Proof.
  induction sizes as [|s ss IH]; intros l H; cbn [list_sum fold_right cut concat] in *; [destruct l; [reflexivity|cbn in H; lia]|].
  rewrite IH; [apply firstn_skipn|]. rewrite skipn_length. unfold list_sum. lia.
Qed.
Lemma list_sum_repeat v k : list_sum (repeat v k) = (k * v)%nat.
Proof. induction k as [|k IH]; [reflexivity|]. cbn [repeat list_sum fold_right]. change (fold_right Nat.add 0%nat (repeat v k)) with (list_sum (repeat v k)). rewrite IH. lia. Qed.
Lemma array_split_concat {A} (l : list A) k : (0 < k)%nat -> concat (array_split l k) = l.
Proof.
  intros K. apply cut_concat. rewrite list_sum_app, !list_sum_repeat. set (n := length l). pose proof (Nat.div_mod n k ltac:(lia)) as E. pose proof (Nat.mod_upper_bound n k ltac:(lia)) as B.
  set (q := (n / k)%nat) in *. set (r := (n mod k)%nat) in *. nia.
Qed.
Lemma scan_map {A B} (f : A -> B) (l : list (list A)) acc : fold_left (fun acc e => acc ++ [map f e]) l acc = acc ++ map (map f) l.
Proof. revert acc. induction l as [|x l IH]; intros acc; cbn [fold_left map]; [rewrite app_nil_r; reflexivity|]. rewrite IH, <- app_assoc. reflexivity. Qed.
Lemma sum_shift n f : sum (S n) f = f 0%nat + sum n (fun i => f (S i)).
Proof. induction n as [|n IH]; cbn [sum] in *; [lra|]. rewrite IH. lra. Qed.
Lemma fold_seq_sum n (f : nat -> R) lo : fold_right Rplus 0 (map f (seq lo n)) = sum n (fun i => f (lo + i)%nat).
Proof. revert lo. induction n as [|n IH]; intros lo; [reflexivity|]. rewrite sum_shift. cbn [seq map fold_right]. rewrite IH, Nat.add_0_r. f_equal. apply sum_ext. intros i _. f_equal. lia. Qed.
Lemma combine_map_r {A B} (f : A -> B) (l : list nat) (m : list A) : combine l (map f m) = map (fun p => (fst p, f (snd p))) (combine l m).
Proof. revert m. induction l as [|x l IH]; intros [|y m]; cbn; [reflexivity..|]. rewrite IH. reflexivity. Qed.
Lemma combine_same (f : nat -> vec) n lo : combine (seq lo n) (map f (seq lo n)) = map (fun i => (i, f i)) (seq lo n).
Proof. revert lo. induction n as [|n IH]; intros lo; [reflexivity|]. cbn [seq map combine]. rewrite IH. reflexivity. Qed.
Lemma diag_rows h (f : vec -> vec) n : diag_sum h (map f (rows n)) = sum n (fun i => h (f (unit_row i) i)).
Proof.
  unfold diag_sum, rows. rewrite !map_length, seq_length, map_map, combine_same, map_map. cbn [fst snd]. rewrite fold_seq_sum. reflexivity.
Qed.
Lemma chunk_mode_is n p f x : (0 < p)%nat -> chunk_mode n p f x = if Nat.eqb (n mod p) 0 then Some (kvalue n f x) else None.
Proof.
  intros P. unfold chunk_mode. destruct (Nat.eqb (n mod p) 0); cbn [negb]; [|reflexivity]. f_equal. rewrite scan_map. cbn [app].
  rewrite <- concat_map, (array_split_concat (rows n) p P), !map_map.
  rewrite (diag_rows (fun v => v ^ 2) (fun v => fst (jvp (grad f) x v)) n), (diag_rows (fun v => v) (fun v => snd (jvp (grad f) x v)) n). unfold kvalue. f_equal. rewrite sum_plus, Rplus_comm. f_equal.
  apply sum_ext. intros i _. apply tangent_is.
Qed.
Definition accepted (p n : nat) : bool := Nat.leb p 1 || Nat.eqb (n mod p) 0.
Lemma pp_kinetic_is scan p n f x : pp_kinetic scan p n f x = if accepted p n then Some (kvalue n f x) else None.
Proof.
  unfold pp_kinetic, accepted. destruct p as [|[|p]]; cbn [Nat.eqb Nat.leb orb]; [|rewrite hessian_mode_is; reflexivity|apply chunk_mode_is; lia].
  f_equal. unfold kvalue. rewrite sum_plus. cbv zeta beta.
  assert (E : sum n (fun k => Derive_n (fun t => f (put x k t)) 2 (x k)) = gsum 0 Rplus n (fun i => snd (jvp (grad f) x (unit_row i)) i)).
  { rewrite gsum_R. apply sum_ext. intros i _. symmetry. apply tangent_is. }
  rewrite E. destruct scan.
  - rewrite (scan_list (fun i => snd (jvp (grad f) x (unit_row i)) i) n 0 []). cbn [app]. rewrite (scan_sum 0 Rplus (fun i => snd (jvp (grad f) x (unit_row i)) i) n) by (intros; ring). change (fun k => grad f x k ^ 2) with (fun k => partial f x k ^ 2). lra.
  - rewrite (fori_sum 0 Rplus (fun i => snd (jvp (grad f) x (unit_row i)) i) n). change (fun k => grad f x k ^ 2) with (fun k => partial f x k ^ 2). lra.
Qed.
Lemma fold_add n (g : nat -> R) : forall lo a, fold_left (fun v i => v + g i) (seq lo n) a = a + sum n (fun i => g (lo + i)%nat).
Proof. induction n as [|n IH]; intros lo a; cbn [seq fold_left]; [cbn; lra|]. rewrite IH, sum_shift, Nat.add_0_r. replace (sum n (fun i => g (S lo + i)%nat)) with (sum n (fun i => g (lo + S i)%nat)) by (apply sum_ext; intros i _; f_equal; lia). lra. Qed.
Lemma fold_ext {A B} (f g : A -> B -> A) : (forall a b, f a b = g a b) -> forall l a, fold_left f l a = fold_left g l a.
Proof. intros H. induction l as [|x l IH]; intros a; cbn; [reflexivity|]. rewrite H. apply IH. Qed.
Lemma dmc_kinetic_is p n f x : dmc_kinetic p n f x = if accepted p n then Some (kvalue n f x) else None.
Proof.
  unfold dmc_kinetic, accepted. destruct p as [|[|p]]; cbn [Nat.eqb Nat.leb orb]; [|rewrite hessian_mode_is; reflexivity|apply chunk_mode_is; lia].
  f_equal. unfold kvalue. f_equal. unfold jvp at 1.
  transitivity (fold_left (fun v i => v + (grad f x i ^ 2 + snd (jvp (grad f) x (unit_row i)) i)) (seq 0 n) 0).
  { apply fold_ext. intros v i. cbn [jvp snd]. lra. }
  rewrite fold_add, Rplus_0_l. apply sum_ext. intros i _. rewrite tangent_is. cbn [Nat.add]. change (grad f x i) with (partial f x i). lra.
Qed.
Lemma kvalue_energy n psi f x : log_abs n psi f x -> kvalue n f x * psi x = kinetic_energy n psi x.
Proof.
  intros (NZ & (eps & EP & LOC) & D2). unfold kvalue, kinetic_energy. rewrite Rmult_assoc. f_equal. rewrite <- sum_scal_r. apply sum_ext. intros k K.
  rewrite <- (real_log_identity (fun t => psi (put x k t)) (fun t => f (put x k t)) (x k)).
  - rewrite put_self. reflexivity.
  - rewrite put_self. exact NZ.
  - exists (mkposreal eps EP). intros t T. apply LOC; [exact K|exact T].
  - apply D2, K.
Qed.
Lemma forward_is n f x v g l : gradient_and_laplacian n (fun _ => 1) x f v g l -> forward_kinetic n (g, l) = kvalue n f x.
Proof.
  intros (_ & h & H & L). unfold forward_kinetic, kvalue. cbn [fst snd]. rewrite sum_plus, L.
  rewrite (sum_ext n h (fun k => Derive_n (fun s => f (put x k s)) 2 (x k))) by (intros k K; symmetry; apply (jet_derives f x k _ _ _ (H k K))).
  rewrite (sum_ext n (fun k => g k ^ 2) (fun k => partial f x k ^ 2)) by (intros k K; rewrite (proj1 (jet_derives f x k _ _ _ (H k K))); reflexivity). lra.
Qed.
(** For every wavefunction psi and log|psi| = f at a point where psi is not zero and twice differentiable: every mode that
    returns, returns (T psi)(x) / psi(x): fori loop, scan, Hessian, any number of chunks, the forward pass, and the three
    modes of the DMC package. *)
Theorem C89_kinetic : forall n psi f x scan p e, log_abs n psi f x ->
  pp_kinetic scan p n f x = Some e \/ dmc_kinetic p n f x = Some e \/ (exists v g l, gradient_and_laplacian n (fun _ => 1) x f v g l /\ e = forward_kinetic n (g, l)) ->
  e * psi x = kinetic_energy n psi x.
Proof.
  intros n psi f x scan p e H [E|[E|(v & g & l & G & ->)]].
  - rewrite pp_kinetic_is in E. destruct (accepted p n); [|discriminate]. injection E as <-. apply kvalue_energy, H.
  - rewrite dmc_kinetic_is in E. destruct (accepted p n); [|discriminate]. injection E as <-. apply kvalue_energy, H.
  - rewrite (forward_is n f x v g l G). apply kvalue_energy, H.
Qed.
(** Only a number of chunks above 1 that does not divide the number of coordinates is refused. *)
Theorem C89_partitions : forall n f x scan p, (pp_kinetic scan p n f x = None <-> (1 < p)%nat /\ (n mod p <> 0)%nat) /\ (dmc_kinetic p n f x = None <-> (1 < p)%nat /\ (n mod p <> 0)%nat).
Proof.
  intros n f x scan p. rewrite pp_kinetic_is, dmc_kinetic_is. unfold accepted.
  assert (E : (if Nat.leb p 1 || Nat.eqb (n mod p) 0 then Some (kvalue n f x) else None) = None <-> (1 < p)%nat /\ (n mod p <> 0)%nat).
  { destruct (Nat.leb_spec p 1); cbn [orb]; [split; [discriminate|lia]|]. destruct (Nat.eqb_spec (n mod p) 0); split; intros; [discriminate|tauto|split; assumption|reflexivity]. }
  split; exact E.
Qed.
(** psi = exp(-x0^2 / 2) of two coordinates, at every point: the three chunkings of two coordinates agree with T psi / psi = 1/2 - x0^2/2 *)
Definition gauss (x : vec) : R := exp (- (x 0%nat) ^ 2 / 2).
Lemma gauss_log x : log_abs 2 gauss (fun y => - (y 0%nat) ^ 2 / 2) x.
Proof.
  assert (P : forall y, 0 < gauss y) by (intros y; apply exp_pos).
  assert (C1 : forall t, put x 1 t 0%nat = x 0%nat) by reflexivity. assert (C0 : forall t, put x 0 t 0%nat = t) by reflexivity.
  assert (DV : forall k t, (k < 2)%nat -> is_derive (fun s => gauss (put x k s)) t (if Nat.eqb k 0 then - t * exp (- t ^ 2 / 2) else 0)).
  { intros k t K. destruct k as [|[|k]]; [| |lia]; unfold gauss; cbn [Nat.eqb].
    - apply (is_derive_ext (fun s => exp (- s ^ 2 / 2))); [intros s; rewrite C0; reflexivity|]. auto_derive; [exact I|]. cbn [pow]. unfold Rdiv. rewrite !Rmult_1_r. field.
    - apply (is_derive_ext (fun _ => exp (- (x 0%nat) ^ 2 / 2))); [intros s; rewrite C1; reflexivity|]. apply @is_derive_const. }
  split; [apply Rgt_not_eq, P|]. split.
  - exists 1. split; [lra|]. intros k K t T. split; [rewrite Rabs_right by (left; apply P); reflexivity|eexists; apply DV, K].
  - intros k K. apply (ex_derive_ext (fun t => if Nat.eqb k 0 then - t * exp (- t ^ 2 / 2) else 0)); [intros t; symmetry; apply is_derive_unique, DV, K|].
    destruct (Nat.eqb k 0); [auto_derive; exact I|apply @ex_derive_const].
Qed.
Example C89_kinetic_example : forall x, pp_kinetic false 2 2 (fun y => - (y 0%nat) ^ 2 / 2) x = Some (kinetic_energy 2 gauss x / gauss x) /\ pp_kinetic false 3 2 (fun y => - (y 0%nat) ^ 2 / 2) x = None.
Proof.
  intros x. split; [|apply (proj1 (C89_partitions 2 _ x false 3)); split; [lia|cbn; discriminate]]. rewrite pp_kinetic_is. change (accepted 2 2) with true. cbv iota. f_equal. rewrite <- (kvalue_energy 2 gauss _ x (gauss_log x)). field. apply Rgt_not_eq, exp_pos.
Qed.

(** ** Coulomb energy *)
Lemma r_ae_distance x atoms e a : r_ae x atoms e a = distance (electron x e) (atoms a). Proof. reflexivity. Qed.
Lemma r_aa_distance atoms i j : r_aa atoms i j = distance (atoms i) (atoms j).
Proof. unfold r_aa, distance, norm, dot. f_equal. apply sum_ext. intros c _. ring. Qed.
Lemma r_ee_distance x i j : i <> j -> r_ee x i j = distance (electron x i) (electron x j).
Proof.
  intros H. unfold r_ee, delta. rewrite (proj2 (Nat.eqb_neq i j) H), Rminus_0_r, Rmult_1_r. unfold distance, norm, dot. f_equal. apply sum_ext. intros c _. unfold place_of, electron. ring.
Qed.
(** For every configuration both packages return the Coulomb energy: every pair once, no self-interaction. *)
Theorem C89_coulomb : forall N natom x atoms charges,
  let c := coulomb N natom x atoms charges (fun e a => - charges a / distance (electron x e) (atoms a)) in
  pp_potential N natom x atoms charges = c /\ dmc_potential N natom x atoms charges = c.
Proof.
  intros N natom x atoms charges c.
  assert (AE : - sum N (fun e => sum natom (fun a => charges a / r_ae x atoms e a)) = sum N (fun e => sum natom (fun a => - charges a / distance (electron x e) (atoms a)))).
  { rewrite <- sum_opp. apply sum_ext. intros e _. rewrite <- sum_opp. apply sum_ext. intros a _. rewrite r_ae_distance. unfold Rdiv. ring. }
  assert (AA : sum natom (fun i => sum natom (fun j => triu1 i j (charges j * charges i / r_aa atoms i j))) = pairs natom (fun i j => charges i * charges j / distance (atoms i) (atoms j))).
  { rewrite (triu_pairs natom (fun i j => charges j * charges i / r_aa atoms i j)). apply pairs_ext. intros i j _. rewrite r_aa_distance. unfold Rdiv. ring. }
  unfold c, coulomb, pp_potential, dmc_potential. rewrite AE, AA. split.
  - rewrite (triu_pairs N (fun i j => 1 / (r_ee x i j + delta i j))). rewrite (pairs_ext N _ (fun i j => 1 / distance (electron x i) (electron x j))); [ring|].
    intros i j L. rewrite r_ee_distance by lia. unfold delta. rewrite (proj2 (Nat.eqb_neq i j)) by lia. rewrite Rplus_0_r. reflexivity.
  - rewrite (triu_pairs N (fun i j => 1 / r_ee x i j)). rewrite (pairs_ext N _ (fun i j => 1 / distance (electron x i) (electron x j))); [ring|].
    intros i j L. rewrite r_ee_distance by lia. reflexivity.
Qed.
(** The DMC local energy: (T psi)/psi plus the Coulomb energy. *)
Theorem C89_dmc_energy : forall N natom p psi f atoms charges x E, log_abs (3 * N) psi f x ->
  dmc_local_energy N natom p f atoms charges x = Some E ->
  E * psi x = kinetic_energy (3 * N) psi x + coulomb N natom x atoms charges (fun e a => - charges a / distance (electron x e) (atoms a)) * psi x.
Proof.
  intros N natom p psi f atoms charges x E H L. unfold dmc_local_energy in L. destruct (dmc_kinetic p (3 * N) f x) as [k|] eqn:K; [|discriminate]. cbn [option_map] in L.
  assert (X : E = dmc_potential N natom x atoms charges + k) by congruence. rewrite X. destruct (C89_coulomb N natom x atoms charges) as [_ C]. rewrite C.
  rewrite <- (C89_kinetic (3 * N) psi f x false p k H (or_intror (or_introl K))). ring.
Qed.
