(** C39 for whole programs, its composition with C38, and the cases where the two
    propagations differ. *)
From Coq Require Import Reals List Arith Bool Lra Lia FunctionalExtensionality.
From Verif Require Import Lin Shape Lap_Spec Lap_Lang Lap_Model Lap_Props Sparse_Model Sparse_Spec Sparse_Lemmas Sparse_Layout Sparse_Dot Sparse_Rules Sparse_Props.
Import ListNotations.
Open Scope R_scope.
Local Notation "a =? b" := (Nat.eqb a b).

(** ** An equation only sees the elements it reads *)
Lemma existsb_ext' {A} (f g : A -> bool) l : (forall x, f x = g x) -> existsb f l = existsb g l.
Proof. intros H. induction l as [|x l IH]; cbn; [reflexivity|]. rewrite H, IH. reflexivity. Qed.
Lemma eqn_local n (sh : nat -> list nat) e e' i out :
  (forall v, agree n (size (sh v)) (e v) (e' v)) ->
  (forall o, (o < size out)%nat -> forall v j, In (v, j) (reads i o) -> (j < size (sh v))%nat) ->
  (match i with General _ args _ => forall a, (snd (args a) < size (sh (fst (args a))))%nat | _ => True end) ->
  agree n (size out) (eval_eqn n e i) (eval_eqn n e' i).
Proof.
  intros A RD GA. assert (T : forall v, is_tracked (e v) = is_tracked (e' v)) by (intros v; specialize (A v); destruct (e v), (e' v); cbn in A; tauto).
  assert (PR : forall v j, (j < size (sh v))%nat -> primal (e v) j = primal (e' v) j) by (intros v j J; specialize (A v); destruct (e v), (e' v); cbn in A; try tauto; [auto|apply A; exact J]).
  assert (JA : forall v k j, (k < n)%nat -> (j < size (sh v))%nat -> jac_of (e v) k j = jac_of (e' v) k j) by (intros v k j K J; specialize (A v); destruct (e v), (e' v); cbn in *; try tauto; apply A; assumption).
  assert (LA : forall v j, (j < size (sh v))%nat -> lapl_of (e v) j = lapl_of (e' v) j) by (intros v j J; specialize (A v); destruct (e v), (e' v); cbn in *; try tauto; apply A; exact J).
  assert (PI : forall o, (o < size out)%nat -> prim (fun v => primal (e v)) i o = prim (fun v => primal (e' v)) i o).
  { intros o O. specialize (RD o O). destruct i; cbn [prim reads] in *; try (rewrite ?PR by (apply RD; cbn; auto); reflexivity).
    - apply lsum_ext. intros [[v j] r] I. rewrite PR; [reflexivity|]. apply (RD v j). apply in_map_iff. exists (v, j, r). auto.
    - apply lsum_ext. intros [u v] I. cbn [fst snd]. rewrite !PR; [reflexivity| |]; apply RD; apply in_flat_map; exists (u, v); (split; [exact I|cbn; auto]).
    - f_equal. apply functional_extensionality. intros a. apply PR. apply GA. }
  unfold eval_eqn. rewrite (existsb_ext' (fun v => is_tracked (e v)) (fun v => is_tracked (e' v))) by exact T.
  destruct (existsb (fun v => is_tracked (e' v)) (operands i)) eqn:EX; [|cbn; exact PI].
  destruct i as [f x|bx by_ x y|bx by_ x y|xs w|bx by_ x y|bx by_ x y|c x y|f args xs|bx by_ x y|bx by_ x y|x|c x y|c bx by_ x y|x]; cbn [rule].
  - cbn [agree lx jac lapl]. split; [exact PI|]. split.
    + intros k o K O. rewrite PR, JA by (auto; apply (RD o O); cbn; auto). reflexivity.
    + intros o O. rewrite PR, LA by (auto; apply (RD o O); cbn; auto). f_equal. f_equal. apply sum_ext. intros k K. rewrite JA by (auto; apply (RD o O); cbn; auto). reflexivity.
  - cbn [agree lx jac lapl]. split; [exact PI|]. split; intros; rewrite ?JA, ?LA by (first [solve [auto] | eapply RD; [eassumption|cbn; auto]]); reflexivity.
  - cbn [agree lx jac lapl]. split; [exact PI|]. split; intros; rewrite ?JA, ?LA by (first [solve [auto] | eapply RD; [eassumption|cbn; auto]]); reflexivity.
  - cbn [agree lx jac lapl]. split; [exact PI|]. split; intros; apply lsum_ext; intros [[v j] r] I; rewrite ?JA, ?LA; auto; eapply RD; try eassumption; cbn [reads]; apply in_map_iff; exists (v, j, r); auto.
  - pose proof (A x) as AX. pose proof (A y) as AY. pose proof (PR x) as PX. pose proof (PR y) as PY.
    destruct (e x) as [a|s], (e' x) as [a'|s']; cbn in AX; try tauto; destruct (e y) as [d|t], (e' y) as [d'|t']; cbn in AY; try tauto; cbn [agree lx jac lapl]; try exact PI; split; [exact PI|split|exact PI|split|exact PI|split]; intros; cbn [primal] in *;
      repeat match goal with H : (_ < size out)%nat |- _ => pose proof (RD _ H x (bx _) ltac:(cbn; auto)); pose proof (RD _ H y (by_ _) ltac:(cbn; auto)); revert H end; intros.
    all: try destruct AX as (X1 & X2 & X3); try destruct AY as (Y1 & Y2 & Y3); rewrite ?PX, ?PY, ?X1, ?X2, ?X3, ?Y1, ?Y2, ?Y3 by auto; try reflexivity.
    f_equal. f_equal. apply sum_ext. intros k K. rewrite X2, Y2 by auto. reflexivity.
  - pose proof (A x) as AX. pose proof (A y) as AY. pose proof (PR x) as PX. pose proof (PR y) as PY.
    destruct (e x) as [a|s], (e' x) as [a'|s']; cbn in AX; try tauto; destruct (e y) as [d|t], (e' y) as [d'|t']; cbn in AY; try tauto; cbn [agree lx jac lapl]; try exact PI; split; [exact PI|split|exact PI|split|exact PI|split]; intros; cbn [primal] in *;
      repeat match goal with H : (_ < size out)%nat |- _ => pose proof (RD _ H x (bx _) ltac:(cbn; auto)); pose proof (RD _ H y (by_ _) ltac:(cbn; auto)); revert H end; intros.
    all: try destruct AX as (X1 & X2 & X3); try destruct AY as (Y1 & Y2 & Y3); rewrite ?PX, ?PY, ?X1, ?X2, ?X3, ?Y1, ?Y2, ?Y3 by auto; try reflexivity.
    + f_equal. f_equal. apply sum_ext. intros k K. rewrite Y2 by auto. reflexivity.
    + f_equal. f_equal; f_equal; apply sum_ext; intros k K; rewrite ?X2, ?Y2 by auto; reflexivity.
  - pose proof (A x) as AX. pose proof (A y) as AY. pose proof (PR x) as PX. pose proof (PR y) as PY.
    assert (RL : forall o t, (o < size out)%nat -> In t (c o) -> (fst t < size (sh x))%nat /\ (snd t < size (sh y))%nat).
    { intros o t O I. split; apply (RD o O); cbn [reads]; apply in_flat_map; exists t; (split; [exact I|cbn; auto]). }
    destruct (e x) as [a|s], (e' x) as [a'|s']; cbn in AX; try tauto; destruct (e y) as [d|t], (e' y) as [d'|t']; cbn in AY; try tauto; cbn [agree lx jac lapl]; try exact PI; split; [exact PI|split|exact PI|split|exact PI|split]; cbn [primal] in *.
    + intros k o K O. apply lsum_ext. intros u I. destruct (RL o u O I). rewrite PX, (proj1 (proj2 AY)) by auto. reflexivity.
    + intros o O. apply lsum_ext. intros u I. destruct (RL o u O I). rewrite PX, (proj2 (proj2 AY)) by auto. reflexivity.
    + intros k o K O. apply lsum_ext. intros u I. destruct (RL o u O I). rewrite PY, (proj1 (proj2 AX)) by auto. reflexivity.
    + intros o O. apply lsum_ext. intros u I. destruct (RL o u O I). rewrite PY, (proj2 (proj2 AX)) by auto. reflexivity.
    + intros k o K O. destruct AX as (X1 & X2 & X3), AY as (Y1 & Y2 & Y3). f_equal; apply lsum_ext; intros u I; destruct (RL o u O I); rewrite ?X1, ?X2, ?Y1, ?Y2 by auto; reflexivity.
    + intros o O. destruct AX as (X1 & X2 & X3), AY as (Y1 & Y2 & Y3). f_equal; f_equal; apply lsum_ext; intros u I; destruct (RL o u O I); rewrite ?X1, ?X3, ?Y1, ?Y3 by auto; try reflexivity.
      apply sum_ext. intros k K. rewrite X2, Y2 by auto. reflexivity.
  - assert (EV : (fun a => primal (e (fst (args a))) (snd (args a))) = (fun a => primal (e' (fst (args a))) (snd (args a)))) by (apply functional_extensionality; intros a; apply PR, GA).
    assert (FL : filter (fun a => is_tracked (e (fst (args a)))) (seq 0 (marity f)) = filter (fun a => is_tracked (e' (fst (args a)))) (seq 0 (marity f))) by (apply filter_ext; intros a; apply T).
    cbn [agree lx jac lapl]. split; [exact PI|]. split.
    + intros k o K O. rewrite EV. apply sum_ext. intros a _. rewrite JA by auto. reflexivity.
    + intros o O. rewrite EV, FL. f_equal; [apply sum_ext; intros a _; rewrite LA by auto; reflexivity|]. destruct (_ <? n)%nat.
      * apply sum_ext. intros a _. apply sum_ext. intros c _. f_equal. apply sum_ext. intros k K. rewrite !JA by auto. reflexivity.
      * apply sum_ext. intros k K. apply sum_ext. intros a _. rewrite JA by auto. f_equal. apply sum_ext. intros c _. rewrite JA by auto. reflexivity.
  - cbn [agree lx jac lapl]. split; [exact PI|]. split; intros; rewrite PI, !PR, ?JA, ?LA by (first [solve [auto] | eapply RD; [eassumption|cbn; auto]]); reflexivity.
  - cbn [agree lx jac lapl]. split; [exact PI|]. split; intros; rewrite PI, !PR, ?JA, ?LA by (first [solve [auto] | eapply RD; [eassumption|cbn; auto]]); reflexivity.
  - cbn [agree lx jac lapl]. split; [exact PI|]. split; intros; rewrite !PR, ?JA, ?LA by (first [solve [auto] | eapply RD; [eassumption|cbn; auto]]); reflexivity.
  - rewrite !T. destruct (is_tracked (e' x) || is_tracked (e' y))%bool; [|exact PI]. cbn [agree lx jac lapl]. split; [exact PI|]. split; intros; rewrite PR, ?JA, ?LA by (first [solve [auto] | eapply RD; [eassumption|cbn; auto]]); reflexivity.
  - exact PI.
  - exact PI.
Qed.
(** shape-correct equations only read elements in range *)
Lemma fits_reads len sh i : (forall v, (0 < size (sh v))%nat) -> fits len sh i ->
  forall o, (o < size (shape_of sh i))%nat -> forall v j, In (v, j) (reads (lower sh i) o) -> In v (operands (lower sh i)) /\ (v < len)%nat /\ (j < size (sh v))%nat.
Proof.
  intros PS FT o O v j I. destruct i as [f x|x|x y out|x y out|x y out|x y out|x|x y|x y|c x y|axes x|l x|axis xs|lc rc lb rb x y|i out]; cbn [fits shape_of lower reads operands] in *.
  1,2,7: destruct I as [I|[]]; injection I as <- <-; cbn; auto.
  1,2,3,4: destruct FT as (X & Y & P & BX & BY); destruct I as [I|[I|[]]]; injection I as <- <-; (split; [cbn; auto|split; [assumption|apply bsrc_lt; auto]]).
  1,2: destruct FT as (X & Y & E); destruct I as [I|[I|[]]]; injection I as <- <-; (split; [cbn; auto|split; [assumption|congruence]]).
  - destruct FT as (C & X & Y & E1 & E2). destruct I as [I|[I|[I|[]]]]; injection I as <- <-; (split; [cbn; auto|split; [assumption|congruence]]).
  - destruct FT as (X & ND & _). rewrite map_map in I. apply in_map_iff in I as (m & E & I). injection E as <- <-. apply sum_elems_spec in I as [M _]. cbn. auto.
  - destruct FT as (X & K). destruct I as [I|[]]. injection I as <- <-. split; [cbn; auto|]. split; [exact X|]. apply src_lt; auto.
  - destruct FT as (X & OK). assert (POS : forall s, In s (map sh xs) -> (0 < size s)%nat) by (intros s J; apply in_map_iff in J as (x & <- & _); apply PS).
    pose proof (cat_src_spec axis (map sh xs) OK POS o O) as CS. destruct (cat_src axis (map sh xs) o) as [j' m]. destruct CS as (J & M & _). destruct I as [I|[]]. injection I as <- <-.
    rewrite map_length in J. assert (IN : In (nth j' xs 0%nat) xs) by (apply nth_In; exact J). split; [exact IN|]. split; [apply X; exact IN|].
    rewrite (nth_indep _ [] (sh 0%nat)) in M by (rewrite map_length; exact J). rewrite map_nth in M. exact M.
  - destruct FT as (X & Y & OK). apply in_flat_map in I as ([ml mr] & I & J). destruct (dot_pairs_lt lc rc lb rb (sh x) (sh y) OK o ml mr (PS x) (PS y) O I) as [L R].
    destruct J as [J|[J|[]]]; injection J as <- <-; cbn; auto.
  - destruct FT as (P & _ & H). apply (H o O v j I).
Qed.

Definition env_agree (b : basis) (shapes : list (list nat)) (env : list sval) (env' : list value) : Prop :=
  length shapes = length env /\ length env' = length env /\
  forall v, wf_value b (nth v shapes []) (nth v env (SPlain zero_arr)) /\
    agree (b_n b) (size (nth v shapes [])) (densify b (nth v shapes []) (nth v env (SPlain zero_arr))) (nth v env' (Plain zero_arr)).
Definition result_shapes (prog : list sinstr) (shapes : list (list nat)) : list (list nat) := shapes ++ map snd (lower_program prog shapes).

Lemma nth_snoc {A} (d x : A) l v : nth v (l ++ [x]) d = if v =? length l then x else nth v l d.
Proof.
  destruct (Nat.eqb_spec v (length l)) as [->|N]; [rewrite app_nth2, Nat.sub_diag by lia; reflexivity|]. destruct (Nat.lt_ge_cases v (length l)); [apply app_nth1; assumption|].
  rewrite !nth_overflow by (rewrite ?app_length; cbn; lia). reflexivity.
Qed.
Theorem C39_program : forall b prog shapes env env', wf_basis b -> env_agree b shapes env env' -> fits_program prog shapes -> safe_program b prog shapes env ->
  exists res, run_sparse b prog shapes env = Some res /\
    env_agree b (result_shapes prog shapes) res (run_lap (b_n b) (map fst (lower_program prog shapes)) env').
Proof.
  intros b prog. induction prog as [|i prog IH]; intros shapes env env' WB EA FT SF.
  - exists env. split; [reflexivity|]. unfold result_shapes. cbn. rewrite app_nil_r. exact EA.
  - cbn in FT, SF. destruct FT as [F1 F2], SF as [S1 S2]. destruct EA as (L1 & L2 & EA).
    set (sh := fun v => nth v shapes []) in *. set (e := fun v => nth v env (SPlain zero_arr)) in *.
    destruct (C39_equation b sh e i (length shapes) WB (fun v => proj1 (EA v)) F1 S1) as (v & EV & WV & AV).
    assert (PS : forall v, (0 < size (sh v))%nat) by (intros u; apply (proj1 (EA u))).
    pose proof (fits_reads (length shapes) sh i PS F1) as RD.
    assert (AV' : agree (b_n b) (size (shape_of sh i)) (densify b (shape_of sh i) v) (eval_eqn (b_n b) (nthv (Plain zero_arr) env') (lower sh i))).
    { eapply agree_trans; [exact AV|]. apply (eqn_local (b_n b) sh).
      - intros u. apply (proj2 (EA u)).
      - intros o O u j I. apply (RD o O u j I).
      - destruct i; cbn [lower]; auto. cbn in F1. tauto. }
    assert (EA' : env_agree b (shapes ++ [shape_of sh i]) (env ++ [v]) (env' ++ [eval_eqn (b_n b) (nthv (Plain zero_arr) env') (lower sh i)])).
    { split; [rewrite !app_length; cbn; lia|]. split; [rewrite !app_length; cbn; lia|]. intros u. rewrite !nth_snoc, L1, L2. destruct (u =? length env); [auto|apply EA]. }
    destruct (IH _ _ _ WB EA' F2 (S2 v EV)) as (res & R & A). exists res. cbn [run_sparse]. fold sh e. rewrite EV. split; [exact R|].
    unfold result_shapes in *. cbn [lower_program map fst snd]. fold sh. cbn [run_lap]. rewrite <- app_assoc in A. cbn [app] in A. exact A.
Qed.

(** ** The seeded input *)
Lemma split_index P N T k : (k < P * (N * T))%nat -> exists i p j, (i < P /\ p < N /\ j < T /\ k = i * (N * T) + (p * T + j))%nat.
Proof.
  intros K. assert (NT : (N * T)%nat <> 0%nat) by lia. assert (N0 : N <> 0%nat) by (intros ->; lia). assert (T0 : T <> 0%nat) by (intros ->; lia).
  exists (k / (N * T))%nat, (k mod (N * T) / T)%nat, (k mod (N * T) mod T)%nat.
  pose proof (Nat.div_mod k (N * T) NT) as E1. pose proof (Nat.mod_upper_bound k (N * T) NT) as U1. pose proof (Nat.div_mod (k mod (N * T)) T T0) as E2. pose proof (Nat.mod_upper_bound (k mod (N * T)) T T0) as U2.
  split; [apply Nat.div_lt_upper_bound; lia|]. split; [apply Nat.div_lt_upper_bound; lia|]. split; [exact U2|]. nia.
Qed.
Lemma basis_at P N T i p j : (i < P)%nat -> (p < N)%nat -> (j < T)%nat -> let k := (i * (N * T) + (p * T + j))%nat in
  ((k / T) mod N = p /\ k / (N * T) * T + k mod T = i * T + j)%nat.
Proof.
  intros I Hp J k. assert (T0 : T <> 0%nat) by lia. assert (N0 : N <> 0%nat) by lia.
  assert (D1 : (k / T = i * N + p)%nat) by (unfold k; replace (i * (N * T) + (p * T + j))%nat with ((i * N + p) * T + j)%nat by ring; rewrite Nat.div_add_l, Nat.div_small by lia; lia).
  assert (M1 : (k mod T = j)%nat) by (unfold k; replace (i * (N * T) + (p * T + j))%nat with (j + (i * N + p) * T)%nat by ring; rewrite Nat.mod_add by lia; apply Nat.mod_small; lia).
  assert (D2 : (k / (N * T) = i)%nat) by (unfold k; rewrite Nat.div_add_l by lia; rewrite Nat.div_small by nia; lia).
  rewrite D1, M1, D2. split; [|reflexivity]. rewrite Nat.add_comm, Nat.mod_add by lia. apply Nat.mod_small. exact Hp.
Qed.
Lemma basis_of_wf pre N post : wf_basis (basis_of pre N post).
Proof.
  intros g. cbn [basis_of b_n b_N b_C own crd]. set (T := size post). rewrite sum_prod.
  rewrite (sum_ext (size pre) _ (fun i => sum N (fun p => sum T (fun j => g p (i * T + j)%nat)))).
  - rewrite sum_swap. apply sum_ext. intros p _. rewrite sum_prod. reflexivity.
  - intros i I. rewrite sum_prod. apply sum_ext. intros p Hp. apply sum_ext. intros j J. destruct (basis_at (size pre) N T i p j I Hp J) as [A B]. cbv zeta in A, B. rewrite A, B. reflexivity.
Qed.
Lemma seed_owner pre N post o : (0 < size (pre ++ N :: post))%nat -> (o < size (pre ++ N :: post))%nat ->
  owner_id (pre ++ N :: post) (mk_role (Some (length pre)) (seq 0 N)) o = own (basis_of pre N post) o.
Proof.
  intros P O. assert (A : (length pre < length (pre ++ N :: post))%nat) by (rewrite app_length; cbn; lia).
  assert (E : nth (length pre) (pre ++ N :: post) 0%nat = N) by (rewrite app_nth2, Nat.sub_diag by lia; reflexivity).
  pose proof (size_pos_nth _ _ P A) as NP. rewrite E in NP. rewrite mk_role_id; auto; [|rewrite seq_length; auto].
  pose proof (proj2 (unravel_inside _ o O) _ A) as U. rewrite E in U. rewrite seq_nth by exact U. rewrite nth_unravel by auto. rewrite E. cbn [basis_of own].
  replace (skipn (S (length pre)) (pre ++ N :: post)) with post; [reflexivity|]. rewrite skipn_app, skipn_all2 by lia. replace (S (length pre) - length pre)%nat with 1%nat by lia. reflexivity.
Qed.
(** the seed is the identity Jacobian times the weights, as in the dense case *)
Theorem C39_seed : forall pre N post (w p : vec), let b := basis_of pre N post in let sh := pre ++ N :: post in
  (0 < size sh)%nat -> wf_value b sh (seed_sparse pre N post w p) /\ agree (b_n b) (size sh) (densify b sh (seed_sparse pre N post w p)) (seed w p 0) /\ b_n b = size sh.
Proof.
  intros pre N post w p b sh P. assert (A : (length pre < length sh)%nat) by (unfold sh; rewrite app_length; cbn; lia).
  assert (E : nth (length pre) sh 0%nat = N) by (unfold sh; rewrite app_nth2, Nat.sub_diag by lia; reflexivity).
  assert (BN : b_n b = size sh) by (unfold sh, b; cbn [basis_of b_n]; rewrite size_app; reflexivity).
  split; [|split; [|exact BN]].
  - split; [exact P|]. split; [left; reflexivity|]. constructor; [|constructor]. apply mk_role_wf; auto; [rewrite seq_length; auto|]. apply Forall_forall. intros q I. apply in_seq in I. cbn. lia.
  - cbn [densify seed_sparse seed agree lx jac lapl sx sl]. split; [|split]; auto. intros k o K O. unfold to_dense. cbn [slots owners owner length sum nth blk]. unfold selector.
    unfold sh in *. rewrite seed_owner by auto. unfold leaf, delta. rewrite BN in K. cbn [Nat.add].
    assert (D : forall k, (k < size (pre ++ N :: post))%nat -> (k < size pre * (N * size post))%nat) by (intros x X; rewrite size_app in X; exact X).
    destruct (split_index _ _ _ _ (D k K)) as (i & q & j & I & Q & J & ->). destruct (split_index _ _ _ _ (D o O)) as (i' & q' & j' & I' & Q' & J' & ->).
    destruct (basis_at (size pre) N (size post) i q j I Q J) as [A1 A2]. destruct (basis_at (size pre) N (size post) i' q' j' I' Q' J') as [B1 B2]. cbv zeta in *. unfold b. cbn [basis_of own crd]. rewrite A1, A2, B1, B2.
    set (T := size post) in *.
    destruct (Nat.eqb_spec (i * (N * T) + (q * T + j)) (i' * (N * T) + (q' * T + j'))) as [X|X].
    + rewrite X in A1, A2. rewrite B1 in A1. rewrite B2 in A2. subst q'. rewrite A2, !Nat.eqb_refl. ring.
    + destruct (Nat.eqb_spec q' q) as [->|N1]; [|ring]. destruct (Nat.eqb_spec (i' * T + j') (i * T + j)) as [Y|Y]; [|ring]. exfalso. apply X.
      assert (i' = i) by (apply (f_equal (fun z => z / T)%nat) in Y; rewrite !Nat.div_add_l, !Nat.div_small in Y by lia; lia). subst. assert (j' = j) by lia. subst. reflexivity.
Qed.

Lemma fits_well_formed prog : forall shapes, (forall v, (0 < size (nth v shapes []))%nat) -> fits_program prog shapes ->
  well_formed_program (map size shapes) (map (fun q => (fst q, size (snd q))) (lower_program prog shapes)).
Proof.
  induction prog as [|i prog IH]; intros shapes PS FT; [exact I|]. cbn in FT. destruct FT as [F1 F2]. set (sh := fun v => nth v shapes []) in *. cbn [lower_program map fst snd]. fold sh. cbn [well_formed_program]. split.
  - intros o O v j I. destruct (fits_reads (length shapes) sh i PS F1 o O v j I) as (A & B & C). split; [exact A|].
    rewrite (nth_indep _ 0%nat (size [])) by (rewrite map_length; exact B). rewrite map_nth. exact C.
  - specialize (IH (shapes ++ [shape_of sh i])). rewrite map_app in IH. apply IH; [|exact F2]. intros v. rewrite nth_snoc. destruct (v =? length shapes); [|apply PS].
    destruct i; cbn [shape_of fits] in *; auto; try tauto; try apply PS.
    + apply sum_size_pos. apply PS.
    + apply out_shape_pos; [tauto|apply PS].
    + apply cat_pos; [tauto|]. intros s I. apply in_map_iff in I as (x & <- & _). apply PS.
    + apply dot_shape_pos; [tauto|apply PS|apply PS].
Qed.
(** Sparse propagation from the seeded input computes the true gradient and Laplacian of the
    program, wherever it is twice differentiable. *)
Theorem C39_sparse_laplacian : forall pre N post (w p : vec) (consts : list (arr * list nat)) prog,
  let b := basis_of pre N post in let sh0 := pre ++ N :: post in
  let shapes := sh0 :: map snd consts in
  let env := seed_sparse pre N post w p :: map (fun c => SPlain (fst c)) consts in
  let lowered := map (fun q => (fst q, size (snd q))) (lower_program prog shapes) in
  let ins := inputs [0%nat] (map fst consts) in
  Forall (fun s => 0 < size s)%nat shapes -> fits_program prog shapes -> safe_program b prog shapes env ->
  smooth_program (true :: map (fun _ => false) consts) (ins p) lowered ->
  exists res, run_sparse b prog shapes env = Some res /\
  forall v i, (v < 1 + length consts + length prog)%nat -> (i < size (nth v (result_shapes prog shapes) []))%nat ->
  let f := fun q => nth v (run_prim (map fst lowered) (ins q)) zero_arr i in
  match densify b (nth v (result_shapes prog shapes) []) (nth v res (SPlain zero_arr)) with
  | Tracked t => gradient_and_laplacian (size sh0) w p f (lx t i) (fun k => jac t k i) (lapl t i)
  | Plain a => a i = f p
  end.
Proof.
  intros pre N post w p consts prog b sh0 shapes env lowered ins PS FT SF SM.
  assert (P0 : (0 < size sh0)%nat) by (inversion PS; assumption). destruct (C39_seed pre N post w p P0) as (WS & AS & BN). fold b sh0 in WS, AS, BN.
  assert (EA : env_agree b shapes env (seeds [0%nat] (map fst consts) w p)).
  { unfold shapes, env, seeds. cbn [map app]. split; [cbn; rewrite !map_length; reflexivity|]. split; [cbn; rewrite !map_length; reflexivity|]. intros v. destruct v as [|v]; cbn [nth]; [split; auto|].
    assert (PC : forall v, (0 < size (nth v (map snd consts) []))%nat).
    { intros u. destruct (Nat.lt_ge_cases u (length (map snd consts))) as [L|L]; [|rewrite nth_overflow by exact L; cbn; lia]. inversion PS; subst. rewrite Forall_forall in H2. apply H2. apply nth_In. exact L. }
    specialize (PC v). destruct (Nat.lt_ge_cases v (length consts)) as [L|L].
    - rewrite (nth_indep _ (SPlain zero_arr) (SPlain (fst (zero_arr, @nil nat)))) by (rewrite map_length; exact L). rewrite (map_nth (fun c => SPlain (fst c))).
      rewrite map_map. rewrite (nth_indep _ (Plain zero_arr) (Plain (fst (zero_arr, @nil nat)))) by (rewrite map_length; exact L). rewrite (map_nth (fun c => Plain (fst c))). split; [split; [exact PC|exact I]|]. cbn. auto.
    - rewrite (nth_overflow (map (fun c => SPlain (fst c)) consts)) by (rewrite map_length; exact L). rewrite (nth_overflow (map Plain _)) by (rewrite !map_length; exact L). split; [split; [exact PC|exact I]|]. cbn. auto. }
  destruct (C39_program b prog shapes env _ (basis_of_wf pre N post) EA FT SF) as (res & R & A). exists res. split; [exact R|]. intros v i V I f.
  assert (PV : forall v, (0 < size (nth v shapes []))%nat).
  { intros u. destruct (Nat.lt_ge_cases u (length shapes)) as [L|L]; [|rewrite nth_overflow by exact L; cbn; lia]. rewrite Forall_forall in PS. apply PS. apply nth_In. exact L. }
  pose proof (fits_well_formed prog shapes PV FT) as WF. fold lowered in WF.
  assert (LL : length lowered = length prog) by (unfold lowered; rewrite map_length; clear; generalize shapes; induction prog as [|x l IH]; intros s; cbn; [reflexivity|rewrite IH; reflexivity]).
  assert (SZ : map size (result_shapes prog shapes) = map size shapes ++ map snd lowered) by (unfold result_shapes, lowered; rewrite map_app, !map_map; reflexivity).
  assert (LR : length (result_shapes prog shapes) = (1 + length consts + length prog)%nat) by (rewrite <- (map_length size), SZ, app_length, !map_length, LL; unfold shapes; cbn; rewrite map_length; lia).
  pose proof (C38_forward_laplacian (size sh0) w p [(0%nat, size sh0)] (map (fun c => (fst c, size (snd c))) consts) lowered) as C. cbv zeta in C. cbn [map app fst snd length] in C. rewrite !map_map in C. cbn [fst snd] in C. rewrite !map_length in C.
  replace (size sh0 :: map (fun x => size (snd x)) consts) with (map size shapes) in C by (unfold shapes; cbn [map]; rewrite map_map; reflexivity).
  specialize (C WF SM v i). rewrite LL in C. specialize (C V). cbn [app] in C.
  replace (size sh0 :: map (fun x => size (snd x)) consts ++ map snd lowered) with (map size (result_shapes prog shapes)) in C by (rewrite SZ; unfold shapes; cbn [map app]; rewrite map_map; reflexivity).
  rewrite (nth_indep _ 0%nat (size [])) in C by (rewrite map_length; lia). rewrite map_nth in C. specialize (C I). change (map (fun x : arr * list nat => fst x) consts) with (map fst consts) in C.
  destruct A as (_ & _ & A). destruct (A v) as [_ AV]. rewrite BN in AV.
  replace (map fst (lower_program prog shapes)) with (map fst lowered) in AV by (unfold lowered; rewrite map_map; reflexivity).
  revert C AV. generalize (nth v (run_lap (size sh0) (map fst lowered) (seeds [0%nat] (map fst consts) w p)) (Plain zero_arr)). intros [a|t] C AV;
    destruct (densify b (nth v (result_shapes prog shapes) []) (nth v res (SPlain zero_arr))) as [a'|t'] eqn:ED; cbn in AV; try tauto.
  - rewrite AV by exact I. apply C.
  - destruct AV as (A1 & A2 & A3). destruct C as (C1 & h & C2 & C3). split; [rewrite A1 by exact I; exact C1|]. exists h. split; [|rewrite A3 by exact I; exact C3].
    intros k K. rewrite A1, A2 by auto. apply C2. exact K.
Qed.
