(** C88: user-defined rules, alone and under vmap. *)
From Coq Require Import Reals List Arith Bool Lra Lia.
From Verif Require Import Lin Lap_Spec Jet Lap_Lang Lap_Model Lap_Props Fl_Loop_Model Fl_Loop_Props Fl_Custom_Model.
Import ListNotations.
Open Scope list_scope.
Open Scope R_scope.

Lemma take_index B b outer inner j : (b < B)%nat -> (j < outer * inner)%nat -> ((j / inner * B + b) * inner + j mod inner < B * (outer * inner))%nat.
Proof.
  intros Hb J. assert (I : (inner <> 0)%nat) by nia. pose proof (Nat.mod_upper_bound j inner I). assert (Q : (j / inner < outer)%nat) by (apply Nat.div_lt_upper_bound; lia).
  assert ((j / inner * B + b) + 1 <= outer * B)%nat by nia. nia.
Qed.
Lemma take_whole B b outer inner (f : nat -> arr) k j : (b < B)%nat -> (j < outer * inner)%nat ->
  take_axis B inner b (fun o => f (o / (B * (outer * inner)))%nat (o mod (B * (outer * inner)))%nat) (k * (outer * inner) + j)%nat = take_axis B inner b (f k) j.
Proof.
  intros Hb J. pose proof (take_index B b outer inner j Hb J) as L. unfold take_axis.
  assert (I : (inner <> 0)%nat) by nia.
  replace (k * (outer * inner) + j)%nat with (j + (k * outer) * inner)%nat by lia. rewrite Nat.div_add, Nat.mod_add by auto.
  replace (((j / inner + k * outer) * B + b) * inner + j mod inner)%nat with (((j / inner * B + b) * inner + j mod inner) + k * (B * (outer * inner)))%nat by lia.
  assert (N : (B * (outer * inner) <> 0)%nat) by lia.
  rewrite Nat.div_add, Nat.mod_add by auto. rewrite Nat.div_small, Nat.mod_small by lia. reflexivity.
Qed.
Lemma stack_raw n size (f : nat -> nat -> nat -> R) k o : (k < n)%nat -> (0 < size)%nat ->
  (fun o => f (o / (n * size))%nat (o / size mod n)%nat (o mod size)%nat) ((o / size * n + k) * size + o mod size)%nat = f (o / size)%nat k (o mod size)%nat.
Proof.
  intros K S. cbv beta. set (q := (o / size)%nat). set (m := (o mod size)%nat). assert (M : (m < size)%nat) by (apply Nat.mod_upper_bound; lia).
  assert (E1 : (((q * n + k) * size + m) / size = q * n + k)%nat) by (rewrite Nat.div_add_l by lia; rewrite (Nat.div_small m) by auto; lia).
  assert (E2 : (((q * n + k) * size + m) mod size = m)%nat) by (rewrite Nat.add_comm, Nat.mod_add by lia; apply Nat.mod_small; auto).
  rewrite (Nat.mul_comm n size), <- Nat.div_div, E1, E2 by lia. rewrite Nat.div_add_l by lia. rewrite (Nat.div_small k) by auto. rewrite (Nat.add_comm (q * n)), Nat.mod_add by lia. rewrite Nat.mod_small by auto. f_equal. lia.
Qed.

Section Vmap.
Variables (n : nat) (w p : vec).
Definition fits (s : axis_spec) (z : nat) : Prop := match s with None => True | Some (outer, inner) => (outer * inner)%nat = z end.
Definition batched_size (B : nat) (s : axis_spec) (z : nat) : nat := match s with None => z | Some _ => (B * z)%nat end.
Lemma element_correct B b s F z v : (b < B)%nat -> fits s z -> correct n w p F (batched_size B s z) v -> correct n w p (fun q => element_plain B b s (F q)) z (element B b s v).
Proof.
  intros Hb Ft C. destruct s as [[outer inner]|]; [|exact C]. cbn in Ft. subst z. cbn [batched_size] in C.
  destruct v as [a|t]; cbn [element element_plain correct] in *; intros j J; pose proof (C _ (take_index B b outer inner j Hb J)) as Q.
  - exact Q.
  - apply (gl_eq n w p _ _ _ _ _ _ _ Q); cbn [lx jac lapl]; auto. intros k K. rewrite (take_whole B b outer inner (jac t) k j Hb J). reflexivity.
Qed.
Lemma elements_correct B b (specs : list axis_spec) sizes P env : (b < B)%nat -> length specs = length sizes -> (forall v, (v < length sizes)%nat -> fits (nth v specs None) (nth v sizes 0%nat)) ->
  correct_env n w p P (zip_with (batched_size B) specs sizes) env ->
  correct_env n w p (fun q => zip_with (element_plain B b) specs (P q)) sizes (zip_with (element B b) specs env).
Proof.
  intros Hb L Ft (A & B' & C). assert (LZ : length (zip_with (batched_size B) specs sizes) = length sizes) by (apply zip_with_length; auto). rewrite LZ in A, C. assert (B2 : forall q, length (P q) = length sizes) by (intros q; rewrite B'; exact LZ). clear B'. rename B2 into B'.
  split; [rewrite zip_with_length; first [congruence|lia]|]. split; [intros q; rewrite zip_with_length; auto; rewrite B'; auto|].
  intros v V. rewrite (nth_zip_with _ specs env v None (Plain zero_arr)) by (first [congruence|lia]).
  apply (correct_ext n w p (fun q => element_plain B b (nth v specs None) (nth v (P q) zero_arr))); [intros q; rewrite (nth_zip_with _ specs (P q) v None zero_arr) by (rewrite ?B'; first [congruence|lia]); reflexivity|].
  apply element_correct; auto. specialize (C v V). rewrite (nth_zip_with _ specs sizes v None 0%nat) in C by (first [congruence|lia]). exact C.
Qed.
Lemma kinds_elements B b (specs : list axis_spec) : forall env, length specs = length env -> kinds (zip_with (element B b) specs env) = kinds env.
Proof. induction specs as [|s specs IH]; intros [|v env] H; cbn in *; auto; try discriminate. f_equal; [destruct s as [[]|], v; reflexivity|]. apply IH. lia. Qed.

Variables (B : nat) (specs : list axis_spec) (sizes ysz : list nat) (safe : (vec -> list arr) -> list bool -> Prop) (rule : block).
Hypothesis L : length specs = length sizes.
Hypothesis Ft : forall v, (v < length sizes)%nat -> fits (nth v specs None) (nth v sizes 0%nat).
Hypothesis S : sound n w p sizes ysz safe rule.
(** Every batch element is at a smooth point. *)
Definition safe_vmap (P : vec -> list arr) (ks : list bool) : Prop := forall b, (b < B)%nat -> safe (fun q => zip_with (element_plain B b) specs (P q)) ks.
Let bsizes := zip_with (batched_size B) specs sizes.
Lemma bsizes_length : length bsizes = length sizes. Proof. apply zip_with_length. auto. Qed.

Lemma vmap_loop_kinds ko env : length env = length sizes -> b_trace rule (kinds env) = Some ko -> forall steps,
  match vmap_loop (b_run rule) (fun b => zip_with (element B b) specs env) steps with
  | Done outs => length outs = length steps /\ forall i, (i < length steps)%nat -> kinds (nth i outs []) = ko
  | Raised => False | Running => True end.
Proof.
  intros LE Tr. induction steps as [|b steps IH]; cbn [vmap_loop]; [split; auto; cbn; intros; lia|].
  pose proof (s_traced _ _ _ _ _ _ _ S (zip_with (element B b) specs env) ltac:(rewrite zip_with_length; first [congruence|lia])) as T. rewrite kinds_elements in T by (first [congruence|lia]). rewrite Tr in T.
  destruct (b_run rule _) as [o| |]; [|discriminate|exact I]. injection T as Ko. destruct (vmap_loop _ _ steps) as [outs| |]; auto. destruct IH as [I1 I2]. split; [cbn; lia|].
  intros [|i] Hi; cbn; auto. apply I2. cbn in Hi. lia.
Qed.
Lemma vmap_loop_correct P env : correct_env n w p P bsizes env -> safe_vmap P (kinds env) -> forall steps, Forall (fun b => (b < B)%nat) steps -> forall outs,
  vmap_loop (b_run rule) (fun b => zip_with (element B b) specs env) steps = Done outs ->
  exists Y : vec -> list (list arr), (let run := fun q => vmap_loop (b_plain rule) (fun b => zip_with (element_plain B b) specs (P q)) steps in
    run p = Done (Y p) /\ forall k, (k < n)%nat -> near (fun s => run (line p w k s) = Done (Y (line p w k s)))) /\
    (forall q, length (Y q) = length steps) /\ forall i, (i < length steps)%nat -> correct_env n w p (fun q => nth i (Y q) []) ysz (nth i outs []).
Proof.
  intros C SF. induction steps as [|b steps IH]; intros FB outs E; cbn [vmap_loop] in *.
  - injection E as <-. exists (fun _ => []). split; [split; [reflexivity|intros; apply near_all; reflexivity]|]. split; auto. cbn. intros; lia.
  - pose proof (Forall_inv FB) as Hb. pose proof (Forall_inv_tail FB) as FB'. cbn beta in Hb.
    destruct (b_run rule _) as [o| |] eqn:RB; try discriminate. destruct (vmap_loop _ _ steps) as [outs'| |] eqn:RL; try discriminate. injection E as <-.
    pose proof (elements_correct B b specs sizes P env Hb L Ft C) as CE.
    assert (Ke : kinds (zip_with (element B b) specs env) = kinds env) by (apply kinds_elements; destruct C as (A & _); rewrite bsizes_length in A; first [congruence|lia]).
    specialize (SF b Hb) as Sb. rewrite <- Ke in Sb. destruct (s_correct _ _ _ _ _ _ _ S _ _ _ CE Sb RB) as (G & (F1 & F2) & CG).
    destruct (IH FB' outs' eq_refl) as (Y & (R1 & R2) & LY & CY). exists (fun q => G q :: Y q). split; [split|].
    + cbn beta. rewrite F1. fold (vmap_loop (b_plain rule) (fun b => zip_with (element_plain B b) specs (P p)) steps). rewrite R1. reflexivity.
    + intros k K. generalize (near_and _ _ (F2 k K) (R2 k K)). apply near_imp. intros z [Q1 Q2]. cbn beta. rewrite Q1, Q2. reflexivity.
    + split; [intros; cbn; rewrite LY; auto|]. intros [|i] Hi; cbn [nth]; [exact CG|apply CY; cbn in Hi; lia].
Qed.
Lemma vmap_loop_respects e e' : agree bsizes e e' -> forall steps, Forall (fun b => (b < B)%nat) steps ->
  same_outcome (fun a a' => length a = length steps /\ length a' = length steps /\ forall i, (i < length steps)%nat -> agree ysz (nth i a []) (nth i a' []))
    (vmap_loop (b_plain rule) (fun b => zip_with (element_plain B b) specs e) steps) (vmap_loop (b_plain rule) (fun b => zip_with (element_plain B b) specs e') steps).
Proof.
  intros (A1 & A2 & A3). rewrite bsizes_length in *. induction steps as [|b steps IH]; intros FB; cbn [vmap_loop]; [cbn; repeat split; auto; intros; lia|].
  pose proof (Forall_inv FB) as Hb. pose proof (Forall_inv_tail FB) as FB'. cbn beta in Hb.
  assert (AE : agree sizes (zip_with (element_plain B b) specs e) (zip_with (element_plain B b) specs e')).
  { split; [rewrite zip_with_length; first [congruence|lia]|]. split; [rewrite zip_with_length; first [congruence|lia]|]. intros v i V I. rewrite !(nth_zip_with _ specs _ v None zero_arr) by (first [congruence|lia]).
    specialize (A3 v). unfold bsizes in A3. rewrite (nth_zip_with _ specs sizes v None 0%nat) in A3 by (first [congruence|lia]). pose proof (Ft v V) as F. destruct (nth v specs None) as [[outer inner]|]; cbn [element_plain batched_size fits] in *; [|auto].
    unfold take_axis. apply A3; auto. rewrite <- F in I |- *. apply take_index; auto. }
  pose proof (s_respects _ _ _ _ _ _ _ S _ _ AE) as R. unfold same_outcome in R |- *. specialize (IH FB'). unfold same_outcome in IH.
  destruct (b_plain rule (zip_with _ _ e)), (b_plain rule (zip_with _ _ e')); try contradiction; auto.
  destruct (vmap_loop _ _ steps), (vmap_loop _ (fun b => zip_with (element_plain B b) specs e') steps); try contradiction; auto.
  destruct IH as (I1 & I2 & I3). split; [cbn; lia|]. split; [cbn; lia|]. intros [|i] Hi; cbn; auto. apply I3. cbn in Hi. lia.
Qed.
Lemma steps_ok : Forall (fun b => (b < B)%nat) (seq 0 B).
Proof. apply Forall_forall. intros b Hb. apply in_seq in Hb. lia. Qed.
Lemma outputs_nth {A} (f : nat -> A) j d : (j < length ysz)%nat -> nth j (map f (seq 0 (length ysz))) d = f j.
Proof. apply nth_seq_map. Qed.
Theorem vmap_sound : sound n w p bsizes (map (fun z => B * z)%nat ysz) safe_vmap (vmap n B specs ysz rule).
Proof.
  split.
  - intros e e' A. cbn [vmap b_plain]. pose proof (vmap_loop_respects e e' A (seq 0 B) steps_ok) as R. unfold same_outcome in R |- *. rewrite seq_length in R.
    destruct (vmap_loop _ _ (seq 0 B)) as [a| |], (vmap_loop _ (fun b => zip_with (element_plain B b) specs e') (seq 0 B)) as [a'| |]; auto.
    destruct R as (R1 & R2 & R3). split; [rewrite !map_length, seq_length; auto|]. split; [rewrite !map_length, seq_length; auto|]. intros j o J O. rewrite map_length in J. rewrite nth_times in O by auto. rewrite !outputs_nth by auto.
    unfold stack. set (z := nth j ysz 0%nat) in *. assert (z <> 0)%nat by nia. assert (U : (o / z < B)%nat) by (apply Nat.div_lt_upper_bound; lia). destruct (R3 _ U) as (_ & _ & Q). apply Q; auto. apply Nat.mod_upper_bound; auto.
  - intros ks out LK E. rewrite map_length. apply (s_trace_length _ _ _ _ _ _ _ S ks); auto. rewrite LK. apply bsizes_length.
  - intros env LE. rewrite bsizes_length in LE. cbn [vmap b_run b_trace]. destruct (b_trace rule (kinds env)) as [ko|] eqn:Tr; [|reflexivity].
    pose proof (vmap_loop_kinds ko env LE Tr (seq 0 B)) as Q. destruct (vmap_loop _ _ (seq 0 B)) as [outs| |]; auto; [|contradiction]. f_equal.
    assert (LK : length ko = length ysz) by (apply (s_trace_length _ _ _ _ _ _ _ S (kinds env)); [rewrite kinds_length; auto|auto]).
    apply (nth_ext _ _ false false); [rewrite kinds_length, map_length, seq_length; auto|]. intros j J. unfold kinds. rewrite map_map. rewrite outputs_nth by lia. unfold stack_output. destruct (nth j ko false); reflexivity.
  - intros P env out C SF E. cbn [vmap b_run] in E. destruct (b_trace rule (kinds env)) as [ko|] eqn:Tr; [|discriminate].
    assert (LE : length env = length sizes) by (destruct C as (A & _); rewrite bsizes_length in A; exact A).
    pose proof (vmap_loop_kinds ko env LE Tr (seq 0 B)) as Q. destruct (vmap_loop (b_run rule) _ (seq 0 B)) as [outs| |] eqn:RL; try discriminate. injection E as <-.
    destruct (vmap_loop_correct P env C SF (seq 0 B) steps_ok outs RL) as (Y & (R1 & R2) & LY & CY). destruct Q as [Q1 Q2]. rewrite seq_length in *.
    exists (fun q => map (fun j => stack (nth j ysz 0%nat) (fun b => nth j (nth b (Y q) []) zero_arr)) (seq 0 (length ysz))). split; [split|].
    + cbn [vmap b_plain]. rewrite R1. reflexivity.
    + intros k K. generalize (R2 k K). apply near_imp. intros z Z. cbn [vmap b_plain]. rewrite Z. reflexivity.
    + split; [rewrite !map_length, seq_length; auto|]. split; [intros; rewrite !map_length, seq_length; auto|]. intros j J. rewrite map_length in J. rewrite nth_times, outputs_nth by auto.
      apply (correct_ext n w p (fun q => stack (nth j ysz 0%nat) (fun b => nth j (nth b (Y q) []) zero_arr))); [intros; rewrite outputs_nth by auto; reflexivity|].
      set (z := nth j ysz 0%nat). unfold stack_output. 
      assert (D : forall o, (o < B * z)%nat -> (0 < z)%nat /\ (o / z < B)%nat /\ (o mod z < z)%nat) by (intros o O; assert (z <> 0)%nat by nia; repeat split; [lia|apply Nat.div_lt_upper_bound; lia|apply Nat.mod_upper_bound; auto]).
      assert (KJ : forall b, (b < B)%nat -> is_tracked (nth j (nth b outs []) (Plain zero_arr)) = nth j ko false).
      { intros b Hb. rewrite <- (Q2 b Hb). unfold kinds. change false with (is_tracked (Plain zero_arr)). rewrite (map_nth is_tracked). reflexivity. }
      destruct (nth j ko false) eqn:KE; cbn [correct]; intros o O; destruct (D o O) as (D0 & D1 & D2); destruct (CY _ D1) as (_ & _ & CC); specialize (CC j J); fold z in CC.
      * cbn [lx lapl jac]. pose proof (correct_gl n w p _ _ _ _ CC D2) as G. unfold stack. apply (gl_eq n w p _ _ _ _ _ _ _ G); auto.
        intros k K. symmetry. apply (stack_raw n z (fun b k i => jac_of (nth j (nth b outs []) (Plain zero_arr)) k i) k o K D0).
      * unfold stack. destruct (correct_plain n w p _ _ _ _ CC D2 (KJ _ D1)) as [E N]. split; auto.
Qed.
End Vmap.

(** ** A rule under vmap *)
Theorem C88_custom_rule_under_vmap : forall n w p B specs sizes ysz safe rule, length specs = length sizes ->
  (forall v, (v < length sizes)%nat -> match nth v specs None with Some (outer, inner) => (outer * inner)%nat = nth v sizes 0%nat | None => True end) ->
  sound n w p sizes ysz safe rule ->
  sound n w p (zip_with (batched_size B) specs sizes) (map (fun z => B * z)%nat ysz) (safe_vmap B specs safe) (vmap n B specs ysz rule).
Proof. intros. apply vmap_sound; auto. Qed.
(** What one batch element is: the slice of the mapped arguments, the whole of the others. *)
Fixpoint history_sizes (history : list (nat * list axis_spec)) (sizes ysz : list nat) : list nat * list nat :=
  match history with [] => (sizes, ysz) | (B, specs) :: older => history_sizes older (zip_with (batched_size B) specs sizes) (map (fun z => B * z)%nat ysz) end.
Fixpoint history_fits (history : list (nat * list axis_spec)) (sizes : list nat) : Prop :=
  match history with
  | [] => True
  | (B, specs) :: older => length specs = length sizes /\ (forall v, (v < length sizes)%nat -> fits (nth v specs None) (nth v sizes 0%nat)) /\ history_fits older (zip_with (batched_size B) specs sizes)
  end.
Fixpoint history_safe (history : list (nat * list axis_spec)) (safe : (vec -> list arr) -> list bool -> Prop) : (vec -> list arr) -> list bool -> Prop :=
  match history with [] => safe | (B, specs) :: older => history_safe older (safe_vmap B specs safe) end.
Theorem C88_custom_rule_under_nested_vmaps : forall n w p history sizes ysz safe rule, history_fits history sizes -> sound n w p sizes ysz safe rule ->
  sound n w p (fst (history_sizes history sizes ysz)) (snd (history_sizes history sizes ysz)) (history_safe history safe) (vmaps n history ysz rule).
Proof.
  intros n w p. induction history as [|[B specs] history IH]; intros sizes ysz safe rule F S; cbn; auto. destruct F as (F1 & F2 & F3). apply IH; auto. apply vmap_sound; auto.
Qed.

(** ** The rule inside a program *)
(** If the handwritten rule is right for the decorated function, the call is, whether the rule is
    used or it asks for the automatic one, under any history of vmaps. *)
Theorem C88_custom_rule : forall n w p history sizes ysz ysz0 safe safe' r primal_block,
  sound n w p sizes ysz safe (vmaps n history ysz0 (r_block r)) -> sound n w p sizes ysz safe' primal_block ->
  (forall e, length e = length sizes -> b_plain primal_block e <> Raised) ->
  (forall e, b_plain primal_block e = b_plain (vmaps n history ysz0 (r_block r)) e) ->
  sound n w p sizes ysz (fun P ks => existsb (fun k => k) ks = true -> if r_declines r ks then safe' P ks else safe P ks)
    (dispatch (length ysz) (handle_custom n history ysz0 (Some r) primal_block)).
Proof.
  intros n w p history sizes ysz ysz0 safe safe' r pb S S' NR SP.
  assert (LN : forall e o, length e = length sizes -> b_plain pb e = Done o -> length o = length ysz).
  { intros e o L E. pose proof (s_respects _ _ _ _ _ _ _ S' e e (agree_refl _ _ L)) as R. rewrite E in R. apply R. }
  assert (D : sound n w p sizes ysz (fun P ks => existsb (fun k => k) ks = true -> safe' P ks) (dispatch (length ysz) pb)) by (apply dispatch_sound; auto).
  split.
  - apply (s_respects _ _ _ _ _ _ _ S').
  - intros ks out L E. cbn in E. destruct (existsb (fun k => k) ks); [|injection E as <-; apply repeat_length]. destruct (r_declines r ks); [apply (s_trace_length _ _ _ _ _ _ _ S' ks); auto|apply (s_trace_length _ _ _ _ _ _ _ S ks); auto].
  - intros env L. destruct (existsb is_tracked env) eqn:TK.
    + cbn [dispatch handle_custom b_run b_trace]. rewrite <- no_tracked, TK. destruct (r_declines r (kinds env)); [apply (s_traced _ _ _ _ _ _ _ S' env L)|apply (s_traced _ _ _ _ _ _ _ S env L)].
    + pose proof (s_traced _ _ _ _ _ _ _ D env L) as T. cbn [dispatch handle_custom b_run b_trace b_plain] in *. rewrite <- no_tracked, TK in *. exact T.
  - intros P env out C SF E. destruct (existsb is_tracked env) eqn:TK.
    + cbn [dispatch handle_custom b_run] in E. rewrite TK in E. rewrite no_tracked in TK. specialize (SF TK). destruct (r_declines r (kinds env)).
      * exact (s_correct _ _ _ _ _ _ _ S' P env out C SF E).
      * destruct (s_correct _ _ _ _ _ _ _ S P env out C SF E) as (G & (F1 & F2) & CG). exists G. split; auto. split; [cbn; rewrite SP; exact F1|]. intros k K. generalize (F2 k K). apply near_imp. intros z Z. cbn. rewrite SP. exact Z.
    + cbn [dispatch handle_custom b_run b_plain] in E. rewrite TK in E. refine (s_correct _ _ _ _ _ _ _ D P env out C _ _); [intros X; rewrite <- no_tracked in X; congruence|]. cbn [dispatch b_run]. rewrite TK. exact E.
Qed.
(** Without a registered rule the call raises exactly when an argument is tracked. *)
Theorem C88_missing_rule : forall n history ysz0 nout primal_block env,
  (existsb is_tracked env = true -> b_run (dispatch nout (handle_custom n history ysz0 None primal_block)) env = Raised) /\
  (existsb is_tracked env = false -> b_run (dispatch nout (handle_custom n history ysz0 None primal_block)) env =
     match b_plain primal_block (map primal env) with Done vs => Done (map Plain vs) | Raised => Raised | Running => Running end).
Proof. intros. cbn. split; intros ->; reflexivity. Qed.

(** ** Registration *)
Fixpoint ids_unique (r : registry) : Prop := match r with [] => True | e :: r' => fst e = S (length r') /\ ids_unique r' end.
Lemma ids_bound r : ids_unique r -> forall e, In e r -> (fst e <= length r)%nat.
Proof. induction r as [|x r IH]; cbn; intros U e [].  - subst. lia. - destruct U as [_ U]. specialize (IH U e H). lia. Qed.
Lemma rule_of_fresh r : ids_unique r -> forall id, (length r < id)%nat -> rule_of r id = None.
Proof.
  intros U id H. unfold rule_of. destruct (find _ r) as [e|] eqn:F; auto. apply find_some in F as [F1 F2]. apply Nat.eqb_eq in F2. pose proof (ids_bound r U e F1). lia.
Qed.
Lemma set_rule_ids r id rule : ids_unique r -> ids_unique (set_rule r id rule).
Proof. induction r as [|e r IH]; cbn; auto. intros [U1 U2]. split; [|apply IH; auto]. unfold set_rule. rewrite map_length. destruct (Nat.eqb_spec (fst e) id); cbn; congruence. Qed.
(** Every decorated function starts without a rule; def_laplacian_rule installs or replaces the
    rule of that function and of no other. *)
Theorem C88_registration : forall r, ids_unique r ->
  (ids_unique (fst (create_entry r)) /\ rule_of (fst (create_entry r)) (snd (create_entry r)) = None /\
   forall id, (id <= length r)%nat -> rule_of (fst (create_entry r)) id = rule_of r id) /\
  forall id rule, (1 <= id <= length r)%nat -> ids_unique (set_rule r id rule) /\ rule_of (set_rule r id rule) id = Some rule /\
   forall other, other <> id -> rule_of (set_rule r id rule) other = rule_of r other.
Proof.
  intros r U. split; [split; [|split]|].
  - cbn. auto.
  - unfold rule_of. cbn [create_entry fst snd find]. rewrite Nat.eqb_refl. reflexivity.
  - intros id H. unfold rule_of. cbn [create_entry fst snd find]. destruct (Nat.eqb_spec (S (length r)) id); [lia|reflexivity].
  - intros id rule H. split; [apply set_rule_ids; auto|]. split.
    + revert U H. induction r as [|e r IH]; cbn; intros U H; [lia|]. destruct U as [U1 U2]. unfold rule_of in *. cbn. destruct (Nat.eqb_spec (fst e) id) as [E|E]; cbn.
      * rewrite Nat.eqb_refl. reflexivity.
      * destruct (Nat.eqb_spec (fst e) id); [contradiction|]. apply IH; auto. lia.
    + intros other N. clear U H. induction r as [|e r IH]; cbn; auto. unfold rule_of in *. cbn. destruct (Nat.eqb_spec (fst e) id) as [E|E]; cbn.
      * destruct (Nat.eqb_spec id other); [congruence|]. destruct (Nat.eqb_spec (fst e) other); [congruence|]. exact IH.
      * destruct (Nat.eqb_spec (fst e) other); auto.
Qed.
Example registry_reachable : ids_unique (fst (create_entry (fst (create_entry [])))).
Proof. cbn. auto. Qed.

(** ** Where the rule is used *)
Example plain_call_outside : forall kwargs, wrapped false kwargs = PlainCall /\ wrapped true false = Staged /\ wrapped true true = TypeError.
Proof. repeat split. Qed.
(** Behind jax.jit the first call decides for all later ones. *)
Theorem C88_jit_keeps_first_trace : forall first calls, jit_calls None (first :: calls) = map (fun _ => wrapped first false) (first :: calls).
Proof.
  intros first calls. cbn. f_equal. induction calls as [|t calls IH]; cbn; [reflexivity|]. f_equal. exact IH.
Qed.
(** So a jitted function evaluated before the Laplacian is taken does not use the rule there. *)
Theorem C88_rule_used_inside_refuted : exists calls i, nth i calls false = true /\ nth i (jit_calls None calls) TypeError <> Staged.
Proof. exists [false; true], 1%nat. split; [reflexivity|]. cbn. discriminate. Qed.

(** ** A rule that meets the hypotheses: the square, mapped over the last axis of a 2 by 3 array *)
Definition square_rule : block := straight 6 [Mul (fun i => i) (fun i => i) 0 0]%nat [1%nat].
Example square_rule_sound : forall w p, sound 6 w p [2]%nat [2]%nat (straight_safe p [(Mul (fun i => i) (fun i => i) 0 0, 2)]%nat) square_rule.
Proof.
  intros w p. apply (straight_sound 6 w p [2]%nat [(Mul (fun i => i) (fun i => i) 0 0, 2)]%nat [1%nat]).
  - cbn. split; auto. intros o O v j [H|[H|[]]]; injection H as <- <-; cbn; split; auto; lia.
  - repeat constructor.
Qed.
Example square_vmap_sound : forall w p, sound 6 w p [6]%nat [6]%nat (safe_vmap 3 [Some (2, 1)%nat] (straight_safe p [(Mul (fun i => i) (fun i => i) 0 0, 2)]%nat)) (vmap 6 3 [Some (2, 1)%nat] [2]%nat square_rule).
Proof.
  intros w p. apply (C88_custom_rule_under_vmap 6 w p 3 [Some (2, 1)%nat] [2]%nat [2]%nat (straight_safe p [(Mul (fun i => i) (fun i => i) 0 0, 2)]%nat) square_rule); auto.
  - intros [|v] V; cbn in *; lia.
  - apply square_rule_sound.
Qed.
(** Batch element 1 is column 1: elements 1 and 4 of the input, 2 and 3 of the output. *)
Example square_vmap_value : exists out, b_run (vmap 6 3 [Some (2, 1)%nat] [2]%nat square_rule) [Tracked {| lx := fun i => INR (i + 2); jac := fun k i => delta k i; lapl := fun _ => 0 |}] = Done [Tracked out] /\
  lx out 3%nat = 36 /\ jac out 4%nat 3%nat = 12 /\ jac out 3%nat 3%nat = 0 /\ lapl out 3%nat = 2.
Proof.
  eexists. split; [reflexivity|]. cbn. unfold stack, take_axis, delta; cbn. unfold sum; cbn. repeat split; ring.
Qed.
