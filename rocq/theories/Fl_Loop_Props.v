(** C88, control flow: proofs. *)
From Coq Require Import Reals List Arith Bool Lra Lia.
From Verif Require Import Lin Lap_Spec Jet Lap_Lang Lap_Model Lap_Props Fl_Loop_Model.
Import ListNotations.
Open Scope R_scope.

(** ** Environments *)
Lemma correct_local n w p F F' size v : correct n w p F size v ->
  (forall i, (i < size)%nat -> F p i = F' p i /\ forall k, (k < n)%nat -> near (fun s => F (line p w k s) i = F' (line p w k s) i)) -> correct n w p F' size v.
Proof.
  intros C E. destruct v as [a|t]; cbn in *; intros i I; destruct (E i I) as [E1 E2].
  - destruct (C i I) as [C1 C2]. split; [congruence|]. intros k K. generalize (near_and _ _ (C2 k K) (E2 k K)). apply near_imp. intros s [X Y]. congruence.
  - apply (gl_local n w p (fun q => F q i)); auto.
Qed.
Lemma correct_ext n w p F F' size v : (forall q, F q = F' q) -> correct n w p F size v -> correct n w p F' size v.
Proof. intros E C. apply (correct_local n w p F); auto. intros i I. split; [rewrite E; auto|]. intros. apply near_all. intros. rewrite E. auto. Qed.
Lemma correct_env_ext n w p P P' sizes env : (forall q, P q = P' q) -> correct_env n w p P sizes env -> correct_env n w p P' sizes env.
Proof.
  intros E (A & B & C). split; auto. split; [intros q; rewrite <- E; auto|]. intros v V. apply (correct_ext n w p (fun q => nth v (P q) zero_arr)); [intros; rewrite E; auto|auto].
Qed.
Lemma correct_env_app n w p P1 P2 s1 s2 e1 e2 : correct_env n w p P1 s1 e1 -> correct_env n w p P2 s2 e2 -> correct_env n w p (fun q => P1 q ++ P2 q) (s1 ++ s2) (e1 ++ e2).
Proof.
  intros (A1 & B1 & C1) (A2 & B2 & C2). split; [rewrite !app_length; lia|]. split; [intros; rewrite !app_length, B1, B2; auto|].
  intros v V. rewrite app_length in V. destruct (Nat.lt_ge_cases v (length s1)) as [L|L].
  - rewrite (app_nth1 s1), (app_nth1 e1) by lia. apply (correct_ext n w p (fun q => nth v (P1 q) zero_arr)); [intros; rewrite app_nth1 by (rewrite B1; auto); auto|auto].
  - rewrite (app_nth2 s1), (app_nth2 e1) by lia. rewrite A1. apply (correct_ext n w p (fun q => nth (v - length s1) (P2 q) zero_arr)); [intros; rewrite app_nth2 by (rewrite B1; auto); rewrite B1; auto|]. apply C2. lia.
Qed.
Lemma correct_env_nil n w p : correct_env n w p (fun _ => []) [] [].
Proof. split; auto. split; auto. cbn. intros; lia. Qed.
Lemma nth_firstn {A} (l : list A) m v d : (v < m)%nat -> nth v (firstn m l) d = nth v l d.
Proof. revert m v. induction l as [|x l IH]; intros [|m] [|v] H; cbn; auto; try lia. apply IH. lia. Qed.
Lemma nth_skipn {A} (l : list A) m v d : nth v (skipn m l) d = nth (m + v) l d.
Proof. revert v. revert l. induction m as [|m IH]; intros l v; cbn; auto. destruct l as [|x l]; [destruct v; auto|]. apply IH. Qed.
Lemma correct_env_firstn n w p P s e m : correct_env n w p P s e -> correct_env n w p (fun q => firstn m (P q)) (firstn m s) (firstn m e).
Proof.
  intros (A & B & C). split; [rewrite !firstn_length; lia|]. split; [intros; rewrite !firstn_length, B; auto|].
  intros v V. rewrite firstn_length in V. rewrite !nth_firstn by lia. apply (correct_ext n w p (fun q => nth v (P q) zero_arr)); [intros; rewrite nth_firstn by lia; auto|]. apply C. lia.
Qed.
Lemma correct_env_skipn n w p P s e m : correct_env n w p P s e -> correct_env n w p (fun q => skipn m (P q)) (skipn m s) (skipn m e).
Proof.
  intros (A & B & C). split; [rewrite !skipn_length; lia|]. split; [intros; rewrite !skipn_length, B; auto|].
  intros v V. rewrite skipn_length in V. rewrite !nth_skipn. apply (correct_ext n w p (fun q => nth (m + v) (P q) zero_arr)); [intros; rewrite nth_skipn; auto|]. apply C. lia.
Qed.

(** ** What it means for the interpretation of a block to be right *)
Definition agree (sizes : list nat) (e e' : list arr) : Prop :=
  length e = length sizes /\ length e' = length sizes /\ forall v i, (v < length sizes)%nat -> (i < nth v sizes 0)%nat -> nth v e zero_arr i = nth v e' zero_arr i.
Definition same_outcome {A B} (r : A -> B -> Prop) (x : outcome A) (y : outcome B) : Prop :=
  match x, y with Done a, Done b => r a b | Raised, Raised => True | Running, Running => True | _, _ => False end.
Section Blocks.
Variables (n : nat) (w p : vec).
Definition follows (b : block) (P G : vec -> list arr) : Prop :=
  b_plain b (P p) = Done (G p) /\ forall k, (k < n)%nat -> near (fun s => b_plain b (P (line p w k s)) = Done (G (line p w k s))).
(** [sizes], [sizes']: element counts of inputs and outputs; [safe P kinds]: the plain block is
    smooth at the inputs [P p] when the inputs in [kinds] vary. *)
Record sound (sizes sizes' : list nat) (safe : (vec -> list arr) -> list bool -> Prop) (b : block) : Prop := {
  s_respects : forall e e', agree sizes e e' -> same_outcome (agree sizes') (b_plain b e) (b_plain b e');
  s_trace_length : forall ks out, length ks = length sizes -> b_trace b ks = Some out -> length out = length sizes';
  s_traced : forall env, length env = length sizes -> match b_run b env with Done out => b_trace b (kinds env) = Some (kinds out) | Raised => b_trace b (kinds env) = None | Running => True end;
  s_correct : forall P env out, correct_env n w p P sizes env -> safe P (kinds env) -> b_run b env = Done out ->
    exists G, follows b P G /\ correct_env n w p G sizes' out }.

(** ** Straight-line blocks (C38) *)
Lemma run_lap_kinds prog : forall env env', kinds env = kinds env' -> kinds (run_lap n prog env) = kinds (run_lap n prog env').
Proof.
  induction prog as [|i prog IH]; intros env env' E; cbn; auto. apply IH. unfold kinds in *. rewrite !map_app, E. cbn. f_equal. f_equal. rewrite !tracked_depends.
  apply depends_dep. intros v. unfold nthv. rewrite <- !(map_nth is_tracked), E. reflexivity.
Qed.
Lemma kinds_dummy ks : kinds (map dummy ks) = ks.
Proof. unfold kinds. rewrite map_map. rewrite <- (map_id ks) at 2. apply map_ext. intros []; reflexivity. Qed.
Lemma run_prim_respects prog : forall sizes e e', well_formed_program sizes prog -> agree sizes e e' -> agree (sizes ++ map snd prog) (run_prim (map fst prog) e) (run_prim (map fst prog) e').
Proof.
  induction prog as [|[i size] prog IH]; intros sizes e e' W (A & B & C); cbn in *; [rewrite app_nil_r; split; auto|]. destruct W as [W W'].
  replace (sizes ++ size :: map snd prog) with ((sizes ++ [size]) ++ map snd prog) by (rewrite <- app_assoc; reflexivity). apply IH; auto.
  split; [rewrite !app_length; cbn; lia|]. split; [rewrite !app_length; cbn; lia|]. intros v o V O. rewrite !nth_snoc, A, B. rewrite nth_snoc in O. rewrite app_length in V. cbn in V.
  destruct (Nat.ltb_spec v (length sizes)); [apply C; auto|]. assert (v = length sizes) as -> by lia. rewrite Nat.eqb_refl in *.
  apply prim_local. intros u j I. destruct (W o O u j I) as [_ J]. unfold nthv. destruct (Nat.lt_ge_cases u (length sizes)) as [L|L]; [apply C; auto|]. rewrite nth_overflow in J by auto. lia.
Qed.
Definition straight_safe (prog : list (instr * nat)) (P : vec -> list arr) (ks : list bool) : Prop := smooth_program ks (P p) prog.
Lemma straight_sound sizes prog outs : well_formed_program sizes prog -> Forall (fun o => (o < length sizes + length prog)%nat) outs ->
  sound sizes (map (fun o => nth o (sizes ++ map snd prog) 0%nat) outs) (straight_safe prog) (straight n (map fst prog) outs).
Proof.
  intros W O. rewrite Forall_forall in O. split.
  - intros e e' A. cbn. destruct (run_prim_respects prog sizes e e' W A) as (L & L' & C). split; [rewrite !map_length; auto|]. split; [rewrite !map_length; auto|].
    intros v i V I. rewrite map_length in V.
    rewrite (nth_indep _ _ (nth 0 (sizes ++ map snd prog) 0%nat)) in I by (rewrite map_length; auto). rewrite (map_nth (fun o => nth o (sizes ++ map snd prog) 0%nat)) in I.
    rewrite !(nth_indep (map _ outs) zero_arr (nthv zero_arr (run_prim (map fst prog) e) 0)) by (rewrite map_length; auto).
    rewrite (map_nth (nthv zero_arr (run_prim (map fst prog) e))).
    rewrite (nth_indep (map (nthv zero_arr (run_prim (map fst prog) e')) outs) _ (nthv zero_arr (run_prim (map fst prog) e') 0)) by (rewrite map_length; auto).
    rewrite (map_nth (nthv zero_arr (run_prim (map fst prog) e'))). apply C; auto. rewrite app_length, map_length. apply O. apply nth_In. auto.
  - intros ks out L E. cbn in E. injection E as <-. rewrite !map_length. reflexivity.
  - intros env L. cbn. f_equal. unfold kinds at 2. rewrite map_map. apply map_ext. intros o. unfold nthv. rewrite <- !(map_nth is_tracked).
    change (map is_tracked (run_lap n (map fst prog) (map dummy (kinds env)))) with (kinds (run_lap n (map fst prog) (map dummy (kinds env)))).
    rewrite (run_lap_kinds _ _ env) by apply kinds_dummy. reflexivity.
  - intros P env out C S E. cbn in E. injection E as <-. pose proof (program_correct n w p prog P sizes env C W S) as (A & B & D).
    exists (fun q => map (nthv zero_arr (run_prim (map fst prog) (P q))) outs). split; [split; [reflexivity|intros; apply near_all; reflexivity]|].
    split; [rewrite !map_length; auto|]. split; [intros; rewrite !map_length; auto|]. intros v V. rewrite map_length in V.
    set (o := nth v outs 0%nat). assert (OI : In o outs) by (apply nth_In; auto). specialize (D o). rewrite app_length, map_length in D. specialize (D (O o OI)).
    rewrite (nth_indep (map _ outs) 0%nat (nth 0 (sizes ++ map snd prog) 0%nat)) by (rewrite map_length; auto). rewrite (map_nth (fun o => nth o (sizes ++ map snd prog) 0%nat)).
    rewrite (nth_indep (map _ outs) (Plain zero_arr) (nthv (Plain zero_arr) (run_lap n (map fst prog) env) 0)) by (rewrite map_length; auto). rewrite (map_nth (nthv (Plain zero_arr) (run_lap n (map fst prog) env))).
    apply (correct_ext n w p (fun q => nth o (run_prim (map fst prog) (P q)) zero_arr)); [|exact D].
    intros q. rewrite (nth_indep (map _ outs) zero_arr (nthv zero_arr (run_prim (map fst prog) (P q)) 0)) by (rewrite map_length; auto). rewrite (map_nth (nthv zero_arr (run_prim (map fst prog) (P q)))). reflexivity.
Qed.

(** ** scan *)
Lemma slice_correct T size t F v : correct n w p F (T * size) v -> (t < T)%nat -> correct n w p (fun q => slice size t (F q)) size (slice_value size t v).
Proof.
  intros C L. assert (I : forall i, (i < size)%nat -> (t * size + i < T * size)%nat) by (intros; nia).
  destruct v as [a|l]; cbn in *; intros i Hi; unfold slice; apply (C (t * size + i)%nat (I i Hi)).
Qed.
Lemma promote_correct fl F size v : correct n w p F size v -> correct n w p F size (promote fl v).
Proof.
  intros C. destruct v as [a|l]; cbn; auto. destruct fl; auto. intros i I. exact (correct_gl n w p F size (Plain a) i C I).
Qed.
Lemma zip_with_length {A B D} (f : A -> B -> D) l m : length l = length m -> length (zip_with f l m) = length m.
Proof. revert m. induction l as [|a l IH]; intros [|b m] H; cbn in *; auto; try discriminate. Qed.
Lemma nth_zip_with {A B D} (f : A -> B -> D) l m v da db dd : (v < length l)%nat -> (v < length m)%nat -> nth v (zip_with f l m) dd = f (nth v l da) (nth v m db).
Proof. revert m v. induction l as [|a l IH]; intros [|b m] [|v] H1 H2; cbn in *; try lia; auto. apply IH; lia. Qed.
Lemma promote_env fl P sizes env : length fl = length sizes -> correct_env n w p P sizes env -> correct_env n w p P sizes (zip_with promote fl env).
Proof.
  intros L (A & B & C). split; [rewrite zip_with_length; congruence|]. split; auto. intros v V. rewrite (nth_zip_with promote fl env v false (Plain zero_arr)) by congruence. apply promote_correct. auto.
Qed.
Lemma kinds_promote fl env : kinds (zip_with promote fl env) = zip_with orb fl (kinds env).
Proof. revert env. induction fl as [|f fl IH]; intros [|v env]; cbn; auto. f_equal; [destruct v, f; reflexivity|apply IH]. Qed.
Lemma slices_length {A} (slc : nat -> nat -> A -> A) sizes t : forall xs, length xs = length sizes -> length (slices slc sizes t xs) = length sizes.
Proof. induction sizes as [|z sizes IH]; intros [|x xs] H; cbn in *; auto; try discriminate. Qed.
Lemma nth_slices {A} (slc : nat -> nat -> A -> A) sizes t d : forall xs v, length xs = length sizes -> (v < length sizes)%nat -> nth v (slices slc sizes t xs) d = slc (nth v sizes 0%nat) t (nth v xs d).
Proof. induction sizes as [|z sizes IH]; intros [|x xs] [|v] H V; cbn in *; auto; try lia. apply IH; lia. Qed.
Lemma nth_times T sizes v : (v < length sizes)%nat -> nth v (map (fun z => T * z)%nat sizes) 0%nat = (T * nth v sizes 0)%nat.
Proof. intros V. rewrite (nth_indep _ _ (T * 0)%nat) by (rewrite map_length; auto). apply (map_nth (fun z => T * z)%nat). Qed.
Lemma slices_correct T sizes t X xs : correct_env n w p X (map (fun z => T * z)%nat sizes) xs -> (t < T)%nat ->
  correct_env n w p (fun q => slices slice sizes t (X q)) sizes (slices slice_value sizes t xs).
Proof.
  intros (A & B & C) L. rewrite map_length in *. split; [apply slices_length; auto|]. split; [intros; apply slices_length; auto|].
  intros v V. rewrite nth_slices by auto. apply (correct_ext n w p (fun q => slice (nth v sizes 0%nat) t (nth v (X q) zero_arr))); [intros; rewrite nth_slices by auto; reflexivity|].
  apply (slice_correct T); auto. specialize (C v V). rewrite nth_times in C by auto. exact C.
Qed.
Lemma kinds_slices sizes t : forall xs, length xs = length sizes -> kinds (slices slice_value sizes t xs) = kinds xs.
Proof. induction sizes as [|z sizes IH]; intros [|x xs] H; cbn in *; auto; try discriminate. f_equal; [destruct x; reflexivity|]. apply IH. lia. Qed.
Lemma kinds_app a b : kinds (a ++ b) = kinds a ++ kinds b. Proof. apply map_app. Qed.
Lemma kinds_length a : length (kinds a) = length a. Proof. apply map_length. Qed.
Lemma kinds_firstn m a : kinds (firstn m a) = firstn m (kinds a). Proof. symmetry. apply firstn_map. Qed.
Lemma kinds_skipn m a : kinds (skipn m a) = skipn m (kinds a). Proof. symmetry. apply skipn_map. Qed.
Lemma firstn_app_exact {A} (a b : list A) : firstn (length a) (a ++ b) = a.
Proof. rewrite firstn_app, Nat.sub_diag, firstn_all, firstn_O, app_nil_r. reflexivity. Qed.
Lemma skipn_app_exact {A} (a b : list A) : skipn (length a) (a ++ b) = b.
Proof. rewrite skipn_app, Nat.sub_diag, skipn_all. reflexivity. Qed.

Section Scan.
Variables (cs rs xsz ysz : list nat) (safe : (vec -> list arr) -> list bool -> Prop) (body : block) (s : scan_params).
Hypotheses (Snc : sc_nconst s = length cs) (Snr : sc_ncarry s = length rs) (Sfl : length (sc_float s) = length rs) (Sx : sc_xsizes s = xsz) (Sy : sc_ysizes s = ysz).
Hypothesis B : sound (cs ++ rs ++ xsz) (rs ++ ysz) safe body.
Let T := sc_length s.
Let nr := length rs.
Fixpoint scan_safe (steps : list nat) (Pc X Cf : vec -> list arr) (kin : list bool) : Prop :=
  match steps with
  | [] => True
  | t :: steps' =>
      let Pt := fun q => Pc q ++ Cf q ++ slices slice xsz t (X q) in
      safe Pt kin /\ forall G, follows body Pt G -> scan_safe steps' Pc X (fun q => firstn nr (G q)) kin
  end.
Lemma loop_kinds consts xs ko : length consts = length cs -> length xs = length xsz ->
  forall steps carry ys, length carry = length rs -> b_trace body (kinds consts ++ kinds carry ++ kinds xs) = Some ko -> firstn nr ko = kinds carry ->
  match scan_loop (b_run body) slice_value nr xsz consts xs steps carry ys with
  | Done (carry', ys') => kinds carry' = kinds carry /\ (forall u, In u steps -> kinds (ys' u) = skipn nr ko) /\ (forall u, ~ In u steps -> ys' u = ys u)
  | Raised => False
  | Running => True
  end.
Proof.
  intros Lc Lx. induction steps as [|t steps IH]; intros carry ys Lr Tr Fk; cbn [scan_loop]; [repeat split; auto; intros u []|].
  set (env := consts ++ carry ++ slices slice_value xsz t xs).
  assert (LE : length env = length (cs ++ rs ++ xsz)) by (unfold env; rewrite !app_length, slices_length; auto; lia).
  assert (KE : kinds env = kinds consts ++ kinds carry ++ kinds xs) by (unfold env; rewrite !kinds_app, kinds_slices; auto).
  pose proof (s_traced _ _ _ _ B env LE) as TR. rewrite KE, Tr in TR. destruct (b_run body env) as [out| |]; [|discriminate|exact I]. injection TR as Ko.
  assert (Lo : length out = length (rs ++ ysz)).
  { rewrite <- kinds_length, <- Ko. apply (s_trace_length _ _ _ _ B (kinds env)); [rewrite kinds_length; auto|rewrite KE; auto]. }
  assert (Kc : kinds (firstn nr out) = kinds carry) by (rewrite kinds_firstn, <- Ko; auto).
  specialize (IH (firstn nr out) (fun u => if Nat.eqb u t then skipn nr out else ys u)).
  assert (Lf : length (firstn nr out) = length rs) by (rewrite firstn_length, Lo, app_length; unfold nr; lia).
  rewrite Kc in IH. specialize (IH Lf Tr Fk).
  destruct (scan_loop (b_run body) slice_value nr xsz consts xs steps (firstn nr out) (fun u => if Nat.eqb u t then skipn nr out else ys u)) as [[carry' ys']| |]; auto.
  destruct IH as (I1 & I2 & I3). split; auto. split.
  - intros u U. destruct (in_dec Nat.eq_dec u steps) as [J|J]; [auto|]. destruct U as [->|U]; [|contradiction]. rewrite I3 by auto. rewrite Nat.eqb_refl, kinds_skipn, <- Ko. reflexivity.
  - intros u U. rewrite I3 by (intros J; apply U; right; auto). destruct (Nat.eqb_spec u t) as [->|]; auto. exfalso. apply U. left. auto.
Qed.
Lemma loop_correct Pc X consts xs ko : correct_env n w p Pc cs consts -> correct_env n w p X (map (fun z => T * z)%nat xsz) xs ->
  forall steps, Forall (fun t => (t < T)%nat) steps -> forall Cf Yf carry ys carry' ys', correct_env n w p Cf rs carry ->
  b_trace body (kinds consts ++ kinds carry ++ kinds xs) = Some ko -> firstn nr ko = kinds carry ->
  scan_safe steps Pc X Cf (kinds consts ++ kinds carry ++ kinds xs) ->
  scan_loop (b_run body) slice_value nr xsz consts xs steps carry ys = Done (carry', ys') ->
  exists Cf' Yf',
    (let run := fun q => scan_loop (b_plain body) slice nr xsz (Pc q) (X q) steps (Cf q) (fun u => Yf u q) in
     run p = Done (Cf' p, fun u => Yf' u p) /\ forall k, (k < n)%nat -> near (fun s => run (line p w k s) = Done (Cf' (line p w k s), fun u => Yf' u (line p w k s)))) /\
    correct_env n w p Cf' rs carry' /\ (forall u, In u steps -> correct_env n w p (Yf' u) ysz (ys' u)) /\ (forall u, ~ In u steps -> Yf' u = Yf u /\ ys' u = ys u).
Proof.
  intros HC HX. induction steps as [|t steps IH]; intros FT Cf Yf carry ys carry' ys' HR Tr Fk SS E; cbn [scan_loop scan_safe] in *.
  - injection E as <- <-. exists Cf, Yf. split; [split; [reflexivity|intros; apply near_all; reflexivity]|]. split; auto. split; [intros u []|auto].
  - pose proof (Forall_inv FT) as Ht. pose proof (Forall_inv_tail FT) as FT'. destruct SS as [S1 S2]. cbv zeta in S1, S2.
    set (env := consts ++ carry ++ slices slice_value xsz t xs) in *. set (Pt := fun q => Pc q ++ Cf q ++ slices slice xsz t (X q)) in *.
    assert (Lx : length xs = length xsz) by (destruct HX as (A & _); rewrite map_length in A; exact A).
    assert (CE : correct_env n w p Pt (cs ++ rs ++ xsz) env) by (apply correct_env_app; auto; apply correct_env_app; auto; apply (slices_correct T); auto).
    assert (KE : kinds env = kinds consts ++ kinds carry ++ kinds xs) by (unfold env; rewrite !kinds_app, kinds_slices; auto).
    destruct (b_run body env) as [out| |] eqn:RB; try discriminate. rewrite <- KE in S1.
    destruct (s_correct _ _ _ _ B Pt env out CE S1 RB) as (G & FG & CG).
    assert (C1 : correct_env n w p (fun q => firstn nr (G q)) rs (firstn nr out)) by (pose proof (correct_env_firstn _ _ _ _ _ _ nr CG) as Q; unfold nr in Q; rewrite firstn_app_exact in Q; exact Q).
    assert (C2 : correct_env n w p (fun q => skipn nr (G q)) ysz (skipn nr out)) by (pose proof (correct_env_skipn _ _ _ _ _ _ nr CG) as Q; unfold nr in Q; rewrite skipn_app_exact in Q; exact Q).
    assert (LE : length env = length (cs ++ rs ++ xsz)) by (destruct CE as (A & _); exact A).
    pose proof (s_traced _ _ _ _ B env LE) as TR. rewrite RB, KE, Tr in TR. injection TR as Ko.
    assert (Kc : kinds (firstn nr out) = kinds carry) by (rewrite kinds_firstn, <- Ko; auto).
    specialize (IH FT' (fun q => firstn nr (G q)) (fun u q => if Nat.eqb u t then skipn nr (G q) else Yf u q) (firstn nr out) (fun u => if Nat.eqb u t then skipn nr out else ys u) carry' ys' C1).
    rewrite Kc in IH. specialize (IH Tr Fk (S2 G FG) E). destruct IH as (Cf' & Yf' & (R1 & R2) & HC' & I2 & I3).
    exists Cf', Yf'. destruct FG as [F1 F2]. split; [split|].
    + cbn. fold (Pt p). rewrite F1. exact R1.
    + intros k K. generalize (near_and _ _ (F2 k K) (R2 k K)). apply near_imp. intros z [Q1 Q2]. fold (Pt (line p w k z)). rewrite Q1. exact Q2.
    + split; auto. split.
      * intros u U. destruct (in_dec Nat.eq_dec u steps) as [J|J]; [auto|]. destruct U as [->|U]; [|contradiction]. destruct (I3 u J) as [Q1 Q2]. rewrite Q1, Q2, Nat.eqb_refl. exact C2.
      * intros u U. destruct (I3 u) as [Q1 Q2]; [intros J; apply U; right; auto|]. assert (N : Nat.eqb u t = false) by (apply Nat.eqb_neq; intros ->; apply U; left; auto). rewrite Q1, Q2, N. auto.
Qed.
Lemma loop_respects c c' x x' : agree cs c c' -> agree (map (fun z => T * z)%nat xsz) x x' -> forall steps, Forall (fun t => (t < T)%nat) steps -> forall r r' ys ys', agree rs r r' ->
  same_outcome (fun a b => agree rs (fst a) (fst b) /\ (forall u, In u steps -> agree ysz (snd a u) (snd b u)) /\ (forall u, ~ In u steps -> snd a u = ys u /\ snd b u = ys' u))
    (scan_loop (b_plain body) slice nr xsz c x steps r ys) (scan_loop (b_plain body) slice nr xsz c' x' steps r' ys').
Proof.
  intros (A1 & A2 & A3) (X1 & X2 & X3). rewrite map_length in X1, X2, X3. induction steps as [|t steps IH]; intros FT r r' ys ys' (R1 & R2 & R3); cbn [scan_loop]; [cbn; split; [split; auto|split; [intros u []|auto]]|].
  pose proof (Forall_inv FT) as Ht. pose proof (Forall_inv_tail FT) as FT'.
  assert (AE : agree (cs ++ rs ++ xsz) (c ++ r ++ slices slice xsz t x) (c' ++ r' ++ slices slice xsz t x')).
  { split; [rewrite !app_length, slices_length by auto; lia|]. split; [rewrite !app_length, slices_length by auto; lia|]. intros v i V I. rewrite !app_length in V.
    destruct (Nat.lt_ge_cases v (length cs)) as [L|L]; [rewrite (app_nth1 cs) in I by auto; rewrite !app_nth1 by lia; auto|].
    rewrite (app_nth2 cs) in I by auto. rewrite (app_nth2 c), (app_nth2 c') by lia. rewrite A1, A2.
    destruct (Nat.lt_ge_cases (v - length cs) (length rs)) as [L'|L']; [rewrite (app_nth1 rs) in I by auto; rewrite !app_nth1 by lia; auto|].
    rewrite (app_nth2 rs) in I by auto. rewrite (app_nth2 r), (app_nth2 r') by lia. rewrite R1, R2. set (j := (v - length cs - length rs)%nat) in *. assert (J : (j < length xsz)%nat) by (unfold j; lia).
    rewrite !nth_slices by auto. unfold slice. apply X3; auto. rewrite nth_times by auto. cbn beta in Ht. nia. }
  pose proof (s_respects _ _ _ _ B _ _ AE) as RS. unfold same_outcome in RS.
  destruct (b_plain body (c ++ r ++ slices slice xsz t x)) as [o| |], (b_plain body (c' ++ r' ++ slices slice xsz t x')) as [o'| |]; try contradiction; cbn; auto.
  destruct RS as (O1 & O2 & O3). rewrite app_length in O1, O2, O3.
  assert (AF : agree rs (firstn nr o) (firstn nr o')).
  { split; [rewrite firstn_length; unfold nr; lia|]. split; [rewrite firstn_length; unfold nr; lia|]. intros v i V I. rewrite !nth_firstn by auto. apply O3; [lia|]. rewrite app_nth1 by auto. auto. }
  assert (AS : agree ysz (skipn nr o) (skipn nr o')).
  { split; [rewrite skipn_length; unfold nr; lia|]. split; [rewrite skipn_length; unfold nr; lia|]. intros v i V I. rewrite !nth_skipn. unfold nr. apply O3; [lia|]. rewrite app_nth2 by lia. replace (length rs + v - length rs)%nat with v by lia. auto. }
  specialize (IH FT' (firstn nr o) (firstn nr o') (fun u => if Nat.eqb u t then skipn nr o else ys u) (fun u => if Nat.eqb u t then skipn nr o' else ys' u) AF).
  unfold same_outcome in IH |- *.
  destruct (scan_loop (b_plain body) slice nr xsz c x steps _ _) as [a| |], (scan_loop (b_plain body) slice nr xsz c' x' steps _ _) as [b| |]; auto.
  destruct IH as (I1 & I2 & I3). split; auto. split.
  - intros u U. destruct (in_dec Nat.eq_dec u steps) as [J|J]; [auto|]. destruct U as [->|U]; [|contradiction]. destruct (I3 u J) as [Q1 Q2]. rewrite Q1, Q2, Nat.eqb_refl. exact AS.
  - intros u U. destruct (I3 u) as [Q1 Q2]; [intros J; apply U; right; auto|]. assert (N : Nat.eqb u t = false) by (apply Nat.eqb_neq; intros ->; apply U; left; auto). rewrite Q1, Q2, N. auto.
Qed.
Lemma stack_correct size (Yf : nat -> vec -> arr) (ys : nat -> value) kind : (forall u, (u < T)%nat -> correct n w p (Yf u) size (ys u) /\ is_tracked (ys u) = kind) ->
  correct n w p (fun q => stack size (fun t => Yf t q)) (T * size) (stack_value kind size ys).
Proof.
  intros H. assert (D : forall o, (o < T * size)%nat -> (o / size < T)%nat /\ (o mod size < size)%nat).
  { intros o O. assert (size <> 0)%nat by nia. split; [apply Nat.div_lt_upper_bound; lia|apply Nat.mod_upper_bound; auto]. }
  unfold stack_value. destruct kind; cbn [correct]; intros o O; destruct (D o O) as [D1 D2]; destruct (H _ D1) as [C K].
  - unfold stack. cbn. exact (correct_gl n w p _ _ _ _ C D2).
  - unfold stack. destruct (correct_plain n w p _ _ _ _ C D2 K) as [E N]. split; auto.
Qed.

Definition scan_sizes := cs ++ rs ++ map (fun z => T * z)%nat xsz.
Definition scan_out_sizes := rs ++ map (fun z => T * z)%nat ysz.
Definition safe_scan (P : vec -> list arr) (ks : list bool) : Prop :=
  scan_safe (scan_steps s) (fun q => consts_of s (P q)) (fun q => xs_of s (P q)) (fun q => carry_of s (P q)) (consts_of s ks ++ zip_with orb (sc_float s) (carry_of s ks) ++ xs_of s ks).
Lemma steps_range : forall t, In t (scan_steps s) <-> (t < T)%nat.
Proof. intros t. unfold scan_steps, T. destruct (sc_reverse s); [rewrite <- in_rev|]; rewrite in_seq; lia. Qed.
Lemma parts {A} (e : list A) : length e = length scan_sizes -> length (consts_of s e) = length cs /\ length (carry_of s e) = length rs /\ length (xs_of s e) = length xsz.
Proof. unfold scan_sizes, consts_of, carry_of, xs_of. rewrite !app_length, map_length, Snc, Snr, !firstn_length, !skipn_length. lia. Qed.
Lemma parts_correct P env : correct_env n w p P scan_sizes env ->
  correct_env n w p (fun q => consts_of s (P q)) cs (consts_of s env) /\ correct_env n w p (fun q => carry_of s (P q)) rs (carry_of s env) /\
  correct_env n w p (fun q => xs_of s (P q)) (map (fun z => T * z)%nat xsz) (xs_of s env).
Proof.
  intros C. unfold consts_of, carry_of, xs_of. rewrite Snc, Snr. unfold scan_sizes in C. split; [|split].
  - pose proof (correct_env_firstn _ _ _ _ _ _ (length cs) C) as Q. rewrite firstn_app_exact in Q. exact Q.
  - pose proof (correct_env_skipn _ _ _ _ _ _ (length cs) C) as Q. rewrite skipn_app_exact in Q. pose proof (correct_env_firstn _ _ _ _ _ _ (length rs) Q) as Q'. rewrite firstn_app_exact in Q'. exact Q'.
  - pose proof (correct_env_skipn _ _ _ _ _ _ (length cs) C) as Q. rewrite skipn_app_exact in Q. pose proof (correct_env_skipn _ _ _ _ _ _ (length rs) Q) as Q'. rewrite skipn_app_exact in Q'. exact Q'.
Qed.
Lemma parts_agree e e' : agree scan_sizes e e' -> agree cs (consts_of s e) (consts_of s e') /\ agree rs (carry_of s e) (carry_of s e') /\ agree (map (fun z => T * z)%nat xsz) (xs_of s e) (xs_of s e').
Proof.
  intros (A1 & A2 & A3). destruct (parts e A1) as (L1 & L2 & L3), (parts e' A2) as (M1 & M2 & M3).
  unfold scan_sizes in A3. rewrite !app_length in A3. split; [|split]; (split; [rewrite ?map_length; auto|split; [rewrite ?map_length; auto|]]); intros v i V I; unfold consts_of, carry_of, xs_of in *; rewrite ?Snc, ?Snr in *.
  - rewrite !nth_firstn by auto. apply A3; [lia|]. rewrite app_nth1 by auto. auto.
  - rewrite !nth_firstn by auto. rewrite !nth_skipn. apply A3; [lia|]. rewrite app_nth2 by lia. replace (length cs + v - length cs)%nat with v by lia. rewrite app_nth1 by auto. auto.
  - rewrite map_length in *. rewrite !nth_skipn. apply A3; [lia|]. rewrite app_nth2 by lia. rewrite app_nth2 by lia. replace (length cs + (length rs + v) - length cs - length rs)%nat with v by lia. auto.
Qed.
Lemma kinds_parts env : kinds (consts_of s env) = consts_of s (kinds env) /\ kinds (carry_of s env) = carry_of s (kinds env) /\ kinds (xs_of s env) = xs_of s (kinds env).
Proof. unfold consts_of, carry_of, xs_of. rewrite !kinds_firstn, !kinds_skipn. rewrite ?kinds_firstn, ?kinds_skipn. auto. Qed.
Lemma beq_list_eq l m : beq_list l m = true -> l = m.
Proof. unfold beq_list. destruct (list_eq_dec bool_dec l m); auto; discriminate. Qed.
Lemma nth_seq_map {A} (f : nat -> A) m j d : (j < m)%nat -> nth j (map f (seq 0 m)) d = f j.
Proof. intros J. rewrite (nth_indep _ _ (f (nth m (seq 0 m) 0%nat))) by (rewrite map_length, seq_length; auto). rewrite (nth_indep _ _ (f 0%nat)) by (rewrite map_length, seq_length; auto). rewrite (map_nth f). rewrite seq_nth by auto. reflexivity. Qed.
Lemma stacks_nth {A} (f : nat -> A) j d : (j < length ysz)%nat -> nth j (map f (seq 0 (length (sc_ysizes s)))) d = f j.
Proof. rewrite Sy. apply nth_seq_map. Qed.

Theorem scan_sound : sound scan_sizes scan_out_sizes safe_scan (scan s body).
Proof.
  split.
  - intros e e' A. destruct (parts_agree e e' A) as (A1 & A2 & A3). cbn [scan b_plain]. rewrite Snr, Sx.
    assert (FT : Forall (fun t => (t < T)%nat) (scan_steps s)) by (apply Forall_forall; intros t; apply steps_range).
    pose proof (loop_respects _ _ _ _ A1 A3 (scan_steps s) FT _ _ (fun _ => []) (fun _ => []) A2) as R. unfold same_outcome in R. unfold nr in R.
    destruct (scan_loop (b_plain body) slice (length rs) xsz (consts_of s e) _ _ _ _) as [[c ys]| |], (scan_loop (b_plain body) slice (length rs) xsz (consts_of s e') _ _ _ _) as [[c' ys']| |]; auto.
    destruct R as ((R1 & R2 & R3) & I & _). cbn [fst snd] in *. unfold scan_out_sizes.
    split; [rewrite !app_length, !map_length, seq_length, Sy; lia|]. split; [rewrite !app_length, !map_length, seq_length, Sy; lia|].
    intros v i V J. rewrite app_length, map_length in V. destruct (Nat.lt_ge_cases v (length rs)) as [L|L].
    + rewrite app_nth1 in J by auto. rewrite !app_nth1 by lia. auto.
    + rewrite app_nth2 in J by auto. rewrite !app_nth2 by lia. rewrite R1, R2. set (j := (v - length rs)%nat) in *. assert (Jl : (j < length ysz)%nat) by (unfold j; lia).
      rewrite !stacks_nth by auto. rewrite nth_times in J by auto. rewrite Sy. unfold stack. set (z := nth j ysz 0%nat) in *. assert (z <> 0)%nat by nia.
      assert (U : (i / z < T)%nat) by (apply Nat.div_lt_upper_bound; lia). destruct (I (i / z)%nat (proj2 (steps_range _) U)) as (_ & _ & Q). apply Q; auto. apply Nat.mod_upper_bound. auto.
  - intros ks out L E. cbn [scan b_trace] in E. destruct (parts ks L) as (L1 & L2 & L3).
    destruct (b_trace body _) as [o|] eqn:Tr; [|discriminate]. destruct (beq_list _ _); [|discriminate]. injection E as <-.
    assert (LL : length (consts_of s ks ++ zip_with orb (sc_float s) (carry_of s ks) ++ xs_of s ks) = length (cs ++ rs ++ xsz)) by (rewrite !app_length, zip_with_length by congruence; lia).
    pose proof (s_trace_length _ _ _ _ B _ _ LL Tr) as Q. unfold scan_out_sizes. rewrite !app_length, map_length in *. exact Q.
  - intros env L. cbn [scan b_run b_trace]. destruct (parts env L) as (L1 & L2 & L3).
    destruct (kinds_parts env) as (K1 & K2 & K3). rewrite <- K1, <- K2, <- K3, <- kinds_promote.
    destruct (b_trace body _) as [ko|] eqn:Tr; [|reflexivity]. destruct (beq_list _ _) eqn:BE; [|reflexivity]. apply beq_list_eq in BE. rewrite Snr in BE. rewrite Snr, Sx.
    set (carry := zip_with promote (sc_float s) (carry_of s env)) in *.
    assert (Lr : length carry = length rs) by (unfold carry; rewrite zip_with_length; congruence).
    pose proof (loop_kinds (consts_of s env) (xs_of s env) ko L1 L3 (scan_steps s) carry (fun _ => []) Lr Tr BE) as Q. unfold nr in Q.
    destruct (scan_loop (b_run body) slice_value (length rs) xsz _ _ _ _ _) as [[c' ys']| |]; auto; [|contradiction]. destruct Q as (Q1 & Q2 & _).
    f_equal. rewrite kinds_app, Q1, <- BE.
    assert (Lk : length ko = (length rs + length ysz)%nat).
    { assert (LL : length (kinds (consts_of s env) ++ kinds carry ++ kinds (xs_of s env)) = length (cs ++ rs ++ xsz)) by (rewrite !app_length, !kinds_length; lia).
      pose proof (s_trace_length _ _ _ _ B _ _ LL Tr) as X. rewrite app_length in X. exact X. }
    rewrite <- (firstn_skipn (length rs) ko) at 1. f_equal. apply (nth_ext _ _ false false).
    + rewrite skipn_length, kinds_length, map_length, seq_length, Sy. lia.
    + intros j J. rewrite skipn_length in J. rewrite nth_skipn. unfold kinds. rewrite map_map.
      rewrite (nth_indep (map _ _) false (is_tracked (stack_value (nth (length rs + 0) ko false) (nth 0 (sc_ysizes s) 0%nat) (fun t => nth 0 (ys' t) (Plain zero_arr))))) by (rewrite map_length, seq_length, Sy; lia).
      rewrite (map_nth (fun j => is_tracked (stack_value (nth (length rs + j) ko false) (nth j (sc_ysizes s) 0%nat) (fun t => nth j (ys' t) (Plain zero_arr))))). rewrite seq_nth by (rewrite Sy; lia). cbn [Nat.add].
      destruct (nth (length rs + j) ko false); reflexivity.
  - intros P env out C S E. cbn [scan b_run] in E. destruct C as [L C0]. pose proof (conj L C0) as C. destruct (parts env L) as (L1 & L2 & L3). destruct (parts_correct P env C) as (C1 & C2 & C3).
    destruct (kinds_parts env) as (K1 & K2 & K3). unfold safe_scan in S. rewrite <- K1, <- K2, <- K3, <- kinds_promote in E, S.
    destruct (b_trace body _) as [ko|] eqn:Tr; [|discriminate]. destruct (beq_list _ _) eqn:BE; [|discriminate]. apply beq_list_eq in BE. rewrite Snr in BE. rewrite Snr, Sx in E.
    set (carry := zip_with promote (sc_float s) (carry_of s env)) in *.
    assert (Lr : length carry = length rs) by (unfold carry; rewrite zip_with_length; congruence).
    assert (HR : correct_env n w p (fun q => carry_of s (P q)) rs carry) by (apply promote_env; auto).
    pose proof (loop_kinds (consts_of s env) (xs_of s env) ko L1 L3 (scan_steps s) carry (fun _ => []) Lr Tr BE) as LK.
    assert (FT : Forall (fun t => (t < T)%nat) (scan_steps s)) by (apply Forall_forall; intros t; apply steps_range).
    unfold nr in *. destruct (scan_loop (b_run body) slice_value (length rs) xsz _ _ _ _ _) as [[c' ys']| |] eqn:RL; try discriminate. injection E as <-.
    destruct (loop_correct _ _ _ _ ko C1 C3 (scan_steps s) FT _ (fun _ _ => []) carry (fun _ => []) c' ys' HR Tr BE S RL) as (Cf' & Yf' & (R1 & R2) & CC & CY & _).
    destruct LK as (LK1 & LK2 & _).
    exists (fun q => Cf' q ++ map (fun j => stack (nth j (sc_ysizes s) 0%nat) (fun t => nth j (Yf' t q) zero_arr)) (seq 0 (length (sc_ysizes s)))).
    split.
    + unfold nr in R1, R2. split; [cbn [scan b_plain]; rewrite Snr, Sx, R1; reflexivity|]. intros k K. generalize (R2 k K). apply near_imp. intros z Z. cbn [scan b_plain]. rewrite Snr, Sx, Z. reflexivity.
    + unfold scan_out_sizes. apply correct_env_app; auto. split; [rewrite !map_length, seq_length, Sy; auto|]. split; [intros; rewrite !map_length, seq_length, Sy; auto|].
      intros j J. rewrite map_length in J. rewrite nth_times, stacks_nth by auto.
      apply (correct_ext n w p (fun q => stack (nth j (sc_ysizes s) 0%nat) (fun t => nth j (Yf' t q) zero_arr))); [intros; rewrite stacks_nth by auto; reflexivity|].
      rewrite Sy. apply (stack_correct (nth j ysz 0%nat) (fun t q => nth j (Yf' t q) zero_arr)). intros u U. apply steps_range in U. split.
      * destruct (CY u U) as (_ & _ & Q). exact (Q j J).
      * rewrite <- (map_nth is_tracked). change (map is_tracked (ys' u)) with (kinds (ys' u)). rewrite (LK2 u U). cbn [is_tracked]. rewrite nth_skipn. reflexivity.
Qed.
End Scan.

(** ** while *)
Section While.
Variables (ccs bs rs : list nat) (safe : (vec -> list arr) -> list bool -> Prop) (cond body : block).
Hypothesis CR : forall e e', agree (ccs ++ rs) e e' -> same_outcome (agree [1%nat]) (b_plain cond e) (b_plain cond e').
Hypothesis B : sound (bs ++ rs) rs safe body.
(** At every state the loop reaches the condition does not change near the point, and the body is
    smooth whenever it is executed. *)
Fixpoint while_safe (fuel : nat) (Pcc Pbc Cf : vec -> list arr) (kin : list bool) : Prop :=
  match fuel with
  | O => True
  | S fuel' =>
      let c := fun q => truth (b_plain cond (Pcc q ++ Cf q)) in
      let Pt := fun q => Pbc q ++ Cf q in
      (forall k, (k < n)%nat -> near (fun s => c (line p w k s) = c p)) /\
      (c p = Done true -> safe Pt kin /\ forall G, follows body Pt G -> while_safe fuel' Pcc Pbc G kin)
  end.
Lemma truth_agree x y : same_outcome (agree [1%nat]) x y -> truth x = truth y.
Proof.
  destruct x as [a| |], y as [b| |]; cbn; try contradiction; auto. intros (L1 & L2 & A). destruct a as [|a [|]], b as [|b [|]]; try discriminate. cbn. specialize (A 0%nat 0%nat). cbn in A. rewrite A by lia. reflexivity.
Qed.
Lemma agree_app s1 s2 a a' b b' : agree s1 a a' -> agree s2 b b' -> agree (s1 ++ s2) (a ++ b) (a' ++ b').
Proof.
  intros (A1 & A2 & A3) (B1 & B2 & B3). split; [rewrite !app_length; lia|]. split; [rewrite !app_length; lia|]. intros v i V I. rewrite app_length in V.
  destruct (Nat.lt_ge_cases v (length s1)) as [L|L].
  - rewrite app_nth1 in I by auto. rewrite !app_nth1 by lia. auto.
  - rewrite app_nth2 in I by auto. rewrite !app_nth2 by lia. rewrite A1, A2. apply B3; [lia|auto].
Qed.
Lemma agree_skipn m sz a a' : agree sz a a' -> agree (skipn m sz) (skipn m a) (skipn m a').
Proof. intros (A1 & A2 & A3). split; [rewrite !skipn_length; lia|]. split; [rewrite !skipn_length; lia|]. intros v i V I. rewrite skipn_length in V. rewrite nth_skipn in I. rewrite !nth_skipn. apply A3; [lia|auto]. Qed.
Lemma agree_firstn m sz a a' : agree sz a a' -> agree (firstn m sz) (firstn m a) (firstn m a').
Proof. intros (A1 & A2 & A3). split; [rewrite !firstn_length; lia|]. split; [rewrite !firstn_length; lia|]. intros v i V I. rewrite firstn_length in V. rewrite nth_firstn in I by lia. rewrite !nth_firstn by lia. apply A3; [lia|auto]. Qed.
Lemma correct_agree P sizes env : correct_env n w p P sizes env -> agree sizes (map primal env) (P p).
Proof.
  intros (A & C & D). split; [rewrite map_length; auto|]. split; auto. intros v i V I. change zero_arr with (primal (Plain zero_arr)) at 1. rewrite (map_nth primal). apply (correct_value n w p _ _ _ i (D v V) I).
Qed.
Lemma while_loop_correct Pcc Pbc cc bc : correct_env n w p Pcc ccs cc -> correct_env n w p Pbc bs bc -> forall fuel Cf carry out, correct_env n w p Cf rs carry ->
  b_trace body (kinds bc ++ kinds carry) = Some (kinds carry) -> while_safe fuel Pcc Pbc Cf (kinds bc ++ kinds carry) ->
  while_loop (fun c => truth (b_plain cond (map primal (cc ++ c)))) (fun c => b_run body (bc ++ c)) fuel carry = Done out ->
  exists G, (let run := fun q => while_loop (fun c => truth (b_plain cond (Pcc q ++ c))) (fun c => b_plain body (Pbc q ++ c)) fuel (Cf q) in
    run p = Done (G p) /\ forall k, (k < n)%nat -> near (fun s => run (line p w k s) = Done (G (line p w k s)))) /\ correct_env n w p G rs out.
Proof.
  intros HC HB. induction fuel as [|fuel IH]; intros Cf carry out HR Tr SS E; cbn [while_loop while_safe] in *; [discriminate|]. destruct SS as [S1 S2].
  assert (CV : truth (b_plain cond (map primal (cc ++ carry))) = truth (b_plain cond (Pcc p ++ Cf p))).
  { apply truth_agree, CR. apply (correct_agree (fun q => Pcc q ++ Cf q)). apply correct_env_app; auto. }
  rewrite CV in E. destruct (truth (b_plain cond (Pcc p ++ Cf p))) as [[]| |] eqn:CP; try discriminate.
  - destruct (S2 eq_refl) as [Sb Sn]. set (Pt := fun q => Pbc q ++ Cf q) in *.
    assert (CE : correct_env n w p Pt (bs ++ rs) (bc ++ carry)) by (apply correct_env_app; auto).
    destruct (b_run body (bc ++ carry)) as [o| |] eqn:RB; try discriminate.
    assert (KE : kinds (bc ++ carry) = kinds bc ++ kinds carry) by apply kinds_app. rewrite <- KE in Sb.
    destruct (s_correct _ _ _ _ B Pt _ _ CE Sb RB) as (G & FG & CG).
    assert (LE : length (bc ++ carry) = length (bs ++ rs)) by (destruct CE as (A & _); exact A).
    pose proof (s_traced _ _ _ _ B _ LE) as TR. rewrite RB, KE, Tr in TR. injection TR as Ko.
    specialize (IH G o out CG). rewrite <- Ko in IH. specialize (IH Tr (Sn G FG) E). destruct IH as (G' & (R1 & R2) & CG'). exists G'. destruct FG as [F1 F2]. split; auto. split.
    + fold (Pt p). rewrite F1. exact R1.
    + intros k K. generalize (near_and _ _ (S1 k K) (near_and _ _ (F2 k K) (R2 k K))). apply near_imp. intros z (Q0 & Q1 & Q2). rewrite Q0. fold (Pt (line p w k z)). rewrite Q1. exact Q2.
  - injection E as <-. exists Cf. split; auto. split; [reflexivity|]. intros k K. generalize (S1 k K). apply near_imp. intros z Q. rewrite Q. reflexivity.
Qed.
Lemma while_loop_respects cc cc' bc bc' : agree ccs cc cc' -> agree bs bc bc' -> forall fuel c c', agree rs c c' ->
  same_outcome (agree rs) (while_loop (fun c => truth (b_plain cond (cc ++ c))) (fun c => b_plain body (bc ++ c)) fuel c) (while_loop (fun c => truth (b_plain cond (cc' ++ c))) (fun c => b_plain body (bc' ++ c)) fuel c').
Proof.
  intros A1 A2. induction fuel as [|fuel IH]; intros c c' A; cbn [while_loop]; [exact I|].
  rewrite (truth_agree _ _ (CR _ _ (agree_app _ _ _ _ _ _ A1 A))). destruct (truth (b_plain cond (cc' ++ c'))) as [[]| |]; cbn; auto.
  pose proof (s_respects _ _ _ _ B _ _ (agree_app _ _ _ _ _ _ A2 A)) as R. unfold same_outcome in R. destruct (b_plain body (bc ++ c)), (b_plain body (bc' ++ c')); try contradiction; cbn; auto.
Qed.
Definition safe_while (fuel : nat) (P : vec -> list arr) (ks : list bool) : Prop :=
  while_safe fuel (fun q => firstn (length ccs) (P q)) (fun q => firstn (length bs) (skipn (length ccs) (P q))) (fun q => skipn (length bs) (skipn (length ccs) (P q)))
    (firstn (length bs) (skipn (length ccs) ks) ++ skipn (length bs) (skipn (length ccs) ks)).
Theorem while_sound fuel : (forall e, length e = length (ccs ++ rs) -> truth (b_plain cond e) <> Raised) ->
  sound (ccs ++ bs ++ rs) rs (safe_while fuel) (while (length ccs) (length bs) fuel cond body).
Proof.
  intros NR. split.
  - intros e e' A. cbn [while b_plain].
    pose proof (agree_firstn (length ccs) _ _ _ A) as A1. rewrite firstn_app_exact in A1.
    pose proof (agree_skipn (length ccs) _ _ _ A) as A'. rewrite skipn_app_exact in A'.
    pose proof (agree_firstn (length bs) _ _ _ A') as A2. rewrite firstn_app_exact in A2.
    pose proof (agree_skipn (length bs) _ _ _ A') as A3. rewrite skipn_app_exact in A3. apply while_loop_respects; auto.
  - intros ks out L E. cbn [while b_trace] in E. destruct (b_trace body _) as [o|] eqn:Tr; [|discriminate]. destruct (beq_list _ _) eqn:BE; [|discriminate]. injection E as <-.
    apply (s_trace_length _ _ _ _ B _ _) in Tr; auto. rewrite firstn_skipn, skipn_length, L, !app_length. lia.
  - intros env L. cbn [while b_run b_trace]. destruct (b_trace body _) as [o|] eqn:Tr; [|reflexivity]. destruct (beq_list _ _) eqn:BE; [|reflexivity]. apply beq_list_eq in BE. subst o.
    set (cc := firstn (length ccs) env) in *. set (bc := firstn (length bs) (skipn (length ccs) env)) in *. set (carry := skipn (length bs) (skipn (length ccs) env)) in *.
    assert (KB : firstn (length bs) (skipn (length ccs) (kinds env)) = kinds bc) by (unfold bc; rewrite kinds_firstn, kinds_skipn; reflexivity).
    assert (KC : skipn (length bs) (skipn (length ccs) (kinds env)) = kinds carry) by (unfold carry; rewrite !kinds_skipn; reflexivity).
    rewrite KB, KC in *. rewrite !app_length in L.
    assert (Lb : length bc = length bs) by (unfold bc; rewrite firstn_length, skipn_length; lia).
    assert (Lcc : length cc = length ccs) by (unfold cc; rewrite firstn_length; lia).
    assert (Lr : length carry = length rs) by (unfold carry; rewrite !skipn_length; lia).
    clearbody cc bc carry. clear KB KC L. revert carry Tr Lr. induction fuel as [|fuel IH]; intros carry Tr Lr; cbn [while_loop]; [exact I|].
    pose proof (NR (map primal (cc ++ carry)) ltac:(rewrite map_length, !app_length; lia)) as N.
    destruct (truth _) as [[]| |]; auto; [|congruence].
    pose proof (s_traced _ _ _ _ B (bc ++ carry) ltac:(rewrite !app_length; lia)) as TR. rewrite kinds_app, Tr in TR. destruct (b_run body (bc ++ carry)) as [o| |]; [|discriminate|exact I].
    injection TR as Ko. rewrite Ko in Tr |- *. specialize (IH o).
    assert (Lo : length o = length rs) by (rewrite <- (kinds_length o), <- Ko, kinds_length; auto). apply IH; auto.
  - intros P env out C S E. cbn [while b_run] in E. destruct (b_trace body _) as [o|] eqn:Tr; [|discriminate]. destruct (beq_list _ _) eqn:BE; [|discriminate]. apply beq_list_eq in BE. subst o.
    pose proof (correct_env_firstn _ _ _ _ _ _ (length ccs) C) as C1. rewrite firstn_app_exact in C1.
    pose proof (correct_env_skipn _ _ _ _ _ _ (length ccs) C) as C'. rewrite skipn_app_exact in C'.
    pose proof (correct_env_firstn _ _ _ _ _ _ (length bs) C') as C2. rewrite firstn_app_exact in C2.
    pose proof (correct_env_skipn _ _ _ _ _ _ (length bs) C') as C3. rewrite skipn_app_exact in C3.
    unfold safe_while in S. rewrite <- !kinds_skipn, <- !kinds_firstn in S. rewrite <- !kinds_skipn, <- !kinds_firstn in Tr.
    destruct (while_loop_correct _ _ _ _ C1 C2 fuel _ _ out C3 Tr S E) as (G & (R1 & R2) & CG). exists G. split; auto. split; auto.
Qed.
End While.

(** ** Dispatch and calls *)
Lemma no_tracked env : existsb is_tracked env = existsb (fun k => k) (kinds env).
Proof. induction env as [|v env IH]; cbn; auto. rewrite IH. reflexivity. Qed.
Lemma agree_refl sizes e : length e = length sizes -> agree sizes e e.
Proof. intros L. repeat split; auto. Qed.
Theorem dispatch_sound sizes sizes' safe b : (forall e, length e = length sizes -> b_plain b e <> Raised) -> sound sizes sizes' safe b ->
  sound sizes sizes' (fun P ks => existsb (fun k => k) ks = true -> safe P ks) (dispatch (length sizes') b).
Proof.
  intros NR S. assert (LN : forall e o, length e = length sizes -> b_plain b e = Done o -> length o = length sizes').
  { intros e o L E. pose proof (s_respects _ _ _ _ S e e (agree_refl _ _ L)) as R. rewrite E in R. apply R. }
  split.
  - apply (s_respects _ _ _ _ S).
  - intros ks out L E. cbn in E. destruct (existsb (fun k => k) ks); [apply (s_trace_length _ _ _ _ S ks); auto|]. injection E as <-. apply repeat_length.
  - intros env L. cbn. rewrite <- no_tracked. destruct (existsb is_tracked env); [apply (s_traced _ _ _ _ S env L)|].
    specialize (NR (map primal env)). rewrite map_length in NR. specialize (NR L). destruct (b_plain b (map primal env)) as [o| |] eqn:E; auto; [|congruence].
    apply LN in E; [|rewrite map_length; auto]. f_equal. rewrite <- E. unfold kinds. rewrite map_map. cbn. clear. induction o; cbn; auto. rewrite <- IHo. reflexivity.
  - intros P env out C SF E. cbn in E. rewrite no_tracked in E. destruct (existsb (fun k => k) (kinds env)) eqn:TK; [apply (s_correct _ _ _ _ S P env out C); auto|].
    rewrite <- no_tracked in TK. destruct (b_plain b (map primal env)) as [o| |] eqn:PE; try discriminate. injection E as <-.
    assert (NT : forall v, is_tracked (nth v env (Plain zero_arr)) = false).
    { intros v. destruct (Nat.lt_ge_cases v (length env)) as [L|L]; [|rewrite nth_overflow by auto; reflexivity]. destruct (is_tracked (nth v env (Plain zero_arr))) eqn:X; auto.
      assert (Y : existsb is_tracked env = true) by (apply existsb_exists; exists (nth v env (Plain zero_arr)); split; [apply nth_In; auto|auto]). congruence. }
    pose proof C as (L1 & L2 & L3).
    assert (NA : forall k, (k < n)%nat -> near (fun s => agree sizes (map primal env) (P (line p w k s)))).
    { intros k K.
      assert (Q : near (fun s => forall v, (v < length sizes)%nat -> forall i, (i < nth v sizes 0)%nat -> nth v (P (line p w k s)) zero_arr i = primal (nth v env (Plain zero_arr)) i)).
      { apply (near_sum (length sizes) (fun v s => forall i, (i < nth v sizes 0)%nat -> nth v (P (line p w k s)) zero_arr i = primal (nth v env (Plain zero_arr)) i)). intros v V.
        apply (near_sum (nth v sizes 0%nat) (fun i s => nth v (P (line p w k s)) zero_arr i = primal (nth v env (Plain zero_arr)) i)). intros i I.
        destruct (correct_plain n w p _ _ _ i (L3 v V) I (NT v)) as [_ N]. exact (N k K). }
      revert Q. apply near_imp. intros s Q. split; [rewrite map_length; auto|]. split; auto. intros v i V I. rewrite (Q v V i I). change zero_arr with (primal (Plain zero_arr)) at 1. rewrite (map_nth primal). reflexivity. }
    pose proof (correct_agree P sizes env C) as A0.
    set (G := fun q => match b_plain b (P q) with Done o => o | _ => repeat zero_arr (length sizes') end).
    assert (AG : forall q, agree sizes (map primal env) (P q) -> b_plain b (P q) = Done (G q) /\ agree sizes' o (G q)).
    { intros q A. pose proof (s_respects _ _ _ _ S _ _ A) as R. rewrite PE in R. unfold G. cbn in R. destruct (b_plain b (P q)); try contradiction. auto. }
    exists G. split; [split; [apply AG; auto|intros k K; generalize (NA k K); apply near_imp; intros s A; apply AG; auto]|].
    assert (LO : length o = length sizes') by (apply (LN (map primal env)); [rewrite map_length; auto|auto]).
    split; [rewrite map_length; auto|]. split.
    + intros q. unfold G. destruct (b_plain b (P q)) as [o'| |] eqn:X; try apply repeat_length. apply (LN (P q)); auto.
    + intros v V. rewrite (map_nth Plain). cbn [correct]. intros i I. destruct (AG p A0) as [_ (_ & _ & AP)]. split; [apply AP; auto|].
      intros k K. generalize (NA k K). apply near_imp. intros s A. destruct (AG _ A) as [_ (_ & _ & Q)]. symmetry. apply Q; auto.
Qed.
End Blocks.
