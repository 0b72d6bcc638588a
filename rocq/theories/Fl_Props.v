(** C88: the forward Laplacian through determinants, loops, calls and dispatch (see also
    Fl_Slogdet.v for the determinant and complex rules, Fl_Custom_Props.v for user rules).

    [sound n w p sizes sizes' safe b] (Fl_Loop_Props.v) says of a block [b]: whenever the inputs
    carry the derivatives of some functions of the coordinates, the plain block is smooth there
    ([safe]) and the interpreter returns, then the plain block returns some [G] at the point and
    near it on every coordinate line, and the returned values carry the value, gradient and
    Laplacian of [G] (untracked ones: [G] is constant nearby). *)
From Coq Require Import Reals String List Arith Bool Lra Lia FunctionalExtensionality.
From Coquelicot Require Import Complex.
From Verif Require Import Lin Lap_Spec Jet Lap_Lang Lap_Model Lap_Props Fl_Spec Fl_Model Fl_Slogdet Fl_Loop_Model Fl_Loop_Props.
Import ListNotations.
Open Scope list_scope.
Open Scope R_scope.

(** Straight-line programs over the primitives of C38 are sound blocks. *)
Theorem C88_straight_line : forall n w p sizes prog outs, well_formed_program sizes prog -> Forall (fun o => (o < length sizes + length prog)%nat) outs ->
  sound n w p sizes (map (fun o => nth o (sizes ++ map snd prog) 0%nat) outs) (straight_safe p prog) (straight n (map fst prog) outs).
Proof. intros. apply straight_sound; auto. Qed.
(** A scan over a sound body is sound: any number of steps, forward or reverse, any mix of tracked
    and plain constants, carries and scanned inputs. Bodies may themselves contain loops. *)
Theorem C88_scan : forall n w p cs rs xsz ysz safe body s,
  sc_nconst s = length cs -> sc_ncarry s = length rs -> length (sc_float s) = length rs -> sc_xsizes s = xsz -> sc_ysizes s = ysz ->
  sound n w p (cs ++ rs ++ xsz) (rs ++ ysz) safe body ->
  sound n w p (cs ++ rs ++ map (fun z => sc_length s * z)%nat xsz) (rs ++ map (fun z => sc_length s * z)%nat ysz) (safe_scan n w p rs xsz safe body s) (scan s body).
Proof. intros. apply (scan_sound n w p cs rs xsz ysz safe body s); auto. Qed.
(** A while loop with a sound body is sound as long as its condition does not change near the
    point at any state reached. *)
Theorem C88_while : forall n w p ccs bs rs safe cond body fuel,
  (forall e e', agree (ccs ++ rs) e e' -> same_outcome (agree [1%nat]) (b_plain cond e) (b_plain cond e')) ->
  (forall e, length e = length (ccs ++ rs) -> truth (b_plain cond e) <> Raised) ->
  sound n w p (bs ++ rs) rs safe body ->
  sound n w p (ccs ++ bs ++ rs) rs (safe_while n w p ccs bs safe cond body fuel) (while (length ccs) (length bs) fuel cond body).
Proof. intros. apply while_sound; auto. Qed.
(** The shortcut for equations without tracked inputs is sound, with no smoothness condition. *)
Theorem C88_dispatch : forall n w p sizes sizes' safe b, (forall e, length e = length sizes -> b_plain b e <> Raised) -> sound n w p sizes sizes' safe b ->
  sound n w p sizes sizes' (fun P ks => existsb (fun k => k) ks = true -> safe P ks) (dispatch (length sizes') b).
Proof. intros. apply dispatch_sound; auto. Qed.
(** A jitted function whose name has no rule is transparent. *)
Theorem C88_jit_is_transparent : forall n w p sizes sizes' safe registry name nout sub, registry name = None ->
  sound n w p sizes sizes' safe sub -> sound n w p sizes sizes' safe (jit registry name nout sub).
Proof.
  intros n w p sizes sizes' safe registry name nout sub R S. split; unfold jit; cbn; rewrite ?R; [apply (s_respects _ _ _ _ _ _ _ S)|apply (s_trace_length _ _ _ _ _ _ _ S)|apply (s_traced _ _ _ _ _ _ _ S)|].
  intros P env out C SF E. destruct (s_correct _ _ _ _ _ _ _ S P env out C SF E) as (G & F & Q). exists G. auto.
Qed.

(** ** The slogdet rule inside a program *)
Lemma matrix_index m r c : (r < m)%nat -> (c < m)%nat -> (r * m + c < m * m)%nat.
Proof. nia. Qed.
Lemma determinant_ext m a a' : (forall r c, (r < m)%nat -> (c < m)%nat -> a r c = a' r c) -> determinant m a = determinant m a'.
Proof. rewrite !determinant_cdet. apply Vandermonde.cdet_ext. Qed.
Definition plain_det (m : nat) (a : arr) : C := determinant m (fun r c => RtoC (a (r * m + c)%nat)).
Theorem C88_slogdet_in_a_program : forall n w p m inv,
  (forall a, determinant m (fun r c => a (r, c)) <> RtoC 0 -> complex_inverse m (fun r c => a (r, c)) (fun r c => inv a (r, c))) ->
  sound n w p [m * m]%nat [1; 1]%nat (fun P _ => plain_det m (nth 0 (P p) zero_arr) <> RtoC 0) (slogdet_block n m inv).
Proof.
  intros n w p m inv HI. split.
  - intros e e' (L1 & L2 & A). destruct e as [|a [|]], e' as [|a' [|]]; try discriminate. cbn.
    assert (D : slogdet_plain m a = slogdet_plain m a').
    { unfold slogdet_plain, slogdet, as_matrix. cbn. rewrite (determinant_ext m (fun r c => RtoC (a (r * m + c)%nat)) (fun r c => RtoC (a' (r * m + c)%nat))); [reflexivity|].
      intros r c R' C'. f_equal. apply (A 0%nat (r * m + c)%nat); cbn; [lia|apply matrix_index; auto]. }
    rewrite D. apply agree_refl. reflexivity.
  - intros ks out L E. destruct ks; [discriminate|]. cbn in E. injection E as <-. reflexivity.
  - intros env L. destruct env as [|[a|t] [|]]; try discriminate; reflexivity.
  - intros P env out C S E. destruct C as (L1 & L2 & L3). destruct env as [|v [|]]; try discriminate. specialize (L3 0%nat ltac:(cbn; lia)). cbn [nth] in L3.
    set (F := fun q => nth 0 (P q) zero_arr) in *.
    assert (PE : forall q, b_plain (slogdet_block n m inv) (P q) = Done (slogdet_plain m (F q))).
    { intros q. unfold F. specialize (L2 q). destruct (P q) as [|a [|]]; try discriminate. reflexivity. }
    exists (fun q => slogdet_plain m (F q)). split; [split; [apply PE|intros; apply near_all; intros; apply PE]|].
    destruct v as [a|t].
    + cbn in E. injection E as <-. cbn in L3.
      assert (D : plain_det m a = plain_det m (F p)) by (apply determinant_ext; intros r c R' C'; f_equal; apply L3, matrix_index; auto).
      assert (N : forall k, (k < n)%nat -> near (fun s => slogdet_plain m (F (line p w k s)) = slogdet_plain m a)).
      { intros k K. assert (Q : near (fun s => forall i, (i < m * m)%nat -> F (line p w k s) i = a i)) by (apply (near_sum (m * m) (fun i s => F (line p w k s) i = a i)); intros i I; destruct (L3 i I) as [_ Q]; auto).
        revert Q. apply near_imp. intros s Q. unfold slogdet_plain, slogdet, as_matrix. cbn.
        rewrite (determinant_ext m (fun r c => RtoC (F (line p w k s) (r * m + c)%nat)) (fun r c => RtoC (a (r * m + c)%nat))); [reflexivity|]. intros r c R' C'. f_equal. apply Q, matrix_index; auto. }
      assert (E0 : slogdet_plain m a = slogdet_plain m (F p)) by (unfold slogdet_plain, slogdet, as_matrix; cbn; fold (plain_det m a) (plain_det m (F p)); rewrite D; reflexivity).
      split; [reflexivity|]. split; [reflexivity|]. intros v V. cbn [length] in V. destruct v as [|[|v]]; [| |lia]; cbn [nth correct]; (intros i I; split; [rewrite <- E0; reflexivity|intros k K; generalize (N k K); apply near_imp; intros s Q; rewrite Q; reflexivity]).
    + cbn in L3.
      set (x := {| c_x := as_matrix m (lx t); c_jac := fun k => as_matrix m (jac t k); c_lapl := as_matrix m (lapl t) |}).
      assert (G : forall r c, (r < m)%nat -> (c < m)%nat -> complex_gradient_and_laplacian n w p (fun q => RtoC (F q (r * m + c)%nat)) (c_x x (r, c)) (fun k => c_jac x k (r, c)) (c_lapl x (r, c))).
      { intros r c R' C'. split; cbn; [apply L3, matrix_index; auto|apply gl_zero; auto]. }
      assert (D : determinant m (fun r c => c_x x (r, c)) = plain_det m (F p)).
      { apply determinant_ext. intros r c R' C'. destruct (L3 _ (matrix_index m r c R' C')) as [Q _]. unfold x, as_matrix. cbn [c_x fst snd]. rewrite Q. reflexivity. }
      assert (I : complex_inverse m (fun r c => c_x x (r, c)) (fun r c => inv (as_matrix m (lx t)) (r, c))) by (apply (HI (as_matrix m (lx t))); change (determinant m (fun r c => c_x x (r, c)) <> RtoC 0); rewrite D; exact S).
      destruct (C88_slogdet_of_real_matrices n m w p (fun q r c => F q (r * m + c)%nat) x (inv (as_matrix m (lx t))) G I S) as (sg & ld & HE & V & N & L).
      unfold slogdet_block in E. cbn [b_run] in E. fold x in E. rewrite HE in E. cbn [fst snd] in E. injection E as <-.
      split; [reflexivity|]. split; [reflexivity|]. intros v Vv. cbn [length] in Vv. destruct v as [|[|v]]; [| |lia]; cbn [nth real_part correct].
      * intros i Hi. unfold slogdet_plain, slogdet. cbn. unfold as_matrix; cbn. fold (plain_det m (F p)). split; [exact (f_equal fst V)|]. intros k K. generalize (N k K). apply near_imp. intros s Q. exact (f_equal fst Q).
      * intros i Hi. exact (proj1 L).
Qed.
(** The hypothesis on the inverse is what jnp.linalg.inv provides; for one-by-one matrices: *)
Example inverse_exists : forall a, determinant 1 (fun r c => a (r, c)) <> RtoC 0 -> complex_inverse 1 (fun r c => a (r, c)) (fun r c => (fun a (i : nat * nat) => Cinv (a i)) a (r, c)).
Proof.
  intros a D. assert (NZ : a (0, 0)%nat <> RtoC 0).
  { intros E. apply D. rewrite determinant_cdet. rewrite Vandermonde.cdet_S. unfold Vandermonde.cbsum. cbn. rewrite E. unfold Det.alt; cbn. apply injective_projections; cbn; ring. }
  split; intros [|r] [|c] R' C'; try lia; rewrite csum_cbsum; unfold Vandermonde.cbsum; cbn; rewrite ?Cinv_r, ?Cinv_l by auto; unfold delta; cbn; apply injective_projections; cbn; ring.
Qed.

(** ** A jitted function that happens to be called "slogdet" *)
Definition square : block := straight 1 [Mul (fun i => i) (fun i => i) 0 0] [1%nat].
Definition inv1 : (nat * nat -> C) -> nat * nat -> C := fun a i => Cinv (a i).
(** gets the determinant rule: x * x at x = 3 is returned as 1, without derivatives. *)
Theorem C88_jit_by_name_refuted :
  b_plain (jit (named_rules 1 1 inv1) "slogdet"%string 1 square) [fun _ => 3] = Done [fun _ => 9] /\
  exists v, b_run (jit (named_rules 1 1 inv1) "slogdet"%string 1 square) [Tracked {| lx := fun _ => 3; jac := fun _ _ => 1; lapl := fun _ => 0 |}] = Done [Plain v] /\ v 0%nat = 1.
Proof.
  split.
  - cbn. f_equal. f_equal. apply functional_extensionality. intros i. ring.
  - eexists. split; [reflexivity|]. cbn. unfold as_matrix; cbn.
    replace (csum 1 (fun i => Cmult (RtoC ((-1) ^ i)) (Cmult (RtoC 3) (RtoC 1)))) with (RtoC 3) by (unfold csum, Cmult, RtoC; cbn; f_equal; ring).
    rewrite Cmod_R, Rabs_right by lra. cbn. field. 
Qed.

(** ** When loops raise *)
Lemma straight_loop_finishes n prog outs nc sizes consts xs : forall steps carry ys, exists r, scan_loop (b_run (straight n prog outs)) slice_value nc sizes consts xs steps carry ys = Done r.
Proof. induction steps as [|t steps IH]; intros carry ys; cbn [scan_loop]; [eexists; reflexivity|]. cbn [straight b_run]. apply IH. Qed.
(** A scan raises exactly when, after promotion, the body turns a tracked carry into an untracked
    one or the other way round. *)
Theorem C88_scan_raises_iff : forall n prog outs s env, length (xs_of s env) = length (sc_xsizes s) ->
  b_run (scan s (straight n prog outs)) env = Raised <->
  (forall out, b_run (straight n prog outs) (consts_of s env ++ zip_with promote (sc_float s) (carry_of s env) ++ slices slice_value (sc_xsizes s) 0 (xs_of s env)) = Done out ->
     map is_tracked (firstn (sc_ncarry s) out) <> map is_tracked (zip_with promote (sc_float s) (carry_of s env))).
Proof.
  intros n prog outs s env LX. cbn [scan b_run].
  destruct (kinds_parts s env) as (K1 & K2 & K3). rewrite <- K1, <- K2, <- K3, <- kinds_promote.
  set (carry := zip_with promote (sc_float s) (carry_of s env)) in *. set (e0 := consts_of s env ++ carry ++ slices slice_value (sc_xsizes s) 0 (xs_of s env)).
  assert (KE : kinds e0 = kinds (consts_of s env) ++ kinds carry ++ kinds (xs_of s env)) by (unfold e0; rewrite !kinds_app, kinds_slices; auto).
  cbn [straight b_trace]. rewrite <- KE.
  assert (T : map (fun o => is_tracked (nthv (Plain zero_arr) (run_lap n prog (map dummy (kinds e0))) o)) outs = kinds (map (nthv (Plain zero_arr) (run_lap n prog e0)) outs)).
  { unfold kinds at 2. rewrite map_map. apply map_ext. intros o. unfold nthv. rewrite <- !(map_nth is_tracked).
    change (map is_tracked (run_lap n prog (map dummy (kinds e0)))) with (kinds (run_lap n prog (map dummy (kinds e0)))). rewrite (run_lap_kinds n prog _ e0) by apply kinds_dummy. reflexivity. }
  rewrite T. destruct (beq_list _ _) eqn:BE.
  - apply beq_list_eq in BE. split; intros H; exfalso.
    + destruct (straight_loop_finishes n prog outs (sc_ncarry s) (sc_xsizes s) (consts_of s env) (xs_of s env) (scan_steps s) carry (fun _ => [])) as [[c y] E]. rewrite E in H. discriminate.
    + apply (H _ eq_refl). change (map is_tracked carry) with (kinds carry). rewrite <- BE. symmetry. apply firstn_map.
  - split; auto. intros _ out E. cbn in E. injection E as <-. intros Q. unfold beq_list in BE. destruct (list_eq_dec bool_dec _ _) as [|N]; [discriminate|]. apply N. change (kinds carry) with (map is_tracked carry). rewrite <- Q. apply firstn_map.
Qed.

(** A legal scan whose body resets its carry to a constant: plain evaluation works, the forward
    Laplacian raises. *)
Definition reset_body : block := straight 1 [Linear [] (fun _ => []); Mul (fun i => i) (fun i => i) 1 1] [2; 3]%nat. (* (carry, x) -> (0, x * x) *)
Definition reset_scan : scan_params := {| sc_nconst := 0; sc_ncarry := 1; sc_length := 2; sc_reverse := false; sc_float := [true]; sc_xsizes := [1%nat]; sc_ysizes := [1%nat] |}.
Theorem C88_scan_reset_carry_refuted : forall a, (exists vs, b_plain (scan reset_scan reset_body) [a; fun i => INR i] = Done vs) /\
  b_run (scan reset_scan reset_body) [Plain a; Tracked {| lx := fun i => INR i; jac := fun k i => delta k i; lapl := fun _ => 0 |}] = Raised.
Proof. intros a. split; [eexists; reflexivity|reflexivity]. Qed.
(** A while loop that accumulates tracked values into an untracked start: raises (carries of while
    are not promoted). *)
Definition sum_body : block := straight 1 [Add (fun i => i) (fun i => i) 0 1; Unary {| sf := fun x => x + 1; sf1 := fun _ => 1; sf2 := fun _ => 0; sdom := fun _ => True;
  sopen := fun x _ => ex_intro _ 1 (conj Rlt_0_1 (fun _ _ => I));
  sd1 := fun x _ => derivable_eq _ _ (1 + 0) 1 (Rplus_0_r 1) (derivable_pt_lim_plus id (fct_cte 1) x 1 0 (derivable_pt_lim_id x) (derivable_pt_lim_const 1 x));
  sd2 := fun x _ => derivable_pt_lim_const 1 x |} 2] [3; 4]%nat. (* x; (acc, i) -> (acc + x, i + 1) *)
Definition sum_cond : block := straight 1 [Compare Clt (fun i => i) (fun i => i) 1 2; Linear [] (fun _ => [])] [3%nat].
Theorem C88_while_untracked_start_refuted : forall fuel,
  b_run (while 0 1 fuel sum_cond sum_body) [Tracked {| lx := fun _ => 3; jac := fun _ _ => 1; lapl := fun _ => 0 |}; Plain (fun _ => 0); Plain (fun _ => 0)] = Raised.
Proof. intros fuel. reflexivity. Qed.
Lemma while_no_raise {A} (cond : list A -> outcome bool) body : (forall c, cond c <> Raised) -> (forall c, body c <> Raised) -> forall fuel c, while_loop cond body fuel c <> Raised.
Proof. intros H1 H2. induction fuel as [|fuel IH]; intros c; cbn [while_loop]; [discriminate|]. specialize (H1 c). destruct (cond c) as [[]| |]; try discriminate; [|congruence]. specialize (H2 c). destruct (body c); try discriminate; [apply IH|congruence]. Qed.
(** The same loop with a tracked start does not raise. *)
Example while_tracked_start : forall fuel,
  b_run (while 0 1 fuel sum_cond sum_body) [Tracked {| lx := fun _ => 3; jac := fun _ _ => 1; lapl := fun _ => 0 |}; Tracked zero_lap; Plain (fun _ => 0)] <> Raised.
Proof.
  intros fuel. apply while_no_raise; [intros c; cbn; discriminate|intros c; cbn; discriminate].
Qed.

(** ** Initialisation *)
Theorem C88_init : forall w args offsets,
  (existsb is_tracked args = true -> init_state w args offsets = args) /\
  (existsb is_tracked args = false -> length offsets = length args -> forall v, (v < length args)%nat ->
     exists t, nth v (init_state w args offsets) (Plain zero_arr) = Tracked t /\ lx t = primal (nth v args (Plain zero_arr)) /\
       (forall i, lapl t i = 0) /\ forall k i, jac t k i = if Nat.eqb k (nth v offsets 0%nat + i) then w (nth v offsets 0%nat + i)%nat else 0).
Proof.
  intros w args offsets. unfold init_state. split; intros E; rewrite E; [reflexivity|]. intros L v V.
  rewrite (nth_zip_with _ args offsets v (Plain zero_arr) 0%nat) by lia. eexists. split; [reflexivity|]. split; [reflexivity|]. split; [reflexivity|].
  intros k i. cbn. unfold delta. destruct (Nat.eqb k (nth v offsets 0%nat + i)); ring.
Qed.

(** ** A scan that meets the hypotheses: cumulative products of three coordinates *)
Definition cumprod_prog : list (instr * nat) := [(Mul (fun i => i) (fun i => i) 0 1, 1)]%nat.
Definition cumprod_scan : scan_params := {| sc_nconst := 0; sc_ncarry := 1; sc_length := 3; sc_reverse := false; sc_float := [true]; sc_xsizes := [1%nat]; sc_ysizes := [1%nat] |}.
Definition cumprod : block := scan cumprod_scan (straight 3 (map fst cumprod_prog) [2; 2]%nat).
Example cumprod_sound : forall w p, sound 3 w p [1; 3]%nat [1; 3]%nat (safe_scan 3 w p [1%nat] [1%nat] (straight_safe p cumprod_prog) (straight 3 (map fst cumprod_prog) [2; 2]%nat) cumprod_scan) cumprod.
Proof.
  intros w p. apply (C88_scan 3 w p [] [1%nat] [1%nat] [1%nat] (straight_safe p cumprod_prog) (straight 3 (map fst cumprod_prog) [2; 2]%nat) cumprod_scan); try reflexivity.
  apply (C88_straight_line 3 w p [1; 1]%nat cumprod_prog [2; 2]%nat).
  - cbn. split; auto. intros o O v j [H|[H|[]]]; injection H as <- <-; cbn; split; auto; lia.
  - repeat constructor.
Qed.
Example cumprod_safe : forall w p P ks, safe_scan 3 w p [1%nat] [1%nat] (straight_safe p cumprod_prog) (straight 3 (map fst cumprod_prog) [2; 2]%nat) cumprod_scan P ks.
Proof. intros w p P ks. unfold safe_scan. cbn. repeat (split; [split; [intros _ ? _; exact I|exact I]|intros ? _]). exact I. Qed.
Example cumprod_value : exists out, b_run cumprod [Plain (fun _ => 1); Tracked {| lx := fun i => match i with O => 2 | S O => 3 | _ => 5 end; jac := fun k i => delta k i; lapl := fun _ => 0 |}] = Done out /\
  match out with Tracked c :: Tracked y :: [] => lx c 0%nat = 30 /\ jac c 0%nat 0%nat = 15 /\ jac c 2%nat 0%nat = 6 /\ lx y 1%nat = 6 /\ jac y 1%nat 1%nat = 2 | _ => False end.
Proof. eexists. split; [reflexivity|]. cbn. unfold slice, stack, delta, zero_arr; cbn. repeat split; ring. Qed.
