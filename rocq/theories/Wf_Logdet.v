(** C67: LogDet returns the logarithm and sign (or phase) of the sum of the determinants. *)
From Coq Require Import Reals List Arith Bool Lra Lia.
From Coquelicot Require Import Coquelicot.
From Verif Require Import Lin Det Wf_Model Wf_Spec Wf_Lemmas.
Import ListNotations.
Open Scope R_scope.

(** ** Maxima *)
Definition finite_or_neginf (x : ext) : Prop := match x with NaN => False | _ => True end.
Lemma emax_fold l : forall x, finite_or_neginf x -> (forall y, In y l -> finite_or_neginf y) ->
  match fold_left emax l x with
  | NaN => False
  | NegInf => x = NegInf /\ forall y, In y l -> y = NegInf
  | Fin m => In (Fin m) (x :: l) /\ forall r, In (Fin r) (x :: l) -> r <= m
  end.
Proof.
  induction l as [|y l IH]; intros x X H.
  - simpl. destruct x; simpl in *; auto; [|split; [reflexivity|tauto]]. split; [auto|]. intros r0 [E|[]]. injection E as ->. lra.
  - cbn [fold_left]. assert (FE : finite_or_neginf (emax x y)) by (pose proof (H y (or_introl eq_refl)); destruct x, y; simpl in *; tauto).
    specialize (IH (emax x y) FE (fun z Z => H z (or_intror Z))). destruct (fold_left emax l (emax x y)) as [m| |]; [| |exact IH].
    + destruct IH as [I M]. pose proof (H y (or_introl eq_refl)) as FY. destruct x as [a| |], y as [b| |]; simpl in X, FY; try tauto; cbn [emax] in *.
      * split.
        { destruct I as [E|I]; [|right; right; exact I]. injection E as E. unfold Rmax in E. destruct (Rle_dec a b); [right; left|left]; congruence. }
        { assert (MM := M (Rmax a b) (or_introl eq_refl)). pose proof (Rmax_l a b). pose proof (Rmax_r a b).
          intros r [E|[E|E]]; [injection E as ->; lra|injection E as ->; lra|]. apply M. right. exact E. }
      * split; [destruct I as [E|I]; [left; exact E|right; right; exact I]|]. intros r [E|[E|E]]; [apply M; left; exact E|discriminate|apply M; right; exact E].
      * split; [destruct I as [E|I]; [right; left; exact E|right; right; exact I]|]. intros r [E|[E|E]]; [discriminate|apply M; left; exact E|apply M; right; exact E].
      * split; [destruct I as [E|I]; [discriminate|right; right; exact I]|]. intros r [E|[E|E]]; [discriminate|discriminate|apply M; right; exact E].
    + destruct IH as [E M]. destruct x, y; simpl in E; try discriminate.
      split; [reflexivity|]. intros z [<-|Z]; auto.
Qed.

(** ** Real matrices *)
Definition total (dets : list R) : R := rsum dets.
Lemma slogdet_snd d : finite_or_neginf (snd (slogdet d)).
Proof. unfold slogdet. destruct (Req_EM_T d 0); simpl; auto. Qed.
Lemma real_max dets : dets <> [] ->
  match list_emax (map snd (map slogdet dets)) with
  | NaN => False
  | NegInf => forall d, In d dets -> d = 0
  | Fin m => (exists d, In d dets /\ d <> 0 /\ ln (Rabs d) = m) /\ forall d, In d dets -> d <> 0 -> ln (Rabs d) <= m
  end.
Proof.
  intros N. destruct dets as [|d0 dets]; [congruence|]. cbn [map list_emax].
  assert (F : forall y, In y (map snd (map slogdet dets)) -> finite_or_neginf y).
  { intros y. rewrite map_map. intros I. apply in_map_iff in I as (d & <- & _). apply slogdet_snd. }
  pose proof (emax_fold _ _ (slogdet_snd d0) F) as E. destruct (fold_left emax (map snd (map slogdet dets)) (snd (slogdet d0))) as [m| |]; [| |exact E].
  - destruct E as [I M]. change (In (Fin m) (map snd (map slogdet (d0 :: dets)))) in I. change (forall r, In (Fin r) (map snd (map slogdet (d0 :: dets))) -> r <= m) in M.
    rewrite map_map in *. split.
    + apply in_map_iff in I as (d & E & I). exists d. split; [exact I|]. unfold slogdet in E. destruct (Req_EM_T d 0); [discriminate|]. cbn in E. split; [auto|congruence].
    + intros d I' Z. apply M. apply in_map_iff. exists d. split; [|exact I']. unfold slogdet. destruct (Req_EM_T d 0); [contradiction|reflexivity].
  - destruct E as [E M]. intros d [<-|I].
    + unfold slogdet in E. destruct (Req_EM_T d0 0); [auto|discriminate].
    + assert (X := M (snd (slogdet d))). rewrite map_map in X. specialize (X (in_map (fun x => snd (slogdet x)) _ _ I)). unfold slogdet in X. destruct (Req_EM_T d 0); [auto|discriminate].
Qed.
Lemma rsign_ln d : d <> 0 -> rsign d * exp (ln (Rabs d)) = d.
Proof.
  intros N. rewrite exp_ln by (apply Rabs_pos_lt; exact N). unfold rsign. destruct (Rlt_dec d 0); [rewrite Rabs_left by lra; ring|].
  destruct (Rlt_dec 0 d); [rewrite Rabs_right by lra; ring|lra].
Qed.
Lemma real_term m d : shifted (Fin m) (fst (slogdet d)) (snd (slogdet d)) = Some (d * exp (- m)).
Proof.
  unfold slogdet. destruct (Req_EM_T d 0) as [->|N]; cbn [fst snd shifted]; f_equal; [ring|].
  unfold Rminus. rewrite exp_plus, <- Rmult_assoc, rsign_ln by exact N. reflexivity.
Qed.
Lemma real_sum m dets : osum (map (fun p => shifted (Fin m) (fst p) (snd p)) (map slogdet dets)) = Some (total dets * exp (- m)).
Proof.
  induction dets as [|d dets IH]; cbn [map osum]; [f_equal; unfold total; simpl; ring|]. rewrite real_term. rewrite IH. f_equal. unfold total. simpl. ring.
Qed.

(** When some determinant is not zero, sign * exp(logpsi) is the sum of the determinants, the sign is -1, 0
    or 1, and 0 exactly when the sum vanishes (then logpsi is -inf). *)
Theorem C67_real_sum : forall dets, (exists d, In d dets /\ d <> 0) ->
  psi (logdet_real dets) = Some (total dets) /\ sign_logpsi (logdet_real dets) = Some (rsign (total dets)) /\
  logpsi (logdet_real dets) = (if Req_EM_T (total dets) 0 then NegInf else Fin (ln (Rabs (total dets)))).
Proof.
  intros dets (d & I & N). assert (NE : dets <> []) by (intros ->; destruct I). pose proof (real_max dets NE) as M. unfold logdet_real, psi.
  destruct (list_emax (map snd (map slogdet dets))) as [m| |]; [|exfalso; apply N, M, I|destruct M].
  rewrite real_sum. cbn [sign_logpsi logpsi elog]. pose proof (exp_pos (- m)) as P.
  assert (SG : rsign (total dets * exp (- m)) = rsign (total dets)).
  { unfold rsign. destruct (Rlt_dec (total dets) 0), (Rlt_dec (total dets * exp (- m)) 0), (Rlt_dec 0 (total dets)), (Rlt_dec 0 (total dets * exp (- m))); try reflexivity; exfalso; nra. }
  rewrite SG. destruct (Req_EM_T (total dets * exp (- m)) 0) as [Z|Z], (Req_EM_T (total dets) 0) as [Z'|Z'].
  - split; [rewrite Z'; reflexivity|split; reflexivity].
  - exfalso. apply Rmult_integral in Z. lra.
  - exfalso. rewrite Z' in Z. lra.
  - assert (L : ln (Rabs (total dets * exp (- m))) + m = ln (Rabs (total dets))).
    { rewrite Rabs_mult, (Rabs_right (exp (- m))) by lra. rewrite ln_mult, ln_exp by (auto; apply Rabs_pos_lt; auto). ring. }
    rewrite L, rsign_ln by auto. split; [reflexivity|split; reflexivity].
Qed.
(** The largest term of the sum that is exponentiated has modulus 1, and none is larger, so no exponential
    overflows and the sum does not underflow to 0 on its own. *)
Theorem C67_real_scaled : forall dets, (exists d, In d dets /\ d <> 0) ->
  exists m, list_emax (map snd (map slogdet dets)) = Fin m /\
    (forall d t, In d dets -> shifted (Fin m) (fst (slogdet d)) (snd (slogdet d)) = Some t -> Rabs t <= 1) /\
    exists d t, In d dets /\ shifted (Fin m) (fst (slogdet d)) (snd (slogdet d)) = Some t /\ Rabs t = 1.
Proof.
  intros dets (d & I & N). assert (NE : dets <> []) by (intros ->; destruct I). pose proof (real_max dets NE) as M.
  destruct (list_emax (map snd (map slogdet dets))) as [m| |]; [|exfalso; apply N, M, I|destruct M]. exists m. split; [reflexivity|]. destruct M as [(d1 & I1 & N1 & E1) M].
  assert (T : forall d, d <> 0 -> Rabs (d * exp (- m)) = exp (ln (Rabs d) - m)).
  { intros d' N'. rewrite Rabs_mult, (Rabs_right (exp (- m))) by (left; apply exp_pos). unfold Rminus. rewrite exp_plus, exp_ln by (apply Rabs_pos_lt; auto). reflexivity. }
  split.
  - intros d' t I' E. rewrite real_term in E. assert (t = d' * exp (- m)) by congruence. subst t. destruct (Req_dec d' 0) as [->|N']; [rewrite Rmult_0_l, Rabs_R0; lra|].
    rewrite T by auto. rewrite <- exp_0. destruct (Rle_lt_or_eq_dec _ _ (M d' I' N')) as [L|L]; [left; apply exp_increasing; lra|right; f_equal; lra].
  - exists d1, (d1 * exp (- m)). split; [exact I1|]. split; [apply real_term|]. rewrite T, E1 by auto. rewrite Rminus_diag_eq by reflexivity. apply exp_0.
Qed.
(** When every determinant vanishes psi is 0, but sign and logpsi are NaN instead of (0, -inf). *)
Theorem C67_all_zero_refuted : forall dets, dets <> [] -> (forall d, In d dets -> d = 0) ->
  total dets = 0 /\ sign_logpsi (logdet_real dets) = None /\ logpsi (logdet_real dets) = NaN.
Proof.
  intros dets NE Z. split.
  - clear NE. unfold total. induction dets as [|d dets IH]; [reflexivity|]. simpl. rewrite IH by (intros; apply Z; right; auto). rewrite (Z d) by (left; reflexivity). ring.
  - pose proof (real_max dets NE) as M. unfold logdet_real. destruct (list_emax (map snd (map slogdet dets))) as [m| |]; [|clear M|destruct M].
    + destruct M as [(d & I & N & _) _]. contradiction (N (Z d I)).
    + destruct dets as [|d dets]; [congruence|]. cbn [map osum shifted]. destruct (snd (slogdet d)); split; reflexivity.
Qed.
Example C67_real_example : exists dets, (exists d, In d dets /\ d <> 0) /\ psi (logdet_real dets) = Some (-1).
Proof.
  exists [2; -3; 0]. split; [exists 2; split; [left; reflexivity|lra]|]. destruct (C67_real_sum [2; -3; 0]) as (E & _); [exists 2; split; [left; reflexivity|lra]|].
  rewrite E. f_equal. unfold total. simpl. ring.
Qed.

(** Changing the sign of every determinant changes the sign only. *)
Lemma slogdet_opp d : slogdet (- d) = (- fst (slogdet d), snd (slogdet d)).
Proof.
  unfold slogdet. destruct (Req_EM_T d 0) as [->|N]; [rewrite Ropp_0; destruct (Req_EM_T 0 0); [simpl; rewrite Ropp_0; reflexivity|congruence]|].
  destruct (Req_EM_T (- d) 0); [lra|]. cbn [fst snd]. rewrite Rabs_Ropp. f_equal. unfold rsign. destruct (Rlt_dec (- d) 0), (Rlt_dec 0 (- d)), (Rlt_dec d 0), (Rlt_dec 0 d); lra.
Qed.
Lemma logdet_real_opp dets : opposite (logdet_real dets) (logdet_real (map Ropp dets)).
Proof.
  unfold opposite, logdet_real. rewrite !map_map. rewrite (map_ext (fun x => snd (slogdet (- x))) (fun x => snd (slogdet x))) by (intros; rewrite slogdet_opp; reflexivity).
  generalize (list_emax (map (fun x => snd (slogdet x)) dets)) as m. intros m.
  assert (E : osum (map (fun x => shifted m (fst (slogdet (- x))) (snd (slogdet (- x)))) dets) = option_map Ropp (osum (map (fun x => shifted m (fst (slogdet x)) (snd (slogdet x))) dets))).
  { induction dets as [|d l IH]; [simpl; rewrite Ropp_0; reflexivity|]. cbn [map osum]. rewrite IH, slogdet_opp. cbn [fst snd].
    assert (S : shifted m (- fst (slogdet d)) (snd (slogdet d)) = option_map Ropp (shifted m (fst (slogdet d)) (snd (slogdet d)))).
    { unfold shifted. destruct (snd (slogdet d)), m; cbn [option_map]; try reflexivity; apply f_equal; ring. }
    rewrite S. destruct (shifted m (fst (slogdet d)) (snd (slogdet d))); simpl; [|reflexivity]. destruct (osum (map (fun x => shifted m (fst (slogdet x)) (snd (slogdet x))) l)); cbn [option_map]; [apply f_equal; ring|reflexivity]. }
  rewrite E. destruct (osum (map (fun x => shifted m (fst (slogdet x)) (snd (slogdet x))) dets)) as [s|]; cbn [option_map sign_logpsi logpsi]; [|split; reflexivity]. split.
  - unfold elog. destruct m; auto. destruct (Req_EM_T s 0), (Req_EM_T (- s) 0); try lra; auto. rewrite Rabs_Ropp. reflexivity.
  - f_equal. unfold rsign. destruct (Rlt_dec (- s) 0), (Rlt_dec 0 (- s)), (Rlt_dec s 0), (Rlt_dec 0 s); lra.
Qed.

(** ** Complex matrices *)
Lemma Ceqb_spec z : if Ceqb z then z = RtoC 0 else z <> RtoC 0.
Proof.
  unfold Ceqb. destruct z as [x y]. cbn [fst snd]. destruct (Req_EM_T x 0) as [->|N]; [destruct (Req_EM_T y 0) as [->|N]; [reflexivity|]|]; intros E; injection E; intros; lra.
Qed.
Lemma carg_spec z : z <> RtoC 0 -> (cos (carg z), sin (carg z)) = Cdiv z (RtoC (Cmod z)).
Proof.
  intros N. assert (P : 0 < Cmod z) by (apply Cmod_gt_0; exact N). unfold Cdiv. rewrite <- RtoC_inv by lra. destruct z as [x y]. unfold RtoC, Cmult. cbn [fst snd].
  set (m := Cmod (x, y)) in *. assert (SQ : x * x + y * y = m * m).
  { unfold m, Cmod. cbn [fst snd]. rewrite sqrt_sqrt by nra. ring. }
  assert (BD : -1 <= x / m <= 1).
  { assert (-m <= x <= m) by nra. unfold Rdiv. split; apply Rmult_le_reg_r with m; auto; rewrite Rmult_assoc, Rinv_l by lra; lra. }
  assert (CS : cos (acos (x / m)) = x / m) by (apply cos_acos; exact BD).
  assert (SS : sin (acos (x / m)) = Rabs y / m).
  { rewrite sin_acos by exact BD. replace (1 - (x / m)²) with ((Rabs y / m) * (Rabs y / m)).
    - apply sqrt_square. apply Rmult_le_pos; [apply Rabs_pos|left; apply Rinv_0_lt_compat; exact P].
    - assert (Rabs y * Rabs y = y * y) by (unfold Rabs; destruct (Rcase_abs y); ring). unfold Rsqr. apply Rmult_eq_reg_r with (m * m); [|nra]. field_simplify; [|lra|lra]. nra. }
  unfold carg. cbn [fst snd]. fold m. destruct (Rlt_dec y 0) as [L|L].
  - rewrite cos_neg, sin_neg, CS, SS, Rabs_left by lra. unfold Rdiv. f_equal; ring.
  - rewrite CS, SS, Rabs_right by lra. unfold Rdiv. f_equal; ring.
Qed.
Lemma cexp_clog z : z <> RtoC 0 -> Cmult (RtoC (exp (fst (clog z)))) (cos (snd (clog z)), sin (snd (clog z))) = z.
Proof.
  intros N. assert (P : 0 < Cmod z) by (apply Cmod_gt_0; exact N). unfold clog. cbn [fst snd]. rewrite carg_spec, exp_ln by auto. unfold Cdiv.
  rewrite (Cmult_comm z), Cmult_assoc, Cinv_r, Cmult_1_l; [reflexivity|]. intros E. apply RtoC_inj in E. lra.
Qed.
Fixpoint ctotal (dets : list C) : C := match dets with [] => RtoC 0 | d :: l => Cplus d (ctotal l) end.
Lemma cslogdet_snd d : finite_or_neginf (snd (cslogdet d)).
Proof. unfold cslogdet. destruct (Ceqb d); simpl; auto. Qed.
Lemma complex_max dets : dets <> [] ->
  match list_emax (map snd (map cslogdet dets)) with
  | NaN => False
  | NegInf => forall d, In d dets -> d = RtoC 0
  | Fin m => exists d, In d dets /\ d <> RtoC 0
  end.
Proof.
  intros N. destruct dets as [|d0 dets]; [congruence|]. cbn [map list_emax].
  assert (F : forall y, In y (map snd (map cslogdet dets)) -> finite_or_neginf y).
  { intros y. rewrite map_map. intros I. apply in_map_iff in I as (d & <- & _). apply cslogdet_snd. }
  pose proof (emax_fold _ _ (cslogdet_snd d0) F) as E. destruct (fold_left emax (map snd (map cslogdet dets)) (snd (cslogdet d0))) as [m| |]; [| |exact E].
  - destruct E as [I _]. change (In (Fin m) (map snd (map cslogdet (d0 :: dets)))) in I. rewrite map_map in I. apply in_map_iff in I as (d & E & I). exists d. split; [exact I|].
    unfold cslogdet in E. pose proof (Ceqb_spec d) as Z. destruct (Ceqb d); [discriminate|exact Z].
  - destruct E as [E M]. intros d [<-|I].
    + unfold cslogdet in E. pose proof (Ceqb_spec d0) as Z. destruct (Ceqb d0); [exact Z|discriminate].
    + assert (X := M (snd (cslogdet d))). rewrite map_map in X. specialize (X (in_map (fun x => snd (cslogdet x)) _ _ I)). unfold cslogdet in X. pose proof (Ceqb_spec d) as Z. destruct (Ceqb d); [exact Z|discriminate].
Qed.
Lemma complex_term m d : cshifted (Fin m) (fst (cslogdet d)) (snd (cslogdet d)) = Some (Cmult d (RtoC (exp (- m)))).
Proof.
  unfold cslogdet. pose proof (Ceqb_spec d) as Z. destruct (Ceqb d); cbn [fst snd cshifted]; f_equal; [rewrite Z; ring|].
  assert (P : 0 < Cmod d) by (apply Cmod_gt_0; exact Z). unfold Rminus. rewrite exp_plus, exp_ln by exact P. rewrite RtoC_mult. unfold Cdiv.
  rewrite <- Cmult_assoc, (Cmult_assoc (Cinv (RtoC (Cmod d)))), Cinv_l, Cmult_1_l; [reflexivity|]. intros E. apply RtoC_inj in E. lra.
Qed.
Lemma complex_sum m dets : cosum (map (fun p => cshifted (Fin m) (fst p) (snd p)) (map cslogdet dets)) = Some (Cmult (ctotal dets) (RtoC (exp (- m)))).
Proof.
  induction dets as [|d dets IH]; cbn [map cosum ctotal]; [f_equal; ring|]. rewrite complex_term, IH. f_equal. ring.
Qed.
Lemma exp_m_nz m : RtoC (exp (- m)) <> RtoC 0.
Proof. intros E. apply RtoC_inj in E. pose proof (exp_pos (- m)). lra. Qed.
Lemma complex_out_total dets m : list_emax (map snd (map cslogdet dets)) = Fin m ->
  logdet_complex dets = if Ceqb (ctotal dets) then CNegInf else CFin (ln (Cmod (ctotal dets)), carg (Cmult (ctotal dets) (RtoC (exp (- m))))).
Proof.
  intros E. unfold logdet_complex. rewrite E, complex_sum. set (w := Cmult (ctotal dets) (RtoC (exp (- m)))).
  pose proof (Ceqb_spec (ctotal dets)) as Z. pose proof (Ceqb_spec w) as Z'. destruct (Ceqb (ctotal dets)), (Ceqb w); try reflexivity.
  - exfalso. apply Z'. unfold w. rewrite Z. ring.
  - exfalso. apply Cmult_neq_0 in Z'; auto. apply exp_m_nz.
  - f_equal. unfold clog, Cplus, RtoC. cbn [fst snd]. rewrite Rplus_0_r. f_equal. unfold w. rewrite Cmod_mult, Cmod_R, Rabs_right by (left; apply exp_pos).
    rewrite ln_mult, ln_exp by (try apply exp_pos; apply Cmod_gt_0; auto). ring.
Qed.
(** When some determinant is not zero, exp(logpsi) is the sum of the determinants. *)
Theorem C67_complex_sum : forall dets, (exists d, In d dets /\ d <> RtoC 0) ->
  cpsi (logdet_complex dets) = Some (ctotal dets) /\
  (ctotal dets <> RtoC 0 -> exists z, logdet_complex dets = CFin z /\ fst z = ln (Cmod (ctotal dets))).
Proof.
  intros dets (d & I & N). assert (NE : dets <> []) by (intros ->; destruct I). pose proof (complex_max dets NE) as M.
  destruct (list_emax (map snd (map cslogdet dets))) as [m| |] eqn:E; [|exfalso; apply N, M, I|destruct M].
  rewrite (complex_out_total dets m E). pose proof (Ceqb_spec (ctotal dets)) as Z. destruct (Ceqb (ctotal dets)); cbn [cpsi].
  - split; [rewrite Z; reflexivity|]. intros Z'. contradiction.
  - split; [|intros _; eexists; split; [reflexivity|reflexivity]]. f_equal. cbn [fst snd].
    assert (W : Cmult (ctotal dets) (RtoC (exp (- m))) <> RtoC 0) by (apply Cmult_neq_0; [exact Z|apply exp_m_nz]).
    rewrite carg_spec by exact W. assert (P : 0 < Cmod (ctotal dets)) by (apply Cmod_gt_0; exact Z). rewrite exp_ln by exact P.
    rewrite Cmod_mult, Cmod_R, Rabs_right by (left; apply exp_pos). rewrite RtoC_mult. field. split; [apply exp_m_nz|]. intros X. apply RtoC_inj in X. lra.
Qed.
Theorem C67_complex_all_zero_refuted : forall dets, dets <> [] -> (forall d, In d dets -> d = RtoC 0) ->
  ctotal dets = RtoC 0 /\ logdet_complex dets = CNaN.
Proof.
  intros dets NE Z. split.
  - clear NE. induction dets as [|d dets IH]; [reflexivity|]. cbn [ctotal]. rewrite IH by (intros; apply Z; right; auto). rewrite (Z d) by (left; reflexivity). ring.
  - pose proof (complex_max dets NE) as M. unfold logdet_complex. destruct (list_emax (map snd (map cslogdet dets))) as [m| |]; [|clear M|destruct M].
    + destruct M as (d & I & N). contradiction (N (Z d I)).
    + destruct (cosum _); reflexivity.
Qed.
(** The phase of the logarithm *)
Lemma complex_scaled dets dets' u : Cmod u = 1 -> map (fun d => Cmult u d) dets = dets' ->
  match logdet_complex dets, logdet_complex dets' with
  | CFin z, CFin z' => fst z' = fst z /\ (cos (snd z'), sin (snd z')) = Cmult u (cos (snd z), sin (snd z))
  | CNegInf, CNegInf => True
  | CNaN, CNaN => True
  | _, _ => False
  end.
Proof.
  intros U <-. assert (UN : u <> RtoC 0) by (intros ->; rewrite Cmod_R, Rabs_R0 in U; lra).
  assert (CZ : forall d, Ceqb (Cmult u d) = Ceqb d).
  { intros d. pose proof (Ceqb_spec d) as A. pose proof (Ceqb_spec (Cmult u d)) as B. destruct (Ceqb d), (Ceqb (Cmult u d)); auto; exfalso; [apply B; rewrite A; ring|exact (Cmult_neq_0 _ _ UN A B)]. }
  assert (E : map snd (map cslogdet (map (fun d => Cmult u d) dets)) = map snd (map cslogdet dets)).
  { rewrite !map_map. apply map_ext. intros d. unfold cslogdet. rewrite CZ. destruct (Ceqb d); [reflexivity|]. cbn [snd]. rewrite Cmod_mult, U, Rmult_1_l. reflexivity. }
  destruct (list_emax (map snd (map cslogdet dets))) as [m| |] eqn:M.
  - rewrite (complex_out_total dets m M). rewrite (complex_out_total (map (fun d => Cmult u d) dets) m) by (rewrite E; exact M).
    assert (T : ctotal (map (fun d => Cmult u d) dets) = Cmult u (ctotal dets)) by (clear; induction dets as [|d l IH]; cbn [map ctotal]; [ring|rewrite IH; ring]).
    rewrite T, CZ. pose proof (Ceqb_spec (ctotal dets)) as Z. destruct (Ceqb (ctotal dets)); [exact I|]. cbn [fst snd]. rewrite Cmod_mult, U, Rmult_1_l. split; [reflexivity|].
    assert (W : Cmult (ctotal dets) (RtoC (exp (- m))) <> RtoC 0) by (apply Cmult_neq_0; [exact Z|apply exp_m_nz]).
    rewrite <- Cmult_assoc. rewrite !carg_spec by (auto; apply Cmult_neq_0; auto). rewrite Cmod_mult, U, Rmult_1_l. unfold Cdiv. symmetry. apply Cmult_assoc.
  - unfold logdet_complex. rewrite E, M. destruct (cosum _), (cosum _); exact I.
  - unfold logdet_complex. rewrite E, M. destruct (cosum _), (cosum _); exact I.
Qed.
Lemma logdet_complex_opp dets : copposite (logdet_complex dets) (logdet_complex (map Copp dets)).
Proof.
  assert (U : Cmod (RtoC (-1)) = 1) by (rewrite Cmod_R, Rabs_left by lra; ring).
  assert (E : map (fun d => Cmult (RtoC (-1)) d) dets = map Copp dets).
  { apply map_ext. intros d. destruct d as [x y]. unfold Cmult, Copp, RtoC. cbn [fst snd]. f_equal; ring. }
  pose proof (complex_scaled dets _ (RtoC (-1)) U E) as H. unfold copposite. destruct (logdet_complex dets), (logdet_complex (map Copp dets)); auto. destruct H as [A B]. split; [exact A|]. rewrite B.
  unfold Cmult, Copp, RtoC. cbn [fst snd]. f_equal; ring.
Qed.
