(** C71, C72: the lowest Landau level, the Laughlin states and single orbitals on the sphere. *)
From Coq Require Import Reals List Arith Lra Lia FunctionalExtensionality.
From Coquelicot Require Import Coquelicot.
From Verif Require Import Det Hall_Spec Hall_Lemmas Sph_Model Sph_Spec Sph_Ops Sph_Sym Sph_Props.
Import ListNotations.
Open Scope R_scope.

(** ** Homogeneous polynomials *)
Definition homog (q : nat) (g : R * R -> C) : Prop := exists coeff : nat -> C, forall x, g x = csigma (S q) (fun t => Cmult (coeff t) (Cmult (power (u_of x) t) (power (v_of x) (q - t)))).
Lemma csigma_first n f : csigma (S n) f = Cplus (f 0%nat) (csigma n (fun i => f (S i))).
Proof. induction n as [|n IH]; [cbn; ring|]. change (csigma (S (S n)) f) with (Cplus (csigma (S n) f) (f (S n))). rewrite IH. cbn [csigma]. ring. Qed.
Lemma homog_ext q g h : (forall x, g x = h x) -> homog q g -> homog q h.
Proof. intros E [c H]. exists c. intros x. rewrite <- E. apply H. Qed.
Lemma homog_const z : homog 0 (fun _ => z).
Proof. exists (fun _ => z). intros x. cbn. ring. Qed.
Lemma homog_plus q g h : homog q g -> homog q h -> homog q (fun x => Cplus (g x) (h x)).
Proof. intros [c H] [d K]. exists (fun t => Cplus (c t) (d t)). intros x. rewrite H, K, <- csigma_plus. apply csigma_ext. intros. ring. Qed.
Lemma homog_scal q z g : homog q g -> homog q (fun x => Cmult z (g x)).
Proof. intros [c H]. exists (fun t => Cmult z (c t)). intros x. rewrite H, <- csigma_scal. apply csigma_ext. intros. ring. Qed.
Lemma homog_u q g : homog q g -> homog (S q) (fun x => Cmult (u_of x) (g x)).
Proof.
  intros [c H]. exists (fun t => match t with O => RtoC 0 | S t => c t end). intros x. rewrite csigma_first, H, <- csigma_scal. rewrite Cmult_0_l, Cplus_0_l. apply csigma_ext.
  intros t T. cbn [Nat.sub power]. ring.
Qed.
Lemma homog_v q g : homog q g -> homog (S q) (fun x => Cmult (v_of x) (g x)).
Proof.
  intros [c H]. exists (fun t => if Nat.leb t q then c t else RtoC 0). intros x. rewrite H. change (csigma (S (S q)) ?f) with (Cplus (csigma (S q) f) (f (S q))). cbn beta.
  destruct (Nat.leb_spec (S q) q); [lia|]. rewrite Cmult_0_l, Cplus_0_r, <- csigma_scal. apply csigma_ext. intros t T. destruct (Nat.leb_spec t q); [|lia].
  replace (S q - t)%nat with (S (q - t)) by lia. cbn [power]. ring.
Qed.
Lemma homog_monomial q g t s : homog q g -> homog (t + s + q) (fun x => Cmult (Cmult (power (u_of x) t) (power (v_of x) s)) (g x)).
Proof.
  intros H. revert s. induction t as [|t IHt]; intros s.
  - cbn [Nat.add]. induction s as [|s IHs]; [apply (homog_ext q g); [intros; cbn; ring|exact H]|]. cbn [Nat.add]. apply homog_v in IHs. revert IHs. apply homog_ext. intros x. cbn [power]. ring.
  - cbn [Nat.add]. specialize (IHt s). apply homog_u in IHt. revert IHt. apply homog_ext. intros x. cbn [power]. ring.
Qed.
Lemma homog_sum q m (F : nat -> R * R -> C) : (forall t, (t < m)%nat -> homog q (F t)) -> homog q (fun x => csigma m (fun t => F t x)).
Proof.
  induction m as [|m IH]; intros H.
  - exists (fun _ => RtoC 0). intros x. cbn [csigma]. symmetry. rewrite (csigma_ext q _ (fun _ => RtoC 0)) by (intros; ring). rewrite csigma_zero by reflexivity. ring.
  - apply (homog_plus q (fun x => csigma m (fun t => F t x))); [apply IH; intros; apply H; lia|apply H; lia].
Qed.
Lemma homog_mult p q g h : homog p g -> homog q h -> homog (p + q) (fun x => Cmult (g x) (h x)).
Proof.
  intros [c H] K. apply (homog_ext _ (fun x => csigma (S p) (fun t => Cmult (c t) (Cmult (Cmult (power (u_of x) t) (power (v_of x) (p - t))) (h x))))).
  - intros x. rewrite H, (Cmult_comm _ (h x)), <- csigma_scal. apply csigma_ext. intros. ring.
  - apply homog_sum. intros t T. apply homog_scal. replace (p + q)%nat with (t + (p - t) + q)%nat by lia. apply homog_monomial. exact K.
Qed.
Lemma homog_power q g k : homog q g -> homog (k * q) (fun x => power (g x) k).
Proof. intros H. induction k as [|k IH]; [exact (homog_const (RtoC 1))|]. cbn [power Nat.mul]. apply homog_mult; assumption. Qed.
Lemma homog_linear a b : homog 1 (fun x => Cplus (Cmult a (u_of x)) (Cmult b (v_of x))).
Proof.
  pose proof (homog_u 0 _ (homog_const a)) as U. pose proof (homog_v 0 _ (homog_const b)) as V. pose proof (homog_plus 1 _ _ U V) as W. revert W. apply homog_ext. intros x. ring.
Qed.
Lemma homog_product n m F q : (forall j, (j < m)%nat -> homog (q j) (F j)) -> n = list_sum (map q (seq 0 m)) -> homog n (fun x => product m (fun j => F j x)).
Proof.
  revert n. induction m as [|m IH]; intros n H ->; [exact (homog_const (RtoC 1))|]. rewrite seq_S, map_app, list_sum_app. cbn [map list_sum fold_right Nat.add]. rewrite Nat.add_0_r. cbn [product].
  apply homog_mult; [apply IH; [intros; apply H; lia|reflexivity]|apply H; lia].
Qed.
Lemma moved_same c i x : moved c i x i = x. Proof. unfold moved. rewrite Nat.eqb_refl. reflexivity. Qed.
Lemma moved_other c i x j : j <> i -> moved c i x j = c j. Proof. unfold moved. intros N. destruct (Nat.eqb_spec j i); [congruence|reflexivity]. Qed.
Lemma pair_homog c i a b : a <> b -> homog (if Nat.eqb a i then 1 else if Nat.eqb b i then 1 else 0) (fun x => pair_factor (moved c i x) a b).
Proof.
  intros N. unfold pair_factor. destruct (Nat.eqb_spec a i) as [->|A].
  - eapply homog_ext; [|apply (homog_linear (v_of (c b)) (Copp (u_of (c b))))]. intros x. cbn beta. rewrite moved_same, moved_other by congruence. ring.
  - destruct (Nat.eqb_spec b i) as [->|B].
    + eapply homog_ext; [|apply (homog_linear (Copp (v_of (c a))) (u_of (c a)))]. intros x. cbn beta. rewrite moved_same, moved_other by congruence. ring.
    + eapply homog_ext; [|apply (homog_const (Cminus (Cmult (u_of (c a)) (v_of (c b))) (Cmult (u_of (c b)) (v_of (c a)))))]. intros x. cbn beta. rewrite !moved_other by congruence. reflexivity.
Qed.
Lemma list_sum_indicator k i m : list_sum (map (fun a => k * (if Nat.eqb a i then 1 else 0))%nat (seq 0 m)) = if Nat.ltb i m then k else 0%nat.
Proof.
  induction m as [|m IH]; [reflexivity|]. rewrite seq_S, map_app, list_sum_app, IH. cbn [map list_sum fold_right Nat.add].
  destruct (Nat.eqb_spec m i), (Nat.ltb_spec i m), (Nat.ltb_spec i (S m)); lia.
Qed.
Lemma list_sum_const k m : list_sum (map (fun _ => k) (seq 0 m)) = (m * k)%nat.
Proof. induction m as [|m IH]; [reflexivity|]. rewrite seq_S, map_app, list_sum_app, IH. cbn. lia. Qed.
Lemma pair_product_homog k c i m : homog (if Nat.ltb i m then k * (m - 1) else 0) (fun x => pair_product m (fun a b => power (pair_factor (moved c i x) a b) k)).
Proof.
  induction m as [|m IH]; [exact (homog_const (RtoC 1))|].
  apply (homog_ext _ (fun x => Cmult (pair_product m (fun a b => power (pair_factor (moved c i x) a b) k)) (product m (fun a => power (pair_factor (moved c i x) a m) k)))); [intros; symmetry; apply pair_product_S|].
  assert (P : homog (if Nat.eqb m i then m * k else if Nat.ltb i m then k else 0) (fun x => product m (fun a => power (pair_factor (moved c i x) a m) k))).
  { eapply (homog_product _ m (fun a x => power (pair_factor (moved c i x) a m) k)).
    - intros a A. apply homog_power, pair_homog. lia.
    - cbn beta. destruct (Nat.eqb_spec m i) as [->|N].
      + rewrite (map_ext_in _ (fun _ => k)), list_sum_const; [reflexivity|]. intros a A. apply in_seq in A. destruct (Nat.eqb_spec a i); lia.
      + symmetry. apply list_sum_indicator. }
  replace (if Nat.ltb i (S m) then k * (S m - 1) else 0)%nat with ((if Nat.ltb i m then k * (m - 1) else 0) + (if Nat.eqb m i then m * k else if Nat.ltb i m then k else 0))%nat.
  - apply homog_mult; assumption.
  - destruct (Nat.ltb_spec i m), (Nat.eqb_spec m i), (Nat.ltb_spec i (S m)); try lia. destruct m; [lia|]. cbn [Nat.sub]. rewrite Nat.sub_0_r. lia.
Qed.
(** The Laughlin states (k = 1: the filled level; k = 3: filling 1/3) are in the lowest level of k (n - 1) flux quanta. *)
Theorem C71_laughlin_level : forall n k, lowest_level n (k * (n - 1)) (fun c => pair_product n (fun i j => power (pair_factor c i j) k)).
Proof.
  intros n k i c I. pose proof (pair_product_homog k c i n) as H. destruct (Nat.ltb_spec i n); [|lia]. exact H.
Qed.

(** ** The first-order equation of the lowest level: sin(theta) d_theta = i d_phi + (k/2) cos(theta) *)
Definition first_order (k : nat) (g : R * R -> C) : Prop := forall x, exists gt gp,
  cderive (fun t => g (t, snd x)) (fst x) gt /\ cderive (fun t => g (fst x, t)) (snd x) gp /\
  Cmult (RtoC (sin (fst x))) gt = Cplus (Cmult (imag 1) gp) (Cmult (RtoC (INR k / 2 * cos (fst x))) (g x)).
Lemma fo_const z : first_order 0 (fun _ => z).
Proof.
  intros x. exists (RtoC 0), (RtoC 0). split; [apply cderive_const|split; [apply cderive_const|]]. apply Ceq; cbn [Cplus Cmult RtoC imag fst snd INR]; field.
Qed.
Lemma fo_mult p q g h : first_order p g -> first_order q h -> first_order (p + q) (fun x => Cmult (g x) (h x)).
Proof.
  intros G H x. destruct (G x) as (gt & gp & A & B & E). destruct (H x) as (ht & hp & A' & B' & E'). destruct x as [t p0]; cbn [fst snd] in *.
  exists (Cplus (Cmult gt (h (t, p0))) (Cmult (g (t, p0)) ht)), (Cplus (Cmult gp (h (t, p0))) (Cmult (g (t, p0)) hp)).
  split; [apply (cderive_mult (fun s => g (s, p0)) (fun s => h (s, p0))); assumption|split; [apply (cderive_mult (fun s => g (t, s)) (fun s => h (t, s))); assumption|]].
  transitivity (Cplus (Cmult (Cmult (RtoC (sin t)) gt) (h (t, p0))) (Cmult (g (t, p0)) (Cmult (RtoC (sin t)) ht))); [ring|]. rewrite E, E', plus_INR.
  replace ((INR p + INR q) / 2 * cos t) with (INR p / 2 * cos t + INR q / 2 * cos t) by field. rewrite RtoC_plus. ring.
Qed.
Lemma fo_plus q g h : first_order q g -> first_order q h -> first_order q (fun x => Cplus (g x) (h x)).
Proof.
  intros G H x. destruct (G x) as (gt & gp & A & B & E). destruct (H x) as (ht & hp & A' & B' & E').
  exists (Cplus gt ht), (Cplus gp hp). split; [apply (cderive_plus (fun s => g (s, snd x)) (fun s => h (s, snd x))); assumption|split; [apply (cderive_plus (fun s => g (fst x, s)) (fun s => h (fst x, s))); assumption|]].
  rewrite Cmult_plus_distr_l, E, E'. ring.
Qed.
Lemma fo_zero q : first_order q (fun _ => RtoC 0).
Proof. intros x. exists (RtoC 0), (RtoC 0). split; [apply cderive_const|split; [apply cderive_const|]]. ring. Qed.
Lemma cderive_pair (f1 f2 : R -> R) (x l1 l2 : R) : is_derive f1 x l1 -> is_derive f2 x l2 -> cderive (fun t => (f1 t, f2 t)) x (l1, l2).
Proof. intros; split; cbn [fst snd]; assumption. Qed.
Lemma half_angle t : sin t = 2 * sin (t / 2) * cos (t / 2) /\ cos t = cos (t / 2) ^ 2 - sin (t / 2) ^ 2.
Proof. pose proof (cos_sin_half t) as [A B]. split; [rewrite B|rewrite A]; ring. Qed.
Definition ut (x : R * R) : C := (- / 2 * sin (fst x / 2) * cos (snd x / 2), - / 2 * sin (fst x / 2) * sin (snd x / 2)).
Definition up (x : R * R) : C := (- / 2 * cos (fst x / 2) * sin (snd x / 2), / 2 * cos (fst x / 2) * cos (snd x / 2)).
Definition vt (x : R * R) : C := (/ 2 * cos (fst x / 2) * cos (snd x / 2), - / 2 * cos (fst x / 2) * sin (snd x / 2)).
Definition vp (x : R * R) : C := (- / 2 * sin (fst x / 2) * sin (snd x / 2), - / 2 * sin (fst x / 2) * cos (snd x / 2)).
Lemma u_derivs x : cderive (fun t => u_of (t, snd x)) (fst x) (ut x) /\ cderive (fun t => u_of (fst x, t)) (snd x) (up x).
Proof. split; apply cderive_pair; cbn [fst snd]; auto_derive; trivial; unfold Rdiv; match goal with |- ?a = ?b => change (@eq R a b) end; ring. Qed.
Lemma v_derivs x : cderive (fun t => v_of (t, snd x)) (fst x) (vt x) /\ cderive (fun t => v_of (fst x, t)) (snd x) (vp x).
Proof. split; apply cderive_pair; cbn [fst snd]; auto_derive; trivial; unfold Rdiv; match goal with |- ?a = ?b => change (@eq R a b) end; ring. Qed.
Ltac halves x := destruct (half_angle (fst x)) as [-> ->]; pose proof (sc (fst x / 2)) as H1; revert H1; generalize (sin (fst x / 2)) (cos (fst x / 2)) (sin (snd x / 2)) (cos (snd x / 2)).
Lemma fo_u : first_order 1 u_of.
Proof.
  intros x. exists (ut x), (up x). destruct (u_derivs x) as [A B]. split; [exact A|split; [exact B|]]. unfold ut, up, u_of. halves x. intros S0 C0 S1 C1 H1.
  apply Ceq; cbn [Cplus Cmult RtoC imag fst snd INR]; field_simplify_eq; ring [H1].
Qed.
Lemma fo_v : first_order 1 v_of.
Proof.
  intros x. exists (vt x), (vp x). destruct (v_derivs x) as [A B]. split; [exact A|split; [exact B|]]. unfold vt, vp, v_of. halves x. intros S0 C0 S1 C1 H1.
  apply Ceq; cbn [Cplus Cmult RtoC imag fst snd INR]; field_simplify_eq; ring [H1].
Qed.
Lemma fo_ext q g h : (forall x, g x = h x) -> first_order q g -> first_order q h.
Proof. intros E. replace h with g; [auto|]. extensionality x. apply E. Qed.
Lemma fo_power q g k : first_order q g -> first_order (k * q) (fun x => power (g x) k).
Proof. intros H. induction k as [|k IH]; [exact (fo_const (RtoC 1))|]. cbn [power Nat.mul]. apply fo_mult; assumption. Qed.
Lemma fo_sum q m F : (forall t, (t < m)%nat -> first_order q (F t)) -> first_order q (fun x => csigma m (fun t => F t x)).
Proof.
  induction m as [|m IH]; intros H; [apply fo_zero|]. apply (fo_plus q (fun x => csigma m (fun t => F t x))); [apply IH; intros; apply H; lia|apply H; lia].
Qed.
Lemma fo_homog q g : homog q g -> first_order q g.
Proof.
  intros [c H]. apply (fo_ext q (fun x => csigma (S q) (fun t => Cmult (c t) (Cmult (power (u_of x) t) (power (v_of x) (q - t)))))); [intros; symmetry; apply H|].
  apply fo_sum. intros t T. replace q with (0 + (t * 1 + (q - t) * 1))%nat at 1 by lia. apply fo_mult; [apply fo_const|]. apply fo_mult; apply fo_power; [apply fo_u|apply fo_v].
Qed.

Lemma set_theta_moved c i t : set_theta c i t = moved c i (t, snd (c i)).
Proof. extensionality j. unfold set_theta, moved. destruct (Nat.eqb_spec j i) as [->|]; reflexivity. Qed.
Lemma set_phi_moved c i t : set_phi c i t = moved c i (fst (c i), t).
Proof. extensionality j. unfold set_phi, moved. destruct (Nat.eqb_spec j i) as [->|]; reflexivity. Qed.
Lemma moved_id c i : moved c i (c i) = c.
Proof. extensionality j. unfold moved. destruct (Nat.eqb_spec j i) as [->|]; reflexivity. Qed.

Lemma level_algebra Q (x : R * R) g h tt tp pp : sin (fst x) <> 0 ->
  Cmult (RtoC (sin (fst x))) g = Cplus (Cmult (imag 1) h) (RtoC (Q * cos (fst x))) ->
  Cplus (Cmult (RtoC (cos (fst x))) g) (Cmult (RtoC (sin (fst x))) tt) = Cplus (Cmult (imag 1) tp) (RtoC (Q * - sin (fst x))) ->
  Cmult (RtoC (sin (fst x))) tp = Cmult (imag 1) pp ->
  lambda_sq Q x g h tt pp = RtoC Q.
Proof.
  intros S0 H0 HT HP. unfold lambda_sq. revert S0 H0 HT HP. generalize (sin (fst x)) (cos (fst x)). intros s c S0 H0 HT HP.
  set (k := RtoC (/ s)). assert (K : Cmult k (RtoC s) = RtoC 1) by (unfold k; rewrite <- RtoC_mult, Rinv_l by exact S0; reflexivity).
  assert (J : Cmult (imag 1) (imag 1) = Copp (RtoC 1)) by (apply Ceq; unfold imag; cbn; ring).
  assert (G : g = Cmult k (Cplus (Cmult (imag 1) h) (RtoC (Q * c)))) by (rewrite <- H0; transitivity (Cmult (Cmult k (RtoC s)) g); [rewrite K|]; ring).
  assert (TP : tp = Cmult k (Cmult (imag 1) pp)) by (rewrite <- HP; transitivity (Cmult (Cmult k (RtoC s)) tp); [rewrite K|]; ring).
  assert (TT : tt = Cmult k (Cminus (Cplus (Cmult (imag 1) tp) (RtoC (Q * - s))) (Cmult (RtoC c) g))).
  { rewrite <- HT. transitivity (Cmult (Cmult k (RtoC s)) tt); [rewrite K|]; ring. }
  replace (RtoC (/ s ^ 2)) with (Cmult k k) by (unfold k; rewrite <- RtoC_mult; apply f_equal; field; exact S0).
  replace (RtoC (c / s)) with (Cmult (RtoC c) k) by (unfold k; rewrite <- RtoC_mult; reflexivity).
  replace (RtoC (Q ^ 2 * c ^ 2 / s ^ 2)) with (Cmult (Cmult (RtoC (Q * c)) (RtoC (Q * c))) (Cmult k k)) by (unfold k; rewrite <- !RtoC_mult; apply f_equal; field; exact S0).
  replace (imag (2 * Q * c / s ^ 2)) with (Cmult (Cplus (imag 1) (imag 1)) (Cmult (RtoC (Q * c)) (Cmult k k)))
    by (unfold k; rewrite <- !RtoC_mult; apply Ceq; unfold imag; cbn [Cplus Cmult RtoC fst snd]; field; exact S0).
  replace (RtoC Q) with (Cmult (RtoC Q) (Cmult k (RtoC s))) at 1 by (rewrite K; ring).
  rewrite TT, TP, G. rewrite !RtoC_mult, !RtoC_opp. clear G TP TT HP HT H0. clearbody k. revert J. generalize (imag 1). intros ii J. revert K J. generalize (RtoC s) (RtoC c) (RtoC Q). intros s' c' q' K J. ring [K J].
Qed.
Section Level.
  Context (n q : nat) (psi f : configuration -> C) (e : configuration) (ft fp : nat -> configuration -> C) (ftt ftp fpp : nat -> nat -> C).
  Hypothesis LD : log_derivatives n psi f e ft fp ftt ftp fpp.
  Hypothesis LL : lowest_level n q psi.
  Lemma log_first_order : exists eps, 0 < eps /\ forall c, near eps n e c -> forall i, (i < n)%nat ->
    Cmult (RtoC (sin (fst (c i)))) (ft i c) = Cplus (Cmult (imag 1) (fp i c)) (RtoC (INR q / 2 * cos (fst (c i)))).
  Proof.
    destruct (ld_first _ _ _ _ _ _ _ _ _ LD) as (eps & E & H). exists eps. split; [exact E|]. intros c N i I.
    assert (NZ : psi c <> RtoC 0) by (destruct (H c N) as [-> _]; apply exp_nz).
    destruct (partials_near n psi f e ft fp eps c i H N I) as [T P].
    destruct (fo_homog q (fun x => psi (moved c i x)) (LL i c I) (c i)) as (gt & gp & A & B & F). rewrite moved_id in F.
    assert (GT : gt = Cmult (psi c) (ft i c)).
    { rewrite <- (cderive_unique _ _ _ A), <- (cderive_unique _ _ _ T). apply (f_equal (fun g => CDerive g (fst (c i)))). extensionality t. rewrite set_theta_moved. reflexivity. }
    assert (GP : gp = Cmult (psi c) (fp i c)).
    { rewrite <- (cderive_unique _ _ _ B), <- (cderive_unique _ _ _ P). apply (f_equal (fun g => CDerive g (snd (c i)))). extensionality t. rewrite set_phi_moved. reflexivity. }
    rewrite GT, GP in F.
    assert (G : Cmult (psi c) (Cmult (RtoC (sin (fst (c i)))) (ft i c)) = Cmult (psi c) (Cplus (Cmult (imag 1) (fp i c)) (RtoC (INR q / 2 * cos (fst (c i)))))).
    { transitivity (Cmult (RtoC (sin (fst (c i)))) (Cmult (psi c) (ft i c))); [ring|]. rewrite F. ring. }
    rewrite <- (Cdiv_mult_l (psi c) (Cmult (RtoC (sin (fst (c i)))) (ft i c)) NZ), G. apply Cdiv_mult_l. exact NZ.
  Qed.
  Lemma level_lambda i : (i < n)%nat -> sin (fst (e i)) <> 0 -> lambda_sq (INR q / 2) (e i) (ft i e) (fp i e) (ftt i i) (fpp i i) = RtoC (INR q / 2).
  Proof.
    intros I S0. destruct log_first_order as (eps & E & H). pose proof (H e (near_refl eps n e E) i I) as H0.
    assert (HT : Cplus (Cmult (RtoC (cos (fst (e i)))) (ft i e)) (Cmult (RtoC (sin (fst (e i)))) (ftt i i)) = Cplus (Cmult (imag 1) (ftp i i)) (RtoC (INR q / 2 * - sin (fst (e i))))).
    { rewrite <- (cderive_unique (fun t => Cplus (Cmult (imag 1) (fp i (set_theta e i t))) (RtoC (INR q / 2 * cos t))) (fst (e i))
          (Cplus (Cmult (imag 1) (ftp i i)) (RtoC (INR q / 2 * - sin (fst (e i)))))).
      - symmetry. apply cderive_unique. apply (cderive_ext_loc (fun t => Cmult (RtoC (sin t)) (ft i (set_theta e i t)))).
        + exists (mkposreal eps E). intros t T. pose proof (H (set_theta e i t) (near_theta eps n e i t E T) i I) as K. rewrite set_theta_same in K. cbn [fst] in K. exact K.
        + eapply cderive_eq; [|apply cderive_mult; [apply cderive_real; apply is_derive_sin|apply (ld_tt _ _ _ _ _ _ _ _ _ LD i i I I)]]. cbn beta. rewrite set_theta_id. ring.
      - apply cderive_plus; [apply cderive_scal; apply (ld_pt _ _ _ _ _ _ _ _ _ LD i i I I)|]. apply (cderive_real (fun t => INR q / 2 * cos t)). auto_derive; trivial. ring. }
    assert (HP : Cmult (RtoC (sin (fst (e i)))) (ftp i i) = Cmult (imag 1) (fpp i i)).
    { rewrite <- (cderive_unique (fun t => Cplus (Cmult (imag 1) (fp i (set_phi e i t))) (RtoC (INR q / 2 * cos (fst (e i))))) (snd (e i)) (Cmult (imag 1) (fpp i i))).
      - symmetry. apply cderive_unique. apply (cderive_ext_loc (fun t => Cmult (RtoC (sin (fst (e i)))) (ft i (set_phi e i t)))).
        + exists (mkposreal eps E). intros t T. pose proof (H (set_phi e i t) (near_phi eps n e i t E T) i I) as K. rewrite set_phi_same in K. cbn [fst] in K. exact K.
        + apply cderive_scal. apply (ld_tp _ _ _ _ _ _ _ _ _ LD i i I I).
      - eapply cderive_eq; [|apply cderive_plus; [apply cderive_scal; apply (ld_pp _ _ _ _ _ _ _ _ _ LD i i I I)|apply cderive_const]]. ring. }
    apply level_algebra with (tp := ftp i i); assumption.
  Qed.
End Level.

(** Every state of the lowest level has kinetic energy n Q / (2 r^2) at every configuration, in both modes: no variance. *)
Theorem C71_lowest_level : forall n q r psi f e ft fp ftt ftp fpp, lowest_level n q psi -> log_derivatives n psi f e ft fp ftt ftp fpp ->
  (forall i, (i < n)%nat -> sin (fst (e i)) <> 0) ->
  kinetic_hessian n (INR q / 2) r e (tables e ft fp ftt ftp fpp) = RtoC (INR n * (INR q / 2) / (2 * r ^ 2)).
Proof.
  intros n q r psi f e ft fp ftt ftp fpp LL LD SN. rewrite kinetic_sum by exact SN. rewrite (csigma_ext n _ (fun _ => RtoC (INR q / 2))) by (intros i I; eapply level_lambda; eauto).
  assert (K : forall m, csigma m (fun _ => RtoC (INR q / 2)) = RtoC (INR m * (INR q / 2))).
  { induction m as [|m IH]; [cbn [csigma INR]; apply f_equal; ring|]. cbn [csigma]. rewrite IH, S_INR, <- RtoC_plus. apply f_equal. ring. }
  rewrite K, Cdiv_real, <- RtoC_mult. apply f_equal. unfold Rdiv. ring.
Qed.
(** One electron: L^2 is |Lambda|^2 + Q^2, so Q (Q + 1) in the lowest level. *)
Lemma single_square Q psi f e ft fp ftt ftp fpp : log_derivatives 1 psi f e ft fp ftt ftp fpp -> sin (fst (e 0%nat)) <> 0 ->
  angular_square_hessian 1 Q e (tables e ft fp ftt ftp fpp) = Cplus (lambda_sq Q (e 0%nat) (ft 0%nat e) (fp 0%nat e) (ftt 0%nat 0%nat) (fpp 0%nat 0%nat)) (RtoC (Q ^ 2)).
Proof.
  intros LD S0. unfold angular_square_hessian, tables, axes. cbn [dt dp dtt dtp dpp]. change (total 1) with (csigma 1). cbn [csigma]. rewrite Cdiv_tan.
  unfold lambda_sq, magnetic, phi_hat, theta_hat', r_hat. cbn [nth]. rewrite !over_tan. pose proof (sc (fst (e 0%nat))) as H1. pose proof (sc (snd (e 0%nat))) as H2. revert S0 H1 H2.
  generalize (ft 0%nat e) (fp 0%nat e) (ftt 0%nat 0%nat) (ftp 0%nat 0%nat) (fpp 0%nat 0%nat) (sin (fst (e 0%nat))) (cos (fst (e 0%nat))) (sin (snd (e 0%nat))) (cos (snd (e 0%nat))).
  intros [g1 g2] [h1 h2] [a1 a2] [b1 b2] [c1 c2] s c sp cp S0 H1 H2.
  apply Ceq; unfold Ci, imag; cbn [Cplus Cmult Cminus Copp RtoC fst snd]; field_simplify_eq; try exact S0; ring [H1 H2].
Qed.
Theorem C72_single_electron : forall q psi f e ft fp ftt ftp fpp, lowest_level 1 q psi -> log_derivatives 1 psi f e ft fp ftt ftp fpp -> sin (fst (e 0%nat)) <> 0 ->
  l_square (angular_hessian 1 (INR q / 2) e (tables e ft fp ftt ftp fpp)) = INR q / 2 * (INR q / 2 + 1).
Proof.
  intros q psi f e ft fp ftt ftp fpp LL LD S0. unfold angular_hessian. cbn [l_square]. rewrite (single_square _ psi f) by assumption.
  rewrite (level_lambda 1 q psi f e ft fp ftt ftp fpp LD LL 0 Nat.lt_0_1 S0). cbn [Cplus RtoC fst]. ring.
Qed.
(** The orbital u^t v^(q - t) of one electron has L_z = t - q/2. *)
Lemma power_derive (g : R -> C) x l k : g x <> RtoC 0 -> cderive g x (Cmult (g x) l) -> cderive (fun t => power (g t) k) x (Cmult (power (g x) k) (Cmult (RtoC (INR k)) l)).
Proof.
  intros N D. induction k as [|k IH].
  - cbn [power INR]. replace (Cmult (RtoC 1) (Cmult (RtoC 0) l)) with (RtoC 0) by ring. apply cderive_const.
  - cbn [power]. pose proof (cderive_mult g (fun t => power (g t) k) x _ _ D IH) as M. cbn beta in M. rewrite S_INR, RtoC_plus.
    replace (Cmult (Cmult (g x) (power (g x) k)) (Cmult (Cplus (RtoC (INR k)) (RtoC 1)) l)) with (Cplus (Cmult (Cmult (g x) l) (power (g x) k)) (Cmult (g x) (Cmult (power (g x) k) (Cmult (RtoC (INR k)) l)))) by ring. exact M.
Qed.
Theorem C72_single_orbital : forall q t f e ft fp ftt ftp fpp, (t <= q)%nat ->
  log_derivatives 1 (fun c => Cmult (power (u_of (c 0%nat)) t) (power (v_of (c 0%nat)) (q - t))) f e ft fp ftt ftp fpp -> 0 < fst (e 0%nat) < PI ->
  let s := angular_hessian 1 (INR q / 2) e (tables e ft fp ftt ftp fpp) in
  lz s = INR t - INR q / 2 /\ l_square s = INR q / 2 * (INR q / 2 + 1).
Proof.
  intros q t f e ft fp ftt ftp fpp T LD R s. assert (S0 : sin (fst (e 0%nat)) <> 0) by (apply Rgt_not_eq, sin_gt_0; lra). split.
  - unfold s, angular_hessian. cbn [lz tables dp]. change (total 1) with (csigma 1). cbn [csigma]. rewrite Cplus_0_l.
    set (psi := fun c : configuration => Cmult (power (u_of (c 0%nat)) t) (power (v_of (c 0%nat)) (q - t))) in *.
    destruct (ld_first _ _ _ _ _ _ _ _ _ LD) as (eps & E & H). destruct (partials_near 1 psi f e ft fp eps e 0 H (near_refl eps 1 e E) Nat.lt_0_1) as [_ P].
    assert (NZ : psi e <> RtoC 0) by apply (ld_nz _ _ _ _ _ _ _ _ _ LD).
    assert (SP : 0 < sin (fst (e 0%nat) / 2)) by (apply sin_gt_0; lra). assert (CP : 0 < cos (fst (e 0%nat) / 2)) by (apply cos_gt_0; lra).
    assert (PH : forall p, cos p = 0 -> sin p = 0 -> False) by (intros p X Y; pose proof (sin2_cos2 p) as Z; unfold Rsqr in Z; rewrite X, Y in Z; lra).
    assert (U : u_of (e 0%nat) <> RtoC 0). { intros X. unfold u_of in X. pose proof (f_equal fst X) as X1. pose proof (f_equal snd X) as X2. cbn [fst snd RtoC] in X1, X2. apply Rmult_integral in X1. apply Rmult_integral in X2. apply (PH (snd (e 0%nat) / 2)); [destruct X1|destruct X2]; lra. }
    assert (V : v_of (e 0%nat) <> RtoC 0). { intros X. unfold v_of in X. pose proof (f_equal fst X) as X1. pose proof (f_equal snd X) as X2. cbn [fst snd RtoC] in X1, X2. apply Ropp_eq_0_compat in X2. rewrite Ropp_involutive in X2. apply Rmult_integral in X1. apply Rmult_integral in X2. apply (PH (snd (e 0%nat) / 2)); [destruct X1|destruct X2]; lra. }
    assert (D : cderive (fun p => psi (set_phi e 0 p)) (snd (e 0%nat)) (Cmult (psi e) (imag (INR t - INR q / 2)))).
    { apply (cderive_ext (fun p => Cmult (power (u_of (fst (e 0%nat), p)) t) (power (v_of (fst (e 0%nat), p)) (q - t)))); [intros p; unfold psi; rewrite set_phi_same; reflexivity|].
      eapply cderive_eq; [|apply cderive_mult; apply power_derive].
      2:{ rewrite <- surjective_pairing. exact U. }
      2:{ eapply cderive_eq; [|apply (u_derivs (e 0%nat))]. rewrite <- surjective_pairing. instantiate (1 := imag (/ 2)). unfold up, u_of, imag. apply Ceq; cbn [Cmult fst snd]; ring. }
      2:{ rewrite <- surjective_pairing. exact V. }
      2:{ eapply cderive_eq; [|apply (v_derivs (e 0%nat))]. rewrite <- surjective_pairing. instantiate (1 := imag (- / 2)). unfold vp, v_of, imag. apply Ceq; cbn [Cmult fst snd]; ring. }
      cbn beta. rewrite <- !surjective_pairing. unfold psi. rewrite minus_INR by exact T.
      replace (imag (INR t - INR q / 2)) with (Cplus (Cmult (RtoC (INR t)) (imag (/ 2))) (Cmult (RtoC (INR q - INR t)) (imag (- / 2)))) by (apply Ceq; unfold imag; cbn [Cplus Cmult RtoC fst snd]; field).
      ring. }
    assert (Q : Cmult (psi e) (fp 0%nat e) = Cmult (psi e) (imag (INR t - INR q / 2))) by (rewrite <- (cderive_unique _ _ _ P); apply cderive_unique; exact D).
    rewrite <- (Cdiv_mult_l (psi e) (fp 0%nat e) NZ), Q, Cdiv_mult_l by exact NZ. reflexivity.
  - unfold s. eapply C72_single_electron; [|exact LD|exact S0]. intros i c I. assert (i = 0)%nat by lia. subst i.
    exists (fun k => if Nat.eqb k t then RtoC 1 else RtoC 0). intros x. rewrite (csigma_pick (S q) t); [rewrite Nat.eqb_refl, moved_same; ring|lia|].
    intros k K N. destruct (Nat.eqb_spec k t); [congruence|]. ring.
Qed.

(** ** Pair products carry no angular momentum *)
Definition act (n : nat) (a : nat) (w : nat -> R) (e : configuration) (gt gp : nat -> C) (z : C) : C :=
  csigma n (fun i => Cplus (Cplus (Cmult (Aa a (e i)) (gt i)) (Cmult (Ba a (e i)) (gp i))) (Cmult (Cmult (RtoC (w i)) (MM 1 a (e i))) z)).
(** [singlet n w psi]: with monopole strength w i for electron i, the angular momentum of psi vanishes *)
Definition singlet (n : nat) (w : nat -> R) (psi : configuration -> C) : Prop := forall e, (forall i, (i < n)%nat -> sin (fst (e i)) <> 0) -> exists gt gp,
  (forall i, (i < n)%nat -> cderive (fun t => psi (set_theta e i t)) (fst (e i)) (gt i) /\ cderive (fun t => psi (set_phi e i t)) (snd (e i)) (gp i)) /\
  forall a, (a < 3)%nat -> act n a w e gt gp (psi e) = RtoC 0.
Lemma singlet_const n z : singlet n (fun _ => 0) (fun _ => z).
Proof.
  intros e _. exists (fun _ => RtoC 0), (fun _ => RtoC 0). split; [intros; split; apply cderive_const|]. intros a _. apply csigma_zero. intros. ring.
Qed.
Lemma singlet_mult n w w' psi chi : singlet n w psi -> singlet n w' chi -> singlet n (fun i => w i + w' i) (fun c => Cmult (psi c) (chi c)).
Proof.
  intros P X e SN. destruct (P e SN) as (gt & gp & D & A). destruct (X e SN) as (ht & hp & D' & A').
  exists (fun i => Cplus (Cmult (gt i) (chi e)) (Cmult (psi e) (ht i))), (fun i => Cplus (Cmult (gp i) (chi e)) (Cmult (psi e) (hp i))). split.
  - intros i I. destruct (D i I) as [T F], (D' i I) as [T' F']. pose proof (cderive_mult _ _ _ _ _ T T') as M1. pose proof (cderive_mult _ _ _ _ _ F F') as M2. cbn beta in M1, M2.
    rewrite set_theta_id in M1. rewrite set_phi_id in M2. split; assumption.
  - intros a K. transitivity (Cplus (Cmult (chi e) (act n a w e gt gp (psi e))) (Cmult (psi e) (act n a w' e ht hp (chi e)))); [|rewrite A, A' by exact K; ring].
    unfold act. rewrite <- !csigma_scal, <- csigma_plus. apply csigma_ext. intros i I. rewrite RtoC_plus. ring.
Qed.
Lemma singlet_ext n w w' psi psi' : (forall i, (i < n)%nat -> w i = w' i) -> (forall c, psi c = psi' c) -> singlet n w psi -> singlet n w' psi'.
Proof.
  intros W E. replace psi' with psi by (extensionality c; apply E). intros P e SN. destruct (P e SN) as (gt & gp & D & A). exists gt, gp. split; [exact D|]. intros a K. rewrite <- (A a K). apply csigma_ext.
  intros i I. rewrite (W i I). reflexivity.
Qed.
Lemma singlet_power n w psi k : singlet n w psi -> singlet n (fun i => INR k * w i) (fun c => power (psi c) k).
Proof.
  intros P. induction k as [|k IH]; [eapply singlet_ext; [| |apply (singlet_const n (RtoC 1))]; intros; cbn [INR power]; auto; ring|].
  eapply singlet_ext; [| |apply (singlet_mult n w _ psi _ P IH)]; [intros; cbn beta; rewrite S_INR; ring|reflexivity].
Qed.
Lemma singlet_product n m w F : (forall j, (j < m)%nat -> singlet n (w j) (F j)) -> singlet n (fun i => rtotal m (fun j => w j i)) (fun c => product m (fun j => F j c)).
Proof.
  induction m as [|m IH]; intros H; [eapply singlet_ext; [| |apply (singlet_const n (RtoC 1))]; reflexivity|].
  assert (A : singlet n (fun i => rtotal m (fun j => w j i)) (fun c => product m (fun j => F j c))) by (apply IH; intros; apply H; lia).
  exact (singlet_mult n _ _ _ _ A (H m (Nat.lt_succ_diag_r m))).
Qed.
(** The angular momentum of one spin-1/2 spinor *)
Definition su (a : nat) (x : R * R) : C := match a with O => Cmult (RtoC (/ 2)) (v_of x) | S O => Cmult (imag (/ 2)) (v_of x) | _ => Cmult (RtoC (/ 2)) (u_of x) end.
Definition sv (a : nat) (x : R * R) : C := match a with O => Cmult (RtoC (/ 2)) (u_of x) | S O => Cmult (imag (- / 2)) (u_of x) | _ => Cmult (RtoC (- / 2)) (v_of x) end.
Ltac spin a x S0 := unfold Aa, Ba, MM, ut, up, vt, vp, su, sv, u_of, v_of, phvec, thvec, rvec; revert S0; destruct (half_angle (fst x)) as [-> ->]; destruct (half_angle (snd x)) as [-> ->];
  pose proof (sc (fst x / 2)) as H1; pose proof (sc (snd x / 2)) as H2; revert H1 H2;
  generalize (sin (fst x / 2)) (cos (fst x / 2)) (sin (snd x / 2)) (cos (snd x / 2)); intros s c sp cp H1 H2 S0; assert (s <> 0 /\ c <> 0) as [N1 N2] by (split; intros ->; apply S0; ring);
  destruct a as [|[|[|a]]]; cbn [nth]; [| | |lia]; apply Ceq; unfold imag; cbn [Cplus Cmult RtoC fst snd]; field_simplify_eq; auto; ring [H1 H2].
Lemma spin_u a x : (a < 3)%nat -> sin (fst x) <> 0 -> Cplus (Cplus (Cmult (Aa a x) (ut x)) (Cmult (Ba a x) (up x))) (Cmult (Cmult (RtoC (/ 2)) (MM 1 a x)) (u_of x)) = su a x.
Proof. intros K S0. spin a x S0. Qed.
Lemma spin_v a x : (a < 3)%nat -> sin (fst x) <> 0 -> Cplus (Cplus (Cmult (Aa a x) (vt x)) (Cmult (Ba a x) (vp x))) (Cmult (Cmult (RtoC (/ 2)) (MM 1 a x)) (v_of x)) = sv a x.
Proof. intros K S0. spin a x S0. Qed.
Lemma csigma_two n i j f : (i < n)%nat -> (j < n)%nat -> i <> j -> (forall k, (k < n)%nat -> k <> i -> k <> j -> f k = RtoC 0) -> csigma n f = Cplus (f i) (f j).
Proof.
  intros I J N Z. rewrite (csigma_ext n f (fun k => Cplus (if Nat.eqb k i then f i else RtoC 0) (if Nat.eqb k j then f j else RtoC 0))).
  - rewrite csigma_plus, !csigma_single by assumption. reflexivity.
  - intros k K. destruct (Nat.eqb_spec k i) as [A|A], (Nat.eqb_spec k j) as [B|B]; try congruence; [subst k; ring|subst k; ring|]. rewrite Z by assumption. ring.
Qed.
Lemma pair_derive (f : configuration -> C) (s : R -> configuration) i j x lu lv : (forall t, f (s t) = Cminus (Cmult (u_of (s t i)) (v_of (s t j))) (Cmult (u_of (s t j)) (v_of (s t i)))) ->
  cderive (fun t => u_of (s t i)) x lu -> cderive (fun t => v_of (s t i)) x lv -> (forall t, s t j = s x j) ->
  cderive (fun t => f (s t)) x (Cminus (Cmult lu (v_of (s x j))) (Cmult (u_of (s x j)) lv)).
Proof.
  intros E U V J. apply (cderive_ext (fun t => Cplus (Cmult (v_of (s x j)) (u_of (s t i))) (Cmult (Copp (u_of (s x j))) (v_of (s t i))))); [intros t; rewrite E, (J t); ring|].
  pose proof (cderive_plus _ _ _ _ _ (cderive_scal (v_of (s x j)) _ _ _ U) (cderive_scal (Copp (u_of (s x j))) _ _ _ V)) as M.
  replace (Cminus (Cmult lu (v_of (s x j))) (Cmult (u_of (s x j)) lv)) with (Cplus (Cmult (v_of (s x j)) lu) (Cmult (Copp (u_of (s x j))) lv)) by ring. exact M.
Qed.
Lemma singlet_pair n i j : (i < n)%nat -> (j < n)%nat -> i <> j -> singlet n (fun k => if Nat.eqb k i then / 2 else if Nat.eqb k j then / 2 else 0) (fun c => pair_factor c i j).
Proof.
  intros I J N e SN.
  set (d := fun (pu pv : R * R -> C) (k : nat) => if Nat.eqb k i then Cminus (Cmult (pu (e i)) (v_of (e j))) (Cmult (u_of (e j)) (pv (e i)))
    else if Nat.eqb k j then Cminus (Cmult (u_of (e i)) (pv (e j))) (Cmult (pu (e j)) (v_of (e i))) else RtoC 0).
  exists (d ut vt), (d up vp). split.
  - intros k K. unfold d. destruct (Nat.eqb_spec k i) as [->|A]; [|destruct (Nat.eqb_spec k j) as [->|B]].
    + split.
      * pose proof (pair_derive (fun c => pair_factor c i j) (set_theta e i) i j (fst (e i)) (ut (e i)) (vt (e i)) (fun t => eq_refl)) as P. rewrite set_theta_other in P by congruence. apply P.
        -- apply (cderive_ext (fun t => u_of (t, snd (e i)))); [intros; rewrite set_theta_same; reflexivity|apply u_derivs].
        -- apply (cderive_ext (fun t => v_of (t, snd (e i)))); [intros; rewrite set_theta_same; reflexivity|apply v_derivs].
        -- intros t. rewrite !set_theta_other by congruence. reflexivity.
      * pose proof (pair_derive (fun c => pair_factor c i j) (set_phi e i) i j (snd (e i)) (up (e i)) (vp (e i)) (fun t => eq_refl)) as P. rewrite set_phi_other in P by congruence. apply P.
        -- apply (cderive_ext (fun t => u_of (fst (e i), t))); [intros; rewrite set_phi_same; reflexivity|apply u_derivs].
        -- apply (cderive_ext (fun t => v_of (fst (e i), t))); [intros; rewrite set_phi_same; reflexivity|apply v_derivs].
        -- intros t. rewrite !set_phi_other by congruence. reflexivity.
    + assert (O : forall c, Copp (pair_factor c i j) = Cminus (Cmult (u_of (c j)) (v_of (c i))) (Cmult (u_of (c i)) (v_of (c j)))) by (intros; unfold pair_factor; ring).
      split.
      * pose proof (pair_derive (fun c => Copp (pair_factor c i j)) (set_theta e j) j i (fst (e j)) (ut (e j)) (vt (e j)) (fun t => O _)) as P. rewrite set_theta_other in P by congruence.
        assert (P' := cderive_opp _ _ _ (P (cderive_ext (fun t => u_of (t, snd (e j))) _ _ _ (fun t => f_equal u_of (eq_sym (set_theta_same e j t))) (proj1 (u_derivs (e j))))
          (cderive_ext (fun t => v_of (t, snd (e j))) _ _ _ (fun t => f_equal v_of (eq_sym (set_theta_same e j t))) (proj1 (v_derivs (e j)))) ltac:(intros t; rewrite !set_theta_other by congruence; reflexivity))).
        eapply cderive_eq; [|eapply cderive_ext; [|exact P']]; [ring|intros t; cbn beta; ring].
      * pose proof (pair_derive (fun c => Copp (pair_factor c i j)) (set_phi e j) j i (snd (e j)) (up (e j)) (vp (e j)) (fun t => O _)) as P. rewrite set_phi_other in P by congruence.
        assert (P' := cderive_opp _ _ _ (P (cderive_ext (fun t => u_of (fst (e j), t)) _ _ _ (fun t => f_equal u_of (eq_sym (set_phi_same e j t))) (proj2 (u_derivs (e j))))
          (cderive_ext (fun t => v_of (fst (e j), t)) _ _ _ (fun t => f_equal v_of (eq_sym (set_phi_same e j t))) (proj2 (v_derivs (e j)))) ltac:(intros t; rewrite !set_phi_other by congruence; reflexivity))).
        eapply cderive_eq; [|eapply cderive_ext; [|exact P']]; [ring|intros t; cbn beta; ring].
    + split; [apply (cderive_ext (fun _ => pair_factor e i j)); [intros t; unfold pair_factor; rewrite !set_theta_other by congruence; reflexivity|apply cderive_const]|
        apply (cderive_ext (fun _ => pair_factor e i j)); [intros t; unfold pair_factor; rewrite !set_phi_other by congruence; reflexivity|apply cderive_const]].
  - intros a K. unfold act. rewrite (csigma_two n i j); auto.
    2:{ intros k _ A B. unfold d. destruct (Nat.eqb_spec k i); [congruence|]. destruct (Nat.eqb_spec k j); [congruence|]. ring. }
    unfold d. rewrite !Nat.eqb_refl. destruct (Nat.eqb_spec j i); [congruence|].
    pose proof (spin_u a (e i) K (SN i I)) as U1. pose proof (spin_v a (e i) K (SN i I)) as V1. pose proof (spin_u a (e j) K (SN j J)) as U2. pose proof (spin_v a (e j) K (SN j J)) as V2.
    transitivity (Cplus (Cminus (Cmult (su a (e i)) (v_of (e j))) (Cmult (u_of (e j)) (sv a (e i)))) (Cminus (Cmult (u_of (e i)) (sv a (e j))) (Cmult (su a (e j)) (v_of (e i))))).
    + rewrite <- U1, <- V1, <- U2, <- V2. unfold pair_factor. ring.
    + unfold su, sv. replace (RtoC (- / 2)) with (Copp (RtoC (/ 2))) by (symmetry; apply RtoC_opp). replace (imag (- / 2)) with (Copp (imag (/ 2))) by (apply Ceq; unfold imag; cbn; ring).
      destruct a as [|[|[|a]]]; [ring|ring|ring|lia].
Qed.
Lemma pair_weight n k : (k < n)%nat -> rtotal n (fun j => rtotal j (fun i => if Nat.eqb k i then / 2 else if Nat.eqb k j then / 2 else 0)) = (INR n - 1) / 2.
Proof.
  assert (R0 : forall m f, (forall i, (i < m)%nat -> f i = 0) -> rtotal m f = 0) by (intros m f; induction m as [|m IH]; intros Z; [reflexivity|]; unfold rtotal in *; cbn [bigsum]; rewrite IH, Z by (auto with arith; lia); ring).
  assert (RS : forall m f, rtotal (S m) f = rtotal m f + f m) by reflexivity.
  assert (RE : forall m f g, (forall i, (i < m)%nat -> f i = g i) -> rtotal m f = rtotal m g) by (intros m f g; induction m as [|m IH]; intros Z; [reflexivity|]; rewrite !RS, IH, Z by (auto with arith; lia); reflexivity).
  assert (IN : forall m, rtotal m (fun i => if Nat.eqb k i then / 2 else 0) = if Nat.ltb k m then / 2 else 0).
  { induction m as [|m IH]; [reflexivity|]. rewrite RS, IH. destruct (Nat.eqb_spec k m), (Nat.ltb_spec k m), (Nat.ltb_spec k (S m)); try lia; lra. }
  assert (CO : forall m, rtotal m (fun _ => / 2) = INR m / 2) by (induction m as [|m IH]; [unfold rtotal; cbn; field|rewrite RS, IH, S_INR; field]).
  intros K. induction n as [|n IH]; [lia|]. rewrite RS, S_INR. destruct (Nat.eq_dec k n) as [->|N].
  - rewrite R0.
    + rewrite (RE n _ (fun _ => / 2)), CO; [lra|]. intros i I. destruct (Nat.eqb_spec n i); [reflexivity|]. rewrite Nat.eqb_refl. reflexivity.
    + intros j J. apply R0. intros i I. destruct (Nat.eqb_spec n i); [lia|]. destruct (Nat.eqb_spec n j); [lia|reflexivity].
  - rewrite IH by lia. rewrite (RE n _ (fun i => if Nat.eqb k i then / 2 else 0)), IN.
    + destruct (Nat.ltb_spec k n); [|lia]. lra.
    + intros i I. destruct (Nat.eqb_spec k i); [reflexivity|]. destruct (Nat.eqb_spec k n); [congruence|reflexivity].
Qed.
Lemma singlet_pairs n k : singlet n (fun _ => INR k * ((INR n - 1) / 2)) (fun c => pair_product n (fun i j => power (pair_factor c i j) k)).
Proof.
  eapply singlet_ext; [|intros c; symmetry; apply pair_product_power|].
  2:{ apply singlet_power. unfold pair_product. apply (singlet_product n n (fun j k => rtotal j (fun i => if Nat.eqb k i then / 2 else if Nat.eqb k j then / 2 else 0)) (fun j c => product j (fun i => pair_factor c i j))).
      intros j J. apply (singlet_product n j (fun i k => if Nat.eqb k i then / 2 else if Nat.eqb k j then / 2 else 0) (fun i c => pair_factor c i j)). intros i I. apply singlet_pair; lia. }
  intros i I. cbn beta. apply f_equal. apply pair_weight. exact I.
Qed.
(** The Laughlin states are singlets: L_x, L_y, L_z annihilate them at every configuration away from the poles. *)
Theorem C72_laughlin_singlet : forall n k a e, (a < 3)%nat -> (forall i, (i < n)%nat -> sin (fst (e i)) <> 0) ->
  L n (INR (k * (n - 1)) / 2) a (fun c => pair_product n (fun i j => power (pair_factor c i j) k)) e = RtoC 0.
Proof.
  intros n k a e K SN. destruct n as [|n]; [reflexivity|]. destruct (singlet_pairs (S n) k e SN) as (gt & gp & D & A). rewrite <- (A a K). rewrite L_op. unfold op, act. apply csigma_ext. intros i I.
  destruct (D i I) as [T P]. unfold d_theta, d_phi. rewrite (cderive_unique _ _ _ T), (cderive_unique _ _ _ P).
  replace (INR (k * (S n - 1)) / 2) with (INR k * ((INR (S n) - 1) / 2)) by (rewrite mult_INR, minus_INR by lia; cbn [INR]; field).
  replace (MM (INR k * ((INR (S n) - 1) / 2)) a (e i)) with (Cmult (RtoC (INR k * ((INR (S n) - 1) / 2))) (MM 1 a (e i))); [ring|]. unfold MM. rewrite <- RtoC_mult. apply f_equal. ring.
Qed.
(** so the three angular-momentum statistics vanish at every configuration. *)
Theorem C72_laughlin_zero : forall n k f e ft fp ftt ftp fpp,
  log_derivatives n (fun c => pair_product n (fun i j => power (pair_factor c i j) k)) f e ft fp ftt ftp fpp -> (forall i, (i < n)%nat -> sin (fst (e i)) <> 0) ->
  angular_hessian n (INR (k * (n - 1)) / 2) e (tables e ft fp ftt ftp fpp) = {| lz := 0; lz_square := 0; l_square := 0 |}.
Proof.
  intros n k f e ft fp ftt ftp fpp LD SN. set (psi := fun c => pair_product n (fun i j => power (pair_factor c i j) k)) in *. set (Q := INR (k * (n - 1)) / 2).
  destruct (C72_angular_momentum n Q psi f e ft fp ftt ftp fpp LD SN) as (NZ & A & B & D). cbv zeta in A, B, D.
  assert (Z : forall a, (a < 3)%nat -> L n Q a (L n Q a psi) e = RtoC 0).
  { intros a K. rewrite (L_op n Q a (L n Q a psi)). unfold op. apply csigma_zero. intros i I.
    assert (T : d_theta i (L n Q a psi) e = RtoC 0).
    { apply cderive_unique. apply (cderive_ext_loc (fun _ => RtoC 0)); [|apply cderive_const]. apply (filter_imp (fun x => sin x <> 0)); [|apply sin_nz_near, SN; exact I]. intros t S0. symmetry. apply C72_laughlin_singlet; [exact K|].
      intros m M. destruct (Nat.eq_dec m i) as [->|N]; [rewrite set_theta_same; exact S0|rewrite set_theta_other by exact N; apply SN; exact M]. }
    assert (P : d_phi i (L n Q a psi) e = RtoC 0).
    { apply cderive_unique. apply (cderive_ext (fun _ => RtoC 0)); [|apply cderive_const]. intros t. symmetry. apply C72_laughlin_singlet; [exact K|].
      intros m M. destruct (Nat.eq_dec m i) as [->|N]; [rewrite set_phi_same; cbn [fst]; apply SN; exact I|rewrite set_phi_other by exact N; apply SN; exact M]. }
    rewrite T, P. replace (L n Q a psi e) with (RtoC 0) by (symmetry; apply C72_laughlin_singlet; auto). ring. }
  assert (L0 : L n Q 2 psi e = RtoC 0) by (apply C72_laughlin_singlet; auto).
  destruct (angular_hessian n Q e (tables e ft fp ftt ftp fpp)) as [z z2 l2]. cbn [lz lz_square l_square] in A, B, D. unfold L_square in D. rewrite !Z in D by lia. rewrite Z in B by lia. rewrite L0 in A.
  rewrite A, B, D. f_equal; unfold Cdiv; cbn [Cmult Cplus RtoC fst snd]; ring.
Qed.

(** ** A concrete case: one electron in the orbital u on the equator, one flux quantum *)
Definition ex_log (c : configuration) : C := (ln (cos (fst (c 0%nat) / 2)), snd (c 0%nat) / 2).
Definition ex_t (i : nat) (c : configuration) : C := RtoC (- / 2 * (sin (fst (c 0%nat) / 2) / cos (fst (c 0%nat) / 2))).
Definition ex_p (i : nat) (c : configuration) : C := imag (/ 2).
Definition ex_e : configuration := fun _ => (PI / 2, 1).
Lemma ex_tables : log_derivatives 1 (fun c => Cmult (power (u_of (c 0%nat)) 1) (power (v_of (c 0%nat)) (1 - 1))) ex_log ex_e ex_t ex_p (fun _ _ => RtoC (- / 2)) (fun _ _ => RtoC 0) (fun _ _ => RtoC 0).
Proof.
  assert (PI0 := PI_RGT_0). assert (C4 : cos (PI / 2 / 2) <> 0) by (apply Rgt_not_eq, cos_gt_0; lra).
  split.
  - exists (PI / 4). split; [lra|]. intros c N. destruct (N 0%nat Nat.lt_0_1) as [T _]. unfold ex_e in T. cbn [fst] in T. apply Rabs_def2 in T.
    assert (CP : 0 < cos (fst (c 0%nat) / 2)) by (apply cos_gt_0; lra). split.
    + unfold ex_log, exp_of, u_of. cbn [power fst snd Nat.sub]. rewrite exp_ln by exact CP. apply Ceq; cbn [Cmult RtoC fst snd]; ring.
    + intros i I. assert (i = 0)%nat by lia. subst i. split.
      * apply (cderive_ext (fun t => (ln (cos (t / 2)), snd (c 0%nat) / 2))); [intros t; unfold ex_log; rewrite set_theta_same; reflexivity|].
        apply cderive_pair; [|apply @is_derive_const]. auto_derive; [exact CP|]. unfold Rdiv. match goal with |- ?a = ?b => change (@eq R a b) end. ring.
      * apply (cderive_ext (fun t => (ln (cos (fst (c 0%nat) / 2)), t / 2))); [intros t; unfold ex_log; rewrite set_phi_same; reflexivity|].
        apply cderive_pair; [apply @is_derive_const|]. auto_derive; trivial. match goal with |- ?a = ?b => change (@eq R a b) end. field.
  - intros i j I J. assert (j = 0)%nat by lia. subst j. apply (cderive_ext (fun t => RtoC (- / 2 * (sin (t / 2) / cos (t / 2))))); [intros t; unfold ex_t; rewrite set_theta_same; reflexivity|].
    apply cderive_real. unfold ex_e. cbn [fst]. auto_derive; [exact C4|]. match goal with |- ?a = ?b => change (@eq R a b) end. change (PI / 2 * / 2) with (PI / 2 / 2).
    replace (PI / 2 / 2) with (PI / 4) in * by field. rewrite sin_PI4, cos_PI4 in *. assert (S2 : sqrt 2 * sqrt 2 = 2) by (apply sqrt_sqrt; lra).
    assert (N2 : sqrt 2 <> 0) by (intros Z; rewrite Z in S2; lra). field. exact N2.
  - intros i j I J. assert (j = 0)%nat by lia. subst j. apply (cderive_ext (fun t => ex_t i ex_e)); [intros t; unfold ex_t; rewrite set_phi_same; reflexivity|apply cderive_const].
  - intros i j I J. apply (cderive_const (imag (/ 2))).
  - intros i j I J. apply (cderive_const (imag (/ 2))).
Qed.
Theorem C71_example : kinetic_hessian 1 (/ 2) 1 ex_e (tables ex_e ex_t ex_p (fun _ _ => RtoC (- / 2)) (fun _ _ => RtoC 0) (fun _ _ => RtoC 0)) = RtoC (/ 4).
Proof.
  assert (LL : lowest_level 1 1 (fun c => Cmult (power (u_of (c 0%nat)) 1) (power (v_of (c 0%nat)) (1 - 1)))).
  { intros i c I. assert (i = 0)%nat by lia. subst i. exists (fun k => if Nat.eqb k 1 then RtoC 1 else RtoC 0). intros x. rewrite moved_same. cbn. ring. }
  replace (/ 2) with (INR 1 / 2) at 1 by (cbn [INR]; field). rewrite (C71_lowest_level 1 1 1 _ _ _ _ _ _ _ _ LL ex_tables).
  - cbn [INR]. apply f_equal. field.
  - intros i I. unfold ex_e. cbn [fst]. rewrite sin_PI2. lra.
Qed.
Theorem C72_example : let s := angular_hessian 1 (/ 2) ex_e (tables ex_e ex_t ex_p (fun _ _ => RtoC (- / 2)) (fun _ _ => RtoC 0) (fun _ _ => RtoC 0)) in lz s = / 2 /\ l_square s = 3 / 4.
Proof.
  cbv zeta. assert (PI0 := PI_RGT_0).
  destruct (C72_single_orbital 1 1 _ _ _ _ _ _ _ (le_n 1) ex_tables) as [A B]; [unfold ex_e; cbn [fst]; lra|]. replace (INR 1 / 2) with (/ 2) in A, B by (cbn [INR]; field). rewrite A, B. cbn [INR]. split; field.
Qed.
