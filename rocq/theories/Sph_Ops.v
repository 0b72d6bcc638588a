(** Derivatives of complex-valued functions and first-order operators, for C71 and C72. *)
From Coq Require Import Reals List Arith Lra Lia FunctionalExtensionality.
From Coquelicot Require Import Coquelicot.
From Verif Require Import Sph_Spec.
Import ListNotations.
Open Scope R_scope.

Lemma Ceq (a b : C) : fst a = fst b -> snd a = snd b -> a = b.
Proof. destruct a, b; cbn; intros -> ->; reflexivity. Qed.

(** ** cderive *)
Lemma cderive_unique f x l : cderive f x l -> CDerive f x = l.
Proof. intros [A B]. unfold CDerive. apply Ceq; cbn [fst snd]; apply is_derive_unique; assumption. Qed.
Lemma cderive_ext_loc f g x l : locally x (fun t => f t = g t) -> cderive f x l -> cderive g x l.
Proof.
  intros E [A B]. split; [apply (is_derive_ext_loc (fun t => fst (f t))); [|exact A]|apply (is_derive_ext_loc (fun t => snd (f t))); [|exact B]];
  apply (filter_imp (fun t => f t = g t)); auto; intros t ->; reflexivity.
Qed.
Lemma cderive_ext f g x l : (forall t, f t = g t) -> cderive f x l -> cderive g x l.
Proof. intros E. apply cderive_ext_loc. apply filter_forall. exact E. Qed.
Lemma cderive_eq f (x : R) (l l' : C) : l = l' -> cderive f x l -> cderive f x l'. Proof. intros ->. auto. Qed.
Lemma cderive_const z x : cderive (fun _ => z) x (RtoC 0).
Proof. split; apply @is_derive_const. Qed.
Lemma cderive_plus f g x l m : cderive f x l -> cderive g x m -> cderive (fun t => Cplus (f t) (g t)) x (Cplus l m).
Proof. intros [A B] [A' B']. split; cbn [Cplus fst snd]; [apply (is_derive_plus (fun t => fst (f t)) (fun t => fst (g t))); auto|apply (is_derive_plus (fun t => snd (f t)) (fun t => snd (g t))); auto]. Qed.
Lemma cderive_opp f x l : cderive f x l -> cderive (fun t => Copp (f t)) x (Copp l).
Proof. intros [A B]. split; cbn [Copp fst snd]; [apply (is_derive_opp (fun t => fst (f t))); auto|apply (is_derive_opp (fun t => snd (f t))); auto]. Qed.
Lemma der_mult (f g : R -> R) (x a b : R) : is_derive f x a -> is_derive g x b -> is_derive (fun t => f t * g t) x (a * g x + f x * b).
Proof. intros A B. apply (is_derive_mult f g x a b A B). intros; apply Rmult_comm. Qed.
Lemma der_minus (f g : R -> R) (x a b : R) : is_derive f x a -> is_derive g x b -> is_derive (fun t => f t - g t) x (a - b).
Proof. apply @is_derive_minus. Qed.
Lemma der_plus (f g : R -> R) (x a b : R) : is_derive f x a -> is_derive g x b -> is_derive (fun t => f t + g t) x (a + b).
Proof. apply @is_derive_plus. Qed.
Lemma der_eq (f : R -> R) (x l l' : R) : l = l' -> is_derive f x l -> is_derive f x l'. Proof. intros ->. auto. Qed.
Lemma cderive_mult f g x l m : cderive f x l -> cderive g x m -> cderive (fun t => Cmult (f t) (g t)) x (Cplus (Cmult l (g x)) (Cmult (f x) m)).
Proof.
  intros [A B] [A' B']. split; cbn [Cmult Cplus fst snd].
  - eapply der_eq; [|apply (der_minus (fun t => fst (f t) * fst (g t)) (fun t => snd (f t) * snd (g t))); apply der_mult; eassumption]. cbn beta. ring.
  - eapply der_eq; [|apply (der_plus (fun t => fst (f t) * snd (g t)) (fun t => snd (f t) * fst (g t))); apply der_mult; eassumption]. cbn beta. ring.
Qed.
Lemma cderive_scal z f x l : cderive f x l -> cderive (fun t => Cmult z (f t)) x (Cmult z l).
Proof. intros A. eapply cderive_eq; [|apply (cderive_mult (fun _ => z) f x (RtoC 0) l); [apply cderive_const|exact A]]. cbn beta. ring. Qed.
Lemma cderive_exp f x l : cderive f x l -> cderive (fun t => exp_of (f t)) x (Cmult (exp_of (f x)) l).
Proof.
  intros [A B].
  assert (E : is_derive (fun t => exp (fst (f t))) x (fst l * exp (fst (f x)))) by (apply (is_derive_comp exp (fun t => fst (f t))); [apply is_derive_exp|exact A]).
  assert (CO : is_derive (fun t => cos (snd (f t))) x (snd l * - sin (snd (f x)))) by (apply (is_derive_comp cos (fun t => snd (f t))); [apply is_derive_cos|exact B]).
  assert (SI : is_derive (fun t => sin (snd (f t))) x (snd l * cos (snd (f x)))) by (apply (is_derive_comp sin (fun t => snd (f t))); [apply is_derive_sin|exact B]).
  split.
  - apply (is_derive_ext (fun t => exp (fst (f t)) * cos (snd (f t)))); [intros t; unfold exp_of; cbn; ring|].
    eapply der_eq; [|apply der_mult; [exact E|exact CO]]. unfold exp_of. cbn [Cmult RtoC fst snd]. cbn beta. ring.
  - apply (is_derive_ext (fun t => exp (fst (f t)) * sin (snd (f t)))); [intros t; unfold exp_of; cbn; ring|].
    eapply der_eq; [|apply der_mult; [exact E|exact SI]]. unfold exp_of. cbn [Cmult RtoC fst snd]. cbn beta. ring.
Qed.
Lemma cderive_real (f : R -> R) x l : is_derive f x l -> cderive (fun t => RtoC (f t)) x (RtoC l).
Proof. intros A. split; cbn [RtoC fst snd]; [exact A|apply @is_derive_const]. Qed.
Lemma cderive_imag (f : R -> R) x l : is_derive f x l -> cderive (fun t => imag (f t)) x (imag l).
Proof. intros A. split; cbn [imag fst snd]; [apply @is_derive_const|exact A]. Qed.
Lemma cderive_sum n f x l : (forall i, (i < n)%nat -> cderive (fun t => f i t) x (l i)) -> cderive (fun t => csigma n (fun i => f i t)) x (csigma n l).
Proof.
  induction n as [|n IH]; intros H; [exact (cderive_const (RtoC 0) x)|]. cbn [csigma]. apply (cderive_plus (fun t => csigma n (fun i => f i t))); [apply IH; intros; apply H; lia|apply H; lia].
Qed.

(** ** sums *)
Lemma csigma_ext n f g : (forall i, (i < n)%nat -> f i = g i) -> csigma n f = csigma n g.
Proof. induction n as [|n IH]; intros H; [reflexivity|]. cbn [csigma]. rewrite IH, (H n) by (auto; intros; apply H; lia). reflexivity. Qed.
Lemma csigma_scal n z f : csigma n (fun i => Cmult z (f i)) = Cmult z (csigma n f).
Proof. induction n as [|n IH]; cbn [csigma]; [ring|]. rewrite IH. ring. Qed.
Lemma csigma_plus n f g : csigma n (fun i => Cplus (f i) (g i)) = Cplus (csigma n f) (csigma n g).
Proof. induction n as [|n IH]; cbn [csigma]; [ring|]. rewrite IH. ring. Qed.
Lemma csigma_minus n f g : csigma n (fun i => Cminus (f i) (g i)) = Cminus (csigma n f) (csigma n g).
Proof. induction n as [|n IH]; cbn [csigma]; [ring|]. rewrite IH. ring. Qed.
Lemma csigma_opp n f : csigma n (fun i => Copp (f i)) = Copp (csigma n f).
Proof. induction n as [|n IH]; cbn [csigma]; [ring|]. rewrite IH. ring. Qed.
Lemma csigma_zero n f : (forall i, (i < n)%nat -> f i = RtoC 0) -> csigma n f = RtoC 0.
Proof. induction n as [|n IH]; intros H; [reflexivity|]. cbn [csigma]. rewrite IH, (H n) by (auto; intros; apply H; lia). ring. Qed.
Lemma csigma_single n j x : (j < n)%nat -> csigma n (fun i => if Nat.eqb i j then x else RtoC 0) = x.
Proof.
  induction n as [|n IH]; intros H; [lia|]. cbn [csigma]. destruct (Nat.eqb_spec n j) as [->|N].
  - rewrite csigma_zero; [ring|]. intros i I. destruct (Nat.eqb_spec i j); [lia|reflexivity].
  - rewrite IH by lia. ring.
Qed.
Lemma csigma_pick n j f : (j < n)%nat -> (forall i, (i < n)%nat -> i <> j -> f i = RtoC 0) -> csigma n f = f j.
Proof.
  intros J H. rewrite <- (csigma_single n j (f j) J). apply csigma_ext. intros i I. destruct (Nat.eqb_spec i j) as [->|N]; [reflexivity|apply H; auto].
Qed.
Lemma csigma_exch n m f : csigma n (fun i => csigma m (fun j => f i j)) = csigma m (fun j => csigma n (fun i => f i j)).
Proof. induction n as [|n IH]; cbn [csigma]; [symmetry; apply csigma_zero; reflexivity|]. rewrite IH, <- csigma_plus. reflexivity. Qed.
Lemma csigma_prod n f g : Cmult (csigma n f) (csigma n g) = csigma n (fun i => csigma n (fun j => Cmult (f i) (g j))).
Proof. rewrite (csigma_ext n (fun i => csigma n (fun j => Cmult (f i) (g j))) (fun i => Cmult (csigma n g) (f i))); [rewrite csigma_scal; ring|]. intros. rewrite csigma_scal. ring. Qed.

(** ** First-order operators *)
Lemma set_theta_same c i t : set_theta c i t i = (t, snd (c i)). Proof. unfold set_theta. rewrite Nat.eqb_refl. reflexivity. Qed.
Lemma set_theta_other c i j t : j <> i -> set_theta c i t j = c j. Proof. unfold set_theta. intros N. destruct (Nat.eqb_spec j i); [congruence|reflexivity]. Qed.
Lemma set_phi_same c i t : set_phi c i t i = (fst (c i), t). Proof. unfold set_phi. rewrite Nat.eqb_refl. reflexivity. Qed.
Lemma set_phi_other c i j t : j <> i -> set_phi c i t j = c j. Proof. unfold set_phi. intros N. destruct (Nat.eqb_spec j i); [congruence|reflexivity]. Qed.
Lemma set_theta_id c i : set_theta c i (fst (c i)) = c.
Proof. extensionality j. unfold set_theta. destruct (Nat.eqb_spec j i) as [->|]; [destruct (c i)|]; reflexivity. Qed.
Lemma set_phi_id c i : set_phi c i (snd (c i)) = c.
Proof. extensionality j. unfold set_phi. destruct (Nat.eqb_spec j i) as [->|]; [destruct (c i)|]; reflexivity. Qed.
Lemma near_refl eps n e : 0 < eps -> near eps n e e.
Proof. intros E i _. rewrite !Rminus_eq_0, Rabs_R0. auto. Qed.
Lemma near_theta eps n e j t : 0 < eps -> Rabs (t - fst (e j)) < eps -> near eps n e (set_theta e j t).
Proof. intros E T i _. unfold set_theta. destruct (Nat.eqb_spec i j) as [->|]; cbn [fst snd]; rewrite !Rminus_eq_0, ?Rabs_R0; auto. Qed.
Lemma near_phi eps n e j t : 0 < eps -> Rabs (t - snd (e j)) < eps -> near eps n e (set_phi e j t).
Proof. intros E T i _. unfold set_phi. destruct (Nat.eqb_spec i j) as [->|]; cbn [fst snd]; rewrite !Rminus_eq_0, ?Rabs_R0; auto. Qed.

Section Op.
  Context (n : nat) (w : nat -> C) (A B M : R * R -> C).
  Definition op (g : configuration -> C) : configuration -> C := fun c =>
    csigma n (fun i => Cmult (w i) (Cplus (Cplus (Cmult (A (c i)) (d_theta i g c)) (Cmult (B (c i)) (d_phi i g c))) (Cmult (M (c i)) (g c)))).
  Context (psi f : configuration -> C) (e : configuration) (ft fp : nat -> configuration -> C) (ftt ftp fpp : nat -> nat -> C).
  Hypothesis LD : log_derivatives n psi f e ft fp ftt ftp fpp.
  Context (At Ap Bt Bp Mt Mp : R * R -> C).
  Hypothesis HAt : forall j, (j < n)%nat -> cderive (fun t => A (t, snd (e j))) (fst (e j)) (At (e j)).
  Hypothesis HAp : forall j, (j < n)%nat -> cderive (fun t => A (fst (e j), t)) (snd (e j)) (Ap (e j)).
  Hypothesis HBt : forall j, (j < n)%nat -> cderive (fun t => B (t, snd (e j))) (fst (e j)) (Bt (e j)).
  Hypothesis HBp : forall j, (j < n)%nat -> cderive (fun t => B (fst (e j), t)) (snd (e j)) (Bp (e j)).
  Hypothesis HMt : forall j, (j < n)%nat -> cderive (fun t => M (t, snd (e j))) (fst (e j)) (Mt (e j)).
  Hypothesis HMp : forall j, (j < n)%nat -> cderive (fun t => M (fst (e j), t)) (snd (e j)) (Mp (e j)).

  Definition ell (c : configuration) : C := csigma n (fun i => Cmult (w i) (Cplus (Cplus (Cmult (A (c i)) (ft i c)) (Cmult (B (c i)) (fp i c))) (M (c i)))).
  Definition ell_t (j : nat) : C := Cplus (csigma n (fun i => Cmult (w i) (Cplus (Cmult (A (e i)) (ftt i j)) (Cmult (B (e i)) (ftp j i)))))
    (Cmult (w j) (Cplus (Cplus (Cmult (At (e j)) (ft j e)) (Cmult (Bt (e j)) (fp j e))) (Mt (e j)))).
  Definition ell_p (j : nat) : C := Cplus (csigma n (fun i => Cmult (w i) (Cplus (Cmult (A (e i)) (ftp i j)) (Cmult (B (e i)) (fpp i j)))))
    (Cmult (w j) (Cplus (Cplus (Cmult (Ap (e j)) (ft j e)) (Cmult (Bp (e j)) (fp j e))) (Mp (e j)))).

  Lemma near_open eps c i t : near eps n e c -> (i < n)%nat -> Rabs (t - fst (c i)) < eps - Rabs (fst (c i) - fst (e i)) -> near eps n e (set_theta c i t).
  Proof.
    intros N I T j J. unfold set_theta. destruct (Nat.eqb_spec j i) as [->|]; cbn [fst snd]; [|apply N; exact J]. destruct (N i I) as [X Y]. split; [|exact Y].
    replace (t - fst (e i)) with ((t - fst (c i)) + (fst (c i) - fst (e i))) by ring. pose proof (Rabs_triang (t - fst (c i)) (fst (c i) - fst (e i))). lra.
  Qed.
  Lemma near_open' eps c i t : near eps n e c -> (i < n)%nat -> Rabs (t - snd (c i)) < eps - Rabs (snd (c i) - snd (e i)) -> near eps n e (set_phi c i t).
  Proof.
    intros N I T j J. unfold set_phi. destruct (Nat.eqb_spec j i) as [->|]; cbn [fst snd]; [|apply N; exact J]. destruct (N i I) as [X Y]. split; [exact X|].
    replace (t - snd (e i)) with ((t - snd (c i)) + (snd (c i) - snd (e i))) by ring. pose proof (Rabs_triang (t - snd (c i)) (snd (c i) - snd (e i))). lra.
  Qed.
  Lemma partials_near eps c i : (forall c, near eps n e c -> psi c = exp_of (f c) /\ forall i, (i < n)%nat ->
      cderive (fun t => f (set_theta c i t)) (fst (c i)) (ft i c) /\ cderive (fun t => f (set_phi c i t)) (snd (c i)) (fp i c)) ->
    near eps n e c -> (i < n)%nat ->
    cderive (fun t => psi (set_theta c i t)) (fst (c i)) (Cmult (psi c) (ft i c)) /\ cderive (fun t => psi (set_phi c i t)) (snd (c i)) (Cmult (psi c) (fp i c)).
  Proof.
    intros H N I. destruct (H c N) as [P0 H']. destruct (H' i I) as [T P]. apply cderive_exp in T. apply cderive_exp in P. rewrite set_theta_id in T. rewrite set_phi_id in P.
    rewrite <- P0 in T, P. destruct (N i I) as [X Y]. split.
    - apply (cderive_ext_loc (fun t => exp_of (f (set_theta c i t)))); [|exact T]. assert (D : 0 < eps - Rabs (fst (c i) - fst (e i))) by lra.
      exists (mkposreal _ D). intros t B0. symmetry. apply H. apply near_open; [exact N|exact I|exact B0].
    - apply (cderive_ext_loc (fun t => exp_of (f (set_phi c i t)))); [|exact P]. assert (D : 0 < eps - Rabs (snd (c i) - snd (e i))) by lra.
      exists (mkposreal _ D). intros t B0. symmetry. apply H. apply near_open'; [exact N|exact I|exact B0].
  Qed.
  Lemma op_first : exists eps, 0 < eps /\ forall c, near eps n e c -> op psi c = Cmult (psi c) (ell c) /\ forall i, (i < n)%nat ->
    d_theta i psi c = Cmult (psi c) (ft i c) /\ d_phi i psi c = Cmult (psi c) (fp i c).
  Proof.
    destruct (ld_first _ _ _ _ _ _ _ _ _ LD) as (eps & E & H). exists eps. split; [exact E|]. intros c N.
    assert (D : forall i, (i < n)%nat -> d_theta i psi c = Cmult (psi c) (ft i c) /\ d_phi i psi c = Cmult (psi c) (fp i c)).
    { intros i I. destruct (partials_near eps c i H N I) as [T P]. split; [apply (cderive_unique _ _ _ T)|apply (cderive_unique _ _ _ P)]. }
    split; [|exact D]. unfold op, ell. rewrite <- csigma_scal. apply csigma_ext. intros i I. destruct (D i I) as [-> ->]. ring.
  Qed.
  Lemma ell_theta j : (j < n)%nat -> cderive (fun t => ell (set_theta e j t)) (fst (e j)) (ell_t j).
  Proof.
    intros J. unfold ell_t. rewrite <- (csigma_single n j (Cmult (w j) (Cplus (Cplus (Cmult (At (e j)) (ft j e)) (Cmult (Bt (e j)) (fp j e))) (Mt (e j)))) J), <- csigma_plus.
    unfold ell. apply (cderive_sum n (fun i t => Cmult (w i) (Cplus (Cplus (Cmult (A (set_theta e j t i)) (ft i (set_theta e j t))) (Cmult (B (set_theta e j t i)) (fp i (set_theta e j t)))) (M (set_theta e j t i))))).
    intros i I. destruct (Nat.eqb_spec i j) as [->|N].
    - eapply cderive_eq; [|apply cderive_scal, cderive_plus; [apply cderive_plus; apply cderive_mult|]].
      2:{ apply (cderive_ext (fun t => A (t, snd (e j)))); [intros; rewrite set_theta_same; reflexivity|apply HAt; exact J]. }
      2:{ apply (ld_tt _ _ _ _ _ _ _ _ _ LD j j J J). }
      2:{ apply (cderive_ext (fun t => B (t, snd (e j)))); [intros; rewrite set_theta_same; reflexivity|apply HBt; exact J]. }
      2:{ apply (ld_pt _ _ _ _ _ _ _ _ _ LD j j J J). }
      2:{ apply (cderive_ext (fun t => M (t, snd (e j)))); [intros; rewrite set_theta_same; reflexivity|apply HMt; exact J]. }
      cbn beta. rewrite ?set_theta_id. ring.
    - apply (cderive_ext (fun t => Cmult (w i) (Cplus (Cplus (Cmult (A (e i)) (ft i (set_theta e j t))) (Cmult (B (e i)) (fp i (set_theta e j t)))) (M (e i)))));
        [intros t; rewrite !(set_theta_other e j i t N); reflexivity|].
      eapply cderive_eq; [|apply cderive_scal, cderive_plus; [apply cderive_plus; apply cderive_scal|apply cderive_const]].
      2:{ apply (ld_tt _ _ _ _ _ _ _ _ _ LD i j I J). }
      2:{ apply (ld_pt _ _ _ _ _ _ _ _ _ LD j i J I). }
      ring.
  Qed.
  Lemma ell_phi j : (j < n)%nat -> cderive (fun t => ell (set_phi e j t)) (snd (e j)) (ell_p j).
  Proof.
    intros J. unfold ell_p. rewrite <- (csigma_single n j (Cmult (w j) (Cplus (Cplus (Cmult (Ap (e j)) (ft j e)) (Cmult (Bp (e j)) (fp j e))) (Mp (e j)))) J), <- csigma_plus.
    unfold ell. apply (cderive_sum n (fun i t => Cmult (w i) (Cplus (Cplus (Cmult (A (set_phi e j t i)) (ft i (set_phi e j t))) (Cmult (B (set_phi e j t i)) (fp i (set_phi e j t)))) (M (set_phi e j t i))))).
    intros i I. destruct (Nat.eqb_spec i j) as [->|N].
    - eapply cderive_eq; [|apply cderive_scal, cderive_plus; [apply cderive_plus; apply cderive_mult|]].
      2:{ apply (cderive_ext (fun t => A (fst (e j), t))); [intros; rewrite set_phi_same; reflexivity|apply HAp; exact J]. }
      2:{ apply (ld_tp _ _ _ _ _ _ _ _ _ LD j j J J). }
      2:{ apply (cderive_ext (fun t => B (fst (e j), t))); [intros; rewrite set_phi_same; reflexivity|apply HBp; exact J]. }
      2:{ apply (ld_pp _ _ _ _ _ _ _ _ _ LD j j J J). }
      2:{ apply (cderive_ext (fun t => M (fst (e j), t))); [intros; rewrite set_phi_same; reflexivity|apply HMp; exact J]. }
      cbn beta. rewrite ?set_phi_id. ring.
    - apply (cderive_ext (fun t => Cmult (w i) (Cplus (Cplus (Cmult (A (e i)) (ft i (set_phi e j t))) (Cmult (B (e i)) (fp i (set_phi e j t)))) (M (e i)))));
        [intros t; rewrite !(set_phi_other e j i t N); reflexivity|].
      eapply cderive_eq; [|apply cderive_scal, cderive_plus; [apply cderive_plus; apply cderive_scal|apply cderive_const]].
      2:{ apply (ld_tp _ _ _ _ _ _ _ _ _ LD i j I J). }
      2:{ apply (ld_pp _ _ _ _ _ _ _ _ _ LD i j I J). }
      ring.
  Qed.
  Lemma ball_abs (x y eps : R) : ball x eps y -> Rabs (y - x) < eps.
  Proof. intros H. exact H. Qed.
  Lemma op_second : op (op psi) e =
    Cmult (psi e) (Cplus (csigma n (fun j => Cmult (w j) (Cplus (Cmult (A (e j)) (ell_t j)) (Cmult (B (e j)) (ell_p j))))) (Cmult (ell e) (ell e))).
  Proof.
    destruct op_first as (eps & E & H). destruct (H e (near_refl eps n e E)) as [O _].
    assert (PT : forall j, (j < n)%nat -> cderive (fun t => psi (set_theta e j t)) (fst (e j)) (Cmult (psi e) (ft j e)) /\ cderive (fun t => psi (set_phi e j t)) (snd (e j)) (Cmult (psi e) (fp j e))).
    { intros j J. destruct (ld_first _ _ _ _ _ _ _ _ _ LD) as (ep & Ep & Hp). apply (partials_near ep e j Hp); [apply near_refl; exact Ep|exact J]. }
    assert (DT : forall j, (j < n)%nat -> d_theta j (op psi) e = Cmult (psi e) (Cplus (Cmult (ft j e) (ell e)) (ell_t j))).
    { intros j J. apply cderive_unique. apply (cderive_ext_loc (fun t => Cmult (psi (set_theta e j t)) (ell (set_theta e j t)))).
      - exists (mkposreal eps E). intros t T. symmetry. apply H. apply near_theta; [exact E|exact T].
      - eapply cderive_eq; [|apply cderive_mult; [apply PT; exact J|apply ell_theta; exact J]]. cbn beta. rewrite ?set_theta_id. ring. }
    assert (DP : forall j, (j < n)%nat -> d_phi j (op psi) e = Cmult (psi e) (Cplus (Cmult (fp j e) (ell e)) (ell_p j))).
    { intros j J. apply cderive_unique. apply (cderive_ext_loc (fun t => Cmult (psi (set_phi e j t)) (ell (set_phi e j t)))).
      - exists (mkposreal eps E). intros t T. symmetry. apply H. apply near_phi; [exact E|exact T].
      - eapply cderive_eq; [|apply cderive_mult; [apply PT; exact J|apply ell_phi; exact J]]. cbn beta. rewrite ?set_phi_id. ring. }
    unfold op at 1.
    rewrite (csigma_ext n _ (fun j => Cmult (psi e) (Cplus (Cmult (w j) (Cplus (Cmult (A (e j)) (ell_t j)) (Cmult (B (e j)) (ell_p j))))
        (Cmult (ell e) (Cmult (w j) (Cplus (Cplus (Cmult (A (e j)) (ft j e)) (Cmult (B (e j)) (fp j e))) (M (e j)))))))).
    - rewrite csigma_scal, csigma_plus, csigma_scal. reflexivity.
    - intros j J. rewrite DT, DP, O by exact J. ring.
  Qed.
End Op.
