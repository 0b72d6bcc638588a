(** Operator formulas for C71 and C72: |Lambda_i|^2 and L^2 on exp f. *)
From Coq Require Import Reals List Arith Lra Lia FunctionalExtensionality.
From Coquelicot Require Import Coquelicot.
From Verif Require Import Sph_Spec Sph_Ops.
Import ListNotations.
Open Scope R_scope.

Definition pick3 (a : nat) (x y z : R) : R := nth a [x; y; z] 0.
Definition Aa (a : nat) (x : R * R) : C := imag (- phvec x a).
Definition Ba (a : nat) (x : R * R) : C := imag (thvec x a / sin (fst x)).
Definition ML (Q : R) (a : nat) (x : R * R) : C := RtoC (Q * (cos (fst x) / sin (fst x)) * thvec x a).
Definition MM (Q : R) (a : nat) (x : R * R) : C := RtoC (Q * (cos (fst x) / sin (fst x)) * thvec x a + Q * rvec x a).
Definition At (a : nat) (x : R * R) : C := imag 0.
Definition Ap (a : nat) (x : R * R) : C := imag (pick3 a (cos (snd x)) (sin (snd x)) 0).
Definition Bt (a : nat) (x : R * R) : C := imag (pick3 a (- cos (snd x) / sin (fst x) ^ 2) (- sin (snd x) / sin (fst x) ^ 2) 0).
Definition Bp (a : nat) (x : R * R) : C := imag (pick3 a (- (cos (fst x) / sin (fst x) * sin (snd x))) (cos (fst x) / sin (fst x) * cos (snd x)) 0).
Definition MLt (Q : R) (a : nat) (x : R * R) : C :=
  let k := - (Q * cos (fst x) * (1 + sin (fst x) ^ 2) / sin (fst x) ^ 2) in RtoC (pick3 a (k * cos (snd x)) (k * sin (snd x)) (Q * sin (fst x))).
Definition MLp (Q : R) (a : nat) (x : R * R) : C :=
  let k := Q * (cos (fst x) ^ 2 / sin (fst x)) in RtoC (pick3 a (- (k * sin (snd x))) (k * cos (snd x)) 0).
Definition MMt (Q : R) (a : nat) (x : R * R) : C := let k := - (Q * cos (fst x) / sin (fst x) ^ 2) in RtoC (pick3 a (k * cos (snd x)) (k * sin (snd x)) 0).
Definition MMp (Q : R) (a : nat) (x : R * R) : C := let k := Q / sin (fst x) in RtoC (pick3 a (- (k * sin (snd x))) (k * cos (snd x)) 0).

Lemma sc (t : R) : sin t ^ 2 = 1 - cos t ^ 2.
Proof. pose proof (sin2_cos2 t). unfold Rsqr in H. nra. Qed.
Lemma d_of (f : R -> R) (x l : R) : is_derive f x l -> forall g l', (forall t, g t = f t) -> l' = l -> is_derive g x l'.
Proof. intros D g l' E ->. apply (is_derive_ext f); [intros; symmetry; apply E|exact D]. Qed.
Ltac axis a := destruct a as [|[|[|a]]]; cbn [nth thvec phvec rvec pick3 fst snd].

  Lemma dAt (x : R * R) (a : nat) (Q : R) (S0 : sin (fst x) <> 0) : cderive (fun t => Aa a (t, snd x)) (fst x) (At a x).
  Proof. apply (cderive_imag (fun t => - phvec (t, snd x) a)). unfold phvec, At. axis a; apply @is_derive_const || (destruct a; apply @is_derive_const). Qed.
  Lemma dAp (x : R * R) (a : nat) (Q : R) (S0 : sin (fst x) <> 0) : cderive (fun t => Aa a (fst x, t)) (snd x) (Ap a x).
  Proof. apply (cderive_imag (fun t => - phvec (fst x, t) a)). unfold phvec, Ap, pick3. axis a; try (auto_derive; [trivial|ring]). destruct a; auto_derive; trivial; ring. Qed.
  Lemma dBt (x : R * R) (a : nat) (Q : R) (S0 : sin (fst x) <> 0) : cderive (fun t => Ba a (t, snd x)) (fst x) (Bt a x).
  Proof.
    apply (cderive_imag (fun t => thvec (t, snd x) a / sin t)). unfold thvec, Bt, pick3. axis a.
    - auto_derive; [exact S0|]. pose proof (sc (fst x)). field_simplify_eq; [|exact S0]. ring [H].
    - auto_derive; [exact S0|]. pose proof (sc (fst x)). field_simplify_eq; [|exact S0]. ring [H].
    - auto_derive; [exact S0|]. field. exact S0.
    - destruct a; auto_derive; try exact S0; field; exact S0.
  Qed.
  Lemma dBp (x : R * R) (a : nat) (Q : R) (S0 : sin (fst x) <> 0) : cderive (fun t => Ba a (fst x, t)) (snd x) (Bp a x).
  Proof.
    apply (cderive_imag (fun t => thvec (fst x, t) a / sin (fst x))). unfold thvec, Bp, pick3. axis a; try (auto_derive; [trivial|field; exact S0]).
    destruct a; auto_derive; trivial; field; exact S0.
  Qed.
  Lemma dMLt (x : R * R) (a : nat) (Q : R) (S0 : sin (fst x) <> 0) : cderive (fun t => ML Q a (t, snd x)) (fst x) (MLt Q a x).
  Proof.
    apply (cderive_real (fun t => Q * (cos t / sin t) * thvec (t, snd x) a)). unfold thvec, MLt, pick3. pose proof (sc (fst x)). axis a.
    - auto_derive; [exact S0|]. field_simplify_eq; [|exact S0]. ring [H].
    - auto_derive; [exact S0|]. field_simplify_eq; [|exact S0]. ring [H].
    - auto_derive; [exact S0|]. field_simplify_eq; [|exact S0]. ring [H].
    - destruct a; auto_derive; try exact S0; field; exact S0.
  Qed.
  Lemma dMLp (x : R * R) (a : nat) (Q : R) (S0 : sin (fst x) <> 0) : cderive (fun t => ML Q a (fst x, t)) (snd x) (MLp Q a x).
  Proof.
    apply (cderive_real (fun t => Q * (cos (fst x) / sin (fst x)) * thvec (fst x, t) a)). unfold thvec, MLp, pick3. axis a; try (auto_derive; [trivial|field; exact S0]).
    destruct a; auto_derive; trivial; field; exact S0.
  Qed.
  Lemma dMMt (x : R * R) (a : nat) (Q : R) (S0 : sin (fst x) <> 0) : cderive (fun t => MM Q a (t, snd x)) (fst x) (MMt Q a x).
  Proof.
    apply (cderive_real (fun t => Q * (cos t / sin t) * thvec (t, snd x) a + Q * rvec (t, snd x) a)). unfold thvec, rvec, MMt, pick3. pose proof (sc (fst x)). axis a.
    - auto_derive; [exact S0|]. field_simplify_eq; [|exact S0]. ring [H].
    - auto_derive; [exact S0|]. field_simplify_eq; [|exact S0]. ring [H].
    - auto_derive; [exact S0|]. field. exact S0.
    - destruct a; auto_derive; try exact S0; field; exact S0.
  Qed.
  Lemma dMMp (x : R * R) (a : nat) (Q : R) (S0 : sin (fst x) <> 0) : cderive (fun t => MM Q a (fst x, t)) (snd x) (MMp Q a x).
  Proof.
    apply (cderive_real (fun t => Q * (cos (fst x) / sin (fst x)) * thvec (fst x, t) a + Q * rvec (fst x, t) a)). unfold thvec, rvec, MMp, pick3. pose proof (sc (fst x)).
    axis a; try (auto_derive; [trivial|field_simplify_eq; [|exact S0]; ring [H]]).
    - apply @is_derive_const.
    - destruct a; auto_derive; trivial; field; exact S0.
  Qed.

(** ** |Lambda_i|^2 on exp f *)
Definition one_of (i j : nat) : C := if Nat.eqb j i then RtoC 1 else RtoC 0.
Lemma Lambda_op n Q i a psi : (i < n)%nat -> Lambda Q i a psi = op n (one_of i) (Aa a) (Ba a) (ML Q a) psi.
Proof.
  intros I. extensionality c. unfold op. rewrite (csigma_pick n i); [unfold one_of; rewrite Nat.eqb_refl; unfold Lambda, Aa, Ba, ML; ring|exact I|].
  intros j J N. unfold one_of. destruct (Nat.eqb_spec j i); [congruence|ring].
Qed.
Lemma L_op n Q a psi : L n Q a psi = op n (fun _ => RtoC 1) (Aa a) (Ba a) (MM Q a) psi.
Proof.
  extensionality c. unfold op, L. apply csigma_ext. intros i I. unfold Lambda, Aa, Ba, MM. rewrite RtoC_plus. ring.
Qed.

Section On.
  Context (n : nat) (psi f : configuration -> C) (e : configuration) (ft fp : nat -> configuration -> C) (ftt ftp fpp : nat -> nat -> C).
  Hypothesis LD : log_derivatives n psi f e ft fp ftt ftp fpp.
  Hypothesis SN : forall i, (i < n)%nat -> sin (fst (e i)) <> 0.

  Lemma Lambda_twice Q i a : (i < n)%nat -> let x := e i in
    Lambda Q i a (Lambda Q i a psi) e = Cmult (psi e) (Cplus (Cplus
      (Cmult (Aa a x) (Cplus (Cplus (Cmult (Aa a x) (ftt i i)) (Cmult (Ba a x) (ftp i i))) (Cplus (Cplus (Cmult (At a x) (ft i e)) (Cmult (Bt a x) (fp i e))) (MLt Q a x))))
      (Cmult (Ba a x) (Cplus (Cplus (Cmult (Aa a x) (ftp i i)) (Cmult (Ba a x) (fpp i i))) (Cplus (Cplus (Cmult (Ap a x) (ft i e)) (Cmult (Bp a x) (fp i e))) (MLp Q a x)))))
      (Cmult (Cplus (Cplus (Cmult (Aa a x) (ft i e)) (Cmult (Ba a x) (fp i e))) (ML Q a x)) (Cplus (Cplus (Cmult (Aa a x) (ft i e)) (Cmult (Ba a x) (fp i e))) (ML Q a x)))).
  Proof.
    intros I x. rewrite !(Lambda_op n) by exact I.
    rewrite (op_second n (one_of i) (Aa a) (Ba a) (ML Q a) psi f e ft fp ftt ftp fpp LD (At a) (Ap a) (Bt a) (Bp a) (MLt Q a) (MLp Q a));
      try (intros j J; first [apply dAt|apply dAp|apply dBt|apply dBp|apply dMLt|apply dMLp]; auto; apply SN; exact J).
    apply f_equal. unfold ell. rewrite !(csigma_pick n i); try exact I; try (intros j J N; unfold one_of; destruct (Nat.eqb_spec j i); [congruence|ring]).
    unfold ell_t, ell_p. rewrite !(csigma_pick n i); try exact I; try (intros j J N; unfold one_of; destruct (Nat.eqb_spec j i); [congruence|ring]).
    unfold one_of. rewrite Nat.eqb_refl. fold x. ring.
  Qed.
  Lemma L_twice Q a : L n Q a (L n Q a psi) e = Cmult (psi e)
    (Cplus (csigma n (fun j => csigma n (fun i => Cplus
       (Cmult (Aa a (e j)) (Cplus (Cmult (Aa a (e i)) (ftt i j)) (Cmult (Ba a (e i)) (ftp j i))))
       (Cmult (Ba a (e j)) (Cplus (Cmult (Aa a (e i)) (ftp i j)) (Cmult (Ba a (e i)) (fpp i j)))))))
     (Cplus (csigma n (fun j => Cplus
       (Cmult (Aa a (e j)) (Cplus (Cplus (Cmult (At a (e j)) (ft j e)) (Cmult (Bt a (e j)) (fp j e))) (MMt Q a (e j))))
       (Cmult (Ba a (e j)) (Cplus (Cplus (Cmult (Ap a (e j)) (ft j e)) (Cmult (Bp a (e j)) (fp j e))) (MMp Q a (e j))))))
     (csigma n (fun i => csigma n (fun j => Cmult
        (Cplus (Cplus (Cmult (Aa a (e i)) (ft i e)) (Cmult (Ba a (e i)) (fp i e))) (MM Q a (e i)))
        (Cplus (Cplus (Cmult (Aa a (e j)) (ft j e)) (Cmult (Ba a (e j)) (fp j e))) (MM Q a (e j)))))))).
  Proof.
    rewrite !(L_op n).
    rewrite (op_second n (fun _ => RtoC 1) (Aa a) (Ba a) (MM Q a) psi f e ft fp ftt ftp fpp LD (At a) (Ap a) (Bt a) (Bp a) (MMt Q a) (MMp Q a));
      try (intros j J; first [apply dAt|apply dAp|apply dBt|apply dBp|apply dMMt|apply dMMp]; auto; apply SN; exact J).
    apply f_equal. rewrite <- csigma_prod. unfold ell.
    rewrite (csigma_ext n (fun i => Cmult (RtoC 1) (Cplus (Cplus (Cmult (Aa a (e i)) (ft i e)) (Cmult (Ba a (e i)) (fp i e))) (MM Q a (e i)))) (fun i => Cplus (Cplus (Cmult (Aa a (e i)) (ft i e)) (Cmult (Ba a (e i)) (fp i e))) (MM Q a (e i)))) by (intros; ring).
    rewrite (Cplus_assoc (csigma n _) (csigma n _) (Cmult _ _)). apply (f_equal2 Cplus); [|reflexivity]. rewrite <- csigma_plus. apply csigma_ext. intros j J.
    unfold ell_t, ell_p. rewrite csigma_plus, !csigma_scal.
    ring.
  Qed.
End On.

Definition lambda_sq (Q : R) (x : R * R) (gt gp ktt kpp : C) : C :=
  Cplus (Cplus (Cminus (Cminus (Copp ktt) (Cmult (RtoC (/ sin (fst x) ^ 2)) kpp)) (Cmult (RtoC (cos (fst x) / sin (fst x))) gt))
    (Cminus (Copp (Cmult gt gt)) (Cmult (RtoC (/ sin (fst x) ^ 2)) (Cmult gp gp))))
    (Cplus (RtoC (Q ^ 2 * cos (fst x) ^ 2 / sin (fst x) ^ 2)) (Cmult (imag (2 * Q * cos (fst x) / sin (fst x) ^ 2)) gp)).
Lemma lambda_contract Q x gt gp ktt ktp kpp : sin (fst x) <> 0 ->
  let F a := Cplus (Cplus
      (Cmult (Aa a x) (Cplus (Cplus (Cmult (Aa a x) ktt) (Cmult (Ba a x) ktp)) (Cplus (Cplus (Cmult (At a x) gt) (Cmult (Bt a x) gp)) (MLt Q a x))))
      (Cmult (Ba a x) (Cplus (Cplus (Cmult (Aa a x) ktp) (Cmult (Ba a x) kpp)) (Cplus (Cplus (Cmult (Ap a x) gt) (Cmult (Bp a x) gp)) (MLp Q a x)))))
      (Cmult (Cplus (Cplus (Cmult (Aa a x) gt) (Cmult (Ba a x) gp)) (ML Q a x)) (Cplus (Cplus (Cmult (Aa a x) gt) (Cmult (Ba a x) gp)) (ML Q a x))) in
  Cplus (Cplus (F 0%nat) (F 1%nat)) (F 2%nat) = lambda_sq Q x gt gp ktt kpp.
Proof.
  intros S0 F. pose proof (sc (fst x)) as H1. pose proof (sc (snd x)) as H2. subst F. cbn beta. unfold lambda_sq, Aa, Ba, ML, At, Ap, Bt, Bp, MLt, MLp, phvec, thvec, pick3. cbn [nth].
  revert S0 H1 H2. generalize (sin (fst x)) (cos (fst x)) (sin (snd x)) (cos (snd x)). intros s c sp cp S0 H1 H2. destruct gt as [g1 g2], gp as [h1 h2], ktt as [a1 a2], ktp as [b1 b2], kpp as [c1 c2].
  apply Ceq; cbn [Cplus Cmult Cminus Copp RtoC imag fst snd]; field_simplify_eq; try exact S0; ring [H1 H2].
Qed.

Lemma local_contract Q x gt gp : sin (fst x) <> 0 ->
  let F a := Cplus (Cmult (Aa a x) (Cplus (Cplus (Cmult (At a x) gt) (Cmult (Bt a x) gp)) (MMt Q a x))) (Cmult (Ba a x) (Cplus (Cplus (Cmult (Ap a x) gt) (Cmult (Bp a x) gp)) (MMp Q a x))) in
  Cplus (Cplus (F 0%nat) (F 1%nat)) (F 2%nat) = Copp (Cmult (RtoC (cos (fst x) / sin (fst x))) gt).
Proof.
  intros S0 F. pose proof (sc (fst x)) as H1. pose proof (sc (snd x)) as H2. subst F. cbn beta. unfold Aa, Ba, At, Ap, Bt, Bp, MMt, MMp, phvec, thvec, pick3. cbn [nth].
  revert S0 H1 H2. generalize (sin (fst x)) (cos (fst x)) (sin (snd x)) (cos (snd x)). intros s c sp cp S0 H1 H2. destruct gt as [g1 g2], gp as [h1 h2].
  apply Ceq; cbn [Cplus Cmult Cminus Copp RtoC imag fst snd]; field_simplify_eq; try exact S0; ring [H1 H2].
Qed.
