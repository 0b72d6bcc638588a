(** C97: every energy term once, and the loss that training differentiates. *)
From Coq Require Import String List Bool Reals Lra Permutation.
From Coquelicot Require Import Complex.
From Verif Require Import Common Common_Proofs Terms_Model.
Import ListNotations.
Open Scope string_scope.
Arguments Cplus : simpl never.
Arguments Cmult : simpl never.
Arguments Cminus : simpl never.
Arguments RtoC : simpl never.

(** ** Specification *)
(** The sum of the statistics whose name begins with "energy:". *)
Fixpoint sum_of_terms (s : stats) : C :=
  match s with
  | [] => RtoC 0
  | (name, x) :: rest => if String.prefix "energy:" name then (x + sum_of_terms rest)%C else sum_of_terms rest
  end.

(** [st] reports the energy [e] and the loss [l]. *)
Definition reports (st : stats) (e l : C) : Prop :=
  dict_get st "total_energy" = Some e /\ dict_get st "loss" = Some l.

(** ** Any collection of terms *)
Lemma add_up_sum (prev : stats) : forall s t, (forall n x, In (n, x) s -> dict_get prev n = Some x) ->
  add_up prev (filter (fun k => String.prefix "energy:" k) (map fst s)) t = Ok (t + sum_of_terms s)%C.
Proof.
  induction s as [|[n x] s IH]; intros t H.
  - simpl. f_equal. ring.
  - cbn [map fst filter sum_of_terms].
    destruct (String.prefix "energy:" n).
    + cbn [add_up]. unfold lookup. rewrite (H n x) by (left; auto). cbn [bind]. rewrite IH by (intros; apply H; right; auto).
      f_equal. ring.
    + apply IH. intros; apply H; right; auto.
Qed.
Lemma get_In (d : stats) n x : NoDup (map fst d) -> In (n, x) d -> dict_get d n = Some x.
Proof.
  induction d as [|[k v] d IH]; simpl; intros N H; [contradiction|]. inversion N; subst.
  destruct H as [H|H].
  - inversion H; subst. rewrite String.eqb_refl. auto.
  - destruct (String.eqb_spec n k); [subst; exfalso; apply H2; apply (in_map fst) in H; exact H|auto].
Qed.

(** Whatever estimators ran before (any number of terms, in any order), the total is
    the sum of their "energy:" statistics, each counted once, and nothing else. *)
Theorem C97_total_is_the_sum_of_the_terms : forall (prev : stats) output, NoDup (map fst prev) ->
  total_energy output None prev = Ok [(output, sum_of_terms prev)].
Proof.
  intros prev output N. unfold total_energy, energy_keys.
  rewrite (add_up_sum prev prev) by (intros; apply get_In; auto). cbn [bind]. do 3 f_equal. ring.
Qed.
Theorem C97_total_does_not_depend_on_the_order : forall (a b : stats) output, NoDup (map fst a) ->
  Permutation a b -> total_energy output None a = total_energy output None b.
Proof.
  intros a b output N P. rewrite !C97_total_is_the_sum_of_the_terms; auto.
  - do 3 f_equal. induction P as [|[n x] l l' P IH|[n x] [m y] l|l l' l'' P1 IH1 P2 IH2]; simpl in *; auto.
    + inversion N; subst. rewrite IH by auto. auto.
    + destruct (String.prefix "energy:" n), (String.prefix "energy:" m); auto. ring.
    + rewrite IH1 by auto. apply IH2. eapply Permutation_NoDup; [apply Permutation_map; exact P1|exact N].
  - eapply Permutation_NoDup; [apply Permutation_map; exact P|exact N].
Qed.
(** With explicit components: the sum of those, and KeyError if one is missing. *)
Theorem C97_components : forall (prev : stats) output ks,
  (forall k, In k ks -> dict_get prev k <> None) ->
  exists xs, map (dict_get prev) ks = map Some xs /\
    total_energy output (Some ks) prev = Ok [(output, fold_right Cplus (RtoC 0) xs)].
Proof.
  intros prev output ks H.
  assert (G : forall t, exists xs, map (dict_get prev) ks = map Some xs /\ add_up prev ks t = Ok (t + fold_right Cplus (RtoC 0) xs)%C).
  { induction ks as [|k ks IH]; intros t.
    - exists []. split; auto. simpl. f_equal. ring.
    - cbn [map add_up]. unfold lookup. destruct (dict_get prev k) as [v|] eqn:E; [|exfalso; apply (H k); [left|]; auto].
      cbn [bind]. destruct (IH ltac:(intros; apply H; right; auto) (t + v)%C) as (xs & A & B).
      exists (v :: xs). split; [simpl; rewrite A; auto|]. rewrite B. simpl. f_equal. ring. }
  destruct (G (RtoC 0)) as (xs & A & B). exists xs. split; auto.
  unfold total_energy. rewrite B. cbn [bind]. do 3 f_equal. ring.
Qed.
Theorem C97_missing_component : forall (prev : stats) output ks k,
  In k ks -> dict_get prev k = None -> total_energy output (Some ks) prev = Raise KeyError.
Proof.
  intros prev output ks k H E. unfold total_energy.
  assert (G : forall t, add_up prev ks t = Raise KeyError).
  { induction ks as [|k' ks IH]; intros t; [contradiction|]. cbn [add_up]. unfold lookup.
    destruct (dict_get prev k') eqn:E'; [|reflexivity]. cbn [bind]. destruct H as [->|H]; [congruence|auto]. }
  rewrite G. reflexivity.
Qed.

(** ** The applications *)
(** One walker of molecular training: the energy is the potential plus either the
    kinetic energy or, with pseudo-Hamiltonians, their two parts, plus the ECP energy if
    there are ECPs; it is also the loss; whatever else is switched on. *)
Theorem C97_molecule_training : forall v ecp ph spin density,
  exists st, train_walker v (molecule_estimators v true ecp ph spin density) default_loss_key = Ok st /\
    let e := (v_potential v + (if ph then v_ph_derivative v + v_ph_zero v else v_kinetic v)
              + (if ecp then v_ecp v else RtoC 0))%C in
    reports st e e.
Proof.
  intros v ecp ph spin density. destruct ecp, ph, spin, density; eexists; (split; [reflexivity|]);
    unfold reports; simpl; split; f_equal; ring.
Qed.
Theorem C97_solid_training : forall v ecp spin density,
  exists st, train_walker v (solid_estimators v true ecp spin density) default_loss_key = Ok st /\
    let e := (v_potential v + v_kinetic v + (if ecp then v_ecp v else RtoC 0))%C in
    reports st e e.
Proof.
  intros v ecp spin density. destruct ecp, spin, density; eexists; (split; [reflexivity|]);
    unfold reports; simpl; split; f_equal; ring.
Qed.
Theorem C97_hydrogen_training : forall v,
  exists st, train_walker v (hydrogen_estimators v) default_loss_key = Ok st /\
    reports st (v_kinetic v + v_potential v)%C (v_kinetic v + v_potential v)%C.
Proof.
  intros v. eexists; (split; [reflexivity|]); unfold reports; simpl; split; f_equal; ring.
Qed.
(** Quantum Hall training: the loss is the energy plus the penalties, whichever of them
    are switched on; with both strengths zero it is the energy. *)
Theorem C97_hall_training : forall v lz_center lz_penalty l2_penalty density pair rdm,
  exists st, train_walker v (hall_estimators v lz_center lz_penalty l2_penalty true density pair rdm)
               (hall_loss_key lz_penalty l2_penalty) = Ok st /\
    let e := (v_kinetic v + v_potential v)%C in
    let c := RtoC lz_center in
    reports st e (e + RtoC lz_penalty * (v_lz_square v - RtoC 2 * c * v_lz v + c * c)
                    + RtoC l2_penalty * v_l_square v)%C.
Proof.
  intros v c p2 p3 density pair rdm. unfold hall_estimators, hall_loss_key, penalized_loss.
  unfold nonzero. destruct (Req_EM_T p2 0) as [->|N2], (Req_EM_T p3 0) as [->|N3];
    destruct density, pair, rdm; eexists; (split; [reflexivity|]);
    unfold reports; simpl; split; f_equal; try ring.
Qed.

(** Evaluation: without the energy no statistic is an energy, and nothing fails (the
    penalty needs the energy and is left out with it); with it, the same energy as in
    training. *)
Theorem C97_evaluation_without_energy : forall v ecp ph spin density pair rdm c p2 p3,
  (exists st, evaluate_walker (molecule_estimators v false ecp ph spin density) [] = Ok st /\
              forall n, String.prefix "energy:" n = true \/ n = "total_energy" -> dict_get st n = None) /\
  (exists st, evaluate_walker (solid_estimators v false ecp spin density) [] = Ok st /\
              forall n, String.prefix "energy:" n = true \/ n = "total_energy" -> dict_get st n = None) /\
  evaluate_walker (hall_estimators v c p2 p3 false density pair rdm) [] = Ok [].
Proof.
  intros v ecp ph spin density pair rdm c p2 p3.
  assert (S : forall x n, String.prefix "energy:" n = true \/ n = "total_energy" -> dict_get [("spin:s2", x : C)] n = None).
  { intros x n H. cbn [dict_get]. destruct (String.eqb_spec n "spin:s2") as [->|]; [|auto].
    destruct H as [H|H]; discriminate. }
  split; [|split].
  - destruct spin, density; eexists; (split; [reflexivity|]); simpl; intros n H; try reflexivity; apply (S _ n H).
  - destruct spin, density; eexists; (split; [reflexivity|]); simpl; intros n H; try reflexivity; apply (S _ n H).
  - destruct density, pair, rdm; reflexivity.
Qed.
Theorem C97_evaluation_energy : forall v ecp ph spin density pair rdm c p2 p3,
  (exists st, evaluate_walker (molecule_estimators v true ecp ph spin density) [] = Ok st /\
     dict_get st "total_energy" =
       Some (v_potential v + (if ph then v_ph_derivative v + v_ph_zero v else v_kinetic v)
             + (if ecp then v_ecp v else RtoC 0))%C) /\
  (exists st, evaluate_walker (solid_estimators v true ecp spin density) [] = Ok st /\
     dict_get st "total_energy" = Some (v_potential v + v_kinetic v + (if ecp then v_ecp v else RtoC 0))%C) /\
  (exists st, evaluate_walker (hall_estimators v c p2 p3 true density pair rdm) [] = Ok st /\
     dict_get st "total_energy" = Some (v_kinetic v + v_potential v)%C).
Proof.
  intros v ecp ph spin density pair rdm c p2 p3. split; [|split].
  - destruct ecp, ph, spin, density; eexists; (split; [reflexivity|]); simpl; f_equal; ring.
  - destruct ecp, spin, density; eexists; (split; [reflexivity|]); simpl; f_equal; ring.
  - unfold hall_estimators, penalized_loss, nonzero. destruct (Req_EM_T p2 0), (Req_EM_T p3 0);
      destruct density, pair, rdm; eexists; (split; [reflexivity|]); simpl; f_equal; ring.
Qed.

(** A loss key that no estimator produces stops the first evaluation. *)
Theorem C97_unknown_loss_key : forall v ecp ph spin density key,
  ~ In key ["energy:potential"; "energy:kinetic"; "energy:ecp"; "energy:ph"; "total_energy"; "spin:s2"] ->
  train_walker v (molecule_estimators v true ecp ph spin density) key = Raise KeyError.
Proof.
  intros v ecp ph spin density key H.
  assert (Hs : forall k, In k ["energy:potential"; "energy:kinetic"; "energy:ecp"; "energy:ph"; "total_energy"; "spin:s2"] -> String.eqb key k = false).
  { intros k Hk. destruct (String.eqb_spec key k); auto. subst. contradiction. }
  destruct ecp, ph, spin, density; unfold train_walker; simpl; unfold loss_and_grad, lookup; simpl;
    rewrite ?Hs by (simpl; auto 10); reflexivity.
Qed.

(** Which estimators run at all: each exactly under its own switch.  With
    pseudo-Hamiltonians the ordinary kinetic energy is not computed as well, and the
    penalty of quantum Hall is computed exactly if one of its strengths is not zero. *)
Theorem C97_estimators_run : forall v energy ecp ph spin density pair rdm c p2 p3,
  let molecule := map fst (molecule_estimators v energy ecp ph spin density) in
  let solid := map fst (solid_estimators v energy ecp spin density) in
  let hall := map fst (hall_estimators v c p2 p3 energy density pair rdm) in
  (In "potential" molecule <-> energy = true) /\ (In "total" molecule <-> energy = true) /\
  (In "kinetic" molecule <-> energy = true /\ ph = false) /\ (In "ph" molecule <-> energy = true /\ ph = true) /\
  (In "ecp" molecule <-> energy = true /\ ecp = true) /\
  (In "spin" molecule <-> spin = true) /\ (In "density" molecule <-> density = true) /\
  (In "potential" solid <-> energy = true) /\ (In "total" solid <-> energy = true) /\
  (In "kinetic" solid <-> energy = true) /\ (In "ecp" solid <-> energy = true /\ ecp = true) /\
  (In "spin" solid <-> spin = true) /\ (In "density" solid <-> density = true) /\
  (In "potential" hall <-> energy = true) /\ (In "total" hall <-> energy = true) /\
  (In "kinetic" hall <-> energy = true) /\
  (In "penalty" hall <-> energy = true /\ (p2 <> 0 \/ p3 <> 0)%R) /\
  (In "density" hall <-> density = true) /\ (In "pair_correlation" hall <-> pair = true) /\
  (In "one_rdm" hall <-> rdm = true).
Proof.
  assert (L : forall (x : string) l, In x l <-> existsb (String.eqb x) l = true).
  { intros x l. rewrite existsb_exists. split; [intros H; exists x; split; auto; apply String.eqb_refl|].
    intros (y & A & B). apply String.eqb_eq in B. subst. auto. }
  intros v energy ecp ph spin density pair rdm c p2 p3 molecule solid hall.
  assert (P : (p2 <> 0 \/ p3 <> 0)%R <-> (nonzero p2 || nonzero p3)%bool = true).
  { unfold nonzero. destruct (Req_EM_T p2 0), (Req_EM_T p3 0); simpl; intuition congruence. }
  rewrite P. unfold hall, hall_estimators. generalize (nonzero p2 || nonzero p3)%bool. intros b. clear P hall.
  subst molecule solid. rewrite !L.
  destruct energy, ecp, ph, spin, density, pair, rdm, b; cbv; intuition congruence.
Qed.

(** ** Examples *)
Definition ex_values : values :=
  {| v_potential := RtoC (-3); v_kinetic := RtoC 1; v_ecp := RtoC (-1); v_ph_derivative := RtoC 2; v_ph_zero := RtoC (-4);
     v_lz := RtoC 2; v_lz_square := RtoC 5; v_l_square := RtoC 6; v_spin := RtoC 0; v_logpsi := RtoC 7 |}.
Example C97_ex_molecule :
  exists st, train_walker ex_values (molecule_estimators ex_values true true false true true) default_loss_key = Ok st /\
    reports st (RtoC (-3)) (RtoC (-3)).
Proof.
  destruct (C97_molecule_training ex_values true false true true) as (st & A & B). exists st. split; auto.
  cbv zeta in B. destruct B as [B1 B2].
  split; [rewrite B1|rewrite B2]; f_equal; unfold RtoC, Cplus; simpl; f_equal; lra.
Qed.
Example C97_ex_hall :
  exists st, train_walker ex_values (hall_estimators ex_values 1 10 100 true false true false) (hall_loss_key 10 100) = Ok st /\
    reports st (RtoC (-2)) (RtoC 618).
Proof.
  destruct (C97_hall_training ex_values 1 10 100 false true false) as (st & A & B). exists st. split; auto.
  cbv zeta in B. destruct B as [B1 B2].
  split; [rewrite B1|rewrite B2]; f_equal; unfold RtoC, Cplus, Cminus, Copp, Cmult, RtoC; simpl; f_equal; lra.
Qed.
