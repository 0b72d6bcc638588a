(** C19: dependency wiring. *)
From Coq Require Import String List Bool.
From Verif Require Import Common Common_Proofs Wiring_Model.
Import ListNotations.
Open Scope string_scope.

(** Specification: the components reachable through dataclass-valued config fields. *)
Inductive inside {V} : comp V -> comp V -> Prop :=
| inside_self c : inside c c
| inside_sub c fs d : In (FSub d) fs -> inside c d -> inside c (Comp fs).
Definition fields_of {V} (c : comp V) : list (field V) := match c with Comp fs => fs end.
Definition has_dep {V} (c : comp V) n req v : Prop := In (FDep n req v) (fields_of c).
Definition has_class {V} (c : comp V) : Prop := In FClass (fields_of c).

(** [wired kw c c']: [c'] is [c] with every runtime dep named in [kw] set to the given
    value, at every nesting level, and nothing else changed. *)
Inductive wired {V} (kw : list (string * V)) : comp V -> comp V -> Prop :=
| wired_comp fs fs' : Forall2 (wired_field kw) fs fs' -> wired kw (Comp fs) (Comp fs')
with wired_field {V} (kw : list (string * V)) : field V -> field V -> Prop :=
| wf_plain : wired_field kw FPlain FPlain
| wf_class : wired_field kw FClass FClass
| wf_sub c c' : wired kw c c' -> wired_field kw (FSub c) (FSub c')
| wf_dep n req v : wired_field kw (FDep n req v)
    (FDep n req (match dict_get kw n with Some x => Some x | None => v end)).

Section W.
Context {V : Type} (kw : list (string * V)).

Section Ind.
  Variable P : comp V -> Prop.
  Hypothesis H : forall fs, (forall c, In (FSub c) fs -> P c) -> P (Comp fs).
  Fixpoint comp_ind' (c : comp V) : P c :=
    match c with
    | Comp fs => H fs ((fix go (fs : list (field V)) : forall c, In (FSub c) fs -> P c :=
        match fs with
        | [] => fun c (h : In (FSub c) []) => match h with end
        | f :: rest => fun c h =>
            match h with
            | or_introl e =>
                match f as f0 return (f0 = FSub c -> P c) with
                | FSub c0 => fun e => eq_ind c0 P (comp_ind' c0) c (f_equal (fun f => match f with FSub x => x | _ => c end) e)
                | FPlain => fun e => match (eq_ind FPlain (fun f => match f with FPlain => True | _ => False end) I _ e) with end
                | FClass => fun e => match (eq_ind FClass (fun f => match f with FClass => True | _ => False end) I _ e) with end
                | FDep n r v => fun e => match (eq_ind (FDep n r v) (fun f => match f with FDep _ _ _ => True | _ => False end) I _ e) with end
                end e
            | or_intror h' => go rest c h'
            end
        end) fs)
    end.
End Ind.

(** The loop of [wire], named. *)
Fixpoint wire_fields (fs : list (field V)) : list (field V) * list string * option wire_error :=
  match fs with
  | [] => ([], [], None)
  | f :: rest =>
      match f with
      | FPlain => let '(r, m, e) := wire_fields rest in (FPlain :: r, m, e)
      | FClass => (FClass :: rest, [], Some WTypeError)
      | FSub c0 =>
          let (c1, e0) := wire kw c0 in
          match e0 with
          | Some e => (FSub c1 :: rest, [], Some e)
          | None => let '(r, m, e) := wire_fields rest in (FSub c1 :: r, m, e)
          end
      | FDep n req v =>
          let '(r, m, e) := wire_fields rest in
          match dict_get kw n with
          | Some x => (FDep n req (Some x) :: r, m, e)
          | None => (FDep n req v :: r, if req then n :: m else m, e)
          end
      end
  end.

Lemma wire_eq fs : wire kw (Comp fs) =
  let '(fs', missing, err) := wire_fields fs in
  (Comp fs', match err with Some e => Some e | None => match missing with [] => None | _ => Some (WMissing missing) end end).
Proof.
  cbn [wire]. match goal with |- (let '(_, _) := ?g fs in _) = _ => assert (E : forall l, g l = wire_fields l) end.
  { induction l as [|f l IH]; [reflexivity|]. simpl. rewrite <- IH. destruct f; reflexivity. }
  rewrite E. reflexivity.
Qed.

(** Successful wiring of the fields. *)
Lemma wire_fields_ok fs fs' m :
  (forall c, In (FSub c) fs -> forall c', wire kw c = (c', None) -> wired kw c c') ->
  wire_fields fs = (fs', m, None) ->
  Forall2 (wired_field kw) fs fs' /\
  (forall n, In n m <-> exists v, In (FDep n true v) fs /\ dict_get kw n = None) /\
  ~ In FClass fs /\ (forall c, In (FSub c) fs -> snd (wire kw c) = None).
Proof.
  revert fs' m; induction fs as [|f fs IH]; intros fs' m HS E.
  - inversion E; subst. split; [constructor|]. split; [|split; [intros []|intros ? []]].
    intros n; split; [intros []|intros (v & [] & _)].
  - simpl in E. destruct f as [| |c0|n0 req v0].
    + destruct (wire_fields fs) as [[r m0] e] eqn:G. inversion E; subst.
      destruct (IH r m) as (A & B & C & D); auto; [intros; eapply HS; eauto; right; auto|].
      split; [constructor; [constructor|auto]|]. split.
      * intros n. rewrite B. split; intros (v & H & K); exists v; split; auto; [right; auto|destruct H; [discriminate|auto]].
      * split; [intros [H|H]; [discriminate|auto]|]. intros c [H|H]; [discriminate|auto].
    + discriminate.
    + destruct (wire kw c0) as [c1 [e0|]] eqn:G0; [discriminate|].
      destruct (wire_fields fs) as [[r m0] e] eqn:G. inversion E; subst.
      destruct (IH r m) as (A & B & C & D); auto; [intros; eapply HS; eauto; right; auto|].
      split; [constructor; [constructor; eapply HS; eauto; left; auto|auto]|]. split.
      * intros n. rewrite B. split; intros (v & H & K); exists v; split; auto; [right; auto|destruct H; [discriminate|auto]].
      * split; [intros [H|H]; [discriminate|auto]|].
        intros c [H|H]; [injection H as ->; rewrite G0; reflexivity|auto].
    + destruct (wire_fields fs) as [[r m0] e] eqn:G.
      assert (Ee : e = None) by (destruct (dict_get kw n0); inversion E; auto). subst e.
      destruct (IH r m0) as (A & B & C & D); auto; [intros; eapply HS; eauto; right; auto|].
      destruct (dict_get kw n0) as [x|] eqn:K0; inversion E; subst; clear E.
      * split; [|split; [|split; [intros [H|H]; [discriminate|auto]|intros c [H|H]; [discriminate|auto]]]].
        -- constructor; auto. pose proof (wf_dep kw n0 req v0) as W. rewrite K0 in W. exact W.
        -- intros n. rewrite B. split; intros (v & H & K); exists v; split; auto; [right; auto|].
           destruct H as [H|H]; auto. inversion H; subst. congruence.
      * split; [|split; [|split; [intros [H|H]; [discriminate|auto]|intros c [H|H]; [discriminate|auto]]]].
        -- constructor; auto. pose proof (wf_dep kw n0 req v0) as W. rewrite K0 in W. exact W.
        -- intros n. destruct req; simpl; rewrite B; split.
           ++ intros [<-|(v & H & K)]; eauto.
           ++ intros (v & [H|H] & K); [inversion H; auto|right; eauto].
           ++ intros (v & H & K); eauto.
           ++ intros (v & [H|H] & K); [discriminate|eauto].
Qed.

Lemma wire_ok_wired c : forall c', wire kw c = (c', None) -> wired kw c c'.
Proof.
  induction c as [fs IH] using comp_ind'; intros c' E. rewrite wire_eq in E.
  destruct (wire_fields fs) as [[fs' m] err] eqn:G.
  assert (err = None) by (destruct err; inversion E; auto). subst. 
  assert (c' = Comp fs') by (inversion E; auto). subst. constructor.
  eapply wire_fields_ok; eauto.
Qed.

Lemma wire_ok_inside c : snd (wire kw c) = None ->
  forall d, inside d c -> ~ has_class d /\ forall n v, has_dep d n true v -> dict_get kw n <> None.
Proof.
  induction c as [fs IH] using comp_ind'; intros E d I.
  destruct (wire kw (Comp fs)) as [c' e] eqn:W. simpl in E. subst e. rewrite wire_eq in W.
  destruct (wire_fields fs) as [[fs' m] err] eqn:G.
  assert (err = None /\ m = []).
  { destruct err; inversion W; destruct m; inversion W; auto. } destruct H; subst err m.
  destruct (wire_fields_ok fs fs' []) as (A & B & C & D); auto.
  { intros. eapply wire_ok_wired; eauto. }
  inversion I; subst.
  - split; [exact C|]. intros n v H K. eapply (B n). exists v. auto.
  - eapply IH; eauto.
Qed.

(** Failure: TypeError or a component with missing deps, and then exactly those. *)
Lemma wire_fields_err fs fs' m e :
  (forall c, In (FSub c) fs -> forall e', snd (wire kw c) = Some e' ->
     (e' = WTypeError /\ exists d, inside d c /\ has_class d) \/
     (exists d names, e' = WMissing names /\ inside d c /\ names <> [] /\
        forall n, In n names <-> (exists v, has_dep d n true v) /\ dict_get kw n = None)) ->
  wire_fields fs = (fs', m, Some e) ->
  (e = WTypeError /\ In FClass fs) \/
  (exists c, In (FSub c) fs /\
     ((e = WTypeError /\ exists d, inside d c /\ has_class d) \/
      (exists d names, e = WMissing names /\ inside d c /\ names <> [] /\
        forall n, In n names <-> (exists v, has_dep d n true v) /\ dict_get kw n = None))).
Proof.
  revert fs' m; induction fs as [|f fs IH]; intros fs' m HS E; [discriminate|].
  assert (Hrest : forall r m0, wire_fields fs = (r, m0, Some e) ->
     (e = WTypeError /\ In FClass (f :: fs)) \/
     (exists c, In (FSub c) (f :: fs) /\
     ((e = WTypeError /\ exists d, inside d c /\ has_class d) \/
      (exists d names, e = WMissing names /\ inside d c /\ names <> [] /\
        forall n, In n names <-> (exists v, has_dep d n true v) /\ dict_get kw n = None)))).
  { intros r m0 G. destruct (IH r m0) as [[H1 H2]|(c & Hc & H)]; auto.
    - intros c Hc; apply HS; right; auto.
    - left; split; auto; right; auto.
    - right. exists c. split; auto. right; auto. }
  simpl in E. destruct f as [| |c0|n0 req v0].
  - destruct (wire_fields fs) as [[r m0] e'] eqn:G. inversion E; subst. eapply Hrest; eauto.
  - inversion E; subst. left; split; auto. left; auto.
  - destruct (wire kw c0) as [c1 [e0|]] eqn:G0.
    + inversion E; subst. right. exists c0. split; [left; auto|]. apply HS; [left; auto|]. rewrite G0. reflexivity.
    + destruct (wire_fields fs) as [[r m0] e'] eqn:G. inversion E; subst. eapply Hrest; eauto.
  - destruct (wire_fields fs) as [[r m0] e'] eqn:G. destruct (dict_get kw n0); inversion E; subst; eapply Hrest; eauto.
Qed.

Lemma wire_err c : forall e, snd (wire kw c) = Some e ->
  (e = WTypeError /\ exists d, inside d c /\ has_class d) \/
  (exists d names, e = WMissing names /\ inside d c /\ names <> [] /\
     forall n, In n names <-> (exists v, has_dep d n true v) /\ dict_get kw n = None).
Proof.
  induction c as [fs IH] using comp_ind'; intros e E.
  destruct (wire kw (Comp fs)) as [c' e1] eqn:W. simpl in E. subst e1. rewrite wire_eq in W.
  destruct (wire_fields fs) as [[fs' m] err] eqn:G. destruct err as [e0|].
  - inversion W; subst. destruct (wire_fields_err fs fs' m e) as [[H1 H2]|(c & Hc & [[H1 (d & H2 & H3)]|(d & names & H1 & H2 & H3)])]; auto.
    + left; split; auto. exists (Comp fs). split; [constructor|exact H2].
    + left; split; auto. exists d. split; auto. eapply inside_sub; eauto.
    + right. exists d, names. split; auto. split; auto. eapply inside_sub; eauto.
  - destruct m as [|n0 m]; [discriminate|]. inversion W; subst. right.
    exists (Comp fs), (n0 :: m). split; auto. split; [constructor|]. split; [discriminate|].
    destruct (wire_fields_ok fs fs' (n0 :: m)) as (_ & B & _); auto.
    { intros. eapply wire_ok_wired; eauto. }
    intros n. rewrite B. unfold has_dep. simpl. split; [intros (v & H & K); eauto|intros [[v H] K]; eauto].
Qed.
End W.

(** *** C19.  If wire returns, the component is the original with every declared
    dependency -- required or optional, at every nesting level -- set to the value given
    for its name and nothing else changed; every required dependency was given. *)
Theorem C19_wire_sets_everything : forall V (kw : list (string * V)) c c',
  wire kw c = (c', None) ->
  wired kw c c' /\
  forall d, inside d c -> forall n v, has_dep d n true v -> exists x, dict_get kw n = Some x.
Proof.
  intros V kw c c' H. split; [apply wire_ok_wired; auto|].
  intros d I n v D. destruct (wire_ok_inside kw c) with (d := d) as [_ K]; auto; [rewrite H; auto|].
  specialize (K n v D). destruct (dict_get kw n); eauto. congruence.
Qed.

(** No required dependency is unset in the result, so no access can fail. *)
Lemma wired_inside V (kw : list (string * V)) c' : forall c d', wired kw c c' -> inside d' c' ->
  exists d, inside d c /\ wired kw d d'.
Proof.
  intros c d' W I. revert c W. induction I; intros c0 W.
  - exists c0. split; [constructor|auto].
  - inversion W as [fs0 fs1 F2]; subst. clear W.
    assert (exists c1, In (FSub c1) fs0 /\ wired kw c1 d) as (c1 & Hin & W1).
    { clear -H F2. induction F2 as [|f f' l l' Hf F2 IH]; [contradiction|]. destruct H as [->|H].
      - inversion Hf; subst. eexists. split; [left; reflexivity|auto].
      - destruct (IH H) as (c1 & A & B). exists c1; split; auto. right; auto. }
    destruct (IHI _ W1) as (d0 & A & B). exists d0. split; auto. eapply inside_sub; eauto.
Qed.

Theorem C19_nothing_unset_after_wire : forall V (kw : list (string * V)) c c',
  wire kw c = (c', None) ->
  forall d' n, inside d' c' -> ~ has_dep d' n true None.
Proof.
  intros V kw c c' H d' n I D.
  pose proof (wire_ok_wired kw c c' H) as W.
  destruct (wired_inside V kw c' c d' W I) as (d & Id & Wd).
  inversion Wd as [fs fs1 F2]; subst. unfold has_dep in D. simpl in D.
  assert (exists v, In (FDep n true v) fs /\ match dict_get kw n with Some x => Some x | None => v end = None) as (v & Hin & K).
  { clear -F2 D. induction F2 as [|f f' l l' Hf F2 IH]; [contradiction|]. destruct D as [->|D].
    - inversion Hf; subst. eexists. split; [left; reflexivity|auto].
    - destruct (IH D) as (v & A & B). exists v; split; auto. right; auto. }
  destruct (C19_wire_sets_everything V kw c c' H) as [_ R].
  destruct (R _ Id n v) as [x E]; [exact Hin|]. rewrite E in K. discriminate.
Qed.

(** wire fails iff some nested component declares a required dependency that was not
    given (or a config field holds a dataclass type); a ValueError lists exactly the
    missing names of one component. *)
Theorem C19_wire_error_is_exact : forall V (kw : list (string * V)) c,
  (snd (wire kw c) = None <->
     forall d, inside d c -> ~ has_class d /\ forall n v, has_dep d n true v -> dict_get kw n <> None) /\
  (forall names, snd (wire kw c) = Some (WMissing names) ->
     exists d, inside d c /\ names <> [] /\
     forall n, In n names <-> (exists v, has_dep d n true v) /\ dict_get kw n = None) /\
  (snd (wire kw c) = Some WTypeError -> exists d, inside d c /\ has_class d).
Proof.
  intros V kw c. split; [split|split].
  - intros H d I. eapply wire_ok_inside; eauto.
  - intros H. destruct (snd (wire kw c)) as [e|] eqn:E; auto. exfalso.
    apply wire_err in E as [[_ (d & I & K)]|(d & names & _ & I & NE & K)].
    + apply (H d I); auto.
    + destruct names as [|n names]; [congruence|]. destruct (proj1 (K n) (or_introl eq_refl)) as [[v D] N].
      eapply (proj2 (H d I)); eauto.
  - intros names E. apply wire_err in E as [[X _]|(d & nm & X & I & NE & K)]; [discriminate|].
    inversion X; subst. eauto.
  - intros E. apply wire_err in E as [[_ H]|(d & nm & X & _)]; [auto|discriminate].
Qed.

(** check_wired is right about the component's own fields ... *)
Theorem C19_check_wired_own_fields : forall V (c : comp V),
  check_wired c = Ok tt <-> forall n, ~ has_dep c n true None.
Proof.
  intros V [fs]. unfold check_wired, has_dep. simpl.
  set (missing := flat_map _ fs).
  assert (E : forall n, In n missing <-> In (FDep n true None) fs).
  { intros n. unfold missing. rewrite in_flat_map. split.
    - intros (f & Hf & Hn). destruct f as [| | |m [] [v|]]; simpl in Hn; try contradiction. destruct Hn as [<-|[]]. auto.
    - intros H. exists (FDep n true None). split; auto. left; auto. }
  split.
  - intros H n Hn. apply E in Hn. destruct missing; [contradiction|discriminate].
  - intros H. destruct missing as [|n m]; auto. exfalso. apply (H n). apply E. left; auto.
Qed.

(** ... but does not look into nested components: *)
Theorem C19_check_wired_nested_refuted :
  ~ (forall c : comp nat, check_wired c = Ok tt -> forall d n, inside d c -> ~ has_dep d n true None).
Proof.
  intros H. refine (H (Comp [FSub (Comp [FDep "f" true None])]) eq_refl (Comp [FDep "f" true None]) "f" _ _).
  - eapply inside_sub; [left; reflexivity|constructor].
  - left. reflexivity.
Qed.

(** wire also refuses components whose required dependency was already set by hand
    but is not passed again. *)
Theorem C19_already_set_refuted :
  ~ (forall (kw : list (string * nat)) c, (forall d n, inside d c -> ~ has_dep d n true None) ->
       (forall d, inside d c -> ~ has_class d) -> snd (wire kw c) = None).
Proof.
  intros H. specialize (H [] (Comp [FDep "f" true (Some 1)])).
  assert (E : snd (wire (@nil (string * nat)) (Comp [FDep "f" true (Some 1)])) = None); [|discriminate E].
  apply H; intros d; intros; intros D; inversion H0; subst; simpl in *.
  - destruct D as [D|[]]. discriminate.
  - destruct H2 as [H2|[]]; discriminate.
  - destruct D as [D|[]]. discriminate.
  - destruct H2 as [H2|[]]; discriminate.
Qed.

Example C19_example :
  wire [("f", 1); ("g", 2)]
    (Comp [FPlain; FDep "f" true None; FSub (Comp [FDep "g" false (Some 0); FDep "f" true (Some 9)])])
  = (Comp [FPlain; FDep "f" true (Some 1); FSub (Comp [FDep "g" false (Some 2); FDep "f" true (Some 1)])], None)
  /\ snd (wire [("g", 2)] (Comp [FDep "f" true (None : option nat); FDep "h" true None])) = Some (WMissing ["f"; "h"]).
Proof. split; reflexivity. Qed.

Print Assumptions C19_wire_sets_everything.
Print Assumptions C19_nothing_unset_after_wire.
Print Assumptions C19_wire_error_is_exact.
