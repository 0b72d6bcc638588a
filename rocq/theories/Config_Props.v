(** C15-C18, C56: configuration precedence, merging, unused keys, dot-list overrides. *)
From Coq Require Import String Ascii List Bool Arith Lia.
From Verif Require Import Common Common_Proofs Config_Model Config_Spec Config_Proofs.
Import ListNotations.
Open Scope string_scope.

(** ** C16: deep merge *)

(** Exact value at every path: the override's value where it has one (mappings are
    merged), nothing below a non-mapping of the override, otherwise the base's. *)
Theorem C16_merge_pathwise : forall V (b o : dict V) p, wf (Dict o) -> p <> [] ->
  at_path (Dict (deep_merge b o)) p =
  match source_says (Dict o) p with
  | Silent => at_path (Dict b) p
  | Masks => None
  | Sets (Leaf v) => Some (Leaf v)
  | Sets (Dict od) => match at_path (Dict b) p with
                      | Some (Dict bd) => Some (Dict (deep_merge bd od))
                      | _ => Some (Dict od)
                      end
  end.
Proof.
  intros V b o p Wo NE. rewrite <- merge_value_dict, at_merge by auto.
  destruct (source_says (Dict o) p) as [[v|od]| |]; auto.
  destruct (at_path (Dict b) p) as [[v|bd]|]; auto.
  rewrite merge_value_dict. auto.
Qed.

(** Every leaf of the override survives. *)
Theorem C16_override_wins : forall V (b o : dict V) p v, wf (Dict o) -> p <> [] ->
  at_path (Dict o) p = Some (Leaf v) -> at_path (Dict (deep_merge b o)) p = Some (Leaf v).
Proof.
  intros V b o p v Wo NE H. rewrite C16_merge_pathwise by auto.
  rewrite says_at in H. destruct (source_says (Dict o) p) as [[w|od]| |]; congruence.
Qed.

(** Every path the override says nothing about keeps its value. *)
Theorem C16_base_kept : forall V (b o : dict V) p, wf (Dict o) -> p <> [] ->
  source_says (Dict o) p = Silent ->
  at_path (Dict (deep_merge b o)) p = at_path (Dict b) p.
Proof. intros V b o p Wo NE H. rewrite C16_merge_pathwise, H by auto. reflexivity. Qed.

Theorem C16_right_identity : forall V (d : dict V), deep_merge d [] = d.
Proof. reflexivity. Qed.

Lemma merge_append V (o : dict V) : NoDup (map fst o) -> forall acc,
  (forall k, In k (map fst o) -> ~ In k (map fst acc)) -> deep_merge acc o = (acc ++ o)%list.
Proof.
  induction o as [|[k v] o IH]; simpl; intros ND acc D; [rewrite app_nil_r; auto|].
  inversion ND; subst.
  assert (dict_get acc k = None) as -> by (apply dict_get_None, D; auto).
  rewrite merge_value_none, dict_set_fresh by (apply D; auto).
  rewrite IH; auto.
  - rewrite <- app_assoc. reflexivity.
  - intros k' Hk. rewrite map_app, in_app_iff. simpl. intros [H|[H|[]]].
    + eapply D; eauto.
    + subst. contradiction.
Qed.

Theorem C16_left_identity : forall V (d : dict V), wf (Dict d) -> deep_merge [] d = d.
Proof. intros V d W. apply wf_dict_inv in W as [ND _]. rewrite merge_append; auto. Qed.

Lemma dict_set_same V (d : dict V) k v : dict_get d k = Some v -> dict_set d k v = d.
Proof.
  induction d as [|[k' v'] d IH]; simpl; intros H; [discriminate|].
  destruct (String.eqb_spec k k'); [congruence|]. f_equal. auto.
Qed.

Lemma merge_value_idem V (c : cfg V) : wf c -> merge_value c (Some c) = c.
Proof.
  induction c as [v|d IH] using cfg_ind'; intros W; auto.
  rewrite merge_value_dict. f_equal. pose proof (wf_dict_inv _ W) as [ND Wc].
  assert (G : forall o, (forall k v, In (k, v) o -> In (k, v) d) -> deep_merge d o = d).
  { induction o as [|[k v] o IHo]; intros Inc; auto. simpl.
    assert (E : dict_get d k = Some v) by (apply In_dict_get; auto; apply Inc; left; auto).
    rewrite E, (IH k v) by (eauto; try (eapply Inc; left; reflexivity); try (eapply Wc, Inc; left; reflexivity)).
    rewrite dict_set_same by auto. apply IHo. intros; apply Inc; right; auto. }
  apply G; auto.
Qed.

Theorem C16_idempotent : forall V (d : dict V), wf (Dict d) -> deep_merge d d = d.
Proof. intros V d W. pose proof (merge_value_idem V (Dict d) W) as H. rewrite merge_value_dict in H. congruence. Qed.

(** Associativity, key order included, when the third mapping nowhere has a mapping
    where the second has a non-mapping. *)
Lemma dict_ext V (a b : dict V) : NoDup (map fst a) -> map fst a = map fst b ->
  (forall k, dict_get a k = dict_get b k) -> a = b.
Proof.
  revert b; induction a as [|[k v] a IH]; intros [|[k' v'] b] ND K G; simpl in *; try discriminate; auto.
  inversion K; subst. inversion ND; subst.
  pose proof (G k') as G0. simpl in G0. rewrite String.eqb_refl in G0.
  f_equal; [congruence|]. apply IH; auto.
  intros x. specialize (G x). destruct (String.eqb_spec x k'); auto.
  subst. assert (dict_get a k' = None) as -> by (apply dict_get_None; auto).
  symmetry. apply dict_get_None. congruence.
Qed.

Definition new_keys (a b : list string) : list string :=
  filter (fun k => negb (existsb (String.eqb k) a)) b.

Lemma existsb_In k l : existsb (String.eqb k) l = true <-> In k l.
Proof.
  rewrite existsb_exists. split; [intros (x & H & E); apply String.eqb_eq in E; congruence|].
  intros H. exists k. rewrite String.eqb_refl. auto.
Qed.

Lemma keys_merge V (o : dict V) : NoDup (map fst o) -> forall b,
  map fst (deep_merge b o) = (map fst b ++ new_keys (map fst b) (map fst o))%list.
Proof.
  induction o as [|[k v] o IH]; simpl; intros ND b; [rewrite app_nil_r; auto|].
  inversion ND; subst. rewrite IH by auto. rewrite dict_set_keys.
  destruct (existsb (String.eqb k) (map fst b)) eqn:E; simpl; auto.
  rewrite <- app_assoc. f_equal. simpl. f_equal.
  unfold new_keys. apply filter_ext_in. intros x Hx. f_equal.
  rewrite existsb_app. simpl. destruct (String.eqb_spec x k); [subst; contradiction|].
  rewrite !orb_false_r. reflexivity.
Qed.

Lemma new_keys_assoc a b c :
  (new_keys a b ++ new_keys (a ++ new_keys a b) c)%list = new_keys a (b ++ new_keys b c).
Proof.
  unfold new_keys. rewrite filter_app. f_equal.
  induction c as [|x c IH]; simpl; auto.
  assert (E : existsb (String.eqb x) (a ++ filter (fun k => negb (existsb (String.eqb k) a)) b) =
              existsb (String.eqb x) a || existsb (String.eqb x) b).
  { apply eq_true_iff_eq. rewrite orb_true_iff, !existsb_In, in_app_iff, filter_In.
    rewrite negb_true_iff, <- not_true_iff_false, existsb_In.
    destruct (in_dec string_dec x a); tauto. }
  rewrite E. destruct (existsb (String.eqb x) a) eqn:Ea; simpl.
  - destruct (existsb (String.eqb x) b); simpl; rewrite ?Ea; simpl; auto.
  - destruct (existsb (String.eqb x) b); simpl; rewrite ?Ea; simpl; auto. f_equal. auto.
Qed.

(** Conflict: the later mapping [c] has a mapping at a path where the earlier [b]
    has a non-mapping. *)
Definition no_conflict {V} (b c : cfg V) : Prop :=
  forall p v d, at_path b p = Some (Leaf v) -> at_path c p = Some (Dict d) -> False.

Lemma merge_value_assoc V (c : cfg V) : wf c -> forall a b, wf a -> wf b ->
  no_conflict b c ->
  merge_value c (Some (merge_value b (Some a))) = merge_value (merge_value c (Some b)) (Some a).
Proof.
  induction c as [v|dc IH] using cfg_ind'; intros Wc a b Wa Wb NC; auto.
  destruct b as [vb|db].
  { exfalso. apply (NC [] vb dc); reflexivity. }
  destruct a as [va|da].
  { rewrite merge_value_leaf. rewrite merge_value_dict, merge_value_leaf. reflexivity. }
  rewrite !merge_value_dict. f_equal.
  pose proof (wf_dict_inv _ Wc) as [NDc Wcc].
  pose proof (wf_dict_inv _ Wb) as [NDb Wbb].
  pose proof (wf_dict_inv _ Wa) as [NDa Waa].
  pose proof (wf_merge _ _ Wb Wc) as Wbc. pose proof (wf_dict_inv _ Wbc) as [NDbc _].
  pose proof (wf_merge _ _ Wa Wb) as Wab.
  pose proof (wf_merge _ _ Wab Wc) as Wabc. pose proof (wf_dict_inv _ Wabc) as [NDabc _].
  apply dict_ext; auto.
  - rewrite !keys_merge by auto. rewrite <- !app_assoc. f_equal. apply new_keys_assoc.
  - intros k. rewrite (get_merge dc NDc), (get_merge db NDb), (get_merge (deep_merge db dc) NDbc), (get_merge dc NDc).
    destruct (dict_get dc k) as [cc|] eqn:Ec; auto.
    destruct (dict_get db k) as [cb|] eqn:Eb; auto.
    2:{ rewrite merge_value_none. reflexivity. }
    f_equal. destruct (dict_get da k) as [ca|] eqn:Ea.
    + apply (IH k cc (dict_get_In _ _ _ Ec) (wf_get _ _ _ Wc Ec) ca cb (wf_get _ _ _ Wa Ea) (wf_get _ _ _ Wb Eb)).
      intros p v d Hb Hc. apply (NC (k :: p) v d); simpl; [rewrite Eb|rewrite Ec]; auto.
    + rewrite !merge_value_none. reflexivity.
Qed.

Theorem C16_associative_without_conflict : forall V (a b c : dict V),
  wf (Dict a) -> wf (Dict b) -> wf (Dict c) -> no_conflict (Dict b) (Dict c) ->
  deep_merge (deep_merge a b) c = deep_merge a (deep_merge b c).
Proof.
  intros V a b c Wa Wb Wc NC.
  pose proof (merge_value_assoc V (Dict c) Wc (Dict a) (Dict b) Wa Wb NC) as H.
  rewrite !merge_value_dict in H. congruence.
Qed.

(** With a conflict the order of merging matters: *)
Theorem C16_associative_refuted :
  ~ (forall a b c : dict nat, wf (Dict a) -> wf (Dict b) -> wf (Dict c) ->
       deep_merge (deep_merge a b) c = deep_merge a (deep_merge b c)).
Proof.
  intros H.
  specialize (H [("x", Dict [("p", Leaf 1)])] [("x", Leaf 5)] [("x", Dict [("q", Leaf 2)])]).
  assert (E : forall (k : string) (c : cfg nat), wf c -> wf (Dict [(k, c)])).
  { intros k c W. constructor; [repeat constructor; auto|]. intros k' c' [Hc|[]]. congruence. }
  assert (forall v : nat, wf (Leaf v)) by constructor.
  specialize (H ltac:(auto) ltac:(auto) ltac:(auto)). discriminate H.
Qed.

Example C16_example :
  deep_merge [("a", Dict [("x", Leaf 1); ("y", Leaf 2)]); ("b", Leaf 3)]
             [("a", Dict [("y", Leaf 7); ("z", Leaf 8)])]
  = [("a", Dict [("x", Leaf 1); ("y", Leaf 7); ("z", Leaf 8)]); ("b", Leaf 3)].
Proof. reflexivity. Qed.

(** ** C18: dot-list overrides *)
Section Dotlist.
Variable V : Type.
Variable yaml_load : string -> res (cfg V).

(** An override given by its path and raw text; [=] may not occur in the path. *)
Definition entry (pv : list string * string) : string := dotted (fst pv) ++ String "=" (snd pv).
Definition entry_ok (pv : list string * string) : Prop :=
  is_path (fst pv) /\ Forall (fun k => str_has "=" k = false) (fst pv).

Lemma has_dotted p : Forall (fun k => str_has "=" k = false) p -> str_has "=" (dotted p) = false.
Proof.
  induction p as [|k p IH]; intros F; auto. inversion F; subst.
  destruct p; [exact H1|]. rewrite dotted_cons by discriminate.
  rewrite has_app, H1. simpl. apply IH; auto.
Qed.

Lemma partition_entry pv : entry_ok pv -> str_partition "=" (entry pv) = (dotted (fst pv), snd pv).
Proof. intros [_ F]. apply partition_app, has_dotted, F. Qed.

Lemma dotlist_step acc pv rest : entry_ok pv ->
  dotlist_from yaml_load acc (entry pv :: rest) =
  bind (yaml_load (snd pv)) (fun v => bind (set_path acc (fst pv) v) (fun a => dotlist_from yaml_load a rest)).
Proof.
  intros H. cbn [dotlist_from]. rewrite partition_entry by auto.
  destruct H as [H _]. rewrite split_dotted by auto. reflexivity.
Qed.

Lemma dotlist_app acc l1 l2 d :
  dotlist_from yaml_load acc (l1 ++ l2) = Ok d ->
  exists d1, dotlist_from yaml_load acc l1 = Ok d1 /\ dotlist_from yaml_load d1 l2 = Ok d.
Proof.
  revert acc; induction l1 as [|e l1 IH]; intros acc H; [simpl; eauto|].
  simpl in *. destruct (str_partition "=" e) as [k raw]. destruct (yaml_load raw) as [v|]; [|discriminate].
  simpl in *. destruct (set_path acc _ v) as [a|]; [|discriminate]. simpl in *. eauto.
Qed.

Lemma dotlist_unrelated l : forall acc d q, Forall entry_ok l ->
  dotlist_from yaml_load acc (map entry l) = Ok d ->
  (forall e, In e l -> unrelated (fst e) q) ->
  source_says (Dict d) q = source_says (Dict acc) q.
Proof.
  induction l as [|e l IH]; intros acc d q F H U; [simpl in H; inversion H; subst; auto|].
  inversion F; subst. cbn [map] in H. rewrite dotlist_step in H by auto.
  destruct (yaml_load (snd e)) as [v|]; [|discriminate]. simpl in H.
  destruct (set_path acc (fst e) v) as [a|] eqn:S; [|discriminate]. simpl in H.
  rewrite (IH _ _ q H3 H) by (intros; apply U; right; auto).
  eapply set_path_unrelated; eauto. apply U; left; auto.
Qed.

(** An override wins unless a later one touches a related path; what it sets is
    exactly the parsed value. *)
Theorem C18_override_is_set : forall before pv after d,
  Forall entry_ok (before ++ pv :: after) ->
  dotlist_to_dict yaml_load (map entry (before ++ pv :: after)) = Ok d ->
  (forall e, In e after -> unrelated (fst e) (fst pv)) ->
  exists v, yaml_load (snd pv) = Ok v /\ at_path (Dict d) (fst pv) = Some v.
Proof.
  intros before pv after d F H U. unfold dotlist_to_dict in H. rewrite map_app in H.
  apply dotlist_app in H as (d1 & _ & H). cbn [map] in H.
  apply Forall_app in F as [_ F]. inversion F; subst.
  rewrite dotlist_step in H by auto.
  destruct (yaml_load (snd pv)) as [v|]; [|discriminate]. simpl in H.
  destruct (set_path d1 (fst pv) v) as [a|] eqn:S; [|discriminate]. simpl in H.
  exists v; split; auto. rewrite says_at, (dotlist_unrelated _ _ _ (fst pv) H3 H U), <- says_at.
  eapply set_path_at; eauto.
Qed.

(** Same path given twice: the later value wins. *)
Theorem C18_later_wins : forall before p raw1 middle raw2 d,
  Forall entry_ok (before ++ (p, raw1) :: middle ++ [(p, raw2)]) ->
  dotlist_to_dict yaml_load (map entry (before ++ (p, raw1) :: middle ++ [(p, raw2)])) = Ok d ->
  exists v, yaml_load raw2 = Ok v /\ at_path (Dict d) p = Some v.
Proof.
  intros before p raw1 middle raw2 d F H.
  replace (before ++ (p, raw1) :: middle ++ [(p, raw2)])%list
    with ((before ++ (p, raw1) :: middle) ++ (p, raw2) :: [])%list in *
    by (rewrite <- app_assoc; reflexivity).
  apply (C18_override_is_set (before ++ (p, raw1) :: middle) (p, raw2) [] d); auto. intros e [].
Qed.

(** Paths related to no override are absent. *)
Theorem C18_nothing_else_is_set : forall l d q, Forall entry_ok l ->
  dotlist_to_dict yaml_load (map entry l) = Ok d -> q <> [] ->
  (forall e, In e l -> unrelated (fst e) q) -> source_says (Dict d) q = Silent.
Proof.
  intros l d q F H NE U. unfold dotlist_to_dict in H.
  rewrite (dotlist_unrelated _ _ _ q F H U). apply says_nil; auto.
Qed.

(** One more override leaves every unrelated path as it was. *)
Theorem C18_unrelated_unchanged : forall l pv d d' q, Forall entry_ok (l ++ [pv]) ->
  dotlist_to_dict yaml_load (map entry l) = Ok d ->
  dotlist_to_dict yaml_load (map entry (l ++ [pv])) = Ok d' ->
  unrelated (fst pv) q -> source_says (Dict d') q = source_says (Dict d) q.
Proof.
  intros l pv d d' q F H H' U. unfold dotlist_to_dict in *. rewrite map_app in H'.
  apply dotlist_app in H' as (d1 & E & H'). assert (d1 = d) by congruence. subst d1.
  apply Forall_app in F as [_ F].
  apply (dotlist_unrelated [pv] d d' q F H'). intros e [<-|[]]; auto.
Qed.

(** The list is refused exactly when a value does not parse or an override goes
    through a path set to a non-mapping by the earlier ones; then the error is a
    TypeError or AttributeError, not a configuration error. *)
Theorem C18_conflicting_override_raises : forall l pv d v, Forall entry_ok (l ++ [pv]) ->
  dotlist_to_dict yaml_load (map entry l) = Ok d ->
  yaml_load (snd pv) = Ok v ->
  ((exists e, dotlist_to_dict yaml_load (map entry (l ++ [pv])) = Raise e) <->
   (exists q w, q <> [] /\ prefix_of q (fst pv) /\ q <> fst pv /\ at_path (Dict d) q = Some (Leaf w))).
Proof.
  intros l pv d v F H L. apply Forall_app in F as [Fl F]. inversion F; subst.
  rewrite <- (set_path_fails (fst pv) (proj1 (proj1 H2)) d v).
  assert (E : forall acc, dotlist_from yaml_load acc (map entry l) = Ok d ->
     dotlist_from yaml_load acc (map entry (l ++ [pv])) = set_path d (fst pv) v).
  { clear H F H3. induction l as [|e l IH]; intros acc H; cbn [app map].
    - simpl in H. inversion H; subst. rewrite dotlist_step by auto. rewrite L. simpl.
      destruct (set_path d (fst pv) v); reflexivity.
    - inversion Fl; subst. cbn [map] in H. rewrite dotlist_step in * by auto.
      destruct (yaml_load (snd e)) as [w|]; [|discriminate]. simpl in *.
      destruct (set_path acc (fst e) w) as [a|]; [|discriminate]. simpl in *. auto. }
  unfold dotlist_to_dict. rewrite (E _ H). reflexivity.
Qed.
End Dotlist.

Definition toy_yaml (s : string) : res (cfg string) := Ok (Leaf s).
Example C18_example :
  dotlist_to_dict toy_yaml ["a.b=1"; "c=2"; "a.b=3"; "a.d=4"] =
  Ok [("a", Dict [("b", Leaf "3"); ("d", Leaf "4")]); ("c", Leaf "2")] /\
  dotlist_to_dict toy_yaml ["a=1"; "a.b=2"] = Raise TypeError /\
  dotlist_to_dict toy_yaml ["a=1"; "a.b.c=2"] = Raise AttributeError.
Proof. repeat split. Qed.

(** ** C15: precedence *)
Section Manager.
Variable V : Type.
Variable yaml_load : string -> res (cfg V).
Variable coerce : V -> cfg V -> res V.
Hypothesis yaml_wf : forall s c, yaml_load s = Ok c -> wf c.

Definition presets_of (cs : list (call V)) : list (dict V) :=
  flat_map (fun c => match c with UsePreset p => [p] | _ => [] end) cs.

Definition run (m : manager V) (cs : list (call V)) : manager V := fold_left (do_call coerce) cs m.

(** What every reachable manager looks like. *)
Lemma record_fields A m n s (r : A) : let m' := fst (record_resolved (V:=V) m n s r) in
  user_config m' = user_config m /\ cli_config m' = cli_config m /\ presets m' = presets m /\
  merged m' = merged m /\ visited m' = visited m.
Proof. unfold record_resolved. destruct (set_path _ _ _); simpl; auto. Qed.

Lemma do_call_fields m c : let m' := do_call coerce m c in
  user_config m' = user_config m /\ cli_config m' = cli_config m /\
  presets m' = fold_left (@deep_merge V) (presets_of [c]) (presets m) /\
  (presets_of [c] = [] -> merged m' = merged m) /\
  visited m' = (rev (asked [c]) ++ visited m)%list.
Proof.
  destruct c; simpl; auto.
  - repeat split; auto. discriminate.
  - unfold get_primitive, extract_relevant. simpl. destruct (match get_path _ _ with Some _ => _ | None => _ end); simpl; auto.
    match goal with |- context [record_resolved ?m ?n ?s ?r] => pose proof (record_fields _ m n s r) as H; simpl in H end.
    intuition.
  - unfold get_container, extract_relevant. simpl.
    match goal with |- context [record_resolved ?m ?n ?s ?r] => pose proof (record_fields _ m n s r) as H; simpl in H end.
    intuition.
  - unfold get_dataclass, extract_relevant. simpl. destruct (serde_from_dict _ _); simpl; auto.
    match goal with |- context [record_resolved ?m ?n ?s ?r] => pose proof (record_fields _ m n s r) as H; simpl in H end.
    intuition.
Qed.

Lemma run_fields cs : forall m, let m' := run m cs in
  user_config m' = user_config m /\ cli_config m' = cli_config m /\
  presets m' = fold_left (@deep_merge V) (presets_of cs) (presets m) /\
  visited m' = (rev (asked cs) ++ visited m)%list.
Proof.
  induction cs as [|c cs IH]; intros m; simpl; auto.
  destruct (IH (do_call coerce m c)) as (A & B & C & D).
  destruct (do_call_fields m c) as (A' & B' & C' & _ & D').
  unfold run in *. rewrite A, B, C, D, A', B', C', D'. repeat split; auto.
  - unfold presets_of. simpl. rewrite app_nil_r, fold_left_app. reflexivity.
  - unfold asked. simpl. rewrite app_nil_r, rev_app_distr, app_assoc. reflexivity.
Qed.

Lemma agree_silent_id (y x : says V) :
  agree y (match x with Silent => Silent | Sets v => Sets v | Masks => Masks end) -> agree y x.
Proof. destruct x; auto. Qed.

(** Priority of the sources in a manager: command line, then the YAML files from
    the last to the first, then presets from the last added to the first. *)
Definition priority (configs : list (dict V)) (cli : dict V) (cs : list (call V)) : list (dict V) :=
  cli :: rev configs ++ rev (presets_of cs).

Lemma dotlist_wf l : forall acc d, dotlist_from yaml_load acc l = Ok d -> wf (Dict acc) -> wf (Dict d).
Proof.
  induction l as [|e l IH]; simpl; intros acc d H W; [congruence|].
  destruct (str_partition "=" e) as [k raw]. destruct (yaml_load raw) as [v|] eqn:Y; [|discriminate].
  simpl in H. destruct (set_path acc _ v) as [a|] eqn:S; [|discriminate]. simpl in H.
  eapply IH; eauto. eapply wf_set_path; eauto.
Qed.

Lemma wf_nil : wf (Dict (@nil (string * cfg V))).
Proof. constructor; [constructor|intros ? ? []]. Qed.

Lemma merged_agree configs dotlist m0 cs p :
  make yaml_load configs dotlist = Ok m0 ->
  Forall (fun s => wf (Dict s)) configs -> Forall (fun s => wf (Dict s)) (presets_of cs) ->
  p <> [] ->
  Forall (fun s => source_says (Dict s) p <> Masks) (priority configs (cli_config m0) cs) ->
  agree (source_says (Dict (merged (run m0 cs))) p) (decided (priority configs (cli_config m0) cs) p).
Proof.
  intros Hm Wc Wp NE M. unfold make in Hm.
  destruct (dotlist_to_dict yaml_load dotlist) as [cli|] eqn:D; [|discriminate]. simpl in Hm.
  inversion Hm; subst m0; clear Hm. simpl in M. unfold priority in M. inversion M as [|? ? Mcli Mrest]; subst.
  apply Forall_app in Mrest as [Mc Mp].
  assert (Wcli : wf (Dict cli)) by (eapply dotlist_wf; eauto; apply wf_nil).
  set (user := fold_left (@deep_merge V) configs []).
  assert (Wuser : wf (Dict user)) by (apply fold_merge_wf; auto; apply wf_nil).
  set (m0 := {| user_config := user; cli_config := cli; presets := []; merged := deep_merge user cli;
                resolved := []; visited := [] |}).
  (* the merged configuration is always presets + user + cli *)
  assert (E : forall cs, merged (run m0 cs) =
     match presets_of cs with
     | [] => deep_merge user cli
     | _ => deep_merge (deep_merge (fold_left (@deep_merge V) (presets_of cs) []) user) cli
     end).
  { clear -m0. intros cs. induction cs as [|c cs IH] using rev_ind; [reflexivity|].
    unfold run in *. rewrite fold_left_app. simpl.
    assert (P : presets_of (cs ++ [c]) = (presets_of cs ++ presets_of [c])%list) by (unfold presets_of; rewrite flat_map_app; auto).
    rewrite P. destruct (run_fields cs m0) as (A & B & C & _). unfold run in *.
    destruct c; simpl.
    2-4: rewrite app_nil_r.
    - unfold use_preset; simpl. rewrite C, A, B. simpl. rewrite fold_left_app. simpl.
      destruct (presets_of cs); reflexivity.
    - change (fst (get_primitive coerce ?m ?n ?d)) with (do_call coerce m (GetPrimitive n d)).
      destruct (do_call_fields (fold_left (do_call coerce) cs m0) (GetPrimitive name default)) as (_ & _ & _ & Q & _).
      rewrite Q by reflexivity. exact IH.
    - change (fst (get_container ?m ?n ?d)) with (do_call coerce m (GetContainer n d)).
      destruct (do_call_fields (fold_left (do_call coerce) cs m0) (GetContainer name default)) as (_ & _ & _ & Q & _).
      rewrite Q by reflexivity. exact IH.
    - change (fst (get_dataclass ?m ?n ?a ?b ?d)) with (do_call coerce m (GetDataclass n a b d)).
      destruct (do_call_fields (fold_left (do_call coerce) cs m0) (GetDataclass name sch base module)) as (_ & _ & _ & Q & _).
      rewrite Q by reflexivity. exact IH. }
  rewrite E. unfold priority. simpl decided. rewrite decided_app.
  assert (Pn : agree (source_says (Dict (@nil (string * cfg V))) p) Silent) by (rewrite says_nil; simpl; auto).
  assert (Au : agree (source_says (Dict user) p) (decided (rev configs) p)).
  { pose proof (fold_agree configs p Wc) as F. specialize (F ltac:(apply Forall_rev in Mc; rewrite rev_involutive in Mc; auto) NE _ _ Pn).
    apply agree_silent_id. exact F. }
  pose proof (agree_nomask _ _ Au) as [Nu _].
  set (x := match decided (rev configs) p with Silent => decided (rev (presets_of cs)) p | y => y end).
  assert (Ab : forall b, b = (match presets_of cs with [] => user | _ => deep_merge (fold_left (@deep_merge V) (presets_of cs) []) user end) ->
               agree (source_says (Dict b) p) x).
  { intros b ->. destruct (presets_of cs) as [|p0 ps] eqn:Ep.
    - unfold x. simpl. destruct (decided (rev configs) p); auto.
    - rewrite <- Ep in *. 
      pose proof (fold_agree (presets_of cs) p Wp) as F.
      specialize (F ltac:(apply Forall_rev in Mp; rewrite rev_involutive in Mp; auto) NE _ _ Pn).
      assert (F' : agree (source_says (Dict (fold_left (@deep_merge V) (presets_of cs) [])) p) (decided (rev (presets_of cs)) p))
        by (apply agree_silent_id; exact F).
      rewrite <- merge_value_dict.
      pose proof (agree_merge p (Dict user) (Dict (fold_left (@deep_merge V) (presets_of cs) [])) _ Wuser Nu F') as G.
      unfold x. rewrite <- ?Ep. revert G Au.
      generalize (source_says (merge_value (Dict user) (Some (Dict (fold_left (@deep_merge V) (presets_of cs) [])))) p) as Z.
      destruct (source_says (Dict user) p) as [[u|ud]| |], (decided (rev configs) p) as [[w|wd]| |];
        intros Z G Au; try exact G; destruct Z as [[]| |]; simpl in Au, G; try contradiction; simpl; auto; congruence. }
  assert (H : agree (source_says (merge_value (Dict cli) (Some (Dict (match presets_of cs with [] => user | _ => deep_merge (fold_left (@deep_merge V) (presets_of cs) []) user end)))) p)
                (match source_says (Dict cli) p with Silent => x | y => y end)).
  { apply agree_merge; auto. }
  rewrite merge_value_dict in H.
  replace (match presets_of cs with
     | [] => deep_merge user cli
     | _ :: _ => deep_merge (deep_merge (fold_left (@deep_merge V) (presets_of cs) []) user) cli
     end) with (deep_merge (match presets_of cs with [] => user | _ :: _ => deep_merge (fold_left (@deep_merge V) (presets_of cs) []) user end) cli).
  - exact H.
  - destruct (presets_of cs); reflexivity.
Qed.

(** *** C15, main statement.  A manager is built from YAML files [configs] and
    overrides [dotlist]; then any sequence [cs] of presets and reads happens; then a
    primitive is read at [p].  If no source puts a non-mapping on the way to [p],
    the value returned is that of the highest-priority source that sets [p],
    converted to the type of the default, and the default if none does. *)
Theorem C15_precedence : forall configs dotlist m0 cs p default r,
  make yaml_load configs dotlist = Ok m0 ->
  Forall (fun s => wf (Dict s)) configs -> Forall (fun s => wf (Dict s)) (presets_of cs) ->
  is_path p ->
  Forall (fun s => source_says (Dict s) p <> Masks) (priority configs (cli_config m0) cs) ->
  snd (get_primitive coerce (run m0 cs) (dotted p) default) = Ok r ->
  match decided (priority configs (cli_config m0) cs) p with
  | Sets (Leaf v) => coerce default (Leaf v) = Ok r
  | Sets (Dict _) => exists d, coerce default (Dict d) = Ok r
  | Silent => r = default
  | Masks => False
  end.
Proof.
  intros configs dotlist m0 cs p default r Hm Wc Wp Hp M G.
  pose proof (merged_agree _ _ _ _ p Hm Wc Wp (proj1 Hp) M) as A.
  unfold get_primitive, extract_relevant in G. simpl in G.
  rewrite split_dotted, get_path_at in G by (auto; apply Hp). rewrite says_at in G.
  destruct (source_says (Dict (merged (run m0 cs))) p) as [[v|d]| |],
           (decided (priority configs (cli_config m0) cs) p) as [[w|dw]| |]; simpl in A; try contradiction.
  - subst w. destruct (coerce default (Leaf v)) as [x|]; [|discriminate].
    unfold record_resolved in G. destruct (set_path _ _ _) in G; simpl in G; congruence.
  - exists d. destruct (coerce default (Dict d)) as [x|]; [|discriminate].
    unfold record_resolved in G. destruct (set_path _ _ _) in G; simpl in G; congruence.
  - unfold record_resolved in G. destruct (set_path _ _ _) in G; simpl in G; congruence.
Qed.

(** The command line wins whatever the other sources look like. *)
Theorem C15_command_line_wins : forall configs dotlist m0 cs p default v r,
  make yaml_load configs dotlist = Ok m0 ->
  is_path p ->
  source_says (Dict (cli_config m0)) p = Sets (Leaf v) ->
  snd (get_primitive coerce (run m0 cs) (dotted p) default) = Ok r ->
  coerce default (Leaf v) = Ok r.
Proof.
  intros configs dotlist m0 cs p default v r Hm Hp Hs G.
  assert (E : exists b, merged (run m0 cs) = deep_merge b (cli_config m0)).
  { clear G. induction cs as [|c cs IH] using rev_ind.
    - unfold make in Hm. destruct (dotlist_to_dict yaml_load dotlist); [|discriminate].
      simpl in Hm. inversion Hm; subst. simpl. eauto.
    - unfold run in *. rewrite fold_left_app. simpl.
      destruct (run_fields cs m0) as (_ & B & _ & _). unfold run in B.
      destruct (do_call_fields (fold_left (do_call coerce) cs m0) c) as (_ & _ & _ & Q & _).
      destruct c; try (rewrite Q by reflexivity; exact IH).
      simpl. rewrite B. eauto. }
  destruct E as [b E].
  assert (Wcli : wf (Dict (cli_config m0))).
  { unfold make in Hm. destruct (dotlist_to_dict yaml_load dotlist) eqn:D; [|discriminate].
    simpl in Hm. inversion Hm; subst. simpl. eapply dotlist_wf; eauto. apply wf_nil. }
  unfold get_primitive, extract_relevant in G. simpl in G.
  rewrite split_dotted, get_path_at in G by (auto; apply Hp).
  rewrite E, C16_merge_pathwise, Hs in G by (auto; apply Hp).
  destruct (coerce default (Leaf v)) as [x|]; [|discriminate].
  unfold record_resolved in G. destruct (set_path _ _ _) in G; simpl in G; congruence.
Qed.

(** ** C17: unused keys *)
Lemma sub_visited_In k x vis : In x (sub_visited k vis) <-> In (k ++ "." ++ x) vis.
Proof.
  unfold sub_visited. rewrite in_map_iff. split.
  - intros (y & E & H). apply filter_In in H as [H P]. apply prefix_true_s in P as [z ->].
    assert (L : String.length k + 1 = String.length (k ++ ".")) by (rewrite length_app_s; reflexivity).
    rewrite L, str_drop_app in E. subst. rewrite app_assoc_s in H. exact H.
  - intros H. exists (k ++ "." ++ x). split.
    + rewrite <- app_assoc_s.
      assert (L : String.length k + 1 = String.length (k ++ ".")) by (rewrite length_app_s; reflexivity).
      rewrite L, str_drop_app. reflexivity.
    + apply filter_In. split; auto. rewrite <- app_assoc_s. apply prefix_app_s.
Qed.

Lemma unused_value_spec (c : cfg V) : wf c -> forall vis k s,
  In s (unused_value vis k c) <->
  exists p v, at_path c p = Some (Leaf v) /\ s = dotted (k :: p) /\
              forall q, prefix_of q p -> ~ In (dotted (k :: q)) vis.
Proof.
  induction c as [w|d IH] using cfg_ind'; intros W vis k s; cbn [unused_value].
  - destruct (existsb (String.eqb k) vis) eqn:E.
    + apply existsb_In in E. split; [intros []|]. intros (p & v & _ & _ & N).
      exfalso. apply (N []); auto. exists p; reflexivity.
    + split.
      * intros [<-|[]]. exists [], w. repeat split; auto. intros q [r Eq] Hq.
        destruct q; [|discriminate]. change (dotted [k]) with k in Hq. apply existsb_In in Hq. congruence.
      * intros (p & v & A & -> & N). destruct p; [left; reflexivity|discriminate].
  - destruct (existsb (String.eqb k) vis) eqn:E.
    + apply existsb_In in E. split; [intros []|]. intros (p & v & _ & _ & N).
      exfalso. apply (N []); auto. exists p; reflexivity.
    + pose proof (wf_dict_inv _ W) as [ND Wc].
      assert (G : forall s', In s' ((fix go (d : list (string * cfg V)) : list string :=
                 match d with
                 | [] => []
                 | (k', v') :: rest => (unused_value (sub_visited k vis) k' v' ++ go rest)%list
                 end) d) <-> exists k' c', In (k', c') d /\ In s' (unused_value (sub_visited k vis) k' c')).
      { intros s'. clear. induction d as [|[k' c'] d IH]; simpl.
        - split; [intros []|intros (? & ? & [] & _)].
        - rewrite in_app_iff, IH. split.
          + intros [H|(k2 & c2 & H & H2)]; [exists k', c'|exists k2, c2]; auto.
          + intros (k2 & c2 & [H|H] & H2); [inversion H; subst; auto|right; eauto]. }
      rewrite in_map_iff. split.
      * intros (s' & <- & H). apply G in H as (k' & c' & Hin & H).
        apply (IH k' c' Hin (Wc _ _ Hin)) in H as (p & v & A & -> & N).
        exists (k' :: p), v. repeat split.
        -- simpl. rewrite (In_dict_get d k' c') by auto. exact A.
        -- intros q [r Eq] Hq. destruct q as [|k2 q].
           ++ change (dotted [k]) with k in Hq. apply existsb_In in Hq. congruence.
           ++ simpl in Eq. inversion Eq; subst k2. apply (N q); [exists r; auto|].
              apply sub_visited_In. rewrite dotted_cons in Hq by discriminate. exact Hq.
      * intros (p & v & A & -> & N). destruct p as [|k' p]; [discriminate|]. simpl in A.
        destruct (dict_get d k') as [c'|] eqn:D; [|discriminate]. apply dict_get_In in D.
        exists (dotted (k' :: p)). split; [symmetry; apply dotted_cons; discriminate|].
        apply G. exists k', c'. split; auto. apply (IH k' c' D (Wc _ _ D)).
        exists p, v. repeat split; auto. intros q [r Eq] Hq. apply sub_visited_In in Hq.
        apply (N (k' :: q)); [exists r; simpl; congruence|].
        rewrite dotted_cons by discriminate. exact Hq.
Qed.

Lemma find_unused_spec (d : dict V) vis s : wf (Dict d) ->
  (In s (find_unused vis d) <->
   exists p v, at_path (Dict d) p = Some (Leaf v) /\ s = dotted p /\
               forall q, q <> [] -> prefix_of q p -> ~ In (dotted q) vis).
Proof.
  intros W. pose proof (wf_dict_inv _ W) as [ND Wc]. unfold find_unused. rewrite in_flat_map. split.
  - intros ([k c] & Hin & H). apply unused_value_spec in H as (p & v & A & -> & N); [|eapply Wc; eauto].
    exists (k :: p), v. repeat split.
    + simpl. rewrite (In_dict_get d k c) by auto. exact A.
    + intros q Nq [r Eq]. destruct q as [|k2 q]; [congruence|]. inversion Eq; subst. apply N. exists r; auto.
  - intros (p & v & A & -> & N). destruct p as [|k p]; [discriminate|]. simpl in A.
    destruct (dict_get d k) as [c|] eqn:D; [|discriminate]. apply dict_get_In in D.
    exists (k, c). split; auto. apply unused_value_spec; [eapply Wc; eauto|].
    exists p, v. repeat split; auto. intros q [r Eq]. apply N; [discriminate|]. exists r. simpl. congruence.
Qed.

(** A source path that the user supplied (with a value at its end) and that no call
    asked for, neither itself nor any ancestor. *)
Definition unread (d : dict V) (asked : list string) (p : list string) : Prop :=
  (exists v, at_path (Dict d) p = Some (Leaf v)) /\
  forall q, q <> [] -> prefix_of q p -> ~ In (dotted q) asked.

(** *** C17, main statement: after any calls, the reports are exactly the unread
    paths of the YAML and of the command line. *)
Theorem C17_report_is_exact : forall configs dotlist m0 cs ry rc,
  make yaml_load configs dotlist = Ok m0 -> Forall (fun s => wf (Dict s)) configs ->
  finalize (run m0 cs) false = Ok (ry, rc) ->
  (forall s, In s ry <-> exists p, s = dotted p /\ unread (user_config m0) (asked cs) p) /\
  (forall s, In s rc <-> exists p, s = dotted p /\ unread (cli_config m0) (asked cs) p).
Proof.
  intros configs dotlist m0 cs ry rc Hm Wc F.
  unfold make in Hm. destruct (dotlist_to_dict yaml_load dotlist) as [cli|] eqn:D; [|discriminate].
  simpl in Hm. inversion Hm; subst m0. clear Hm.
  set (m0 := {| user_config := _ |}) in *.
  destruct (run_fields cs m0) as (A & B & _ & E). unfold finalize in F.
  set (vis := visited (run m0 cs)) in *. rewrite A, B in F.
  assert (Vis : forall x, In x vis <-> In x (asked cs)).
  { intros x. rewrite E. simpl. rewrite app_nil_r. rewrite <- in_rev. tauto. }
  assert (F' : ry = find_unused vis (user_config m0) /\ rc = find_unused vis (cli_config m0)).
  { destruct (find_unused vis (user_config m0)), (find_unused vis (cli_config m0)); inversion F; auto. }
  destruct F' as [-> ->].
  assert (Wu : wf (Dict (user_config m0))) by (apply fold_merge_wf; auto; apply wf_nil).
  assert (Wl : wf (Dict (cli_config m0))) by (eapply dotlist_wf; eauto; apply wf_nil).
  split; intros s; rewrite find_unused_spec by auto; split.
  - intros (p & v & a & b & c). exists p. repeat split; eauto. intros q N P H. eapply c; eauto. apply Vis; auto.
  - intros (p & b & [v a] & c). exists p, v. repeat split; auto. intros q N P H. eapply c; eauto. apply Vis; auto.
  - intros (p & v & a & b & c). exists p. repeat split; eauto. intros q N P H. eapply c; eauto. apply Vis; auto.
  - intros (p & b & [v a] & c). exists p, v. repeat split; auto. intros q N P H. eapply c; eauto. apply Vis; auto.
Qed.

(** With raise_on_unused the run stops iff there is something to report. *)
Theorem C17_stops_iff_unread : forall configs dotlist m0 cs,
  make yaml_load configs dotlist = Ok m0 -> Forall (fun s => wf (Dict s)) configs ->
  (finalize (run m0 cs) true = Raise SystemExit <->
   exists p, unread (user_config m0) (asked cs) p \/ unread (cli_config m0) (asked cs) p).
Proof.
  intros configs dotlist m0 cs Hm Wc.
  destruct (finalize (run m0 cs) false) as [[ry rc]|e] eqn:F.
  2:{ unfold finalize in F. destruct (find_unused _ _); [destruct (find_unused _ _)|]; discriminate. }
  destruct (C17_report_is_exact _ _ _ _ _ _ Hm Wc F) as [Y C].
  assert (F' : ry = find_unused (visited (run m0 cs)) (user_config (run m0 cs)) /\
               rc = find_unused (visited (run m0 cs)) (cli_config (run m0 cs))).
  { unfold finalize in F. destruct (find_unused _ (user_config _)), (find_unused _ (cli_config _)); inversion F; auto. }
  unfold finalize. destruct F' as [F1 F2]. rewrite <- F1, <- F2.
  split.
  - destruct ry as [|s ry].
    + destruct rc as [|s rc]; [discriminate|]. intros _.
      destruct (proj1 (C s) (or_introl eq_refl)) as (p & _ & U). eauto.
    + intros _. destruct (proj1 (Y s) (or_introl eq_refl)) as (p & _ & U). eauto.
  - intros (p & [U|U]).
    + assert (H : In (dotted p) ry) by (apply Y; eauto). destruct ry; [contradiction|reflexivity].
    + assert (H : In (dotted p) rc) by (apply C; eauto). destruct rc; [contradiction|]. destruct ry; reflexivity.
Qed.

(** Below a dataclass, a key that is not a field makes the read itself fail. *)
Theorem C17_unknown_field_raises : forall (m : manager V) name sch base module d k c,
  get_path (merged m) (str_split "." name) = Some (Dict d) ->
  In (k, c) d -> NoDup (map fst d) -> k <> "module" -> ~ In k (map fst sch) ->
  snd (get_dataclass m name sch base module) = Raise SerdeError.
Proof.
  intros m name sch base module d k c G Hin ND Nm Ns.
  unfold get_dataclass, extract_relevant. simpl. rewrite G.
  assert (NDd : NoDup (map fst (drop_module d))).
  { unfold drop_module. clear -ND. induction d as [|[a b] d IH]; simpl in *; auto. inversion ND; subst.
    destruct (negb (a =? "module")); simpl; auto. constructor; auto.
    intros H. apply H1. apply in_map_iff in H as ([x y] & E & H). apply filter_In in H as [H _].
    apply in_map_iff. exists (x, y). auto. }
  assert (K : In k (map fst (deep_merge base (drop_module d)))).
  { rewrite keys_merge by auto. apply in_app_iff.
    destruct (in_dec string_dec k (map fst base)) as [|N]; [left; auto|right].
    unfold new_keys. apply filter_In. split.
    - apply in_map_iff. exists (k, c). split; auto. unfold drop_module. apply filter_In. split; auto.
      simpl. rewrite (proj2 (String.eqb_neq k "module")); auto.
    - destruct (existsb (String.eqb k) (map fst base)) eqn:E; auto. apply existsb_In in E. contradiction. }
  unfold serde_from_dict.
  destruct (forallb _ _) eqn:E; [|reflexivity].
  rewrite forallb_forall in E. apply in_map_iff in K as ([k' c'] & E' & K). simpl in E'. subst k'.
  specialize (E _ K). simpl in E. apply existsb_In in E. contradiction.
Qed.

(** ** C56: the resolved configuration records what was used *)
Theorem C56_resolved_records_value : forall (m : manager V) p default r,
  is_path p -> snd (get_primitive coerce m (dotted p) default) = Ok r ->
  at_path (Dict (resolved (fst (get_primitive coerce m (dotted p) default)))) p = Some (Leaf r).
Proof.
  intros m p default r Hp. unfold get_primitive, extract_relevant. simpl.
  rewrite split_dotted by auto.
  destruct (match get_path (merged m) p with Some _ => _ | None => _ end) as [x|]; [|discriminate].
  unfold record_resolved. rewrite split_dotted by auto. simpl.
  destruct (set_path (resolved m) p (Leaf x)) as [d|] eqn:S; [|discriminate]. simpl.
  intros E. inversion E; subst. eapply set_path_at; eauto.
Qed.

(** and later reads of unrelated paths do not disturb it. *)
Theorem C56_resolved_value_persists : forall (m : manager V) cs p c,
  p <> [] -> at_path (Dict (resolved m)) p = Some c ->
  (forall n, In n (asked cs) -> exists q, is_path q /\ n = dotted q /\ unrelated q p) ->
  at_path (Dict (resolved (run m cs))) p = Some c.
Proof.
  intros m cs p c NE. revert m. induction cs as [|x cs IH]; intros m A U; [exact A|].
  unfold run. simpl. apply IH; [|intros; apply U; unfold asked in *; simpl; apply in_app_iff; auto].
  clear IH.
  assert (R : forall (T : Type) (m : manager V) n s (t : T), (exists q, is_path q /\ n = dotted q /\ unrelated q p) ->
     at_path (Dict (resolved m)) p = Some c ->
     at_path (Dict (resolved (fst (record_resolved m n s t)))) p = Some c).
  { intros T m1 n s t (q & Hq & -> & Uq) A1. unfold record_resolved. rewrite split_dotted by auto.
    destruct (set_path (resolved m1) q s) as [d|] eqn:S; simpl; auto.
    rewrite says_at, (set_path_unrelated _ _ _ _ _ S Uq), <- says_at. auto. }
  destruct x as [pr|n d|n d|n s b md]; simpl; auto.
  - unfold get_primitive, extract_relevant. destruct (match get_path _ _ with Some _ => _ | None => _ end); simpl; auto.
    apply R; auto. apply U. left; auto.
  - unfold get_container, extract_relevant. apply R; auto. apply U. left; auto.
  - unfold get_dataclass, extract_relevant. destruct (serde_from_dict _ _); simpl; auto.
    apply R; auto. apply U. left; auto.
Qed.

(** A read fails although its value is fine only if the resolved configuration has
    a non-mapping on the way (a proper prefix was read as a plain value). *)
Theorem C56_read_fails_only_on_conflict : forall (m : manager V) p default e,
  is_path p -> snd (get_primitive coerce m (dotted p) default) = Raise e ->
  (exists v, get_path (merged m) p = Some v /\ exists e', coerce default v = Raise e') \/
  (exists q w, q <> [] /\ prefix_of q p /\ q <> p /\ at_path (Dict (resolved m)) q = Some (Leaf w)).
Proof.
  intros m p default e Hp. unfold get_primitive, extract_relevant. simpl.
  rewrite split_dotted by auto.
  destruct (get_path (merged m) p) as [v|] eqn:G.
  - destruct (coerce default v) as [x|e'] eqn:C; [|left; eauto].
    unfold record_resolved. rewrite split_dotted by auto. simpl.
    destruct (set_path (resolved m) p (Leaf x)) as [d|] eqn:S; [discriminate|]. intros _. right.
    apply (set_path_fails p (proj1 Hp) (resolved m) (Leaf x)). eauto.
  - unfold record_resolved. rewrite split_dotted by auto. simpl.
    destruct (set_path (resolved m) p (Leaf default)) as [d|] eqn:S; [discriminate|]. intros _. right.
    apply (set_path_fails p (proj1 Hp) (resolved m) (Leaf default)). eauto.
Qed.
(** ** Dataclass sections: each field gets the user's value, else the instance default,
    else the class default, and the section is recorded as handed out. *)
Definition user_field (section : option (cfg V)) (f : string) : option (cfg V) :=
  match section with
  | Some (Dict d) => if String.eqb f "module" then None else dict_get d f
  | _ => None
  end.
Definition field_value (user base dflt : option (cfg V)) : option (cfg V) :=
  match user, base, dflt with
  | Some (Dict u), Some (Dict b), _ => Some (Dict (deep_merge b u))
  | Some u, _, _ => Some u
  | None, Some b, _ => Some b
  | None, None, d => d
  end.

Lemma get_drop_module (d : dict V) f : dict_get (drop_module d) f = if String.eqb f "module" then None else dict_get d f.
Proof.
  unfold drop_module. induction d as [|[k v] d IH]; simpl; [destruct (f =? "module"); auto|].
  destruct (String.eqb_spec k "module"); simpl; rewrite IH.
  - subst. destruct (String.eqb_spec f "module"); auto.
  - destruct (String.eqb_spec f k); auto. subst. destruct (String.eqb_spec k "module"); auto; contradiction.
Qed.
Lemma drop_module_NoDup (d : dict V) : NoDup (map fst d) -> NoDup (map fst (drop_module d)).
Proof.
  intros ND. unfold drop_module. induction d as [|[a b] d IH]; simpl in *; auto. inversion ND; subst.
  destruct (negb (a =? "module")); simpl; auto. constructor; auto.
  intros H. apply H1. apply in_map_iff in H as ([x y] & E & H). apply filter_In in H as [H _].
  apply in_map_iff. exists (x, y). auto.
Qed.
Lemma fill_get sch : NoDup (map fst sch) -> forall (data r : dict V), fill_fields sch data = Ok r ->
  map fst r = map fst sch /\
  forall f dflt, In (f, dflt) sch -> dict_get r f = match dict_get data f with Some v => Some v | None => dflt end.
Proof.
  induction sch as [|[g dg] sch IH]; intros ND data r H; simpl in H.
  - inversion H; subst. split; auto. intros f dflt [].
  - inversion ND as [|? ? NI ND']; subst.
    assert (K : exists v r', match dict_get data g with Some v => Some v | None => dg end = Some v /\
                fill_fields sch data = Ok r' /\ r = (g, v) :: r').
    { destruct (dict_get data g) as [v|]; [|destruct dg as [v|]; [|discriminate]];
        (destruct (fill_fields sch data) as [r'|] eqn:E; simpl in H; [|discriminate]); inversion H; subst; eauto 6. }
    destruct K as (v & r' & K1 & K2 & ->). destruct (IH ND' _ _ K2) as [I1 I2]. split; [simpl; congruence|].
    intros f dflt [E|Hin].
    + inversion E; subst. simpl. rewrite String.eqb_refl. auto.
    + simpl. destruct (String.eqb_spec f g); [|eauto]. subst. exfalso. apply NI.
      apply in_map_iff. exists (g, dflt). auto.
Qed.

Theorem C15_dataclass_field : forall (m : manager V) p sch base module r f dflt,
  is_path p -> wf (Dict (merged m)) -> NoDup (map fst sch) ->
  snd (get_dataclass m (dotted p) sch base module) = Ok r -> In (f, dflt) sch ->
  dict_get r f = field_value (user_field (at_path (Dict (merged m)) p) f) (dict_get base f) dflt.
Proof.
  intros m p sch base module r f dflt Hp W ND H Hin.
  assert (NE : p <> []) by (destruct Hp; auto).
  unfold get_dataclass, extract_relevant in H. simpl in H. rewrite split_dotted, get_path_at in H by auto.
  assert (WD : forall d, at_path (Dict (merged m)) p = Some (Dict d) -> NoDup (map fst d)).
  { intros d. clear - W. revert W. generalize (Dict (merged m)) as c. induction p as [|k p IH]; intros c W E; simpl in E.
    - inversion E; subst. apply wf_dict_inv in W; apply W.
    - destruct c as [v|d0]; [discriminate|]. destruct (dict_get d0 k) as [c|] eqn:G; [|discriminate].
      apply (IH c); auto. eapply wf_get; eauto. }
  set (data := match at_path (Dict (merged m)) p with Some (Dict d) => drop_module d | _ => [] end) in *.
  assert (NDd : NoDup (map fst data)).
  { subst data. destruct (at_path (Dict (merged m)) p) as [[v|d]|] eqn:E; simpl; try constructor.
    apply drop_module_NoDup. auto. }
  assert (U : dict_get data f = user_field (at_path (Dict (merged m)) p) f).
  { subst data. unfold user_field. destruct (at_path (Dict (merged m)) p) as [[v|d]|]; auto. apply get_drop_module. }
  destruct (serde_from_dict sch (deep_merge base data)) as [r0|] eqn:S; [|discriminate].
  assert (r0 = r).
  { unfold record_resolved in H. destruct (set_path _ _ _) in H; simpl in H; congruence. }
  subst r0. unfold serde_from_dict in S. destruct (forallb _ _) in S; [|discriminate].
  rewrite (proj2 (fill_get sch ND _ _ S) f dflt Hin).
  rewrite get_merge by auto. rewrite <- U.
  destruct (dict_get data f) as [[u|u]|]; destruct (dict_get base f) as [[b|b]|]; auto; cbn [field_value];
    rewrite ?merge_value_none, ?merge_value_leaf, ?merge_value_dict; auto.
Qed.

Theorem C56_resolved_records_section : forall (m : manager V) p sch base module r,
  is_path p -> snd (get_dataclass m (dotted p) sch base module) = Ok r ->
  at_path (Dict (resolved (fst (get_dataclass m (dotted p) sch base module)))) p =
  Some (Dict (match module with None => r | Some md => ("module", Leaf md) :: r end)).
Proof.
  intros m p sch base module r Hp. unfold get_dataclass, extract_relevant. simpl. rewrite split_dotted by auto.
  destruct (serde_from_dict _ _) as [x|]; [|discriminate].
  unfold record_resolved. rewrite split_dotted by auto. simpl.
  destruct (set_path (resolved m) p _) as [d|] eqn:S; [|discriminate]. simpl.
  intros E. inversion E; subst. eapply set_path_at; eauto.
Qed.

End Manager.

(** ** Limits *)
Definition id_coerce (d : nat) (c : cfg nat) : res nat := match c with Leaf v => Ok v | Dict _ => Raise TypeError end.
Definition toy_load (s : string) : res (cfg nat) := Ok (Leaf (String.length s)).

(** Without the no-masking hypothesis precedence fails: the last (only) YAML file
    that sets a.b sets it to 3, but another file sets a to 5, and the default is used. *)
Theorem C15_masked_refuted :
  ~ (forall configs p v m0 default r,
       make toy_load configs [] = Ok m0 -> Forall (fun s => wf (Dict s)) configs -> is_path p ->
       (exists before c after, configs = (before ++ c :: after)%list /\
          at_path (Dict c) p = Some (Leaf v) /\
          Forall (fun s => at_path (Dict s) p = None) after) ->
       snd (get_primitive id_coerce m0 (dotted p) default) = Ok r ->
       r = v).
Proof.
  intros H.
  specialize (H [[("a", Dict [("b", Leaf 3)])]; [("a", Leaf 5)]] ["a"; "b"] 3 _ 0 0 eq_refl).
  assert (E : forall (k : string) (c : cfg nat), wf c -> wf (Dict [(k, c)])).
  { intros k c W. constructor; [repeat constructor; auto|]. intros k' c' [Hc|[]]. congruence. }
  assert (L : forall v : nat, wf (Leaf v)) by constructor.
  assert (0 = 3); [|discriminate]. apply H.
  - repeat constructor; simpl; auto; try (intros [E0|[]]; discriminate);
      intros k c [Hc|[]]; inversion Hc; subst; auto.
  - split; [discriminate|repeat constructor].
  - exists [], [("a", Dict [("b", Leaf 3)])], [[("a", Leaf 5)]]. repeat split. repeat constructor.
  - reflexivity.
Qed.

(** A misspelt key is not always reported: an empty mapping under a misspelt key,
    a literal dotted key, and a plain value given where a dataclass is expected
    (the value is then silently ignored). *)
Theorem C17_empty_mapping_not_reported_refuted :
  ~ (forall (d : dict nat) k c, In (k, c) d -> finalize {| user_config := d; cli_config := []; presets := [];
        merged := d; resolved := []; visited := [] |} true = Raise SystemExit).
Proof. intros H. specialize (H [("trian", Dict [])] "trian" _ (or_introl eq_refl)). discriminate H. Qed.

Theorem C17_dotted_key_not_reported_refuted :
  ~ (forall (c : dict nat) m0 r, make toy_load [c] [] = Ok m0 ->
       (* the user's value under the only key was not the one used *)
       snd (get_primitive id_coerce m0 "a.b" 1) = Ok r -> ~ (exists k, c = [(k, Leaf r)]) ->
       c <> [] ->
       finalize (fst (get_primitive id_coerce m0 "a.b" 1)) true = Raise SystemExit).
Proof.
  intros H. specialize (H [("a.b", Leaf 7)] _ 1 eq_refl eq_refl).
  assert (E : finalize (fst (get_primitive id_coerce
     {| user_config := [("a.b", Leaf 7)]; cli_config := []; presets := []; merged := [("a.b", Leaf 7)];
        resolved := []; visited := [] |} "a.b" 1)) true = Raise SystemExit).
  { apply H; [intros [k E]; discriminate|discriminate]. }
  discriminate E.
Qed.

Theorem C17_value_for_dataclass_ignored_refuted :
  ~ (forall (v : nat) m0 sch r, make toy_load [[("train", Leaf v)]] [] = Ok m0 ->
       snd (get_dataclass m0 "train" sch [] None) = Ok r ->
       finalize (fst (get_dataclass m0 "train" sch [] None)) true = Raise SystemExit).
Proof. intros H. specialize (H 5 _ [("iterations", Some (Leaf 10))] _ eq_refl eq_refl). discriminate H. Qed.

(** A non-trivial run: two files, an override, a preset, reads and finalize. *)
Example C15_C17_example :
  exists m0, make toy_load [[("a", Dict [("x", Leaf 1); ("y", Leaf 2)])]; [("a", Dict [("y", Leaf 7)]); ("typo", Leaf 9)]]
                  ["a.z=abc"] = Ok m0 /\
  let cs := [UsePreset [("a", Dict [("x", Leaf 100); ("w", Leaf 50)])]] in
  let m := run nat id_coerce m0 cs in
  snd (get_primitive id_coerce m "a.x" 0) = Ok 1 /\ snd (get_primitive id_coerce m "a.y" 0) = Ok 7 /\
  snd (get_primitive id_coerce m "a.z" 0) = Ok 3 /\ snd (get_primitive id_coerce m "a.w" 0) = Ok 50 /\
  snd (get_primitive id_coerce m "a.v" 4) = Ok 4 /\
  finalize (run nat id_coerce m (map (fun n => GetPrimitive n 0) ["a.x"; "a.y"; "a.z"; "a.w"])) false = Ok (["typo"], []).
Proof. eexists. split; [reflexivity|]. repeat split. Qed.

Print Assumptions C15_precedence.
Print Assumptions C15_command_line_wins.
Print Assumptions C16_merge_pathwise.
Print Assumptions C16_associative_without_conflict.
Print Assumptions C17_report_is_exact.
Print Assumptions C17_stops_iff_unread.
Print Assumptions C18_override_is_set.
Print Assumptions C56_resolved_value_persists.
Print Assumptions C15_dataclass_field.

(** Field precedence in a section with a nested default. *)
Example C15_dataclass_example :
  snd (get_dataclass {| user_config := []; cli_config := []; presets := [];
     merged := [("train", Dict [("module", Leaf 0); ("lr", Leaf 3); ("opt", Dict [("b", Leaf 5)])])]; resolved := []; visited := [] |}
     "train" [("lr", Some (Leaf 1)); ("opt", None); ("n", Some (Leaf 8)); ("k", Some (Leaf 9))]
     [("lr", Leaf 2); ("opt", Dict [("a", Leaf 4); ("b", Leaf 6)]); ("k", Leaf 7)] None)
  = Ok [("lr", Leaf 3); ("opt", Dict [("a", Leaf 4); ("b", Leaf 5)]); ("n", Leaf 8); ("k", Leaf 7)].
Proof. reflexivity. Qed.
