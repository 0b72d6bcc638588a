(** C86: module resolution, polymorphic configuration fields, optax wrappers. *)
From Coq Require Import String Ascii List Bool Arith ZArith Lia.
From Verif Require Import Common Common_Proofs Config_Model Config_Spec Config_Proofs Mod_Model.
Import ListNotations.
Open Scope string_scope.

(** ** Resolution *)
Definition plain (s : string) : Prop := str_has ":" s = false.
Lemma split_one m : plain m -> str_split ":" m = [m]. Proof. apply split_nohas. Qed.
Lemma split_two m o : plain m -> plain o -> str_split ":" (m ++ ":" ++ o) = [m; o].
Proof. intros M O. change (m ++ ":" ++ o) with (m ++ String ":" o). rewrite split_app by exact M. rewrite split_one by exact O. reflexivity. Qed.
(** the attribute [o] of a module; None counts as unresolved *)
Definition attribute (md : module) (o : string) : res obj :=
  match m_attr md o with None => Err AttributeError | Some NoneObj => Err ValueError | Some x => Ok x end.
(** C86: "module:name" is the attribute of that name; "module" (or "module:") is the first name of __all__, and an
    error without __all__; more than one colon is refused before anything is imported. *)
Theorem C86_notation : forall e m o package, plain m -> plain o ->
  (o <> "" -> resolve_object e (m ++ ":" ++ o) package = match import_module_or_file e m package with Ok md => attribute md o | Err x => Err x end) /\
  (forall name, name = m \/ name = m ++ ":" -> resolve_object e name package =
     match import_module_or_file e m package with
     | Ok md => match m_all md with [] => Err ValueError | first :: _ => attribute md first end
     | Err x => Err x end) /\
  (forall rest, resolve_object e (m ++ ":" ++ o ++ ":" ++ rest) package = Err ValueError).
Proof.
  intros e m o package M O. unfold resolve_object, attribute. refine (conj _ (conj _ _)).
  - intros N. rewrite split_two by assumption. destruct (import_module_or_file e m package); [|reflexivity].
    destruct (String.eqb_spec o ""); [contradiction|]. reflexivity.
  - intros name D. replace (match str_split ":" name with [m0] => Some (m0, "") | [m0; o0] => Some (m0, o0) | _ => None end) with (Some (m, "")).
    + destruct (import_module_or_file e m package) as [md|]; [|reflexivity]. cbn [String.eqb]. destruct (m_all md); reflexivity.
    + destruct D as [->| ->]; [rewrite split_one by exact M; reflexivity|]. change (m ++ ":") with (m ++ ":" ++ ""). rewrite (split_two m "" M eq_refl). reflexivity.
  - intros rest. change (m ++ ":" ++ o ++ ":" ++ rest) with (m ++ String ":" (o ++ String ":" rest)). rewrite !split_app by assumption.
    destruct (str_split ":" rest) eqn:E; [|reflexivity]. exfalso. clear -E. destruct rest as [|a rest]; cbn in E; [discriminate|]. destruct (Ascii.eqb a ":"); [discriminate|]. destruct (str_split ":" rest); discriminate.
Qed.
(** C86: with a base package the relative module wins whenever it exists, even if broken; the absolute name is used
    exactly when importing the relative one ends in ModuleNotFoundError; files are never looked up as modules. *)
Theorem C86_relative_first : forall e m p,
  (suffix ".py" m = false ->
    (forall md, absolute e (p ++ "." ++ m) = Module md -> import_module_or_file e m (Some p) = Ok md) /\
    (absolute e (p ++ "." ++ m) = Broken -> import_module_or_file e m (Some p) = Err OtherError) /\
    (absolute e (p ++ "." ++ m) = NotFound -> import_module_or_file e m (Some p) = import_module_or_file e m None)) /\
  (suffix ".py" m = true -> forall package, import_module_or_file e m package = of_import (file e m)).
Proof.
  intros e m p. unfold import_module_or_file. split.
  - intros ->. refine (conj _ (conj _ _)); [intros md E|intros E|intros E]; rewrite E; reflexivity.
  - intros ->. reflexivity.
Qed.

(** ** Fields *)
Lemma from_dict_ok c d i : from_dict c d = Ok i -> i_class i = c /\ fill (c_fields c) d = Ok (i_values i) /\ (forall k, In k (map fst d) -> In k (map fst (c_fields c))).
Proof.
  unfold from_dict. destruct (forallb _ d) eqn:F; [|discriminate]. destruct (fill (c_fields c) d) eqn:E; [|discriminate]. intros [= <-]. cbn. refine (conj eq_refl (conj eq_refl _)).
  intros k K. rewrite forallb_forall in F. apply in_map_iff in K. destruct K as [[k' v] [<- K]]. specialize (F _ K). apply existsb_exists in F. destruct F as [g [G1 G2]]. apply String.eqb_eq in G2. cbn [fst] in *. rewrite G2. apply in_map. exact G1.
Qed.
Lemma fill_get : forall fields d vs k, fill fields d = Ok vs -> NoDup (map fst fields) -> In k (map fst fields) ->
  dict_get vs k = match dict_get d k with Some v => Some v | None => match dict_get fields k with Some o => o | None => None end end.
Proof.
  induction fields as [|[f dflt] rest IH]; intros d vs k E ND I; [contradiction|]. cbn [fill] in E.
  destruct (match dict_get d f with Some v => Some v | None => dflt end) as [v|] eqn:V; [|discriminate].
  destruct (fill rest d) as [ws|] eqn:FR; [|discriminate]. injection E as <-. inversion ND as [|? ? NI ND']; subst. cbn [dict_get].
  destruct (String.eqb_spec k f) as [->|N]; [rewrite <- V; destruct (dict_get d f); reflexivity|].
  apply (IH d ws k FR ND'). destruct I as [I|I]; [cbn in I; congruence|exact I].
Qed.
Lemma fill_keys : forall fields d vs, fill fields d = Ok vs -> map fst vs = map fst fields.
Proof.
  induction fields as [|[f dflt] rest IH]; intros d vs E; cbn [fill] in E; [injection E as <-; reflexivity|].
  destruct (match dict_get d f with Some v => Some v | None => dflt end); [|discriminate]. destruct (fill rest d) eqn:FR; [|discriminate].
  injection E as <-. cbn. f_equal. apply (IH d _ FR).
Qed.
Lemma get_remove k d k' : k' <> k -> dict_get (remove_key k d) k' = dict_get d k'.
Proof.
  intros N. unfold remove_key. induction d as [|[a v] d IH]; [reflexivity|]. cbn [filter fst]. destruct (String.eqb_spec a k) as [->|A]; cbn [negb dict_get].
  - destruct (String.eqb_spec k' k); [contradiction|exact IH].
  - destruct (String.eqb k' a); [reflexivity|exact IH].
Qed.
Lemma remove_nodup k d : NoDup (map fst d) -> NoDup (map fst (remove_key k d)).
Proof.
  induction d as [|[a v] d IH]; intros ND; [constructor|]. inversion ND as [|? ? NI ND']; subst. cbn. destruct (negb (String.eqb a k)); [|exact (IH ND')].
  cbn. constructor; [|exact (IH ND')]. intros I. apply NI. apply in_map_iff in I. destruct I as [kv [E I]]. apply filter_In in I. cbn [fst]. rewrite <- E. apply in_map. apply I.
Qed.
(** The class a mapping asks for. *)
Definition requested (f : field_spec) (d : list (string * data)) : option string :=
  match dict_get d "module" with
  | Some (Leaf (Str s)) => Some s
  | Some _ => None
  | None => option_map class_path (default_class f)
  end.
(** C86: a mapping builds an instance of the class it names, or of the default class; each field comes from the
    mapping, else from the declared keyword defaults, else from the class; unknown keys are never ignored. *)
Theorem C86_mapping : forall e f d v, NoDup (map fst d) -> deserializer e f (Dict d) = Ok v ->
  exists i name, v = Inst i /\ requested f d = Some name /\ resolve_object e name (base_of f) = Ok (Class (i_class i)) /\
  (NoDup (map fst (c_fields (i_class i))) -> forall k, In k (map fst (c_fields (i_class i))) -> k <> "module" ->
    dict_get (i_values i) k = match dict_get d k, dict_get (kwargs f) k with
                              | Some x, b => Some (merge_value x b)
                              | None, Some y => Some y
                              | None, None => match dict_get (c_fields (i_class i)) k with Some o => o | None => None end
                              end) /\
  (forall k, k <> "module" -> In k (map fst d) -> In k (map fst (c_fields (i_class i)))) /\
  (forall k, In k (map fst (kwargs f)) -> In k (map fst (c_fields (i_class i)))).
Proof.
  intros e f d v ND H. cbn [deserializer] in H.
  destruct (match dict_get d "module" with Some (Leaf (Str s)) => Ok s | Some (Leaf NoneV) => Err ValueError | Some _ => Err AttributeError
            | None => match default_class f with Some c => Ok (class_path c) | None => Err ValueError end end) as [name|] eqn:Q.
  2: { discriminate. }
  destruct (resolve_object e name (base_of f)) as [[c| |]|] eqn:RO; try discriminate.
  destruct (from_dict c (deep_merge (kwargs f) (remove_key "module" d))) as [i|] eqn:FD; [|discriminate]. injection H as <-.
  apply from_dict_ok in FD. destruct FD as (IC & FL & KN). subst c.
  pose proof (remove_nodup "module" d ND) as NDR.
  exists i, name. refine (conj eq_refl (conj _ (conj RO (conj _ (conj _ _))))).
  - unfold requested. destruct (dict_get d "module") as [[[]|]|]; try discriminate; [injection Q as <-; reflexivity|]. destruct (default_class f); [|discriminate]. injection Q as <-. reflexivity.
  - intros NF k K NM. rewrite (fill_get _ _ _ _ FL NF K), get_merge by exact NDR. rewrite get_remove by exact NM. destruct (dict_get d k), (dict_get (kwargs f) k); reflexivity.
  - intros k NM K. apply KN. destruct (dict_get (deep_merge (kwargs f) (remove_key "module" d)) k) eqn:G; [apply dict_get_In in G; change k with (fst (k, c)); apply in_map; exact G|].
    exfalso. rewrite get_merge, get_remove in G by assumption. destruct (dict_get d k) eqn:GD; [discriminate|]. apply dict_get_None in GD. contradiction.
  - intros k K. apply KN. destruct (dict_get (deep_merge (kwargs f) (remove_key "module" d)) k) eqn:G; [apply dict_get_In in G; change k with (fst (k, c)); apply in_map; exact G|].
    exfalso. rewrite get_merge in G by assumption. destruct (dict_get (remove_key "module" d) k); [discriminate|]. apply dict_get_None in G. contradiction.
Qed.
(** C86: a value that is not a mapping never selects a class. *)
Theorem C86_direct : forall e f a, deserializer e f (Leaf a) = match direct f (Leaf a) with Ok v => Ok (Direct v) | Err x => Err x end.
Proof. reflexivity. Qed.

(** A class that can be imported by the name that will be written for it, and is not hidden by a relative module. *)
Definition importable (e : env) (base : option string) (c : class) : Prop :=
  plain (c_module c) /\ plain (c_name c) /\ c_name c <> "" /\ suffix ".py" (c_module c) = false /\
  (exists md, absolute e (c_module c) = Module md /\ m_attr md (c_name c) = Some (Class c)) /\
  forall p, base = Some p -> absolute e (p ++ "." ++ c_module c) = NotFound.
Lemma resolve_importable e base c : importable e base c -> resolve_object e (class_path c) base = Ok (Class c).
Proof.
  intros (M & N & NE & PY & (md & A & B) & SH). unfold class_path. destruct (C86_notation e (c_module c) (c_name c) base M N) as [H _]. rewrite (H NE).
  unfold import_module_or_file. rewrite PY. destruct base as [p|].
  - rewrite (SH p eq_refl), A. cbn. unfold attribute. rewrite B. reflexivity.
  - rewrite A. cbn. unfold attribute. rewrite B. reflexivity.
Qed.
(** C86: leaving the field out and giving an empty mapping mean the same. *)
Theorem C86_absent_is_empty : forall e f c x, default_class f = Some c -> importable e (base_of f) c -> deserializer e f (Dict []) = default_value f x.
Proof.
  intros e f c x D I. unfold deserializer, default_value. cbn [dict_get]. rewrite D. rewrite (resolve_importable e (base_of f) c I). cbn [remove_key filter deep_merge]. destruct (from_dict c (kwargs f)); reflexivity.
Qed.
Lemma update_fresh (b : list (string * data)) : forall a, NoDup (map fst a ++ map fst b)%list -> dict_update a b = (a ++ b)%list.
Proof.
  induction b as [|[k v] b IH]; intros a ND; [symmetry; apply app_nil_r|]. unfold dict_update. cbn [fold_left fst snd].
  assert (NI : ~ In k (map fst a)). { intros I. apply NoDup_remove_2 in ND. apply ND. apply in_or_app. left. exact I. }
  rewrite dict_set_fresh by exact NI. fold (dict_update (a ++ [(k, v)])%list b). rewrite IH; [rewrite <- app_assoc; reflexivity|].
  rewrite map_app, <- app_assoc. exact ND.
Qed.
Lemma fill_exact : forall fields vs d, map fst fields = map fst vs -> (forall k v, In (k, v) vs -> dict_get d k = Some v) -> fill fields d = Ok vs.
Proof.
  induction fields as [|[f dflt] rest IH]; intros [|[k v] vs] d E H; try discriminate; [reflexivity|]. injection E as Ef Er. subst f. cbn [fill].
  rewrite (H k v) by (left; reflexivity). rewrite (IH vs d Er); [reflexivity|]. intros k' v' I. apply H. right. exact I.
Qed.
(** C86: an instance that is written out and read back is the same instance, for every class that is importable by
    its own name, as long as keyword defaults and fields are not both mappings. *)
Theorem C86_round_trip : forall e f i, importable e (base_of f) (i_class i) ->
  NoDup (map fst (i_values i)) -> map fst (c_fields (i_class i)) = map fst (i_values i) -> ~ In "module" (map fst (i_values i)) ->
  (forall k b, dict_get (kwargs f) k = Some b -> exists x, dict_get (i_values i) k = Some x /\ ((exists a, x = Leaf a) \/ exists a, b = Leaf a)) ->
  deserializer e f (serializer (Inst i)) = Ok (Inst i).
Proof.
  intros e f i IMP ND KEYS NM KW. unfold serializer. rewrite update_fresh by (cbn; constructor; assumption). cbn [app]. unfold deserializer.
  change (dict_get (("module", Leaf (Str (class_path (i_class i)))) :: i_values i) "module") with (Some (Leaf (Str (class_path (i_class i))))). cbv iota. rewrite (resolve_importable _ _ _ IMP).
  assert (RM : remove_key "module" (("module", Leaf (Str (class_path (i_class i)))) :: i_values i) = i_values i).
  { unfold remove_key. cbn [filter fst]. change (String.eqb "module" "module") with true. cbn [negb]. clear -NM. induction (i_values i) as [|[k v] l IH]; [reflexivity|]. cbn [filter fst].
    destruct (String.eqb_spec k "module") as [->|N]; [exfalso; apply NM; left; reflexivity|]. cbn [negb]. f_equal. apply IH. intros I. apply NM. right. exact I. }
  rewrite RM. unfold from_dict.
  assert (GET : forall k v, In (k, v) (i_values i) -> dict_get (deep_merge (kwargs f) (i_values i)) k = Some v).
  { intros k v I. rewrite get_merge by exact ND. rewrite (In_dict_get _ _ _ ND I). f_equal. destruct (dict_get (kwargs f) k) as [b|] eqn:B; [|apply merge_value_none].
    destruct (KW k b B) as [x [X D]]. rewrite (In_dict_get _ _ _ ND I) in X. injection X as <-. destruct D as [[a ->]|[a ->]]; [reflexivity|apply merge_value_leaf]. }
  replace (forallb _ _) with true.
  - rewrite (fill_exact (c_fields (i_class i)) (i_values i) _ KEYS GET). destruct i; reflexivity.
  - symmetry. apply forallb_forall. intros [k v] I. cbn [fst]. apply existsb_exists.
    assert (K : In k (map fst (c_fields (i_class i)))).
    { rewrite KEYS. destruct (dict_get (i_values i) k) eqn:G; [apply dict_get_In in G; change k with (fst (k, c)); apply in_map; exact G|].
      exfalso. assert (IK : In k (map fst (deep_merge (kwargs f) (i_values i)))) by (change k with (fst (k, v)); apply in_map; exact I).
      destruct (dict_get (deep_merge (kwargs f) (i_values i)) k) eqn:G2; [|apply dict_get_None in G2; contradiction].
      rewrite get_merge, G in G2 by exact ND. destruct (KW k c G2) as [x [X _]]. congruence. }
    apply in_map_iff in K. destruct K as [g [E K]]. exists g. split; [exact K|]. rewrite E. apply String.eqb_refl.
Qed.
(** C86, refuted part: keyword defaults are also merged under a class chosen by the user, which is then refused if
    it has no such field. *)
Definition sample_env : env := {| absolute := fun s => if String.eqb s "pkg" then Module {| m_all := ["A"]; m_attr := fun n => if String.eqb n "A" then Some (Class {| c_module := "pkg"; c_name := "A"; c_fields := [("x", Some (Leaf (Num 1)))] |}) else if String.eqb n "B" then Some (Class {| c_module := "pkg"; c_name := "B"; c_fields := [] |}) else None |} else NotFound; file := fun _ => NotFound |}.
Definition class_A : class := {| c_module := "pkg"; c_name := "A"; c_fields := [("x", Some (Leaf (Num 1)))] |}.
Theorem C86_switch_refuted : exists e f d, deserializer e f (Dict []) = Ok (Inst {| i_class := class_A; i_values := [("x", Leaf (Num 5))] |}) /\
  d = [("module", Leaf (Str "pkg:B"))] /\ deserializer e f (Dict d) = Err UnknownField.
Proof.
  exists sample_env, {| default_class := Some class_A; direct := fun x => Ok x; import_base := None; kwargs := [("x", Leaf (Num 5))] |}, [("module", Leaf (Str "pkg:B"))].
  refine (conj _ (conj eq_refl _)); reflexivity.
Qed.
(** C86, refuted part: a class from a python file is recorded under a module name made up for this process; another
    process can read the original setting but not the recorded one. *)
Definition class_F : class := {| c_module := "jaqmc_0123"; c_name := "F"; c_fields := [] |}.
Definition file_module : module := {| m_all := []; m_attr := fun n => if String.eqb n "F" then Some (Class class_F) else None |}.
Theorem C86_file_class_refuted : exists f here there,
  deserializer here f (Dict [("module", Leaf (Str "my.py:F"))]) = Ok (Inst {| i_class := class_F; i_values := [] |}) /\
  deserializer here f (serializer (Inst {| i_class := class_F; i_values := [] |})) = Ok (Inst {| i_class := class_F; i_values := [] |}) /\
  deserializer there f (serializer (Inst {| i_class := class_F; i_values := [] |})) = Err ModuleNotFoundError.
Proof.
  exists {| default_class := None; direct := fun x => Ok x; import_base := None; kwargs := [] |},
    {| absolute := fun s => if String.eqb s "jaqmc_0123" then Module file_module else NotFound; file := fun _ => Module file_module |},
    {| absolute := fun _ => NotFound; file := fun _ => Module file_module |}.
  refine (conj _ (conj _ _)); reflexivity.
Qed.
(** The base package inferred from the default class: everything before the last dot of its path. *)
Example C86_base_example : base_of {| default_class := Some {| c_module := "jaqmc.optimizer.schedule"; c_name := "Standard"; c_fields := [] |}; direct := fun x => Ok x; import_base := None; kwargs := [] |} = Some "jaqmc.optimizer".
Proof. reflexivity. Qed.
Example C86_round_trip_example : importable sample_env None class_A /\
  deserializer sample_env {| default_class := Some class_A; direct := fun x => Ok x; import_base := None; kwargs := [] |} (serializer (Inst {| i_class := class_A; i_values := [("x", Leaf (Num 7))] |})) = Ok (Inst {| i_class := class_A; i_values := [("x", Leaf (Num 7))] |}).
Proof. split; [|reflexivity]. unfold importable. refine (conj eq_refl (conj eq_refl (conj _ (conj eq_refl (conj _ _))))); [discriminate|eexists; split; reflexivity|discriminate]. Qed.

(** ** Optax wrappers *)
Definition required (p : param) : Prop := p_kind p = Normal /\ p_default p = Empty.
Lemma fields_list_spec ps : match fields_list ps with
  | Ok fs => (forall p, In p ps -> required p -> In (p_name p) (map f_name fs)) /\
             (forall f, In f fs -> exists p, In p ps /\ p_kind p = Normal /\ p_annotation p <> OtherAnnotation /\ f_name f = p_name p) /\
             (forall p, In p ps -> p_kind p = Normal -> p_annotation p <> OtherAnnotation -> In (p_name p) (map f_name fs)) /\
             (forall p, In p ps -> ~ (required p /\ p_annotation p = OtherAnnotation))
  | Err x => x = ValueError /\ exists p, In p ps /\ required p /\ p_annotation p = OtherAnnotation
  end.
Proof.
  induction ps as [|p ps IH]; cbn [fields_list].
  - refine (conj _ (conj _ (conj _ _))); cbn; tauto.
  - destruct (param_field p) as [o|x] eqn:PF.
    + destruct (fields_list ps) as [fs|x].
      * destruct IH as (A & B & D & E).
        assert (OP : (o = None /\ (p_kind p <> Normal \/ (p_annotation p = OtherAnnotation /\ p_default p <> Empty))) \/
                     (exists f, o = Some f /\ f_name f = p_name p /\ p_kind p = Normal /\ p_annotation p <> OtherAnnotation)).
        { unfold param_field, variadic in PF. destruct (p_kind p); [|left; injection PF as <-; split; [reflexivity|left; discriminate]|left; injection PF as <-; split; [reflexivity|left; discriminate]].
          destruct (p_annotation p), (p_default p); try discriminate; injection PF as <-;
            try (right; eexists; refine (conj eq_refl (conj eq_refl (conj eq_refl _))); discriminate);
            left; (split; [reflexivity|right; split; [reflexivity|discriminate]]). }
        assert (NP : ~ (required p /\ p_annotation p = OtherAnnotation)).
        { intros [[K1 K2] K3]. destruct OP as [[_ [N|[_ N]]]|(f & _ & _ & _ & N)]; contradiction. }
        destruct OP as [[-> N]|(f & -> & FN & K & AN)].
        -- refine (conj _ (conj _ (conj _ _))).
           ++ intros q [<-|Q] RQ; [|apply A; assumption]. destruct RQ as [R1 R2]. destruct N as [N|[_ N]]; contradiction.
           ++ intros g G. destruct (B g G) as [q [Q1 Q2]]. exists q. split; [right; exact Q1|exact Q2].
           ++ intros q [<-|Q] K1 K2; [destruct N as [N|[N _]]; contradiction|]. apply D; assumption.
           ++ intros q [<-|Q]; [exact NP|apply E; exact Q].
        -- cbn [map]. refine (conj _ (conj _ (conj _ _))).
           ++ intros q [<-|Q] RQ; [left; exact FN|right; apply A; assumption].
           ++ intros g [<-|G]; [exists p; refine (conj _ (conj K (conj AN FN))); left; reflexivity|]. destruct (B g G) as [q [Q1 Q2]]. exists q. split; [right; exact Q1|exact Q2].
           ++ intros q [<-|Q] K1 K2; [left; exact FN|right; apply D; assumption].
           ++ intros q [<-|Q]; [exact NP|apply E; exact Q].
      * destruct IH as [-> [q [Q1 Q2]]]. split; [reflexivity|]. exists q. split; [right; exact Q1|exact Q2].
    + unfold param_field, variadic in PF. destruct (p_kind p) eqn:K; try discriminate. destruct (p_annotation p) eqn:AN, (p_default p) eqn:DF; try discriminate. injection PF as <-.
      split; [reflexivity|]. exists p. refine (conj (or_introl eq_refl) (conj _ AN)). split; assumption.
Qed.
(** C86: a wrapped optimizer can always be built from its fields: its factory gets every parameter it requires and
    nothing it does not know, whatever values the fields have; every scheduled or array parameter is configurable. *)
Theorem C86_optax_call : forall ps fs, make_optax_dataclass ps = Ok fs ->
  call_ok ps (map f_name fs) = true /\
  forall p, In p ps -> p_kind p = Normal -> p_annotation p <> OtherAnnotation -> In (p_name p) (map f_name fs).
Proof.
  intros ps fs H. unfold make_optax_dataclass in H. pose proof (fields_list_spec ps) as S. destruct (fields_list ps) as [gs|]; [|discriminate].
  destruct (ordered false gs); [|discriminate]. injection H as <-. destruct S as (A & B & D & _). split; [|exact D]. unfold call_ok. apply andb_true_iff. split.
  - apply forallb_forall. intros p P. unfold variadic. destruct (p_kind p) eqn:K; [|reflexivity|reflexivity]. destruct (p_default p) eqn:DF; try reflexivity. cbn.
    apply existsb_exists. exists (p_name p). split; [apply A; [exact P|split; assumption]|apply String.eqb_refl].
  - apply forallb_forall. intros n N. apply in_map_iff in N. destruct N as [g [<- G]]. destruct (B g G) as [q (Q1 & _ & _ & Q4)]. apply existsb_exists. exists q. split; [exact Q1|]. rewrite Q4. apply String.eqb_refl.
Qed.
(** C86: the documented refusal happens exactly when a required parameter has a type that cannot be configured. *)
Theorem C86_optax_refused : forall ps, make_optax_dataclass ps = Err ValueError <-> exists p, In p ps /\ required p /\ p_annotation p = OtherAnnotation.
Proof.
  intros ps. unfold make_optax_dataclass. pose proof (fields_list_spec ps) as S. destruct (fields_list ps) as [gs|x].
  - destruct S as (_ & _ & _ & E). split.
    + destruct (ordered false gs); discriminate.
    + intros [p [P Q]]. exfalso. exact (E p P Q).
  - destruct S as [-> S]. tauto.
Qed.
(** C86, refuted part: an optimizer with a required array parameter after the learning rate cannot be wrapped; the
    attempt fails with a TypeError. *)
Theorem C86_optax_order_refuted : exists ps, (forall p, In p ps -> p_annotation p <> OtherAnnotation) /\ make_optax_dataclass ps = Err TypeError.
Proof.
  exists [{| p_name := "learning_rate"; p_kind := Normal; p_annotation := ScalarOrSchedule; p_default := Empty |}; {| p_name := "eta"; p_kind := Normal; p_annotation := ArrayLike; p_default := Empty |}].
  split; [|reflexivity]. intros p [<-|[<-|[]]]; discriminate.
Qed.
Theorem C86_optax_update : forall T (tx : T), optax_update (Some tx) = Ok tx /\ optax_update (@None T) = Err AttributeError.
Proof. split; reflexivity. Qed.
Example C86_optax_example : make_optax_dataclass [{| p_name := "learning_rate"; p_kind := Normal; p_annotation := ScalarOrSchedule; p_default := Empty |};
   {| p_name := "b1"; p_kind := Normal; p_annotation := ArrayLike; p_default := Number |}; {| p_name := "mu_dtype"; p_kind := Normal; p_annotation := OtherAnnotation; p_default := OtherDefault |}; {| p_name := "kw"; p_kind := VarKeyword; p_annotation := OtherAnnotation; p_default := Empty |}]
  = Ok [{| f_name := "learning_rate"; f_default := DefaultStandard |}; {| f_name := "b1"; f_default := DefaultNumber |}].
Proof. reflexivity. Qed.
