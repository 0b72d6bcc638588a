(** C51: annotating the resolved YAML only adds comment lines, at the right places. *)
From Coq Require Import String Ascii List Bool Arith Lia.
From Verif Require Import Common Common_Proofs Console_Model Console_Props Backup_Model Yaml_Model.
Import ListNotations.
Open Scope string_scope.

(** *** Specification *)
(** A YAML comment line: blanks, then "#". *)
Definition comment_line (l : string) : Prop := exists w t,
  l = w ++ String "#" t /\ forall c, str_has c w = true -> is_space c = true.

(** [out] is [inp] with comment lines inserted, nothing else. *)
Inductive only_comments_added : list string -> list string -> Prop :=
| oca_nil : only_comments_added [] []
| oca_keep l i o : only_comments_added i o -> only_comments_added (l :: i) (l :: o)
| oca_add l i o : comment_line l -> only_comments_added i o -> only_comments_added i (l :: o).

Lemma oca_add_many ls i o : Forall comment_line ls -> only_comments_added i o -> only_comments_added i (ls ++ o).
Proof. induction 1; simpl; auto. intros. constructor; auto. Qed.

Lemma oca_refl l : only_comments_added l l.
Proof. induction l; constructor; auto. Qed.

Lemma str_has_app c a b : str_has c (a ++ b) = str_has c a || str_has c b.
Proof. induction a; simpl; auto. rewrite IHa. apply orb_assoc. Qed.

Lemma span_spec p s : let (x, y) := span p s in s = x ++ y /\ (forall c, str_has c x = true -> p c = true) /\
  match y with String a _ => p a = false | EmptyString => True end.
Proof.
  induction s as [|a s IH]; simpl; [repeat split; auto; discriminate|].
  destruct (p a) eqn:E.
  - destruct (span p s) as [x y]. destruct IH as (-> & A & B). simpl. split; auto. split; auto.
    intros c H. apply orb_true_iff in H as [H|H]; auto. apply Ascii.eqb_eq in H. subst; auto.
  - split; auto. split; auto. intros c; discriminate.
Qed.

Lemma match_key_space line ind k : match_key line = Some (ind, k) -> forall c, str_has c ind = true -> is_space c = true.
Proof.
  unfold match_key. pose proof (span_spec is_space line) as P. destruct (span is_space line) as [i r].
  destruct P as (_ & P & _). destruct (span key_char r) as [k' r']. destruct (k' =? ""); [discriminate|].
  destruct (snd _); [discriminate|]. destruct (Ascii.eqb a ":"); [|discriminate]. intros H; inversion H; subst; auto.
Qed.

Lemma comments_are_comments m v p path : (forall c, str_has c p = true -> is_space c = true) ->
  Forall comment_line (comments m v p path).
Proof.
  intros H. unfold comments. destruct (dict_get m path) as [[[f n] d]|]; [|constructor].
  constructor; [exists p; eexists; split; [simpl; reflexivity|auto]|].
  destruct d as [d|]; [|constructor]. destruct (v && _); [|constructor].
  apply Forall_forall. intros x Hx. apply in_map_iff in Hx as (l & <- & _).
  exists p; eexists; split; [simpl; reflexivity|auto].
Qed.

Lemma annotate_lines_only_adds m v : forall lines st, only_comments_added lines (annotate_lines m v st lines).
Proof.
  induction lines as [|l lines IH]; intros st; simpl; [constructor|].
  destruct (match_key l) as [[ind k]|] eqn:E; [|constructor; auto].
  apply oca_add_many; [apply comments_are_comments; eapply match_key_space; eauto|]. constructor. auto.
Qed.

(** *** Text level *)
Lemma split_all_nonnil c s : split_all c s <> [].
Proof. destruct s; simpl; [discriminate|]. destruct (Ascii.eqb c a); [discriminate|]. destruct (split_all c s); discriminate. Qed.

Lemma split_all_plain c a : str_has c a = false -> split_all c a = [a].
Proof.
  induction a as [|x a IH]; simpl; auto. intros H. apply orb_false_iff in H as [E H].
  rewrite E, (IH H). auto.
Qed.
Lemma split_all_cons c a s : str_has c a = false -> split_all c (a ++ String c s) = a :: split_all c s.
Proof.
  induction a as [|x a IH]; simpl; intros H.
  - rewrite Ascii.eqb_refl. auto.
  - apply orb_false_iff in H as [E H]. rewrite E, (IH H). auto.
Qed.
Lemma split_all_no c s : Forall (fun l => str_has c l = false) (split_all c s).
Proof.
  induction s as [|x s IH]; simpl; [repeat constructor|].
  destruct (Ascii.eqb c x) eqn:E; [constructor; auto|].
  destruct (split_all c s); [repeat constructor; simpl; rewrite E; auto|].
  inversion IH; subst. constructor; auto. simpl. rewrite E. auto.
Qed.
Lemma split_join c ls : ls <> [] -> Forall (fun l => str_has c l = false) ls ->
  split_all c (str_join (String c "") ls) = ls.
Proof.
  induction ls as [|l ls IH]; [congruence|]. intros _ F. inversion F; subst.
  destruct ls as [|l2 ls]; [apply split_all_plain; auto|].
  change (str_join (String c "") (l :: l2 :: ls)) with (l ++ String c (str_join (String c "") (l2 :: ls))).
  rewrite split_all_cons by auto. rewrite IH by (auto; discriminate). reflexivity.
Qed.
Lemma join_split c s : str_join (String c "") (split_all c s) = s.
Proof.
  induction s as [|x s IH]; simpl; auto.
  destruct (Ascii.eqb_spec c x).
  - subst. destruct (split_all x s) as [|p ps] eqn:E; [exfalso; eapply split_all_nonnil; eauto|].
    change (str_join (String x "") ("" :: p :: ps)) with (String x (str_join (String x "") (p :: ps))). rewrite IH. auto.
  - destruct (split_all c s) as [|p ps] eqn:E; [exfalso; eapply split_all_nonnil; eauto|].
    destruct ps; simpl in *; congruence.
Qed.

Lemma splitlines_cases s : splitlines s = split_all nl s \/ split_all nl s = (splitlines s ++ [""])%list.
Proof.
  unfold splitlines. destruct (rev (split_all nl s)) as [|[|a l] r] eqn:E; auto.
  right. rewrite <- (rev_involutive (split_all nl s)), E. simpl. auto.
Qed.

Lemma splitlines_no s : Forall (fun l => str_has nl l = false) (splitlines s).
Proof.
  pose proof (split_all_no nl s) as F. destruct (splitlines_cases s) as [->|E]; auto.
  rewrite E in F. apply Forall_app in F. apply F.
Qed.

(** The annotated text, read line by line, is the given text with comment lines
    inserted.  Source file names must not contain line breaks, or the line of a comment
    would be cut; the text must not end in a blank line (dumped YAML never does), since
    one final line break is dropped. *)
Theorem C51_only_comment_lines_added : forall yaml m v,
  (forall p f n d, In (p, (f, n, d)) m -> str_has nl f = false) ->
  (forall ls, splitlines yaml <> (ls ++ [""])%list) ->
  only_comments_added (splitlines yaml) (splitlines (annotate yaml m v)).
Proof.
  intros yaml m v Hf Hb. unfold annotate.
  destruct m as [|e m']; [apply oca_refl|]. set (m := e :: m') in *.
  set (out := annotate_lines m v [] (splitlines yaml)).
  assert (A : only_comments_added (splitlines yaml) out) by apply annotate_lines_only_adds.
  assert (N : Forall (fun l => str_has nl l = false) out).
  { subst out. clear A Hb. generalize (@nil (nat * string)). pose proof (splitlines_no yaml) as F.
    induction F as [|l ls Hl F IH]; intros st; simpl; [constructor|].
    destruct (match_key l) as [[ind k]|] eqn:E; [|constructor; [auto|apply IH]].
    apply Forall_app; split; [|constructor; [auto|apply IH]].
    assert (Hi : str_has nl ind = false).
    { unfold match_key in E. pose proof (span_spec is_space l) as P. destruct (span is_space l) as [i r].
      destruct P as (-> & _). destruct (span key_char r) as [k' r']. destruct (k' =? ""); [discriminate|].
      destruct (snd _); [discriminate|]. destruct (Ascii.eqb a ":"); [|discriminate]. inversion E; subst.
      rewrite str_has_app in Hl. apply orb_false_iff in Hl. apply Hl. }
    unfold comments. destruct (dict_get m _) as [[[f n] d]|] eqn:G; [|constructor].
    apply dict_get_In in G. apply Hf in G.
    constructor.
    - assert (S1 : str_has nl (str_nat n) = false).
      { clear. unfold str_nat. generalize (Nat.to_uint n). intros u.
        assert (H : forall u, str_has nl (DecimalString.NilEmpty.string_of_uint u) = false).
        { intros w; induction w; auto. }
        destruct u; try reflexivity; apply H. }
      rewrite str_has_app, Hi. change ("# Defined in " ++ f ++ ":" ++ str_nat n) with ("# Defined in " ++ (f ++ (":" ++ str_nat n))).
      rewrite !str_has_app, G, S1. reflexivity.
    - destruct d as [d|]; [|constructor]. destruct (v && _); [|constructor].
      apply Forall_forall. intros x Hx. apply in_map_iff in Hx as (y & <- & Hy).
      pose proof (splitlines_no d) as Fd. rewrite Forall_forall in Fd. specialize (Fd y Hy).
      rewrite !str_has_app, Hi, Fd. reflexivity. }
  destruct out as [|o os] eqn:Eo.
  - inversion A; subst. simpl. constructor.
  - set (o' := o :: os) in *.
    destruct (splitlines_cases (str_join (String nl "") o')) as [->|E].
    + rewrite split_join; auto. discriminate.
    + rewrite split_join in E by (auto; discriminate).
      (* the last line is empty: it would have to be a line of the input *)
      exfalso.
      assert (Last : forall i o, only_comments_added i o -> forall o0, o = (o0 ++ [""])%list -> exists i0, i = (i0 ++ [""])%list).
      { clear. induction 1; intros o0 Ho.
        - destruct o0; discriminate.
        - destruct o0 as [|z o0]; simpl in Ho; inversion Ho; subst.
          + inversion H; subst. exists []. auto.
          + destruct (IHonly_comments_added o0 eq_refl) as (i0 & ->). exists (z :: i0). auto.
        - destruct o0 as [|z o0]; simpl in Ho; inversion Ho; subst.
          + destruct H as (w & t & H & _). destruct w; discriminate.
          + eauto. }
      destruct (Last _ _ A _ E) as (i0 & Ei). exact (Hb _ Ei).
Qed.

(** The blank-line case: exactly the final line break goes. *)
Theorem C51_final_break_dropped : forall yaml m v, m <> [] ->
  exists out, annotate yaml m v = str_join (String nl "") out /\ only_comments_added (splitlines yaml) out.
Proof.
  intros yaml m v Hm. unfold annotate. destruct m as [|e m]; [congruence|].
  eexists; split; [reflexivity|]. apply annotate_lines_only_adds.
Qed.

(** *** The comments are where they belong: for a nested mapping with plain keys the
    annotated text is the dump in which every key line is preceded by the comments of
    its own dotted path. *)
Definition plain_key (k : string) : Prop := k <> "" /\ forall c, str_has c k = true -> key_char c = true.

Inductive plain_node : node -> Prop :=
| pn_leaf t more : Forall (fun l => match_key l = None) more -> plain_node (Leaf t more)
| pn_map items : Forall (fun kn => plain_key (fst kn) /\ plain_node (snd kn)) items -> plain_node (Map items).

(** The expected output. *)
Fixpoint render_annotated (m : smap) (v : bool) (path : list string) (d : nat) (key : string) (n : node) : list string :=
  let here := (path ++ [key])%list in
  (comments m v (blanks d) (str_join "." here) ++
  match n with
  | Leaf t more => (blanks d ++ key ++ ": " ++ t)%string :: more
  | Map [] => [(blanks d ++ key ++ ": {}")%string]
  | Map items => (blanks d ++ key ++ ":")%string ::
      flat_map (fun kn => render_annotated m v here (2 + d) (fst kn) (snd kn)) items
  end)%list.

Lemma span_app p a b : (forall c, str_has c a = true -> p c = true) ->
  match b with String x _ => p x = false | EmptyString => True end -> span p (a ++ b) = (a, b).
Proof.
  induction a as [|x a IH]; simpl; intros H Hb.
  - destruct b; simpl; auto. rewrite Hb. auto.
  - rewrite (H x) by (rewrite Ascii.eqb_refl; auto). rewrite IH; auto.
    intros c Hc. apply H. rewrite Hc. apply orb_true_r.
Qed.

Lemma blanks_space d c : str_has c (blanks d) = true -> is_space c = true.
Proof. induction d; simpl; [discriminate|]. intros H. apply orb_true_iff in H as [H|H]; auto. apply Ascii.eqb_eq in H. subst. reflexivity. Qed.
Lemma blanks_length d : String.length (blanks d) = d.
Proof. induction d; simpl; auto. Qed.

Lemma match_key_line d k t : plain_key k -> match_key (blanks d ++ k ++ String ":" t) = Some (blanks d, k).
Proof.
  intros [N P]. unfold match_key. rewrite span_app.
  - rewrite span_app; auto. destruct (String.eqb_spec k ""); [contradiction|]. reflexivity.
  - apply blanks_space.
  - destruct k as [|x k]; [congruence|]. simpl. specialize (P x). simpl in P. rewrite Ascii.eqb_refl in P.
    specialize (P eq_refl). unfold key_char in P. apply negb_true_iff in P.
    apply orb_false_iff in P. apply P.
Qed.

Lemma skip_nonmatching m v st more rest : Forall (fun l => match_key l = None) more ->
  annotate_lines m v st (more ++ rest) = (more ++ annotate_lines m v st rest)%list.
Proof. induction 1; simpl; auto. rewrite H, IHForall. auto. Qed.

Definition shallower (d : nat) (base : list (nat * string)) : Prop :=
  Forall (fun ik => fst ik < d) base.

Lemma pop_shallower d base : shallower d base -> pop_deeper d base = base.
Proof. intros H. destruct base as [|[i k] b]; simpl; auto. inversion H; subst. simpl in *. destruct (Nat.leb_spec d i); auto. lia. Qed.

Lemma pop_pop d e st : d <= e -> pop_deeper d (pop_deeper e st) = pop_deeper d st.
Proof.
  intros H. induction st as [|[i k] st IH]; simpl; auto.
  destruct (Nat.leb_spec e i); simpl.
  - rewrite IH. destruct (Nat.leb_spec d i); auto. lia.
  - destruct (Nat.leb_spec d i); auto.
Qed.

Fixpoint node_ind' (P : node -> Prop) (HL : forall t m, P (Leaf t m))
  (HM : forall items, Forall (fun kn => P (snd kn)) items -> P (Map items)) (n : node) : P n :=
  match n with
  | Leaf t m => HL t m
  | Map items => HM items ((fix go l := match l return Forall (fun kn => P (snd kn)) l with
                            | [] => Forall_nil _
                            | kn :: l' => Forall_cons kn (node_ind' P HL HM (snd kn)) (go l') end) items)
  end.

(** After the lines of one key the stack, cut at its level, is what it was. *)
Lemma annotate_render m v : forall n k d base path,
  plain_node n -> plain_key k -> shallower d base -> map snd base = rev path ->
  forall st rest, pop_deeper d st = base ->
  exists st', pop_deeper d st' = base /\
    annotate_lines m v st (render d k n ++ rest) =
    (render_annotated m v path d k n ++ annotate_lines m v st' rest)%list.
Proof.
  induction n as [t more|items IH] using node_ind'; intros k d base path Pn Pk Hs Hp st rest Hst.
  - inversion Pn as [? ? F|]; subst. exists ((d, k) :: pop_deeper d st). split.
    + simpl. rewrite Nat.leb_refl. apply pop_shallower; auto.
    + cbn [render app annotate_lines render_annotated].
      change (blanks d ++ k ++ ": " ++ t) with (blanks d ++ k ++ String ":" (String sp t)).
      rewrite match_key_line by auto. rewrite blanks_length.
      rewrite <- app_assoc. f_equal.
      * f_equal. unfold current_path. simpl. rewrite Hp. rewrite rev_involutive. auto.
      * cbn [app]. f_equal. apply skip_nonmatching; auto.
  - inversion Pn as [|? F]; subst.
    set (st1 := (d, k) :: pop_deeper d st).
    assert (Path : current_path st1 = str_join "." (path ++ [k])%list).
    { unfold current_path, st1. simpl. rewrite Hp, rev_involutive. auto. }
    destruct items as [|it items].
    + exists st1. split.
      { unfold st1. simpl. rewrite Nat.leb_refl. apply pop_shallower; auto. }
      cbn [render app annotate_lines render_annotated].
      change (blanks d ++ k ++ ": {}") with (blanks d ++ k ++ String ":" " {}").
      rewrite match_key_line by auto. rewrite blanks_length. fold st1. rewrite Path.
      rewrite <- app_assoc. reflexivity.
    + remember (it :: items) as its eqn:Eits.
      assert (Loop : forall l, Forall (fun kn => forall k d base path, plain_node (snd kn) -> plain_key k -> shallower d base ->
            map snd base = rev path -> forall st rest, pop_deeper d st = base ->
            exists st', pop_deeper d st' = base /\ annotate_lines m v st (render d k (snd kn) ++ rest) =
              (render_annotated m v path d k (snd kn) ++ annotate_lines m v st' rest)%list) l ->
          Forall (fun kn => plain_key (fst kn) /\ plain_node (snd kn)) l ->
          forall st, pop_deeper (2 + d) st = st1 ->
          exists st', pop_deeper (2 + d) st' = st1 /\
            annotate_lines m v st (flat_map (fun kn => render (2 + d) (fst kn) (snd kn)) l ++ rest) =
            (flat_map (fun kn => render_annotated m v (path ++ [k]) (2 + d) (fst kn) (snd kn)) l ++ annotate_lines m v st' rest)%list).
      { clear - Hs Hp. induction 1 as [|kn l Hkn _ IHl]; intros F s0 Hs0.
        - exists s0. auto.
        - inversion F as [|? ? [Fk Fn] F']; subst.
          cbn [flat_map]. rewrite <- app_assoc.
          destruct (Hkn (fst kn) (2 + d) st1 (path ++ [k])%list Fn Fk) with (st := s0) (rest := (flat_map (fun kn => render (2 + d) (fst kn) (snd kn)) l ++ rest)%list) as (s1 & P1 & E1); auto.
          + unfold st1. constructor; [simpl; lia|]. eapply Forall_impl; [|exact Hs]. simpl. intros; lia.
          + unfold st1. simpl. rewrite rev_app_distr. simpl. congruence.
          + destruct (IHl F' s1 P1) as (s2 & P2 & E2). exists s2. split; auto.
            rewrite E1, E2, <- app_assoc. auto. }
      destruct (Loop its IH F st1) as (s2 & P2 & E2).
      { apply pop_shallower. unfold st1. constructor; [simpl; lia|]. eapply Forall_impl; [|exact Hs]. simpl. intros; lia. }
      exists s2. split.
      * rewrite <- (pop_pop d (2 + d)) by lia. rewrite P2. unfold st1. simpl. rewrite Nat.leb_refl. apply pop_shallower; auto.
      * assert (R : render d k (Map its) = (blanks d ++ k ++ ":") :: flat_map (fun kn => render (2 + d) (fst kn) (snd kn)) its)
          by (subst its; reflexivity).
        assert (RA : render_annotated m v path d k (Map its) = (comments m v (blanks d) (str_join "." (path ++ [k])) ++ (blanks d ++ k ++ ":")%string ::
            flat_map (fun kn => render_annotated m v (path ++ [k]) (2 + d) (fst kn) (snd kn)) its)%list)
          by (subst its; reflexivity).
        rewrite R, RA. cbn [app annotate_lines].
        change (blanks d ++ k ++ ":") with (blanks d ++ k ++ String ":" "").
        rewrite match_key_line by auto. rewrite blanks_length. fold st1. rewrite Path, E2.
        rewrite <- app_assoc. reflexivity.
Qed.

Theorem C51_comments_at_true_path : forall m v items,
  Forall (fun kn => plain_key (fst kn) /\ plain_node (snd kn)) items ->
  annotate_lines m v [] (render_map 0 items) =
  flat_map (fun kn => render_annotated m v [] 0 (fst kn) (snd kn)) items.
Proof.
  intros m v items F.
  assert (G : forall st, pop_deeper 0 st = [] ->
     annotate_lines m v st (render_map 0 items) =
     flat_map (fun kn => render_annotated m v [] 0 (fst kn) (snd kn)) items).
  { induction F as [|kn l [Hk Hn] F IH]; intros st Hst; auto.
    unfold render_map. cbn [flat_map].
    destruct (annotate_render m v (snd kn) (fst kn) 0 [] [] Hn Hk) with (st := st)
      (rest := flat_map (fun kn => render 0 (fst kn) (snd kn)) l) as (s1 & P1 & E1); auto; [constructor|].
    rewrite E1. f_equal. apply IH. auto. }
  apply G. reflexivity.
Qed.

Example C51_example :
  let m := [("train.optimizer", ("opt.py", 12, Some "Adam."))] in
  let items := [("train", Map [("optimizer", Map [("lr", Leaf "0.1" [])]); ("steps", Leaf "" ["- 1"; "- 2"])]);
                ("optimizer", Leaf "x" [])] in
  Forall (fun kn => plain_key (fst kn)) items /\
  annotate_lines m true [] (render_map 0 items) =
    ["train:"; "  # Defined in opt.py:12"; "  # Adam."; "  optimizer:"; "    lr: 0.1"; "  steps: "; "- 1"; "- 2"; "optimizer: x"].
Proof.
  split; [|reflexivity].
  assert (K : forall s, s = "train" \/ s = "optimizer" -> plain_key s).
  { intros s H. assert (s <> "" /\ forallb key_char (list_ascii_of_string s) = true) as [A B]
      by (destruct H; subst; split; [discriminate|reflexivity|discriminate|reflexivity]).
    split; auto. intros c Hc. rewrite forallb_forall in B. apply B.
    clear -Hc. induction s; simpl in *; [discriminate|]. apply orb_true_iff in Hc as [E|E]; auto.
    apply Ascii.eqb_eq in E. auto. }
  repeat constructor; try (apply K; auto).
Qed.

Print Assumptions C51_only_comment_lines_added.
Print Assumptions C51_comments_at_true_path.
