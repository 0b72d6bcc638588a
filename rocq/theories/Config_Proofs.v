(** Lemmas about the configuration model. *)
From Coq Require Import String Ascii List Bool Arith Lia.
From Verif Require Import Common Common_Proofs Config_Model Config_Spec.
Import ListNotations.
Open Scope string_scope.

Section Ind.
  Variable V : Type.
  Variable P : cfg V -> Prop.
  Hypothesis HL : forall v, P (Leaf v).
  Hypothesis HD : forall d, (forall k c, In (k, c) d -> P c) -> P (Dict d).
  Fixpoint cfg_ind' (c : cfg V) : P c :=
    match c with
    | Leaf v => HL v
    | Dict d => HD d ((fix go (d : list (string * cfg V)) : forall k c, In (k, c) d -> P c :=
                        match d with
                        | [] => fun k c (H : In (k, c) []) => match H with end
                        | (k0, c0) :: rest => fun k c H =>
                            match H with
                            | or_introl e => eq_ind c0 P (cfg_ind' c0) c (f_equal snd e)
                            | or_intror H' => go rest k c H'
                            end
                        end) d)
    end.
End Ind.

(** ** Strings *)
Lemma has_app c a b : str_has c (a ++ b) = str_has c a || str_has c b.
Proof. induction a; simpl; auto. rewrite IHa. apply orb_assoc. Qed.

Lemma split_nohas c s : str_has c s = false -> str_split c s = [s].
Proof.
  induction s; simpl; intros H; auto. apply orb_false_iff in H as [H1 H2].
  rewrite Ascii.eqb_sym, H1, IHs; auto.
Qed.

Lemma split_app c a b : str_has c a = false -> str_split c (a ++ String c b) = a :: str_split c b.
Proof.
  induction a; simpl; intros H; [rewrite Ascii.eqb_refl; auto|].
  apply orb_false_iff in H as [H1 H2]. rewrite Ascii.eqb_sym, H1, IHa; auto.
Qed.

Lemma split_dotted p : is_path p -> str_split "." (dotted p) = p.
Proof.
  intros [NE F]. induction p as [|k rest IH]; [congruence|]. clear NE.
  inversion F; subst. destruct rest as [|k' rest].
  - unfold dotted; simpl. apply split_nohas; auto.
  - unfold dotted in *. simpl str_join. change (k ++ "." ++ ?x) with (k ++ String "." x).
    rewrite split_app; auto. f_equal. apply IH; [discriminate|auto].
Qed.

Lemma partition_app c a b : str_has c a = false -> str_partition c (a ++ String c b) = (a, b).
Proof.
  induction a; simpl; intros H; [rewrite Ascii.eqb_refl; auto|].
  apply orb_false_iff in H as [H1 H2]. rewrite Ascii.eqb_sym, H1, IHa; auto.
Qed.

Lemma dotted_cons k p : p <> [] -> dotted (k :: p) = k ++ "." ++ dotted p.
Proof. destruct p; [congruence|reflexivity]. Qed.

Lemma dotted_inj p q : is_path p -> is_path q -> dotted p = dotted q -> p = q.
Proof. intros Hp Hq E. rewrite <- (split_dotted p), <- (split_dotted q); auto. congruence. Qed.

Section C.
Context {V : Type}.
Implicit Types (d : dict V) (c : cfg V).

(** ** Lookup *)
Lemma get_path_at d p : p <> [] -> get_path d p = at_path (Dict d) p.
Proof.
  revert d. induction p as [|k rest IH]; intros d H; [congruence|]. simpl.
  destruct rest as [|k' rest].
  - destruct (dict_get d k); reflexivity.
  - destruct (dict_get d k) as [[v|d']|]; try reflexivity. apply IH. discriminate.
Qed.

Lemma at_path_app c p q : at_path c (p ++ q) = match at_path c p with Some c' => at_path c' q | None => None end.
Proof.
  revert c; induction p; intros c; simpl; auto.
  destruct c; auto. destruct (dict_get d a); auto.
Qed.

Lemma says_at c p : at_path c p = match source_says c p with Sets v => Some v | _ => None end.
Proof. revert c; induction p; intros c; simpl; auto. destruct c; auto. destruct (dict_get d a); auto. Qed.

(** ** deep_merge *)
Lemma merge_value_dict (o b : dict V) : merge_value (Dict o) (Some (Dict b)) = Dict (deep_merge b o).
Proof. simpl. f_equal. revert b. induction o as [|[k v] o IH]; intros b; simpl; auto. Qed.

Lemma merge_value_none (o : cfg V) : merge_value o None = o.
Proof. destruct o; reflexivity. Qed.
Lemma merge_value_leaf (o : cfg V) v : merge_value o (Some (Leaf v)) = o.
Proof. destruct o; reflexivity. Qed.

Lemma get_merge (o : dict V) : NoDup (map fst o) -> forall b k,
  dict_get (deep_merge b o) k =
  match dict_get o k with None => dict_get b k | Some v => Some (merge_value v (dict_get b k)) end.
Proof.
  induction o as [|[k0 v0] o IH]; simpl; intros ND b k; auto.
  inversion ND; subst. rewrite IH; auto.
  destruct (String.eqb_spec k k0).
  - subst. assert (dict_get o k0 = None) as -> by (apply dict_get_None; auto).
    apply dict_get_set_same.
  - rewrite dict_get_set_other by auto. reflexivity.
Qed.

Lemma dict_set_keys (A : Type) (d : list (string * A)) k v :
  map fst (dict_set d k v) = if existsb (String.eqb k) (map fst d) then map fst d else (map fst d ++ [k])%list.
Proof.
  induction d as [|[k' v'] d IH]; simpl; auto.
  destruct (String.eqb_spec k k'); subst; simpl; auto.
  rewrite IH. destruct (existsb _ _); auto.
Qed.

Lemma wf_dict_inv d : wf (Dict d) -> NoDup (map fst d) /\ forall k c, In (k, c) d -> wf c.
Proof. intros H; inversion H; auto. Qed.
Lemma wf_get d k c : wf (Dict d) -> dict_get d k = Some c -> wf c.
Proof. intros H G. apply wf_dict_inv in H as [_ H]. eapply H. eapply dict_get_In; eauto. Qed.

Lemma wf_set d k c : wf (Dict d) -> wf c -> wf (Dict (dict_set d k c)).
Proof.
  intros H Hc. apply wf_dict_inv in H as [ND H]. constructor; [apply dict_set_NoDup; auto|].
  intros k' c' Hin. apply In_dict_get in Hin; [|apply dict_set_NoDup; auto].
  destruct (string_dec k k').
  - subst. rewrite dict_get_set_same in Hin. congruence.
  - rewrite dict_get_set_other in Hin by auto. eapply H. eapply dict_get_In; eauto.
Qed.

Lemma wf_merge_value (o : cfg V) : wf o -> forall b, (forall c, b = Some c -> wf c) -> wf (merge_value o b).
Proof.
  induction o as [v|od IH] using cfg_ind'; intros Wo b Wb; [exact Wo|].
  destruct b as [[v|bd]|]; try exact Wo.
  rewrite merge_value_dict. specialize (Wb _ eq_refl).
  apply wf_dict_inv in Wo as [ND Wo].
  revert bd Wb. induction od as [|[k v] od IHod]; intros bd Wb; [exact Wb|].
  simpl. inversion ND; subst. apply IHod; auto.
  - intros. eapply IH; eauto. right; eauto.
  - intros. eapply Wo. right; eauto.
  - apply wf_set; auto. eapply IH; [left; reflexivity|eapply Wo; left; reflexivity|].
    intros c Hc. eapply wf_get; eauto.
Qed.

Lemma wf_merge (b o : dict V) : wf (Dict b) -> wf (Dict o) -> wf (Dict (deep_merge b o)).
Proof.
  intros. rewrite <- merge_value_dict. apply wf_merge_value; auto. intros c E. inversion E; subst; auto.
Qed.

(** What a merged mapping holds at a path. *)
Lemma at_merge p : forall o b : cfg V, wf o ->
  at_path (merge_value o (Some b)) p =
  match source_says o p with
  | Silent => at_path b p
  | Masks => None
  | Sets v => Some (merge_value v (at_path b p))
  end.
Proof.
  induction p as [|k p IH]; intros o b Wo; simpl; auto.
  destruct o as [v|od]; [reflexivity|].
  destruct b as [v|bd].
  - rewrite merge_value_leaf. simpl. destruct (dict_get od k) as [c|]; auto.
    rewrite says_at. destruct (source_says c p); auto. rewrite merge_value_none. auto.
  - rewrite merge_value_dict. pose proof (wf_dict_inv _ Wo) as [ND _].
    cbn [at_path]. rewrite get_merge by auto.
    destruct (dict_get od k) as [c|] eqn:E; [|destruct (dict_get bd k); auto].
    assert (Wc : wf c) by (eapply wf_get; eauto).
    destruct (dict_get bd k) as [cb|].
    + apply IH; auto.
    + rewrite merge_value_none, says_at. destruct (source_says c p); auto. rewrite merge_value_none. auto.
Qed.

Lemma says_merge p : forall o b : cfg V, wf o ->
  source_says b p <> Masks -> source_says o p <> Masks ->
  source_says (merge_value o (Some b)) p =
  match source_says o p with
  | Silent => source_says b p
  | Masks => Masks
  | Sets v => Sets (merge_value v (at_path b p))
  end.
Proof.
  induction p as [|k p IH]; intros o b Wo Mb Mo; simpl; auto.
  simpl in Mo, Mb. destruct o as [v|od]; [congruence|].
  destruct b as [v|bd]; [congruence|].
  rewrite merge_value_dict. pose proof (wf_dict_inv _ Wo) as [ND _].
  cbn [source_says at_path]. rewrite get_merge by auto.
  destruct (dict_get od k) as [c|] eqn:E; [|destruct (dict_get bd k); auto].
  assert (Wc : wf c) by (eapply wf_get; eauto).
  destruct (dict_get bd k) as [cb|].
  - apply IH; auto.
  - rewrite merge_value_none. destruct (source_says c p); auto. rewrite merge_value_none. auto.
Qed.

(** Merging a list of sources, lowest priority first. *)
Lemma fold_merge_wf l : forall b, wf (Dict b) -> Forall (fun s => wf (Dict s)) l -> wf (Dict (fold_left (@deep_merge V) l b)).
Proof. induction l; simpl; intros b Wb F; auto. inversion F; subst. apply IHl; auto. apply wf_merge; auto. Qed.

(** "The two answers agree": same leaf, both a mapping, both nothing. *)
Definition agree (x y : says V) : Prop :=
  match x, y with
  | Sets (Leaf v), Sets (Leaf w) => v = w
  | Sets (Dict _), Sets (Dict _) => True
  | Silent, Silent => True
  | _, _ => False
  end.
Lemma agree_nomask x y : agree x y -> x <> Masks /\ y <> Masks.
Proof. destruct x as [[]| |], y as [[]| |]; simpl; try contradiction; split; discriminate. Qed.

Lemma agree_merge p (o b : cfg V) x :
  wf o -> source_says o p <> Masks -> agree (source_says b p) x ->
  agree (source_says (merge_value o (Some b)) p)
        (match source_says o p with Silent => x | y => y end).
Proof.
  intros Wo Mo A. pose proof (agree_nomask _ _ A) as [N1 N2].
  rewrite says_merge by auto. destruct (source_says o p) as [v| |]; auto; try congruence.
  destruct v as [v|dv]; simpl; auto. destruct (at_path b p) as [[]|]; simpl; auto.
Qed.

Lemma decided_app (a b : list (dict V)) p :
  decided (a ++ b) p = match decided a p with Silent => decided b p | x => x end.
Proof. induction a; simpl; auto. rewrite IHa. destruct (source_says (Dict a) p); auto. Qed.

Lemma fold_agree l p : Forall (fun s => wf (Dict s)) l ->
  Forall (fun s => source_says (Dict s) p <> Masks) l -> p <> [] ->
  forall b x, agree (source_says (Dict b) p) x ->
  agree (source_says (Dict (fold_left (@deep_merge V) l b)) p)
        (match decided (rev l) p with Silent => x | y => y end).
Proof.
  intros W M NE. revert W M. induction l as [|s l IH]; intros W M b x A; [exact A|].
  inversion W; inversion M; subst. simpl.
  rewrite decided_app. simpl.
  assert (A' : agree (source_says (Dict (deep_merge b s)) p) (match source_says (Dict s) p with Silent => x | y => y end)).
  { rewrite <- merge_value_dict. apply agree_merge; auto. }
  specialize (IH H2 H6 _ _ A').
  destruct (decided (rev l) p); auto. destruct (source_says (Dict s) p); auto.
Qed.

Lemma says_nil p : p <> [] -> source_says (Dict (@nil (string * cfg V))) p = Silent.
Proof. destruct p; [congruence|reflexivity]. Qed.

(** ** set_path *)
Lemma set_path_cons (d : dict V) k r v : r <> [] -> set_path d (k :: r) v =
  match dict_get d k with
  | Some (Leaf _) => Raise (match r with [_] => TypeError | _ => AttributeError end)
  | Some (Dict d0) => match set_path d0 r v with Ok d1 => Ok (dict_set d k (Dict d1)) | Raise e => Raise e end
  | None => match set_path [] r v with Ok d1 => Ok (dict_set d k (Dict d1)) | Raise e => Raise e end
  end.
Proof. destruct r; [congruence|]. intros _. cbn [set_path]. destruct (dict_get d k) as [[]|]; reflexivity. Qed.

Lemma set_path_at d p v d' : set_path d p v = Ok d' ->
  at_path (Dict d') p = Some v.
Proof.
  revert d d'. induction p as [|k rest IH]; intros d d' H; [discriminate|].
  destruct rest as [|k' rest].
  - simpl in H. inversion H; subst. simpl. rewrite dict_get_set_same. reflexivity.
  - set (r := k' :: rest) in *. assert (NEr : r <> []) by discriminate. clearbody r. rewrite set_path_cons in H by auto.
    destruct (dict_get d k) as [[w|d0]|]; try discriminate;
      (destruct (set_path _ r v) as [d1|e] eqn:E; [|discriminate]);
      inversion H; subst; simpl; rewrite dict_get_set_same; eapply IH; eauto.
Qed.

Lemma set_path_unrelated p : forall d q v d', set_path d p v = Ok d' -> unrelated p q ->
  source_says (Dict d') q = source_says (Dict d) q.
Proof.
  induction p as [|k rest IH]; intros d q v d' H [U1 U2]; [discriminate|].
  destruct q as [|k2 q]; [exfalso; apply U2; exists (k :: rest); reflexivity|].
  destruct (string_dec k k2) as [->|NE].
  - assert (U : unrelated rest q).
    { split; intros [r E]; [apply U1|apply U2]; exists r; simpl; congruence. }
    destruct rest as [|k' rest]; [exfalso; apply (proj1 U); exists q; reflexivity|].
    set (r := k' :: rest) in *. assert (NEr : r <> []) by discriminate. clearbody r. rewrite set_path_cons in H by auto.
    destruct (dict_get d k2) as [[w|d0]|] eqn:G; try discriminate;
      (destruct (set_path _ r v) as [d1|e] eqn:E; [|discriminate]);
      inversion H; subst; simpl; rewrite dict_get_set_same, G.
    + eapply IH; eauto.
    + rewrite (IH _ _ _ _ E U). destruct q; [exfalso; apply (proj2 U); exists r; reflexivity|reflexivity].
  - assert (G : dict_get d' k2 = dict_get d k2).
    { destruct rest as [|k' rest].
      - inversion H; subst. apply dict_get_set_other; auto.
      - set (r := k' :: rest) in *. assert (NEr : r <> []) by discriminate. clearbody r. rewrite set_path_cons in H by auto.
        destruct (dict_get d k) as [[w|d0]|]; try discriminate;
        (destruct (set_path _ r v) as [d1|e] eqn:E; [|discriminate]);
        inversion H; subst; apply dict_get_set_other; auto. }
    simpl. rewrite G. reflexivity.
Qed.

Lemma set_path_prefix p : forall d q v d', set_path d p v = Ok d' ->
  q <> [] -> prefix_of q p -> q <> p -> exists d1, at_path (Dict d') q = Some (Dict d1).
Proof.
  intros d q v d' H NE [r ->] Nq.
  pose proof (set_path_at _ _ _ _ H) as A. rewrite at_path_app in A.
  destruct (at_path (Dict d') q) as [[w|d1]|]; eauto; [|discriminate].
  destruct r; [rewrite app_nil_r in Nq; congruence|discriminate].
Qed.

(** It fails exactly when a non-mapping sits on the way. *)
Lemma set_path_fails p : p <> [] -> forall d v,
  (exists e, set_path d p v = Raise e) <->
  (exists q w, q <> [] /\ prefix_of q p /\ q <> p /\ at_path (Dict d) q = Some (Leaf w)).
Proof.
  induction p as [|k rest IH]; intros NE d v; [congruence|].
  destruct rest as [|k' rest].
  - simpl. split; [intros [e E]; discriminate|].
    intros (q & w & Nq & [r E] & Nqp & _). destruct q; [congruence|]. simpl in E.
    inversion E. destruct q; [|discriminate]. subst. congruence.
  - set (r := k' :: rest) in *. assert (NEr : r <> []) by discriminate. clearbody r. rewrite set_path_cons by auto.
    destruct (dict_get d k) as [[w|d0]|] eqn:G.
    + split; [intros _|eauto]. exists [k], w. repeat split; try discriminate.
      * exists r; reflexivity.
      * intros E; congruence.
      * simpl. rewrite G. reflexivity.
    + specialize (IH NEr d0 v).
      transitivity (exists e, set_path d0 r v = Raise e).
      { destruct (set_path d0 r v); split; intros [e1 E1]; try discriminate; eauto. }
      rewrite IH. split.
      * intros (q & w & Nq & [r' E] & Nqp & A). exists (k :: q), w. repeat split; try discriminate.
        -- exists r'. simpl. congruence.
        -- congruence.
        -- simpl. rewrite G. exact A.
      * intros (q & w & Nq & [r' E] & Nqp & A). destruct q as [|k2 q]; [congruence|].
        inversion E; subst k2. destruct q as [|k3 q]; [simpl in A; rewrite G in A; discriminate|].
        exists (k3 :: q), w. repeat split; try discriminate.
        -- exists r'. congruence.
        -- congruence.
        -- simpl in A. rewrite G in A. exact A.
    + specialize (IH NEr [] v).
      transitivity (exists e, @set_path V [] r v = Raise e).
      { destruct (@set_path V [] r v); split; intros [e1 E1]; try discriminate; eauto. }
      rewrite IH. split; intros (q & w & Nq & [r' E] & Nqp & A); exfalso.
      * destruct q; [congruence|]. simpl in A. discriminate.
      * destruct q as [|k2 q]; [congruence|]. inversion E; subst k2.
        simpl in A. rewrite G in A. discriminate.
Qed.

Lemma wf_set_path p : forall d v d', set_path d p v = Ok d' -> wf (Dict d) -> wf v -> wf (Dict d').
Proof.
  induction p as [|k rest IH]; intros d v d' H Wd Wv; [discriminate|].
  destruct rest as [|k' rest].
  - inversion H; subst. apply wf_set; auto.
  - set (r := k' :: rest) in *. assert (NEr : r <> []) by discriminate. clearbody r. rewrite set_path_cons in H by auto.
    destruct (dict_get d k) as [[w|d0]|] eqn:G; try discriminate;
      (destruct (set_path _ r v) as [d1|e] eqn:E; [|discriminate]);
      inversion H; subst; apply wf_set; auto.
    + eapply IH; eauto. eapply wf_get; eauto.
    + eapply IH; eauto. constructor; [constructor|intros ? ? []].
Qed.

End C.
