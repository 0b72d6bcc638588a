(** Generic lemmas about strings, dictionaries and lists. *)
From Coq Require Import String Ascii List Bool Arith ZArith NArith Lia Permutation Sorted.
From Verif Require Import Common.
Import ListNotations.
Open Scope string_scope.

Lemma app_assoc_s : forall a b c : string, (a ++ b) ++ c = a ++ (b ++ c).
Proof. induction a; simpl; intros; [reflexivity | rewrite IHa; reflexivity]. Qed.

Lemma app_nil_s : forall a : string, a ++ "" = a.
Proof. induction a; simpl; [reflexivity | rewrite IHa; reflexivity]. Qed.

Lemma length_app_s : forall a b, String.length (a ++ b) = (String.length a + String.length b)%nat.
Proof. induction a; simpl; intros; [reflexivity | rewrite IHa; reflexivity]. Qed.

Lemma app_inv_head_s : forall a b c : string, a ++ b = a ++ c -> b = c.
Proof. induction a; simpl; intros b c H; [exact H | inversion H; auto]. Qed.

Lemma app_eq_len_s : forall a a' b b' : string,
  String.length a = String.length a' -> a ++ b = a' ++ b' -> a = a' /\ b = b'.
Proof.
  induction a; destruct a'; simpl; intros b b' L H; try discriminate; auto.
  inversion H; subst. injection L as L. destruct (IHa _ _ _ L H2) as [-> ->]. auto.
Qed.

Lemma str_drop_app : forall a b, str_drop (String.length a) (a ++ b) = b.
Proof. induction a; simpl; auto. Qed.

Lemma suffixb_app : forall a b, str_suffixb b (a ++ b) = true.
Proof.
  induction a; simpl; intros.
  - destruct b; simpl; [reflexivity|]. rewrite Ascii.eqb_refl, String.eqb_refl. reflexivity.
  - rewrite IHa, orb_true_r. reflexivity.
Qed.

Lemma prefix_app_s : forall a b, String.prefix a (a ++ b) = true.
Proof.
  induction a; simpl; intros; [destruct b; reflexivity|].
  destruct (ascii_dec a a) as [_|n]; [auto | congruence].
Qed.

Lemma prefix_true_s : forall a s, String.prefix a s = true -> exists b, s = a ++ b.
Proof.
  induction a; intros s H; [exists s; reflexivity|].
  destruct s; simpl in H; [discriminate|]. destruct (ascii_dec a a1); [|discriminate].
  destruct (IHa _ H) as [b ->]. subst. exists b. reflexivity.
Qed.

Lemma ascii_compare_refl : forall c, Ascii.compare c c = Eq.
Proof. intros c. unfold Ascii.compare. apply N.compare_refl. Qed.

Lemma compare_app_head : forall p a b,
  String.compare (p ++ a) (p ++ b) = String.compare a b.
Proof. induction p; simpl; intros; auto. rewrite ascii_compare_refl. auto. Qed.

Lemma compare_app_len : forall a a' b b',
  String.length a = String.length a' ->
  String.compare (a ++ b) (a' ++ b') =
  match String.compare a a' with Eq => String.compare b b' | r => r end.
Proof.
  induction a; destruct a'; simpl; intros b b' L; try discriminate; auto.
  injection L as L. destruct (Ascii.compare a a1); auto.
Qed.

Lemma compare_refl_s : forall a, String.compare a a = Eq.
Proof. induction a; simpl; auto. rewrite ascii_compare_refl. auto. Qed.

(** Dictionaries *)
Lemma dict_get_set_same : forall {A} (d : list (string * A)) k v,
  dict_get (dict_set d k v) k = Some v.
Proof.
  induction d as [|[k' v'] d IH]; simpl; intros.
  - rewrite String.eqb_refl. reflexivity.
  - destruct (String.eqb k k') eqn:E; simpl.
    + rewrite String.eqb_refl. reflexivity.
    + rewrite E. apply IH.
Qed.

Lemma dict_get_set_other : forall {A} (d : list (string * A)) k k' v,
  k <> k' -> dict_get (dict_set d k v) k' = dict_get d k'.
Proof.
  induction d as [|[k0 v0] d IH]; simpl; intros k k' v N.
  - destruct (String.eqb k' k) eqn:E; auto. apply String.eqb_eq in E. congruence.
  - destruct (String.eqb k k0) eqn:E; simpl.
    + apply String.eqb_eq in E; subst k0.
      destruct (String.eqb k' k) eqn:E2; auto. apply String.eqb_eq in E2. congruence.
    + destruct (String.eqb k' k0); auto.
Qed.

Lemma dict_get_In : forall {A} (d : list (string * A)) k v,
  dict_get d k = Some v -> In (k, v) d.
Proof.
  induction d as [|[k' v'] d IH]; simpl; intros; [discriminate|].
  destruct (String.eqb k k') eqn:E.
  - apply String.eqb_eq in E. inversion H; subst. auto.
  - right. auto.
Qed.

Lemma In_dict_get : forall {A} (d : list (string * A)) k v,
  NoDup (map fst d) -> In (k, v) d -> dict_get d k = Some v.
Proof.
  induction d as [|[k' v'] d IH]; simpl; intros k v ND H; [contradiction|].
  inversion ND; subst. destruct H as [H|H].
  - inversion H; subst. rewrite String.eqb_refl. reflexivity.
  - destruct (String.eqb k k') eqn:E.
    + apply String.eqb_eq in E; subst. exfalso. apply H2.
      change k' with (fst (k', v)). apply in_map. exact H.
    + apply IH; auto.
Qed.

Lemma dict_get_None : forall {A} (d : list (string * A)) k,
  dict_get d k = None <-> ~ In k (map fst d).
Proof.
  induction d as [|[k' v'] d IH]; simpl; intros k; [tauto|].
  destruct (String.eqb k k') eqn:E.
  - apply String.eqb_eq in E; subst. split; [discriminate | tauto].
  - apply String.eqb_neq in E. rewrite IH. intuition congruence.
Qed.

Lemma dict_set_keys_In : forall {A} (d : list (string * A)) k v x,
  In x (map fst (dict_set d k v)) <-> x = k \/ In x (map fst d).
Proof.
  induction d as [|[k' v'] d IH]; simpl; intros k v x; [intuition|].
  destruct (String.eqb k k') eqn:E; simpl.
  - apply String.eqb_eq in E; subst. intuition.
  - rewrite IH. intuition.
Qed.

Lemma dict_set_NoDup : forall {A} (d : list (string * A)) k v,
  NoDup (map fst d) -> NoDup (map fst (dict_set d k v)).
Proof.
  induction d as [|[k' v'] d IH]; simpl; intros k v ND.
  - constructor; [simpl; tauto | constructor].
  - inversion ND; subst. destruct (String.eqb k k') eqn:E; simpl.
    + apply String.eqb_eq in E; subst. constructor; auto.
    + constructor; auto. rewrite dict_set_keys_In. intros [->|H].
      * rewrite String.eqb_refl in E. discriminate.
      * auto.
Qed.

Lemma dict_set_fresh : forall {A} (d : list (string * A)) k v,
  ~ In k (map fst d) -> dict_set d k v = (d ++ [(k, v)])%list.
Proof.
  induction d as [|[k' v'] d IH]; simpl; intros k v H; auto.
  destruct (String.eqb k k') eqn:E.
  - apply String.eqb_eq in E; subst. exfalso; apply H; auto.
  - rewrite IH; auto.
Qed.

Lemma dict_get_update {A} (b : list (string * A)) : NoDup (map fst b) -> forall a k,
  dict_get (dict_update a b) k = match dict_get b k with Some v => Some v | None => dict_get a k end.
Proof.
  unfold dict_update. induction b as [|[k0 v0] b IH]; intros ND a k; auto.
  inversion ND as [|? ? NI ND']; subst. cbn [fold_left fst snd]. rewrite IH by auto. cbn [dict_get].
  destruct (String.eqb_spec k k0).
  - subst. replace (dict_get b k0) with (@None A) by (symmetry; apply dict_get_None; auto).
    apply dict_get_set_same.
  - destruct (dict_get b k); auto. apply dict_get_set_other. auto.
Qed.
