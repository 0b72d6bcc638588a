(** C89: which atom gets which treatment, and the local energy of the legacy package as a whole. *)
From Coq Require Import String Reals List Arith ZArith Lra Lia Bool Permutation Sorted FunctionalExtensionality.
From Coquelicot Require Import Coquelicot.
From Verif Require Import Lin Lap_Spec Kin_Spec Quad_Spec Quad_Model Ecp_Spec Ph_Spec Ph_Model Ph_Lemmas Ph_Props Lpp_Spec Lpp_Model Lpp_Kin Lpp_Ecp Lpp_Ph.
Import ListNotations.
Open Scope list_scope.
Open Scope R_scope.
Local Notation vec := Lin.vec.
Local Notation pt := Quad_Spec.vec.
Local Notation mat := Lin.mat.
Local Notation S := Datatypes.S.
Local Notation total := Lpp_Spec.total.
Local Notation lookup := Lpp_Model.lookup.
Local Notation tables := Lpp_Model.tables.
Local Notation value := Lpp_Model.value.
Local Notation set_nth := Lpp_Model.set_nth.
Local Notation max_l := Lpp_Model.max_l.
Local Notation all_some := Lpp_Model.all_some.

(** ** Dictionaries *)
Lemma known_keys {A} (d : list (string * A)) s : known d s = true <-> In s (keys d).
Proof.
  unfold known, lookup, keys. induction d as [|[k v] d IH]; cbn [find fst option_map map In]; [split; [discriminate|tauto]|]. destruct (String.eqb_spec k s) as [-> |N]; cbn [option_map]; [tauto|]. rewrite IH. tauto.
Qed.
Lemma assign_keys {A} (d : list (string * A)) k v s : In s (keys (assign d k v)) <-> s = k \/ In s (keys d).
Proof.
  unfold keys. induction d as [|[j w] d IH]; cbn [assign map fst In]; [intuition congruence|]. destruct (String.eqb_spec j k) as [-> |N]; cbn [map fst In]; [intuition congruence|]. rewrite IH. tauto.
Qed.
Lemma assign_in {A} (d : list (string * A)) k v e : In e (assign d k v) -> e = (k, v) \/ In e d.
Proof.
  induction d as [|[j w] d IH]; cbn [assign fst In]; [intuition congruence|]. destruct (String.eqb j k); cbn [In]; [intuition congruence|]. intros [E|I]; [tauto|]. destruct (IH I); tauto.
Qed.
Lemma lookup_known {A} (d : list (string * A)) (f : string -> A) s : (forall e, In e d -> snd e = f (fst e)) -> In s (keys d) -> lookup d s = Some (f s).
Proof.
  intros H I. apply known_keys in I. unfold known in I. destruct (lookup d s) as [v|] eqn:L; [|discriminate]. apply lookup_In in L. apply H in L. cbn in L. congruence.
Qed.

(** ** Collecting the PH atoms *)
Definition considered (c : string -> bool) (mol : list atom) : list atom := filter (fun a => c (fst a)) mol.
Lemma gen_info_is sup c mol :
  match gen_info sup c mol with
  | Some info => fst info = considered c mol /\ (forall e, In e (snd info) -> sup (fst e) = Some (snd e)) /\ (forall s, In s (keys (snd info)) <-> In s (map fst (considered c mol)))
  | None => exists a, In a mol /\ c (fst a) = true /\ sup (fst a) = None
  end.
Proof.
  induction mol as [|a mol IH] using rev_ind; [cbn; tauto|]. unfold gen_info in *. rewrite fold_left_app. cbn [fold_left].
  destruct (fold_left _ mol _) as [[ps data]|].
  2:{ destruct IH as [b [I X]]. exists b. split; [apply in_app_iff; tauto|exact X]. }
  destruct IH as [P [D K]]. cbn [fst snd] in *. unfold considered in *. rewrite filter_app. cbn [filter]. destruct (c (fst a)) eqn:CA.
  2:{ cbn [fst snd]. rewrite app_nil_r. auto. }
  destruct (known data (fst a)) eqn:KA; cbn [fst snd].
  - rewrite P. split; [reflexivity|]. split; [exact D|]. intros s. rewrite map_app, in_app_iff, <- K. cbn [map In]. split; [tauto|]. intros [I|[<-|[]]]; [exact I|]. apply known_keys, KA.
  - destruct (sup (fst a)) as [t|] eqn:SA; cbn [fst snd].
    + rewrite P. split; [reflexivity|]. split.
      * intros e I. apply assign_in in I. destruct I as [-> |I]; [exact SA|apply D, I].
      * intros s. rewrite assign_keys, map_app, in_app_iff, K. cbn [map In]. intuition congruence.
    + exists a. split; [apply in_app_iff; right; left; reflexivity|auto].
Qed.
(** what the user asked for *)
Definition asks_ph (ph_elements : option (list string)) (s : string) : bool := match ph_elements with None => in_list s ph_elements_default | Some l => in_list s l end.
Definition asks_hph (hph_elements : option (list string)) (s : string) : bool := match hph_elements with None => false | Some l => in_list s l end.
Definition available : list string := ["Cr"; "Mn"; "Fe"; "Co"; "Ni"; "Cu"; "Zn"; "S"; "Sc"]%string.
(** PH information exists for every molecule whose requested elements are available, and for no other. *)
Theorem C89_refused : forall data pel hel mol,
  (gen_ph_info data pel mol = None <-> exists a, In a mol /\ asks_ph pel (fst a) = true /\ ~ In (fst a) available) /\
  (gen_hph_info data hel mol = None <-> exists a, In a mol /\ asks_hph hel (fst a) = true /\ fst a <> "Sc"%string).
Proof.
  intros data pel hel mol. split.
  - unfold gen_ph_info. pose proof (gen_info_is (ph_supported data) (asks_ph pel) mol) as G. fold (asks_ph pel).
    assert (SU : forall s, ph_supported data s = None <-> ~ In s available).
    { intros s. unfold ph_supported. assert (E : (String.eqb s "Sc" || in_list s ph_elements_default)%bool = true <-> In s available).
      { rewrite orb_true_iff, in_list_In, String.eqb_eq. unfold available, ph_elements_default. cbn [In]. intuition congruence. }
      destruct (String.eqb s "Sc" || in_list s ph_elements_default)%bool; split; intros X; try discriminate; try reflexivity.
      - exfalso. apply X, E. reflexivity.
      - intros I. apply E in I. discriminate. }
    change (fun s : string => match pel with Some l => in_list s l | None => in_list s ph_elements_default end) with (asks_ph pel).
    destruct (gen_info (ph_supported data) (asks_ph pel) mol) as [info|].
    + split; [discriminate|]. intros [a [I [C X]]]. exfalso. apply SU in X. destruct G as [P [D K]].
      assert (IK : In (fst a) (keys (snd info))) by (apply K, in_map, filter_In; auto). unfold keys in IK. apply in_map_iff in IK. destruct IK as [e [E IE]]. apply D in IE. congruence.
    + split; [|reflexivity]. intros _. destruct G as [a [I [C X]]]. exists a. rewrite <- SU. auto.
  - unfold gen_hph_info. pose proof (gen_info_is (hph_supported data) (asks_hph hel) mol) as G.
    assert (SU : forall s, hph_supported data s = None <-> s <> "Sc"%string).
    { intros s. unfold hph_supported. destruct (String.eqb_spec s "Sc"); split; intros; congruence. }
    change (fun s : string => match hel with Some l => in_list s l | None => false end) with (asks_hph hel).
    destruct (gen_info (hph_supported data) (asks_hph hel) mol) as [info|].
    + split; [discriminate|]. intros [a [I [C X]]]. exfalso. apply SU in X. destruct G as [P [D K]].
      assert (IK : In (fst a) (keys (snd info))) by (apply K, in_map, filter_In; auto). unfold keys in IK. apply in_map_iff in IK. destruct IK as [e [E IE]]. apply D in IE. congruence.
    + split; [|reflexivity]. intros _. destruct G as [a [I [C X]]]. exists a. rewrite <- SU. auto.
Qed.
Lemma gen_ph_parts data pel mol ph : gen_ph_info data pel mol = Some ph ->
  fst ph = considered (asks_ph pel) mol /\ (forall e, In e (snd ph) -> snd e = data (fst e)) /\ (forall s, In s (keys (snd ph)) <-> In s (map fst (considered (asks_ph pel) mol))).
Proof.
  unfold gen_ph_info. pose proof (gen_info_is (ph_supported data) (asks_ph pel) mol) as G.
  change (fun s : string => match pel with Some l => in_list s l | None => in_list s ph_elements_default end) with (asks_ph pel). intros E. rewrite E in G. destruct G as [P [D K]]. split; [exact P|]. split; [|exact K].
  intros e I. apply D in I. unfold ph_supported in I. destruct (_ || _)%bool; [congruence|discriminate].
Qed.
Lemma gen_hph_parts data hel mol hph : gen_hph_info data hel mol = Some hph ->
  fst hph = considered (asks_hph hel) mol /\ (forall e, In e (snd hph) -> snd e = data (fst e)) /\ (forall s, In s (keys (snd hph)) <-> In s (map fst (considered (asks_hph hel) mol))).
Proof.
  unfold gen_hph_info. pose proof (gen_info_is (hph_supported data) (asks_hph hel) mol) as G.
  change (fun s : string => match hel with Some l => in_list s l | None => false end) with (asks_hph hel). intros E. rewrite E in G. destruct G as [P [D K]]. split; [exact P|]. split; [|exact K].
  intros e I. apply D in I. unfold hph_supported in I. destruct (String.eqb _ _); [congruence|discriminate].
Qed.
Lemma merged_parts (f : string -> tables) p h : (forall e, In e p -> snd e = f (fst e)) -> (forall e, In e h -> snd e = f (fst e)) ->
  let m := fold_left (fun m e => assign m (fst e) (snd e)) h p in (forall e, In e m -> snd e = f (fst e)) /\ (forall s, In s (keys m) <-> In s (keys p) \/ In s (keys h)).
Proof.
  revert p. induction h as [|e h IH]; intros p HP HH; cbn [fold_left]; [split; [exact HP|intros s; cbn; tauto]|].
  destruct (IH (assign p (fst e) (snd e))) as [A B].
  - intros x I. apply assign_in in I. destruct I as [-> |I]; [exact (HH e (or_introl eq_refl))|apply HP, I].
  - intros x I. apply HH. right. exact I.
  - split; [exact A|]. intros s. rewrite B, assign_keys. unfold keys. cbn [map In]. intuition congruence.
Qed.
(** For every molecule and request: the pseudo-Hamiltonian acts on the atoms asked for in either list, each with its
    own element's tables; the effective core potential acts on the atoms that have one and were not asked for as PH. *)
Theorem C89_routing : forall data pel hel mol ph hph d rv,
  gen_ph_info data pel mol = Some ph -> gen_hph_info data hel mol = Some hph ->
  exists m, merge_info (Some ph) (Some hph) = Some m /\
    fst m = filter (fun a => asks_ph pel (fst a)) mol ++ filter (fun a => asks_hph hel (fst a)) mol /\
    (forall a, In a (fst m) -> atom_tables rv (snd m) (fst a) = Some (data (fst a))) /\
    (info_keys (Some ph) ++ info_keys (Some hph) = [] <-> fst m = []) /\
    (forall a, In a mol -> (In (fst a) (ecp_elements mol d (info_keys (Some ph))) <-> In (fst a) (keys d) /\ asks_ph pel (fst a) = false)).
Proof.
  intros data pel hel mol ph hph d rv HP HH. destruct (gen_ph_parts _ _ _ _ HP) as [P1 [P2 P3]]. destruct (gen_hph_parts _ _ _ _ HH) as [H1 [H2 H3]].
  eexists. split; [reflexivity|]. cbn [fst snd]. split; [rewrite P1, H1; reflexivity|]. destruct (merged_parts data (snd ph) (snd hph) P2 H2) as [M1 M2]. split; [|split].
  - intros a I. assert (E : atom_tables rv (fold_left (fun m e => assign m (fst e) (snd e)) (snd hph) (snd ph)) (fst a) = lookup (fold_left (fun m e => assign m (fst e) (snd e)) (snd hph) (snd ph)) (fst a)) by (destruct rv; [apply C89_spline_tables|reflexivity]).
    rewrite E. apply lookup_known; [exact M1|]. apply M2. apply in_app_iff in I. rewrite P1, H1 in I. rewrite P3, H3. destruct I as [I|I]; [left|right]; apply in_map, I.
  - assert (EM : forall (l : list string) (c : list atom), (forall s, In s l <-> In s (map fst c)) -> (l = [] <-> c = [])).
    { intros l c X. split; intros ->; [destruct c as [|a c]; [reflexivity|exfalso; apply (X (fst a)); left; reflexivity]|destruct l as [|a l]; [reflexivity|exfalso; apply (X a); left; reflexivity]]. }
    cbn [info_keys]. rewrite P1, H1. pose proof (EM _ _ P3) as A. pose proof (EM _ _ H3) as B. split; intros E; apply app_eq_nil in E; destruct E as [E1 E2].
    + rewrite (proj1 A E1), (proj1 B E2). reflexivity.
    + rewrite (proj2 A E1), (proj2 B E2). reflexivity.
  - intros a I. cbn [info_keys]. unfold ecp_elements. rewrite in_map_iff. split.
    + intros [b [E X]]. apply filter_In in X. destruct X as [IB X]. apply andb_true_iff in X. destruct X as [K X]. rewrite E in *. split; [apply known_keys, K|]. apply negb_true_iff in X.
      destruct (asks_ph pel (fst a)) eqn:AP; [|reflexivity]. exfalso. assert (T : in_list (fst a) (keys (snd ph)) = true); [|congruence]. apply in_list_In, P3. apply in_map, filter_In. auto.
    + intros [K X]. exists a. split; [reflexivity|]. apply filter_In. split; [exact I|]. apply andb_true_iff. split; [apply known_keys, K|]. apply negb_true_iff, not_true_is_false. intros T. apply in_list_In, P3 in T. apply in_map_iff in T. destruct T as [b [E T]]. apply filter_In in T. rewrite E in T. destruct T. congruence.
Qed.
(** Each of them once, when no element is asked for in both lists ... *)
Theorem C89_each_once : forall pel hel (mol : list atom), (forall a, In a mol -> asks_ph pel (fst a) = true -> asks_hph hel (fst a) = false) ->
  Permutation (filter (fun a => asks_ph pel (fst a)) mol ++ filter (fun a => asks_hph hel (fst a)) mol) (filter (fun a => asks_ph pel (fst a) || asks_hph hel (fst a))%bool mol).
Proof.
  intros pel hel mol. induction mol as [|a mol IH]; intros H; [constructor|]. cbn [filter]. specialize (IH (fun b I => H b (or_intror I))). specialize (H a (or_introl eq_refl)). destruct (asks_ph pel (fst a)); cbn [orb].
  - rewrite H by reflexivity. cbn [app]. constructor. exact IH.
  - destruct (asks_hph hel (fst a)); [|exact IH]. eapply Permutation_trans; [apply Permutation_sym, Permutation_middle|]. constructor. exact IH.
Qed.
(** ... but an element asked for in both acts twice. *)
Theorem C89_each_once_refuted : forall data p, exists ph hph m, let mol := [("Sc"%string, p)] in let l := Some ["Sc"%string] in
  gen_ph_info data l mol = Some ph /\ gen_hph_info data l mol = Some hph /\ merge_info (Some ph) (Some hph) = Some m /\ fst m = [("Sc"%string, p); ("Sc"%string, p)].
Proof. intros data p. do 3 eexists. cbv zeta. repeat split; reflexivity. Qed.
