(** C89: the effective core potential energy of the legacy package. *)
From Coq Require Import String Reals List Arith ZArith Lra Lia Bool Permutation Sorted.
From Coquelicot Require Import Coquelicot.
From Verif Require Import Lin Quad_Spec Quad_Sphere Quad_Rot Quad_Model Quad_Rule Quad_Props Branch_Model Branch_Lemmas Ecp_Spec Ecp_Lemmas Ecp_Props Lpp_Spec Lpp_Model.
Import ListNotations.
Open Scope list_scope.
Open Scope R_scope.
Local Notation vec := Lin.vec.
Local Notation pt := Quad_Spec.vec.
Local Notation S := Datatypes.S.
Local Notation lookup := Lpp_Model.lookup.
Local Notation get_quadrature := Lpp_Model.get_quadrature.
Local Notation all_some := Lpp_Model.all_some.
Local Notation set_nth := Lpp_Model.set_nth.
Local Notation value := Lpp_Model.value.
Local Notation legendre := Lpp_Model.legendre.
Local Notation ecp_dict := Lpp_Model.ecp_dict.
Local Notation max_l := Lpp_Model.max_l.

(** ** Lists *)
Lemma all_some_map {A B} (f : A -> option B) (g : A -> B) l : (forall x, In x l -> f x = Some (g x)) -> all_some (map f l) = Some (map g l).
Proof. induction l as [|x l IH]; intros H; [reflexivity|]. cbn [map all_some]. rewrite (H x (or_introl eq_refl)), IH by (intros y Y; apply H; right; exact Y). reflexivity. Qed.
Lemma all_some_none {A B} (f : A -> option B) l x : In x l -> f x = None -> all_some (map f l) = None.
Proof. induction l as [|y l IH]; intros I E; [destruct I|]. cbn [map all_some]. destruct I as [-> | I]; [rewrite E; reflexivity|]. rewrite (IH I E). destruct (f y); reflexivity. Qed.
Lemma nth_seq_map {A} (d : A) l : map (fun i => nth i l d) (seq 0 (length l)) = l.
Proof. induction l as [|x l IH]; [reflexivity|]. cbn [length seq map nth]. f_equal. rewrite <- seq_shift, map_map. exact IH. Qed.
Lemma nth_map_lt {A B} (f : A -> B) l i da db : (i < length l)%nat -> nth i (map f l) db = f (nth i l da).
Proof. intros L. rewrite (nth_indep _ db (f da)) by (rewrite map_length; exact L). apply map_nth. Qed.
Lemma total_perm {A} (l m : list A) f : Permutation l m -> total l f = total m f.
Proof. unfold total. induction 1; cbn [map fold_right]; lra. Qed.
Lemma total_ext {A} (l : list A) f g : (forall x, In x l -> f x = g x) -> total l f = total l g.
Proof. intros H. unfold total. f_equal. apply map_ext_in, H. Qed.
Lemma total_plus {A} (l : list A) f g : total l (fun x => f x + g x) = total l f + total l g.
Proof. unfold total. induction l as [|x l IH]; cbn [map fold_right]; lra. Qed.
Lemma total_map {A B} (h : A -> B) l f : total (map h l) f = total l (fun x => f (h x)).
Proof. unfold total. rewrite map_map. reflexivity. Qed.

Lemma total_nth {A} (d : A) l f : total l f = total (seq 0 (length l)) (fun i => f (nth i l d)).
Proof. rewrite <- (total_map (fun i => nth i l d)), nth_seq_map. reflexivity. Qed.

Ltac to_total := match goal with |- fold_right Rplus 0 (map ?f ?l) = _ => change (fold_right Rplus 0 (map f l)) with (total l f) end.

(** ** Radial channels *)
Definition filled (t : table) : Prop := forall e, In e t -> exists g, In g (snd e) /\ g <> [].
Lemma inner_fold r n g : forall a, fold_left (fun res ac => res + powerRZ r (Z.of_nat n - 2) * exp (- fst ac * r ^ 2) * snd ac) g a = a + fold_right Rplus 0 (map (term n r) g).
Proof. induction g as [|x g IH]; intros a; cbn [fold_left map fold_right]; [ring|]. rewrite IH. unfold term at 2. ring. Qed.
Lemma channel_fold r : forall gs n a,
  fold_left (fun result (pg : nat * group) => fold_left (fun res ac => res + powerRZ r (Z.of_nat (fst pg) - 2) * exp (- fst ac * r ^ 2) * snd ac) (snd pg) result) (combine (seq n (length gs)) gs) a = a + groups_value n gs r.
Proof. induction gs as [|g gs IH]; intros n a; cbn [length seq combine fold_left groups_value fst snd]; [ring|]. rewrite inner_fold, IH. ring. Qed.
Lemma channel_is gs r : (exists g, In g gs /\ g <> []) -> channel gs r = Some (groups_value 0 gs r).
Proof.
  intros [g [I N]]. unfold channel. replace (forallb _ gs) with false.
  - f_equal. rewrite channel_fold. ring.
  - symmetry. apply not_true_is_false. intros T. rewrite forallb_forall in T. specialize (T g I). destruct g; [congruence|discriminate].
Qed.
Lemma in_order_nth t l : in_order t -> (l < length t)%nat -> fst (nth l t (0%Z, [])) = (Z.of_nat l - 1)%Z.
Proof.
  unfold in_order. intros H L. rewrite <- (nth_map_lt fst t l (0%Z, []) 0%Z L), H. rewrite (nth_map_lt _ (seq 0 (length t)) l 0%nat) by (rewrite seq_length; exact L). rewrite seq_nth by exact L. reflexivity.
Qed.
Lemma find_nth (t : table) : forall k z, (forall i, (i < length t)%nat -> fst (nth i t (0%Z, [])) = (Z.of_nat (k + i) - 1)%Z) ->
  find (fun e => Z.eqb (fst e) (Z.of_nat (k + z) - 1)) t = if Nat.ltb z (length t) then Some (nth z t (0%Z, [])) else None.
Proof.
  induction t as [|e t IH]; intros k z H; [destruct z; reflexivity|]. cbn [find].
  pose proof (H 0%nat ltac:(cbn; lia)) as H0. cbn [nth] in H0. destruct z as [|z].
  - rewrite H0, Z.eqb_refl. reflexivity.
  - replace (Z.eqb (fst e) (Z.of_nat (k + S z) - 1)) with false by (symmetry; apply Z.eqb_neq; lia).
    replace (k + S z)%nat with (S k + z)%nat by lia. rewrite (IH (S k) z); [reflexivity|]. intros i I. specialize (H (S i) ltac:(cbn [length]; lia)). cbn [nth] in H. rewrite H. f_equal. lia.
Qed.
Lemma V_nth t l r : in_order t -> V t (Z.of_nat l - 1) r = if Nat.ltb l (length t) then groups_value 0 (snd (nth l t (0%Z, []))) r else 0.
Proof.
  intros H. unfold V. pose proof (find_nth t 0 l (fun i I => in_order_nth t i H I)) as E. cbn [Nat.add] in E. rewrite E. destruct (Nat.ltb l (length t)); reflexivity.
Qed.
Lemma select_is t ml r : in_order t -> filled t -> select_core t ml r = Some (map (fun l => V t (Z.of_nat l - 1) r) (seq 0 ml)).
Proof.
  intros O F. unfold select_core. apply all_some_map. intros l _. rewrite V_nth by exact O. destruct (Nat.ltb_spec l (length t)) as [L|L]; [|reflexivity].
  apply channel_is, F, nth_In, L.
Qed.

(** ** Which atoms *)
Definition uniq (ks : list string) (l : list string) : list string := fold_left (fun ks e => if in_list e ks then ks else ks ++ [e]) l ks.
Lemma in_list_In s l : in_list s l = true <-> In s l.
Proof. unfold in_list. rewrite existsb_exists. split; [intros [x [I E]]; apply String.eqb_eq in E; subst; exact I|intros I; exists s; rewrite String.eqb_refl; auto]. Qed.
Lemma assign_map {A} (v : string -> A) e ks : NoDup ks -> assign (map (fun k => (k, v k)) ks) e (v e) = map (fun k => (k, v k)) (if in_list e ks then ks else ks ++ [e]).
Proof.
  induction ks as [|k ks IH]; intros ND; [reflexivity|]. inversion ND as [|? ? NI ND']; subst. cbn [map assign fst in_list existsb]. rewrite (String.eqb_sym e k). destruct (String.eqb_spec k e) as [-> |N]; cbn [orb]; [reflexivity|].
  rewrite IH by exact ND'. unfold in_list. destruct (existsb (String.eqb e) ks); reflexivity.
Qed.
Lemma NoDup_snoc {A} (l : list A) x : NoDup l -> ~ In x l -> NoDup (l ++ [x]).
Proof. intros N I. eapply Permutation_NoDup; [apply Permutation_cons_append|]. constructor; assumption. Qed.
Lemma uniq_spec : forall l ks, NoDup ks -> NoDup (uniq ks l) /\ (forall s, In s (uniq ks l) <-> In s ks \/ In s l).
Proof.
  induction l as [|e l IH]; intros ks N; cbn [uniq fold_left]; [split; [exact N|intros s; cbn; tauto]|].
  destruct (in_list e ks) eqn:E.
  - apply in_list_In in E. destruct (IH ks N) as [A B]. split; [exact A|]. intros s. unfold uniq in B. rewrite B. cbn [In]. split; [tauto|]. intros [I|[<- | I]]; auto.
  - assert (NI : ~ In e ks) by (intros I; apply in_list_In in I; congruence). destruct (IH (ks ++ [e]) (NoDup_snoc ks e N NI)) as [A B]. split; [exact A|]. intros s. unfold uniq in B. rewrite B, in_app_iff. cbn [In]. tauto.
Qed.
Lemma coords_uniq mol d : forall l ks, NoDup ks ->
  fold_left (fun m ele => assign m ele (coords_of mol d ele)) l (map (fun k => (k, coords_of mol d k)) ks) = map (fun k => (k, coords_of mol d k)) (uniq ks l).
Proof.
  induction l as [|e l IH]; intros ks N; [reflexivity|]. cbn [fold_left uniq]. rewrite assign_map by exact N. apply IH. destruct (in_list e ks) eqn:E; [exact N|]. apply NoDup_snoc; [exact N|]. intros I. apply in_list_In in I. congruence.
Qed.
Lemma element_coords_is mol d l : element_coords mol d l = map (fun k => (k, coords_of mol d k)) (uniq [] l).
Proof. apply (coords_uniq mol d l []). constructor. Qed.
(** The atoms the potential acts on: those of the molecule whose element is listed and has a potential. *)
Definition ecp_atoms (mol : list atom) (d : ecp_dict) (elements : list string) : list (table * pt) :=
  map (fun a => (match lookup d (fst a) with Some t => t | None => [] end, snd a)) (filter (fun a => in_list (fst a) elements && known d (fst a)) mol).
Definition grouped (mol : list atom) (d : ecp_dict) (ks : list string) : list (table * pt) :=
  flat_map (fun k => map (fun a => (match lookup d k with Some t => t | None => [] end, snd a)) (filter (fun a => String.eqb (fst a) k && known d (fst a)) mol)) ks.
Lemma filter_or {A} (p q : A -> bool) l : (forall x, p x = true -> q x = false) -> Permutation (filter p l ++ filter q l) (filter (fun x => p x || q x) l).
Proof.
  intros H. induction l as [|x l IH]; [constructor|]. cbn [filter]. destruct (p x) eqn:P; cbn [orb app].
  - rewrite (H x P). cbn [app]. constructor. exact IH.
  - destruct (q x); [|exact IH]. eapply Permutation_trans; [apply Permutation_sym, Permutation_middle|]. constructor. exact IH.
Qed.
Lemma grouped_perm mol d : forall ks, NoDup ks -> Permutation (grouped mol d ks) (ecp_atoms mol d ks).
Proof.
  induction ks as [|k ks IH]; intros N; unfold grouped, ecp_atoms; cbn [flat_map].
  - induction mol as [|a mol IHm]; [constructor|]. cbn [filter in_list existsb andb]. exact IHm.
  - inversion N as [|? ? NI N']; subst. eapply Permutation_trans; [apply Permutation_app_head, (IH N')|]. unfold ecp_atoms.
    rewrite (map_ext_in (fun a : atom => (match lookup d k with Some t => t | None => [] end, snd a)) (fun a => (match lookup d (fst a) with Some t => t | None => [] end, snd a))).
    2:{ intros a I. apply filter_In in I. destruct I as [_ I]. apply andb_true_iff in I. destruct I as [I _]. apply String.eqb_eq in I. rewrite I. reflexivity. }
    rewrite <- map_app. apply Permutation_map.
    eapply Permutation_trans; [apply filter_or|].
    + intros a A. apply andb_true_iff in A. destruct A as [A _]. apply String.eqb_eq in A. apply andb_false_iff. left. apply not_true_is_false. intros I. apply in_list_In in I. rewrite A in I. contradiction.
    + erewrite filter_ext; [apply Permutation_refl|]. intros a. cbn [in_list existsb]. unfold in_list. destruct (String.eqb (fst a) k), (known d (fst a)), (existsb (String.eqb (fst a)) ks); reflexivity.
Qed.
Lemma ecp_atoms_same mol d l m : (forall s, In s l <-> In s m) -> ecp_atoms mol d l = ecp_atoms mol d m.
Proof.
  intros H. unfold ecp_atoms. f_equal. apply filter_ext. intros a. f_equal. destruct (in_list (fst a) l) eqn:A, (in_list (fst a) m) eqn:B; try reflexivity.
  - apply in_list_In, H, in_list_In in A. congruence.
  - apply in_list_In, H, in_list_In in B. congruence.
Qed.

(** ** What an electron sees *)
Definition seen_of (ml : nat) (e : pt) (a : table * pt) : seen := (map (fun l => V (fst a) (Z.of_nat l - 1) (vlen (vsub e (snd a)))) (seq 0 ml), vsub e (snd a), vlen (vsub e (snd a))).
Lemma view_is e ml t a : in_order t -> filled t -> view e ml t a = Some (seen_of ml e (t, a)).
Proof. intros O F. unfold view. rewrite select_is by assumption. reflexivity. Qed.
Definition proper_dict (d : ecp_dict) : Prop := forall s t, In (s, t) d -> in_order t /\ filled t.
Lemma lookup_In {A} (d : list (string * A)) s t : lookup d s = Some t -> In (s, t) d.
Proof. unfold lookup. destruct (find (fun e => String.eqb (fst e) s) d) as [[k v]|] eqn:F; [|discriminate]. cbn. intros E. apply find_some in F. destruct F as [I E']. cbn in E'. apply String.eqb_eq in E'. subst. congruence. Qed.
(** elements that a molecule actually has, with a potential *)
Definition present (mol : list atom) (d : ecp_dict) (l : list string) : Prop := forall s, In s l -> known d s = true /\ exists a, In (s, a) mol.
Lemma concat_views_is e mol d l ml : proper_dict d -> present mol d l -> l <> [] ->
  concat_views e (element_coords mol d l) d ml = Some (map (seen_of ml e) (grouped mol d (uniq [] l))).
Proof.
  intros PD PR NE. rewrite element_coords_is. unfold concat_views. destruct (uniq_spec l [] (NoDup_nil _)) as [_ U].
  assert (PU : present mol d (uniq [] l)) by (intros s I; apply U in I; destruct I as [[]|I]; apply PR, I).
  assert (NU : uniq [] l <> []). { destruct l as [|s l]; [congruence|]. intros E. assert (In s (uniq [] (s :: l))) by (apply U; right; left; reflexivity). rewrite E in *. contradiction. }
  clear U PR NE. revert PU NU. generalize (uniq [] l). intros ks PU NU.
  assert (FA : filter (fun se : string * option (list pt) => known d (fst se)) (map (fun k => (k, coords_of mol d k)) ks) = map (fun k => (k, coords_of mol d k)) ks).
  { clear NU. induction ks as [|k ks IH]; [reflexivity|]. cbn [map filter fst]. rewrite (proj1 (PU k (or_introl eq_refl))). f_equal. apply IH. intros s I. apply PU. right. exact I. }
  rewrite FA. destruct (map (fun k => (k, coords_of mol d k)) ks) as [|se ses] eqn:M; [destruct ks; [congruence|discriminate]|]. rewrite <- M. clear M se ses FA. rewrite map_map. cbn [fst snd].
  rewrite (all_some_map _ (fun k => map (seen_of ml e) (map (fun a => (match lookup d k with Some t => t | None => [] end, snd a)) (filter (fun a => String.eqb (fst a) k && known d (fst a)) mol)))).
  - cbn [option_map]. f_equal. unfold grouped. rewrite flat_map_concat_map, concat_map, map_map. reflexivity.
  - intros k I. destruct (PU k I) as [K [a A]]. unfold known in K. destruct (lookup d k) as [t|] eqn:LK; [|discriminate]. destruct (PD k t (lookup_In d k t LK)) as [O F].
    unfold coords_of. set (fl := filter (fun a0 : string * pt => (fst a0 =? k)%string && known d (fst a0)) mol).
    assert (NF : In (k, a) fl) by (apply filter_In; split; [exact A|]; cbn [fst]; rewrite String.eqb_refl; unfold known; rewrite LK; reflexivity).
    destruct (map snd fl) as [|p ps] eqn:E; [destruct fl; [destruct NF|discriminate]|]. rewrite <- E. clear E. rewrite map_map.
    rewrite (all_some_map _ (fun b : atom => seen_of ml e (t, snd b))); [rewrite map_map; reflexivity|]. intros b _. apply view_is; assumption.
Qed.
(** sorted by distance from e *)
Definition nearest_first (e : pt) (g : list (table * pt)) : list (table * pt) :=
  let norms := map (fun a => vlen (vsub e (snd a))) g in map (fun i => nth i g ([], (0, 0, 0))) (order (fun i j => rleb (at_ norms i) (at_ norms j)) (length norms)).
Lemma nearest_perm e g : Permutation (nearest_first e g) g.
Proof.
  unfold nearest_first. transitivity (map (fun i => nth i g ([], (0, 0, 0))) (seq 0 (length g))); [|rewrite nth_seq_map; reflexivity]. apply Permutation_map. rewrite map_length. apply order_perm.
Qed.
Lemma sorted_map {A B} (f : A -> B) (P : A -> A -> Prop) (Q : B -> B -> Prop) l : (forall x y, In x l -> In y l -> P x y -> Q (f x) (f y)) -> StronglySorted P l -> StronglySorted Q (map f l).
Proof.
  induction l as [|x l IH]; intros H S; [constructor|]. inversion S as [|? ? S1 F1]; subst. cbn [map]. constructor.
  - apply IH; [|exact S1]. intros a b I J. apply H; right; assumption.
  - apply List.Forall_forall. intros y I. apply in_map_iff in I. destruct I as [z [<- I]]. apply H; [left; reflexivity|right; exact I|]. eapply List.Forall_forall in F1; [exact F1|exact I].
Qed.
Lemma nearest_sorted e g : StronglySorted (by_distance e) (nearest_first e g).
Proof.
  unfold nearest_first. set (norms := map _ g). eapply sorted_map; [|apply order_sorted]. intros i j I J L. unfold le_by, at_ in L. unfold by_distance.
  assert (B : forall k, In k (order (fun i j => rleb (at_ norms i) (at_ norms j)) (length norms)) -> nth k norms 0 = vlen (vsub e (snd (nth k g ([], (0, 0, 0)))))).
  { intros k K. apply (Permutation_in _ (order_perm _ _)) in K. apply in_seq in K. unfold norms in *. rewrite map_length in K. rewrite (nth_indep _ 0 (vlen (vsub e (snd (([], (0, 0, 0)) : table * pt))))) by (rewrite map_length; lia). rewrite (map_nth (fun a : table * pt => vlen (vsub e (snd a)))). reflexivity. }
  rewrite <- !B by assumption. exact L.
Qed.
Lemma ecp_all_is e mol d l ml : proper_dict d -> present mol d l -> l <> [] ->
  ecp_all e (element_coords mol d l) d ml = Some (map (seen_of ml e) (nearest_first e (grouped mol d (uniq [] l)))).
Proof.
  intros PD PR NE. unfold ecp_all. rewrite concat_views_is by assumption. f_equal. set (g := grouped mol d (uniq [] l)).
  assert (NM : map snd (map (seen_of ml e) g) = map (fun a => vlen (vsub e (snd a))) g) by (rewrite map_map; reflexivity). rewrite NM. unfold nearest_first. rewrite map_map. apply map_ext_in.
  intros i I. apply (Permutation_in _ (order_perm _ _)) in I. apply in_seq in I. rewrite map_length in I. rewrite (nth_indep _ _ (seen_of ml e ([], (0, 0, 0)))) by (rewrite map_length; lia). apply map_nth.
Qed.

(** ** Legendre polynomials *)
Theorem C89_legendre : forall x l, legendre x l = if Nat.leb l 7 then Some (legendre_polynomial l x) else None.
Proof.
  intros x l. do 8 (destruct l as [|l]; [cbn [legendre Nat.leb]; f_equal; unfold legendre_polynomial; cbn [legendre_pair fst snd INR]; field|]). reflexivity.
Qed.
Lemma legendre_poly n : forall l, Poly l (fun x y z => legendre_polynomial l (vdot (x, y, z) n)) /\ Poly (S l) (fun x y z => snd (legendre_pair l (vdot (x, y, z) n))).
Proof.
  destruct n as [[a b] c].
  induction l as [|l [IH1 IH2]].
  - split; [eapply Ext; [apply (Mono 0 1 0 0 0); lia|]; intros x y z; cbn; ring|]. eapply Ext; [apply (poly_lin a b c)|]. intros x y z. cbn [legendre_pair snd]. unfold vdot. cbn [fst snd]. ring.
  - assert (E : forall x, legendre_polynomial (S l) x = snd (legendre_pair l x)) by (intros x; unfold legendre_polynomial; cbn [legendre_pair]; destruct (legendre_pair l x); reflexivity).
    split; [eapply Ext; [exact IH2|]; intros x y z; cbv beta; rewrite E; reflexivity|].
    set (k1 := (2 * INR (S l) + 1) / (INR (S l) + 1)). set (k2 := - (INR (S l) / (INR (S l) + 1))).
    eapply Ext; [apply Plus; [apply (poly_mult 1 (S l)); [apply (poly_lin (k1 * a) (k1 * b) (k1 * c))|exact IH2]|apply (poly_le (0 + l)); [lia|]; apply (poly_mult 0 l); [apply (Mono 0 k2 0 0 0); lia|exact IH1]]|].
    intros x y z. cbv beta. unfold legendre_polynomial. cbn [legendre_pair]. destruct (legendre_pair l (vdot (x, y, z) (a, b, c))) as [u v]. cbn [fst snd]. unfold k1, k2, vdot. cbn [fst snd pow]. field.
    assert (0 <= INR (S l)) by apply pos_INR. lra.
Qed.
Lemma legendre_list_is x n : (1 <= n <= 8)%nat -> legendre_list x (seq 0 n) = Some (map (fun l => legendre_polynomial l x) (seq 0 n)).
Proof.
  intros N. unfold legendre_list. destruct (seq 0 n) as [|i l] eqn:E; [destruct n; [lia|discriminate]|]. rewrite <- E. apply all_some_map. intros k K. apply in_seq in K. rewrite C89_legendre. replace (Nat.leb k 7) with true by (symmetry; apply Nat.leb_le; lia). reflexivity.
Qed.
Lemma legendre_list_none x n : (n = 0 \/ 8 < n)%nat -> legendre_list x (seq 0 n) = None.
Proof.
  intros [-> |N]; [reflexivity|]. unfold legendre_list. destruct (seq 0 n) as [|i l] eqn:E; [destruct n; [lia|discriminate]|]. rewrite <- E. apply (all_some_none _ _ 8%nat); [apply in_seq; lia|]. apply C89_legendre.
Qed.

(** ** Angular integrals *)
Inductive promised : option string -> nat -> Prop :=
| PNone : promised None 5
| PEmpty : promised (Some ""%string) 5
| PIco : promised (Some "icosahedron_12"%string) 5
| POct6 : promised (Some "octahedron_6"%string) 3
| POct26 : promised (Some "octahedron_26"%string) 7.
(** The identifiers the legacy package accepts, and no others. *)
Theorem C89_quadratures : forall id, (exists q, get_quadrature id = Some q) <-> exists deg, promised id deg.
Proof.
  intros id. split; [intros [q Q]|intros [deg D]; destruct D; eexists; reflexivity].
  destruct id as [s|]; [|eexists; constructor]. unfold get_quadrature in Q.
  destruct (String.eqb_spec s ""); [subst; eexists; constructor|]. destruct (String.eqb_spec s "octahedron_6"); [subst; eexists; constructor|]. destruct (String.eqb_spec s "octahedron_26"); [subst; eexists; constructor|]. destruct (String.eqb_spec s "icosahedron_12"); [subst; eexists; constructor|discriminate].
Qed.
Lemma promised_is id deg q : promised id deg -> get_quadrature id = Some q -> exists id', degree_of id' deg /\ Quad_Model.get_quadrature id' = Some q.
Proof.
  intros P Q. destruct P; [exists None|exists None|exists (Some ("icosahedron"%string, 12%nat))|exists (Some ("octahedron"%string, 6%nat))|exists (Some ("octahedron"%string, 26%nat))]; (split; [constructor|exact Q]).
Qed.
Lemma integral_value_is q pl ps : integral_value q pl ps = integrate q (map (fun x => fst x * snd x) (combine pl ps)).
Proof.
  unfold integral_value, integrate. assert (E : forall pl ps cs, fold_right Rplus 0 (map (fun x : R * R * R => fst (fst x) * snd (fst x) * snd x) (combine (combine pl ps) cs)) = fold_right Rplus 0 (map (fun x : R * R => fst x * snd x) (combine (map (fun x : R * R => fst x * snd x) (combine pl ps)) cs))).
  { clear. induction pl as [|p pl IH]; intros [|s ps] [|c cs]; cbn [combine map fold_right fst snd]; try reflexivity. rewrite IH. reflexivity. }
  rewrite E. ring.
Qed.
Definition integrals (ratio : nat -> pt -> R -> pt -> R) (q : quadrature) (draws : nat -> R * R) (nl i : nat) (rv : pt) (r : R) : list R :=
  let pts := rotated q (fst (draws i)) (snd (draws i)) in
  map (fun l => integrate q (map (fun p => legendre_polynomial l (vdot p (vscale (/ r) rv)) * ratio i rv r p) pts) * (2 * INR l + 1)) (seq 0 nl).
Lemma integral_of_is ratio q draws nl i rv r : (1 <= nl <= 8)%nat ->
  integral_of ratio q (rotated q (fst (draws i)) (snd (draws i))) (seq 0 nl) i rv r = Some (integrals ratio q draws nl i rv r).
Proof.
  intros N. unfold integral_of, integrals. set (pts := rotated q _ _). rewrite (all_some_map _ (fun p => map (fun l => legendre_polynomial l (vdot p (vscale (/ r) rv))) (seq 0 nl))) by (intros p _; apply legendre_list_is, N).
  f_equal. rewrite seq_length. apply map_ext_in. intros l L. apply in_seq in L. rewrite integral_value_is, seq_nth by lia. f_equal. f_equal. rewrite map_map.
  assert (E : forall p, nth l (map (fun l0 => legendre_polynomial l0 (vdot p (vscale (/ r) rv))) (seq 0 nl)) 0 = legendre_polynomial l (vdot p (vscale (/ r) rv))).
  { intros p. rewrite (nth_map_lt _ (seq 0 nl) l 0%nat) by (rewrite seq_length; lia). rewrite seq_nth by lia. reflexivity. }
  rewrite (map_ext _ (fun p => legendre_polynomial l (vdot p (vscale (/ r) rv))) E). clear. induction pts as [|p ps IH]; [reflexivity|]. cbn [map combine fst snd]. rewrite IH. reflexivity.
Qed.
Lemma integral_of_none ratio q pts nl i rv r : pts <> [] -> (nl = 0 \/ 8 < nl)%nat -> integral_of ratio q pts (seq 0 nl) i rv r = None.
Proof.
  intros P N. unfold integral_of. destruct pts as [|p ps]; [congruence|]. rewrite (all_some_none _ (p :: ps) p); [reflexivity|left; reflexivity|]. apply legendre_list_none, N.
Qed.
(** The quadrature of channel l is the component of angular momentum l. *)
Lemma component_is id deg q draws (f : pt -> R) k l nl i rv r : promised id deg -> get_quadrature id = Some q -> 0 <= fst (draws i) <= 1 -> 0 <= snd (draws i) <= 1 ->
  (l < nl)%nat -> (k + l <= deg)%nat -> sphere_poly k f ->
  angular_component l (vscale (/ r) rv) f (nth l (integrals (fun _ _ _ => f) q draws nl i rv r) 0 / (4 * PI)).
Proof.
  intros P Q U1 U2 L K [g [G FG]]. destruct (promised_is id deg q P Q) as [id' [D Q']]. set (dir := vscale (/ r) rv).
  unfold integrals. rewrite (nth_indep _ 0 (integrate q (map (fun p => legendre_polynomial 0 (vdot p (vscale (/ r) rv)) * f p) (rotated q (fst (draws i)) (snd (draws i)))) * (2 * INR 0 + 1))) by (rewrite map_length, seq_length; exact L).
  rewrite (map_nth (fun l0 => integrate q (map (fun p => legendre_polynomial l0 (vdot p (vscale (/ r) rv)) * f p) (rotated q (fst (draws i)) (snd (draws i)))) * (2 * INR l0 + 1))), seq_nth by exact L. cbn [Nat.add]. fold dir.
  pose proof (unit_points id' q (fst (draws i)) (snd (draws i)) (ex_intro _ deg D) Q' U2) as UP.
  set (c := (2 * INR l + 1) / (4 * PI)).
  assert (PO : Poly deg (fun x y z => c * legendre_polynomial l (vdot (x, y, z) dir) * g x y z)).
  { apply (poly_le (0 + (l + k))); [lia|]. eapply Ext; [apply (poly_mult 0 (l + k)); [apply (Mono 0 c 0 0 0); lia|apply (poly_mult l k); [apply (legendre_poly dir l)|exact G]]|]. intros x y z. cbn. ring. }
  pose proof (C53_exact id' deg q _ (fst (draws i)) (snd (draws i)) D Q' PO U1 U2) as X.
  eapply sphere_ext_unit; [|match goal with |- sphere_integral _ ?v => match type of X with sphere_integral _ ?w => replace v with w; [exact X|] end end].
  - intros x y z U. cbv beta. fold c. rewrite (FG (x, y, z)) by (unfold vdot; cbn [fst snd]; lra). unfold at_pt. cbn [fst snd]. reflexivity.
  - transitivity (c * integrate q (map (fun p => legendre_polynomial l (vdot p dir) * f p) (rotated q (fst (draws i)) (snd (draws i))))).
    + rewrite <- integrate_scale, map_map. apply integrate_ext. apply map_ext_in. intros p I. eapply List.Forall_forall in UP; [|exact I]. cbv beta in UP. rewrite (FG p UP). unfold at_pt. destruct p as [[x y] z]. cbn [fst snd]. ring.
    + unfold c. unfold Rdiv. ring.
Qed.
Lemma component_unique l n f u v : angular_component l n f u -> angular_component l n f v -> u = v.
Proof. apply sphere_unique. Qed.

(** ** The loop over electrons *)
Lemma set_nth_app {A} (a b : list A) x y : set_nth (length a) x (a ++ y :: b) = a ++ x :: b.
Proof. induction a as [|z a IH]; [reflexivity|]. cbn [length app set_nth]. rewrite IH. reflexivity. Qed.
Lemma seq_app_fold {A} (body : nat -> A -> A) lo n m a : fori (lo + n) (lo + n + m) body (fori lo (lo + n) body a) = fori lo (lo + n + m) body a.
Proof.
  unfold fori. replace (lo + n + m - (lo + n))%nat with m by lia. replace (lo + n - lo)%nat with n by lia. replace (lo + n + m - lo)%nat with (n + m)%nat by lia. rewrite seq_app, fold_left_app. reflexivity.
Qed.
Lemma one_core_is ratio q ml draws nup ndown core : (2 <= ml <= 9)%nat ->
  one_core ratio q ml draws (nup + ndown) (0, nup, nup, nup + ndown)%nat core =
  Some (map (fun i => integrals ratio q draws (ml - 1) i (fst (nth i core ((0, 0, 0), 0))) (snd (nth i core ((0, 0, 0), 0)))) (seq 0 (nup + ndown))).
Proof.
  intros ML. unfold one_core. set (n := (nup + ndown)%nat). rewrite (seq_app_fold _ 0 nup ndown). cbn [Nat.add]. fold n. rewrite seq_length.
  set (F := fun i => integrals ratio q draws (ml - 1) i (fst (nth i core ((0, 0, 0), 0))) (snd (nth i core ((0, 0, 0), 0)))). unfold fori. rewrite Nat.sub_0_r.
  match goal with |- fold_left ?step _ _ = _ => assert (ST : forall k, (k <= n)%nat -> fold_left step (seq 0 k) (Some (repeat (repeat 0 (ml - 1)) n)) = Some (map F (seq 0 k) ++ repeat (repeat 0 (ml - 1)) (n - k))) end.
  { induction k as [|k IH]; intros K; [rewrite Nat.sub_0_r; reflexivity|]. rewrite seq_S, fold_left_app, IH by lia. cbn [fold_left Nat.add]. rewrite (integral_of_is ratio q draws (ml - 1) k) by lia. fold (F k). f_equal.
    replace (n - k)%nat with (S (n - S k)) by lia. cbn [repeat]. rewrite map_app. cbn [map]. rewrite <- app_assoc. cbn [app].
    replace k with (length (map F (seq 0 k))) at 1 by (rewrite map_length, seq_length; reflexivity). apply set_nth_app. }
  rewrite ST by lia. rewrite Nat.sub_diag, app_nil_r. reflexivity.
Qed.
Lemma total_firstn {A} (d : A) (l : list A) n f : total (firstn n l) f = total (seq 0 (Nat.min n (length l))) (fun k => f (nth k l d)).
Proof.
  revert l. induction n as [|n IH]; intros l; [reflexivity|]. destruct l as [|x l]; [reflexivity|]. cbn [firstn length Nat.min]. rewrite <- cons_seq. unfold total in *. cbn [map fold_right nth]. rewrite IH, <- seq_shift, map_map. reflexivity.
Qed.
(** the energy in terms of the quadratures *)
Lemma non_local_sum_is ratio q mol d l ml max_core draws nup ndown (pe : list pt) : proper_dict d -> present mol d l -> l <> [] -> (2 <= ml <= 9)%nat -> length pe = (nup + ndown)%nat ->
  let near i := nearest_first (nth i pe (0, 0, 0)) (grouped mol d (uniq [] l)) in
  non_local_sum ratio q (element_coords mol d l) d ml max_core draws (0, nup, nup, nup + ndown)%nat pe =
  Some (semilocal (ecp_atoms mol d l) pe max_core (ml - 1) near
     (fun i a l => nth l (integrals ratio q draws (ml - 1) i (vsub (nth i pe (0, 0, 0)) (snd a)) (vlen (vsub (nth i pe (0, 0, 0)) (snd a)))) 0 / (4 * PI))).
Proof.
  intros PD PR NE ML LP near. unfold non_local_sum. set (g := grouped mol d (uniq [] l)) in *.
  rewrite (all_some_map _ (fun e => map (seen_of ml e) (nearest_first e g))) by (intros e _; apply ecp_all_is; assumption).
  set (lists := map (fun e => map (seen_of ml e) (nearest_first e g)) pe).
  assert (LN : forall e, length (nearest_first e g) = length g) by (intros e; apply Permutation_length, nearest_perm).
  assert (NL : forall i, (i < length pe)%nat -> nth i lists [] = map (seen_of ml (nth i pe (0, 0, 0))) (near i)).
  { intros i I. unfold lists. rewrite (nth_map_lt _ pe i (0, 0, 0)) by exact I. reflexivity. }
  set (ncore := Nat.min max_core _).
  assert (CR : ncore = (if Nat.eqb (length pe) 0 then 0 else Nat.min max_core (length g))%nat).
  { unfold ncore, lists. destruct pe as [|e pe']; cbn [map length Nat.eqb]; [apply Nat.min_0_r|]. rewrite map_length, LN. reflexivity. }
  set (core_list := map _ (seq 0 ncore)). rewrite LP at 1.
  rewrite (all_some_map _ (fun core => map (fun i => integrals ratio q draws (ml - 1) i (fst (nth i core ((0, 0, 0), 0))) (snd (nth i core ((0, 0, 0), 0)))) (seq 0 (nup + ndown)))) by (intros core _; apply one_core_is, ML).
  set (ints := map _ core_list).
  assert (IN : forall i k, (i < length pe)%nat -> (k < ncore)%nat -> nth i (nth k ints []) [] = integrals ratio q draws (ml - 1) i (vsub (nth i pe (0, 0, 0)) (snd (nth k (near i) ([], (0, 0, 0))))) (vlen (vsub (nth i pe (0, 0, 0)) (snd (nth k (near i) ([], (0, 0, 0))))))).
  { intros i k I K. unfold ints, core_list. rewrite map_map. rewrite (nth_map_lt _ (seq 0 ncore) k 0%nat) by (rewrite seq_length; exact K). rewrite seq_nth by exact K. cbn [Nat.add].
    rewrite (nth_map_lt _ (seq 0 (nup + ndown)) i 0%nat) by (rewrite seq_length; lia). rewrite seq_nth by lia. cbn [Nat.add]. unfold transposed. rewrite map_map.
    assert (LL : (i < length lists)%nat) by (unfold lists; rewrite map_length; exact I).
    assert (KG : (k < length (near i))%nat) by (unfold near; rewrite LN; rewrite CR in K; destruct (Nat.eqb (length pe) 0); lia).
    rewrite (nth_map_lt _ lists i [] _ LL), (NL i I). cbn [fst snd]. rewrite (nth_map_lt (seen_of ml (nth i pe (0, 0, 0))) (near i) k ([], (0, 0, 0))) by exact KG. reflexivity. }
  f_equal. unfold semilocal. rewrite total_plus, Rplus_comm. f_equal.
  - (* local *) unfold lists. rewrite map_map. to_total.
    rewrite total_nth with (d := (0, 0, 0)). apply total_ext. intros i _. cbv beta. rewrite map_map. set (e := nth i pe (0, 0, 0)).
    to_total. rewrite (total_perm _ (ecp_atoms mol d l)).
    2:{ eapply Permutation_trans; [apply nearest_perm|]. unfold g. destruct (uniq_spec l [] (NoDup_nil _)) as [N U]. eapply Permutation_trans; [apply grouped_perm, N|]. rewrite (ecp_atoms_same mol d _ l); [apply Permutation_refl|]. intros s. rewrite U. cbn. tauto. }
    apply total_ext. intros a _. unfold seen_of. cbn [fst snd]. destruct ml as [|ml]; [lia|]. reflexivity.
  - (* nonlocal *) to_total.
    apply total_ext. intros i I. apply in_seq in I. cbv beta zeta. rewrite (total_firstn (([], (0, 0, 0)) : table * pt)). unfold near at 1. rewrite LN.
    assert (CE : ncore = Nat.min max_core (length g)) by (rewrite CR; replace (Nat.eqb (length pe) 0) with false by (symmetry; apply Nat.eqb_neq; lia); reflexivity). rewrite <- CE.
    to_total.
    apply total_ext. intros k K. apply in_seq in K. cbv beta.
    to_total.
    apply total_ext. intros c CC. apply in_seq in CC. rewrite IN, NL by lia. assert (KG : (k < length (near i))%nat) by (unfold near; rewrite LN; lia).
    rewrite (nth_map_lt (seen_of ml (nth i pe (0, 0, 0))) (near i) k ([], (0, 0, 0))) by exact KG. set (a := nth k (near i) ([], (0, 0, 0))). unfold seen_of. cbn [fst snd].
    rewrite (nth_map_lt _ (seq 0 ml) (S c) 0%nat) by (rewrite seq_length; lia). rewrite seq_nth by lia. cbn [Nat.add]. replace (Z.of_nat (S c) - 1)%Z with (Z.of_nat c) by lia. ring.
Qed.

Lemma fold_max : forall l n, (forall k, In k (n :: l) -> (k <= fold_left Nat.max l n)%nat) /\ In (fold_left Nat.max l n) (n :: l).
Proof.
  induction l as [|a l IH]; intros n; cbn [fold_left]; [split; [intros k [<-|[]]; lia|left; reflexivity]|]. destruct (IH (Nat.max n a)) as [U I]. split.
  - intros k [<-|[<-|K]]; [pose proof (U _ (or_introl eq_refl)); lia|pose proof (U _ (or_introl eq_refl)); lia|apply U; right; exact K].
  - destruct I as [E|I]; [|right; right; exact I]. rewrite <- E. destruct (Nat.max_spec n a) as [[_ ->]|[_ ->]]; [right; left|left]; reflexivity.
Qed.
Lemma most_max d ml : most_channels d ml -> max_l d = Some ml.
Proof.
  intros [[e [I E]] B]. unfold max_l. destruct (map (fun e0 => length (snd e0)) d) as [|n ns] eqn:M; [destruct d; [destruct I|discriminate]|]. f_equal. destruct (fold_max ns n) as [U J].
  assert (IM : In ml (n :: ns)) by (rewrite <- M, <- E; apply (in_map (fun e0 : string * table => length (snd e0))), I). apply U in IM. rewrite <- M in J. apply in_map_iff in J. destruct J as [e' [E' I']]. specialize (B e' I'). apply Nat.le_antisymm; [rewrite <- E'; exact B|exact IM].
Qed.

(** ** The theorem *)
Definition psi_value (v : value) : R := fst v * exp (snd v).
(** psi with electron i moved to the point in direction p on the sphere around a through that electron, over psi *)
Definition moved_ratio (psi : list pt -> value) (pe : list pt) (i : nat) (a : pt) (p : pt) : R :=
  psi_value (psi (set_nth i (vadd a (vscale (vlen (vsub (nth i pe (0, 0, 0)) a)) p)) pe)) / psi_value (psi pe).
Lemma psi_r_is psi pe i a p : fst (psi pe) = 1 \/ fst (psi pe) = -1 ->
  psi_r psi pe i (vsub (nth i pe (0, 0, 0)) a) (vlen (vsub (nth i pe (0, 0, 0)) a)) p = moved_ratio psi pe i a p.
Proof.
  intros S. unfold psi_r, moved_ratio, psi_value. set (r := vlen _).
  replace (vsub (vadd (vscale r p) (nth i pe (0, 0, 0))) (vsub (nth i pe (0, 0, 0)) a)) with (vadd a (vscale r p)).
  2:{ clearbody r. destruct (nth i pe (0, 0, 0)) as [[x y] z], a as [[u v] w], p as [[s t] k]. unfold vadd, vsub, vscale. cbn [fst snd]. (f_equal; [f_equal|]); ring. }
  set (num := psi (set_nth _ _ _)). set (den := psi pe) in *. unfold Rminus. rewrite exp_plus, exp_Ropp. pose proof (exp_pos (snd den)). destruct S as [-> | ->]; field; lra.
Qed.
Lemma set_nth_same {A} (d : A) : forall l i, set_nth i (nth i l d) l = l.
Proof. induction l as [|x l IH]; intros [|i]; cbn; [reflexivity..|]. rewrite IH. reflexivity. Qed.
Lemma integrals_ext ratio ratio' q draws nl i rv r : (forall p, ratio i rv r p = ratio' i rv r p) -> integrals ratio q draws nl i rv r = integrals ratio' q draws nl i rv r.
Proof. intros H. unfold integrals. apply map_ext. intros l. f_equal. f_equal. apply map_ext. intros p. rewrite H. reflexivity. Qed.
(** The effective core potential energy is, for every molecule, basis of channels, wavefunction and draws, the
    semi-local energy of exactly the atoms that have a potential and a listed element: each once, however often its
    element is listed; local part of all atoms, angular momentum components around the [max_core] nearest, those being exact
    wherever psi on the sphere is a polynomial the rule integrates. *)
Theorem C89_ecp : forall psi mol d l id deg ml max_core nup ndown draws (pe : list pt),
  promised id deg -> (forall i, 0 <= fst (draws i) <= 1 /\ 0 <= snd (draws i) <= 1) ->
  most_channels d ml -> (2 <= ml <= 9)%nat -> proper_dict d -> present mol d l -> l <> [] -> length pe = (nup + ndown)%nat ->
  fst (psi pe) = 1 \/ fst (psi pe) = -1 ->
  exists near, arranged (ecp_atoms mol d l) pe near /\ forall comp,
    (forall i a c, (i < length pe)%nat -> In a (firstn max_core (near i)) -> (c < ml - 1)%nat ->
       (exists k, (k + c <= deg)%nat /\ sphere_poly k (moved_ratio psi pe i (snd a))) /\
       angular_component c (vscale (/ vlen (vsub (nth i pe (0, 0, 0)) (snd a))) (vsub (nth i pe (0, 0, 0)) (snd a))) (moved_ratio psi pe i (snd a)) (comp i a c)) ->
    non_local_energy psi mol d l id max_core (0, nup, nup, nup + ndown)%nat draws pe = Some (semilocal (ecp_atoms mol d l) pe max_core (ml - 1) near comp).
Proof.
  intros psi mol d l id deg ml max_core nup ndown draws pe P DR MO ML PD PR NE LP SG. pose proof (most_max d ml MO) as M.
  exists (fun i => nearest_first (nth i pe (0, 0, 0)) (grouped mol d (uniq [] l))). split.
  - intros i. split; [|apply nearest_sorted]. eapply Permutation_trans; [apply nearest_perm|]. destruct (uniq_spec l [] (NoDup_nil _)) as [N U]. eapply Permutation_trans; [apply grouped_perm, N|].
    rewrite (ecp_atoms_same mol d _ l); [apply Permutation_refl|]. intros s. rewrite U. cbn. tauto.
  - intros comp HC. destruct (proj2 (C89_quadratures id) (ex_intro _ deg P)) as [q Q]. unfold non_local_energy. rewrite Q, M, non_local_sum_is by assumption. f_equal. unfold semilocal.
    apply total_ext. intros i I. apply in_seq in I. cbv zeta. f_equal. apply total_ext. intros a A. apply total_ext. intros c C. apply in_seq in C. f_equal.
    destruct (HC i a c ltac:(lia) A ltac:(lia)) as [[k [K SP]] CO]. destruct (DR i) as [U1 U2].
    rewrite (integrals_ext _ (fun _ _ _ => moved_ratio psi pe i (snd a))) by (intros p; apply psi_r_is, SG).
    eapply component_unique; [|exact CO]. eapply component_is; [exact P|exact Q|exact U1|exact U2|lia|exact K|exact SP].
Qed.
