(** C82, atomic orbitals: order and values. *)
From Coq Require Import Reals List Arith Lra Lia ZArith Factorial.
From Coquelicot Require Import Coquelicot.
From Verif Require Import Lin Wf_Model Gto_Model Gto_Spec Gto_Harm.
Import ListNotations.
Open Scope R_scope.

(** ** Reading back pyscf's arrays *)
Definition rectangular (s : shell) : Prop := forall r, In r (rows s) -> length (snd r) = n_contr s.
Lemma flat_map_nth_block {A B} (f : A -> list B) (n : nat) (l : list A) i p (d : B) (a0 : A) :
  (forall x, In x l -> length (f x) = n) -> (i < length l)%nat -> (p < n)%nat -> nth (i * n + p) (flat_map f l) d = nth p (f (nth i l a0)) d.
Proof.
  revert i. induction l as [|x l IH]; intros i H Hi Hp; [simpl in Hi; lia|]. simpl. destruct i as [|i].
  - simpl. rewrite app_nth1; [reflexivity|]. rewrite H by (left; auto). exact Hp.
  - rewrite app_nth2 by (rewrite H by (left; auto); nia). rewrite H by (left; auto). replace (S i * n + p - n)%nat with (i * n + p)%nat by nia.
    apply IH; [intros; apply H; right; auto|simpl in Hi; lia|auto].
Qed.
Lemma flat_map_const_length {A B} (f : A -> list B) n l : (forall x, In x l -> length (f x) = n) -> length (flat_map f l) = (length l * n)%nat.
Proof. induction l as [|x l IH]; intros H; simpl; auto. rewrite app_length, H, IH by (try (left; reflexivity); intros; apply H; right; auto). lia. Qed.
Lemma shell_env_length s : length (shell_env s) = (length (rows s) * S (n_contr s))%nat.
Proof.
  unfold shell_env. rewrite app_length, map_length, (flat_map_const_length _ (length (rows s))), seq_length by (intros; apply map_length). lia.
Qed.
Lemma list_eq_nth {A} (l l' : list A) d : length l = length l' -> (forall i, (i < length l)%nat -> nth i l d = nth i l' d) -> l = l'.
Proof. intros L H. apply nth_ext with d d; auto. Qed.
Lemma read_one pre s post : rectangular s -> read_shell (pre ++ shell_env s ++ post) {| b_angl := ell s; b_nprim := length (rows s); b_nctr := n_contr s; b_ptr := length pre |} = s.
Proof.
  intros RC. unfold read_shell. cbn [b_angl b_nprim b_nctr b_ptr]. rewrite skipn_app, skipn_all2, Nat.sub_diag by lia. cbn [app skipn].
  rewrite firstn_app, firstn_all2 by (rewrite shell_env_length; nia). rewrite shell_env_length.
  replace ((n_contr s + 1) * length (rows s) - length (rows s) * S (n_contr s))%nat with 0%nat by nia. cbn [firstn]. rewrite app_nil_r.
  assert (E : rows s = map (fun p => (nth (0 * length (rows s) + p) (shell_env s) 0, map (fun c => nth (c * length (rows s) + p) (shell_env s) 0) (seq 1 (n_contr s + 1 - 1)))) (seq 0 (length (rows s)))).
  { apply list_eq_nth with (d := (0, [])); [rewrite map_length, seq_length; auto|]. intros i Hi.
    set (f := fun p => _). rewrite (nth_indep (map f _) (0, []) (f 0%nat)) by (rewrite map_length, seq_length; exact Hi). rewrite (map_nth f), seq_nth by exact Hi. unfold f. cbn [Nat.add Nat.mul].
    replace (n_contr s + 1 - 1)%nat with (n_contr s) by lia. unfold shell_env at 1. rewrite app_nth1 by (rewrite map_length; exact Hi).
    rewrite (map_nth fst (rows s) (0, []) i : nth i (map fst (rows s)) 0 = _). rewrite (surjective_pairing (nth i (rows s) (0, []))) at 1. f_equal.
    assert (LN : length (snd (nth i (rows s) (0, []))) = n_contr s) by (apply RC, nth_In; exact Hi).
    apply list_eq_nth with (d := 0); [rewrite map_length, seq_length; auto|]. intros c Hc. rewrite LN in Hc.
    set (g := fun c => nth (c * length (rows s) + i) (shell_env s) 0). rewrite (nth_indep (map g _) 0 (g 0%nat)) by (rewrite map_length, seq_length; exact Hc).
    rewrite (map_nth g), seq_nth by exact Hc. unfold g, shell_env. rewrite app_nth2 by (rewrite map_length; nia). rewrite map_length.
    replace ((1 + c) * length (rows s) + i - length (rows s))%nat with (c * length (rows s) + i)%nat by nia.
    rewrite (flat_map_nth_block _ (length (rows s)) _ c i 0 0%nat); [|intros; apply map_length|rewrite seq_length; exact Hc|exact Hi].
    rewrite seq_nth by exact Hc. cbn [Nat.add]. set (h := fun r : R * list R => nth c (snd r) 0). rewrite (nth_indep (map h _) 0 (h (0, []))) by (rewrite map_length; exact Hi).
    rewrite (map_nth h). reflexivity. }
  destruct s as [l rs]. cbn [ell rows] in *. f_equal. symmetry. exact E.
Qed.
(** Whatever weights pyscf stores, the basis read back has every exponent with exactly the weights of its
    primitive, shell by shell, contraction by contraction. *)
Theorem C82_weights_readback : forall basis, (forall s, In s basis -> rectangular s) ->
  normalize_primitive_weights (make_bas 0 basis) (make_env basis) = basis.
Proof.
  intros basis RC. change (make_env basis) with (@nil R ++ make_env basis)%list. change 0%nat with (length (@nil R)). generalize (@nil R) as pre.
  induction basis as [|s l IH]; intros pre; [reflexivity|]. cbn [make_bas make_env flat_map normalize_primitive_weights map]. f_equal.
  - apply read_one. apply RC. left. reflexivity.
  - replace (length pre + length (rows s) * S (n_contr s))%nat with (length (pre ++ shell_env s)) by (rewrite app_length, shell_env_length; lia).
    rewrite app_assoc. apply IH. intros; apply RC; right; auto.
Qed.

(** ** The construction lists in closed form *)
(** one contracted shell: atom, shell, contraction *)
Definition cshell := (nat * shell * nat)%type.
Definition dc : cshell := (0%nat, {| ell := 0; rows := [] |}, 0%nat).
Definition atom_cshells (dict : nat -> list shell) (a : nat * atom_t) : list cshell :=
  flat_map (fun b => map (fun w => (fst a, b, w)) (seq 0 (n_contr b))) (dict (fst (snd a))).
Definition cshells (atoms : list atom_t) (dict : nat -> list shell) : list cshell := flat_map (atom_cshells dict) (combine (seq 0 (length atoms)) atoms).
Definition kept (x : R) : bool := if Rlt_dec tiny (Rabs x) then true else false.
Definition step (st : spec * nat) (c : cshell) : spec * nat := let '(a, b, w) := c in add_contraction a b st w.
Lemma fold_left_flat_map {A B S} (f : S -> B -> S) (g : A -> list B) l s : fold_left f (flat_map g l) s = fold_left (fun s x => fold_left f (g x) s) l s.
Proof. revert s. induction l as [|x l IH]; intros s; simpl; auto. rewrite fold_left_app. apply IH. Qed.
Lemma fold_left_map {A B S} (f : S -> B -> S) (g : A -> B) l s : fold_left f (map g l) s = fold_left (fun s x => f s (g x)) l s.
Proof. revert s. induction l as [|x l IH]; intros s; simpl; auto. Qed.
Lemma fold_left_ext {A S} (f g : S -> A -> S) l s : (forall s x, f s x = g s x) -> fold_left f l s = fold_left g l s.
Proof. intros E. revert s. induction l as [|x l IH]; intros s; simpl; auto. rewrite E. apply IH. Qed.
Lemma construction_flat atoms dict : construction atoms dict = fst (fold_left step (cshells atoms dict) (empty_spec, 0%nat)).
Proof.
  unfold construction, cshells. rewrite fold_left_flat_map. f_equal. apply fold_left_ext. intros s a. unfold atom_cshells, add_atom. rewrite fold_left_flat_map.
  apply fold_left_ext. intros s' b. unfold add_shell. rewrite fold_left_map. reflexivity.
Qed.
Definition prim := (R * R * nat * nat)%type.
Definition block (c : cshell) (i : nat) : list prim :=
  let '(a, b, w) := c in map (fun info => (fst info, nth w (snd info) 0, a, i)) (filter (fun info => kept (nth w (snd info) 0)) (rows b)).
Fixpoint blocks (l : list cshell) (i : nat) : list prim := match l with [] => [] | c :: l' => block c i ++ blocks l' (S i) end.
Fixpoint radials (l : list cshell) (i : nat) : list nat := match l with [] => [] | (a, b, w) :: l' => repeat i (2 * ell b + 1) ++ radials l' (S i) end.
Definition angulars (l : list cshell) : list (nat * Z * nat) := flat_map (fun c => let '(a, b, w) := c in map (fun m => (ell b, m, a)) (m_order (ell b))) l.
Definition p_alpha (p : prim) := let '(x, _, _, _) := p in x.
Definition p_w (p : prim) := let '(_, x, _, _) := p in x.
Definition p_atom (p : prim) := let '(_, _, x, _) := p in x.
Definition p_id (p : prim) := let '(_, _, _, x) := p in x.
Lemma add_primitives a cid w l sp : fold_left (add_primitive a cid w) l sp =
  let P := map (fun info => (fst info, nth w (snd info) 0, a, cid)) (filter (fun info => kept (nth w (snd info) 0)) l) in
  {| s_alpha := s_alpha sp ++ map p_alpha P; s_weights := s_weights sp ++ map p_w P; s_atom := s_atom sp ++ map p_atom P;
     s_cshell := s_cshell sp ++ map p_id P; s_radial := s_radial sp; s_angular := s_angular sp |}.
Proof.
  revert sp. induction l as [|x l IH]; intros sp; cbn [fold_left filter map]; cbv zeta.
  - rewrite !app_nil_r. destruct sp; reflexivity.
  - rewrite IH. cbv zeta. unfold add_primitive. destruct (Rlt_dec tiny (Rabs (nth w (snd x) 0))) as [L|L].
    + assert (K : kept (nth w (snd x) 0) = true) by (unfold kept; destruct (Rlt_dec tiny (Rabs (nth w (snd x) 0))); [reflexivity|contradiction]).
      rewrite K. cbn [s_alpha s_weights s_atom s_cshell s_radial s_angular map p_alpha p_w p_atom p_id]. rewrite <- !app_assoc. reflexivity.
    + assert (K : kept (nth w (snd x) 0) = false) by (unfold kept; destruct (Rlt_dec tiny (Rabs (nth w (snd x) 0))); [contradiction|reflexivity]).
      rewrite K. reflexivity.
Qed.
Lemma steps l : forall sp i, fold_left step l (sp, i) =
  ({| s_alpha := s_alpha sp ++ map p_alpha (blocks l i); s_weights := s_weights sp ++ map p_w (blocks l i); s_atom := s_atom sp ++ map p_atom (blocks l i);
      s_cshell := s_cshell sp ++ map p_id (blocks l i); s_radial := s_radial sp ++ radials l i; s_angular := s_angular sp ++ angulars l |}, (i + length l)%nat).
Proof.
  induction l as [|[[a b] w] l IH]; intros sp i; cbn [fold_left blocks radials angulars flat_map map length].
  - rewrite !app_nil_r, Nat.add_0_r. destruct sp; reflexivity.
  - cbn [step]. unfold add_contraction. rewrite add_primitives. cbv zeta. cbn [s_alpha s_weights s_atom s_cshell s_radial s_angular]. rewrite IH.
    cbn [s_alpha s_weights s_atom s_cshell s_radial s_angular]. rewrite !map_app, <- !app_assoc. replace (i + S (length l))%nat with (S i + length l)%nat by lia. reflexivity.
Qed.
Lemma construction_closed atoms dict : let l := cshells atoms dict in construction atoms dict =
  {| s_alpha := map p_alpha (blocks l 0); s_weights := map p_w (blocks l 0); s_atom := map p_atom (blocks l 0); s_cshell := map p_id (blocks l 0);
     s_radial := radials l 0; s_angular := angulars l |}.
Proof. cbv zeta. rewrite construction_flat, steps. reflexivity. Qed.
Lemma combine_maps {A B D} (f : A -> B) (g : A -> D) l : combine (map f l) (map g l) = map (fun x => (f x, g x)) l.
Proof. induction l as [|x l IH]; simpl; auto. rewrite IH. reflexivity. Qed.
Lemma filter_map {A B} (f : A -> B) (p : B -> bool) l : filter p (map f l) = map f (filter (fun x => p (f x)) l).
Proof. induction l as [|x l IH]; simpl; auto. destruct (p (f x)); simpl; rewrite IH; reflexivity. Qed.
Lemma block_ids c i p : In p (block c i) -> p_id p = i.
Proof. destruct c as [[a b] w]. unfold block. intros H. apply in_map_iff in H as (x & <- & _). reflexivity. Qed.
Lemma blocks_ids l : forall i p, In p (blocks l i) -> (i <= p_id p < i + length l)%nat.
Proof.
  induction l as [|c l IH]; intros i p H; [destruct H|]. cbn [blocks length] in *. apply in_app_or in H as [H|H]; [rewrite (block_ids _ _ _ H); lia|].
  apply IH in H. lia.
Qed.
Lemma filter_all {A} (p : A -> bool) l : (forall x, In x l -> p x = true) -> filter p l = l.
Proof. induction l as [|x l IH]; intros H; simpl; auto. rewrite (H x) by (left; auto). f_equal. apply IH. intros; apply H; right; auto. Qed.
Lemma filter_none {A} (p : A -> bool) l : (forall x, In x l -> p x = false) -> filter p l = [].
Proof. induction l as [|x l IH]; intros H; simpl; auto. rewrite (H x) by (left; auto). apply IH. intros; apply H; right; auto. Qed.
Lemma filter_block l d : forall i s, (i <= s < i + length l)%nat -> filter (fun p => Nat.eqb (p_id p) s) (blocks l i) = block (nth (s - i) l d) s.
Proof.
  induction l as [|c l IH]; intros i s H; cbn [length] in H; [lia|]. cbn [blocks]. rewrite filter_app. destruct (Nat.eq_dec s i) as [->|N].
  - rewrite Nat.sub_diag. cbn [nth]. rewrite filter_all, filter_none; [apply app_nil_r|..].
    + intros p P. apply blocks_ids in P. apply Nat.eqb_neq. lia.
    + intros p P. apply block_ids in P. apply Nat.eqb_eq. exact P.
  - rewrite filter_none by (intros p P; apply block_ids in P; apply Nat.eqb_neq; lia). cbn [app]. rewrite IH by lia.
    replace (s - i)%nat with (S (s - S i)) by lia. reflexivity.
Qed.
(** every contraction keeps a primitive *)
Definition used (c : cshell) : Prop := let '(a, b, w) := c in exists info, In info (rows b) /\ tiny < Rabs (nth w (snd info) 0).
Lemma used_block c i : used c -> block c i <> [].
Proof.
  destruct c as [[a b] w]. unfold used, block. intros (info & I & L) E. apply map_eq_nil in E.
  assert (X : In info (filter (fun info => kept (nth w (snd info) 0)) (rows b))).
  { apply filter_In. split; auto. unfold kept. destruct (Rlt_dec tiny (Rabs (nth w (snd info) 0))); [reflexivity|contradiction]. }
  rewrite E in X. destruct X.
Qed.
Lemma blocks_app l l' i : blocks (l ++ l') i = (blocks l i ++ blocks l' (i + length l))%list.
Proof. revert i. induction l as [|c l IH]; intros i; cbn [app blocks length]; [rewrite Nat.add_0_r; reflexivity|]. rewrite IH, <- app_assoc. do 2 f_equal. f_equal. lia. Qed.
Lemma segments l c0 : used c0 -> list_max (map p_id (blocks (l ++ [c0]) 0)) = length l.
Proof.
  intros U. apply Nat.le_antisymm.
  - apply list_max_le. apply Forall_forall. intros x X. apply in_map_iff in X as (p & <- & P). apply blocks_ids in P. rewrite app_length in P. simpl in P. lia.
  - rewrite blocks_app, map_app, list_max_app. cbn [blocks]. rewrite app_nil_r. pose proof (used_block c0 (0 + length l) U) as B. destruct (block c0 (0 + length l)) as [|p q] eqn:E; [contradiction|].
    assert (P : p_id p = length l) by (apply (block_ids c0 (0 + length l)); rewrite E; left; reflexivity).
    cbn [map list_max fold_right]. unfold list_max. cbn [fold_right]. rewrite P. lia.
Qed.
Lemma m_order_length l : length (m_order l) = (2 * l + 1)%nat.
Proof. unfold m_order. destruct (Nat.eqb_spec l 1) as [->|]; [reflexivity|]. rewrite map_length, seq_length. reflexivity. Qed.
Lemma m_order_spec l : m_order l = shell_orders l.
Proof. unfold m_order, shell_orders. destruct (Nat.eqb_spec l 1) as [->|N]; [reflexivity|]. destruct l as [|[|l]]; [reflexivity|contradiction|reflexivity]. Qed.
Lemma m_order_range l m : In m (m_order l) -> (Z.abs m <= Z.of_nat l)%Z.
Proof.
  unfold m_order. destruct (Nat.eqb_spec l 1) as [->|N].
  - cbn. intros [<-|[<-|[<-|[]]]]; lia.
  - intros H. apply in_map_iff in H as (k & <- & K). apply in_seq in K. lia.
Qed.
Lemma combine_repeat {A B} (l : list A) (v : B) n : length l = n -> combine l (repeat v n) = map (fun x => (x, v)) l.
Proof. intros <-. induction l as [|x l IH]; simpl; auto. rewrite IH. reflexivity. Qed.
Lemma combine_app_len {A B} (l1 l2 : list A) (k1 k2 : list B) : length l1 = length k1 -> combine (l1 ++ l2) (k1 ++ k2) = (combine l1 k1 ++ combine l2 k2)%list.
Proof. revert k1. induction l1 as [|x l1 IH]; intros [|y k1] H; simpl in *; try discriminate; auto. rewrite IH by lia. reflexivity. Qed.
Lemma map_repeat' {A B} (f : A -> B) x n : map f (repeat x n) = repeat (f x) n.
Proof. induction n as [|n IH]; simpl; auto. rewrite IH. reflexivity. Qed.
Lemma outer (F : nat * Z * nat -> R) (G : nat -> R) l : forall i,
  map (fun p => fst p * snd p) (combine (map F (angulars l)) (map G (radials l i))) =
  flat_map (fun c => let '((a, b, w), j) := c in map (fun m => F (ell b, m, a) * G j) (m_order (ell b))) (combine l (seq i (length l))).
Proof.
  induction l as [|[[a b] w] l IH]; intros i; [reflexivity|]. cbn [angulars flat_map radials length seq combine]. rewrite !map_app, combine_app_len.
  - rewrite map_app. f_equal; [|apply IH]. rewrite map_repeat', map_map, combine_repeat by (rewrite map_length; apply m_order_length). rewrite !map_map. reflexivity.
  - rewrite !map_length, repeat_length. apply m_order_length.
Qed.
Lemma rsum_filter {A} (k : A -> bool) (f : A -> R) l : rsum (map f (filter k l)) = fold_right Rplus 0 (map (fun x => if k x then f x else 0) l).
Proof. unfold rsum. induction l as [|x l IH]; simpl; auto. destruct (k x); simpl; rewrite IH; lra. Qed.
Lemma flat_map_ext_in {A B} (f g : A -> list B) l : (forall x, In x l -> f x = g x) -> flat_map f l = flat_map g l.
Proof. induction l as [|x l IH]; intros H; simpl; auto. rewrite (H x) by (left; auto). f_equal. apply IH. intros; apply H; right; auto. Qed.
Lemma max_l_bound atoms dict a b : In a atoms -> In b (dict (fst a)) -> (ell b <= max_l atoms dict)%nat.
Proof.
  intros A B. unfold max_l. assert (X : In (ell b) (flat_map (fun a => map ell (dict (fst a))) atoms)) by (apply in_flat_map; exists a; split; [exact A|apply in_map; exact B]).
  revert X. generalize (flat_map (fun a => map ell (dict (fst a))) atoms). induction l as [|x l IH]; intros [].
  - simpl. lia.
  - simpl. specialize (IH H). lia.
Qed.
Lemma cshell_in atoms dict a b w : In (a, b, w) (cshells atoms dict) -> (a < length atoms)%nat /\ In b (dict (fst (nth a atoms (0%nat, fun _ => 0)))) /\ (w < n_contr b)%nat.
Proof.
  unfold cshells, atom_cshells. intros H. apply in_flat_map in H as ((i & at_) & I & J). apply in_flat_map in J as (b' & B & W). apply in_map_iff in W as (w' & E & W).
  cbn [fst snd] in *. injection E. intros -> -> ->. apply in_seq in W.
  apply In_nth with (d := (0%nat, (0%nat, fun _ => 0))) in I as (k & K & I). rewrite combine_length, seq_length, Nat.min_id in K.
  rewrite combine_nth in I by apply seq_length. rewrite seq_nth in I by exact K. injection I. intros I2 I1. cbn in I1. subst k.
  split; [exact K|]. split; [|lia]. exact (eq_ind _ (fun z : atom_t => In b (dict (fst z))) B _ (eq_sym I2)).
Qed.
Definition displacement (r : vec) (a : atom_t) : vec := fun k => r k - snd a k.
Definition dist2 (d : vec) : R := d 0%nat * d 0%nat + d 1%nat * d 1%nat + d 2%nat * d 2%nat.
(** the values expected: atoms in the order given, the shells of their element in the order of the basis, the
    contractions of the shell, and within it x, y, z or m = -l ... l *)
Definition expected_aos (keep : R -> bool) (atoms : list atom_t) (dict : nat -> list shell) (r : vec) : list R :=
  flat_map (fun a => flat_map (fun b => flat_map (fun w => map (fun m =>
      let d := displacement r a in
      gaussian_sum keep (rows b) w (dist2 d) * solid (ell b) m (d 0%nat) (d 1%nat) (d 2%nat)) (shell_orders (ell b)))
    (seq 0 (n_contr b))) (dict (fst a))) atoms.
Lemma flat_map_flat_map {A B D} (f : B -> list D) (g : A -> list B) l : flat_map f (flat_map g l) = flat_map (fun x => flat_map f (g x)) l.
Proof. induction l as [|x l IH]; simpl; auto. rewrite flat_map_app, IH. reflexivity. Qed.
Lemma flat_map_map' {A B D} (f : B -> list D) (g : A -> B) l : flat_map f (map g l) = flat_map (fun x => f (g x)) l.
Proof. induction l as [|x l IH]; simpl; auto. rewrite IH. reflexivity. Qed.
Lemma flat_map_combine_l {A B D} (f : A -> list D) (l : list A) (k : list B) : length k = length l -> flat_map (fun p => f (fst p)) (combine l k) = flat_map f l.
Proof. revert k. induction l as [|x l IH]; intros [|y k] H; simpl in *; try discriminate; auto. rewrite IH by lia. reflexivity. Qed.
Definition every_contraction_used (atoms : list atom_t) (dict : nat -> list shell) : Prop :=
  forall a b w, In a atoms -> In b (dict (fst a)) -> (w < n_contr b)%nat -> exists p, In p (rows b) /\ tiny < Rabs (nth w (snd p) 0).
Theorem C82_atomic_orbitals : forall atoms dict r, every_contraction_used atoms dict ->
  eval_aos atoms dict r = expected_aos kept atoms dict r.
Proof.
  intros atoms dict r U. unfold eval_aos. rewrite construction_closed. cbv zeta. cbn [s_alpha s_weights s_atom s_cshell s_radial s_angular].
  set (l := cshells atoms dict).
  assert (UL : forall c, In c l -> used c).
  { intros [[a b] w] I. apply cshell_in in I as (A & B & W). apply (U (nth a atoms (0%nat, fun _ => 0)) b w); auto. apply nth_In. exact A. }
  rewrite !combine_maps.
  set (centre := fun a : nat => snd (nth a atoms (0%nat, fun _ => 0))). set (rs := fun a : nat => norm 3 (fun k => r k - centre a k) ^ 2).
  rewrite map_map. unfold segment_sum. rewrite combine_maps.
  set (N := (list_max (map p_id (blocks l 0)) + 1)%nat).
  set (segs := map _ (seq 0 N)).
  rewrite outer.
  assert (NL : l <> [] -> N = length l).
  { intros NE. destruct (exists_last NE) as (l' & c & E). unfold N. rewrite E, segments by (apply UL; rewrite E; apply in_or_app; right; left; reflexivity).
    rewrite app_length. reflexivity. }
  set (H := fun c : cshell => let '(a, b, w) := c in map (fun m => let d := displacement r (nth a atoms (0%nat, fun _ => 0)) in
      gaussian_sum kept (rows b) w (dist2 d) * solid (ell b) m (d 0%nat) (d 1%nat) (d 2%nat)) (shell_orders (ell b))).
  transitivity (flat_map (fun p => H (fst p)) (combine l (seq 0 (length l)))).
  - apply flat_map_ext_in. intros [[[a b] w] j] I. cbn [fst]. unfold H. rewrite <- m_order_spec.
    apply In_nth with (d := (dc, 0%nat)) in I as (k & K & I). rewrite combine_length, seq_length, Nat.min_id in K.
    rewrite combine_nth in I by (symmetry; apply seq_length). rewrite seq_nth in I by exact K. injection I. intros I2 I1. cbn [Nat.add] in I2. subst k.
    assert (IL : In (a, b, w) l) by (rewrite <- I1; apply nth_In; exact K). destruct (cshell_in _ _ _ _ _ IL) as (A & B & W).
    assert (NE : N = length l) by (apply NL; destruct l; [cbn in K; lia|discriminate]).
    assert (SEG : gather segs j 0 = gaussian_sum kept (rows b) w (dist2 (displacement r (nth a atoms (0%nat, fun _ => 0))))).
    { unfold gather. assert (LS : length segs = length l) by (unfold segs; rewrite map_length, seq_length; exact NE). rewrite LS, Nat.min_l by lia. unfold segs.
      match goal with |- nth j (map ?f _) 0 = _ => rewrite (nth_indep _ 0 (f 0%nat)) by (rewrite map_length, seq_length; lia); rewrite (map_nth f) end.
      rewrite seq_nth by lia. cbn [Nat.add]. rewrite filter_map. cbn [snd]. rewrite (filter_block l dc 0 j) by lia. rewrite Nat.sub_0_r, I1.
      unfold block. rewrite !map_map. cbn [fst snd p_alpha p_w p_atom]. rewrite (rsum_filter (fun info => kept (nth w (snd info) 0))).
      unfold gaussian_sum. f_equal. apply map_ext. intros p. destruct (kept (nth w (snd p) 0)); [|reflexivity]. rewrite Rmult_comm. f_equal. f_equal. f_equal.
      unfold rs. cbn [pow]. rewrite Rmult_1_r, norm3_sq. reflexivity. }
    rewrite SEG. apply map_ext_in. intros m M. cbv zeta. rewrite (solid_harmonic_entry _ _ (ell b) m); [|eapply max_l_bound; [apply nth_In; exact A|exact B]|apply m_order_range; exact M].
    rewrite Rmult_comm. reflexivity.
  - rewrite (flat_map_combine_l H) by apply seq_length. unfold l, cshells. rewrite flat_map_flat_map. unfold expected_aos.
    assert (GEN : forall pre post, atoms = (pre ++ post)%list -> flat_map (fun x => flat_map H (atom_cshells dict x)) (combine (seq (length pre) (length post)) post) =
      flat_map (fun a => flat_map (fun b => flat_map (fun w => map (fun m => let d := displacement r a in
      gaussian_sum kept (rows b) w (dist2 d) * solid (ell b) m (d 0%nat) (d 1%nat) (d 2%nat)) (shell_orders (ell b))) (seq 0 (n_contr b))) (dict (fst a))) post).
    { intros pre post. revert pre. induction post as [|a post IH]; intros pre E; [reflexivity|]. cbn [length seq combine flat_map]. f_equal.
      - unfold atom_cshells. cbn [fst snd]. rewrite flat_map_flat_map. apply flat_map_ext_in. intros b _. rewrite flat_map_map'. apply flat_map_ext_in. intros w _. unfold H.
        assert (NA : nth (length pre) atoms (0%nat, fun _ => 0) = a) by (rewrite E, app_nth2, Nat.sub_diag by lia; reflexivity). rewrite NA. reflexivity.
      - specialize (IH (pre ++ [a])%list). rewrite app_length in IH. cbn [length] in IH. rewrite Nat.add_1_r in IH. apply IH. rewrite <- app_assoc. exact E. }
    apply (GEN [] atoms eq_refl).
Qed.

(** The weights below the threshold change an orbital's radial part by at most 1e-12 per primitive. *)
Theorem C82_threshold : forall prims w d2, (forall p, In p prims -> 0 <= fst p) -> 0 <= d2 ->
  Rabs (gaussian_sum (fun _ => true) prims w d2 - gaussian_sum kept prims w d2) <= INR (length prims) * / 10 ^ 12.
Proof.
  intros prims w d2 A D. unfold gaussian_sum. induction prims as [|p l IH].
  - cbn [map fold_right length INR]. rewrite Rminus_0_r, Rabs_R0. lra.
  - cbn [map fold_right length]. rewrite S_INR. specialize (IH (fun q Q => A q (or_intror Q))).
    assert (B : Rabs (nth w (snd p) 0 * exp (- fst p * d2) - (if kept (nth w (snd p) 0) then nth w (snd p) 0 * exp (- fst p * d2) else 0)) <= / 10 ^ 12).
    { unfold kept, tiny. destruct (Rlt_dec (/ 10 ^ 12) (Rabs (nth w (snd p) 0))) as [L|L].
      - rewrite Rminus_diag_eq, Rabs_R0 by reflexivity. left. apply Rinv_0_lt_compat. apply pow_lt. lra.
      - rewrite Rminus_0_r, Rabs_mult. apply Rnot_lt_le in L. assert (E : 0 < exp (- fst p * d2) <= 1).
        { split; [apply exp_pos|]. rewrite <- exp_0. pose proof (A p (or_introl eq_refl)). destruct (Req_dec (- fst p * d2) 0) as [->|N]; [lra|]. left. apply exp_increasing. nra. }
        rewrite (Rabs_right (exp _)) by lra. pose proof (Rabs_pos (nth w (snd p) 0)). nra. }
    cbv beta. match goal with |- Rabs (?a + ?u - (?b + ?v)) <= _ => replace (a + u - (b + v)) with ((a - b) + (u - v)) by ring end.
    eapply Rle_trans; [apply Rabs_triang|]. lra.
Qed.

(** Every entry of the table of solid harmonics; homogeneous of degree l and harmonic. *)
Theorem C82_solid_harmonics : forall lm l m, (l <= lm)%nat -> (Z.abs m <= Z.of_nat l)%Z ->
  (forall r, (nth (Z.to_nat (m + Z.of_nat lm)) (solid_harmonic r lm) (fun _ => 0)) l = solid l m (r 0%nat) (r 1%nat) (r 2%nat)) /\
  (forall t x y z, solid l m (t * x) (t * y) (t * z) = t ^ l * solid l m x y z) /\ harmonic (solid l m).
Proof.
  intros lm l m L M. split; [intros r; apply solid_harmonic_entry; auto|]. split; [intros; apply solid_homogeneous; auto|apply solid_is_harmonic; auto].
Qed.
Lemma sqrt_coefficient A B c : 0 <= A -> 0 <= B -> 0 <= c -> A * (c * c) = B -> sqrt A * c = sqrt B.
Proof. intros HA HB HC <-. rewrite sqrt_mult by nra. rewrite sqrt_square by auto. reflexivity. Qed.
Lemma sqrt2_coefficient A B c : 0 <= A -> 0 <= B -> 0 <= c -> 2 * A * (c * c) = B -> sqrt 2 * sqrt A * c = sqrt B.
Proof. intros HA HB HC E. rewrite <- sqrt_mult by lra. apply sqrt_coefficient; auto. lra. Qed.
Ltac pi_field := pose proof PI_RGT_0; first [field; lra|unfold Rdiv; repeat (apply Rmult_le_pos; try lra); left; apply Rinv_0_lt_compat; lra|lra].
(** s, p (in the order x, y, z) and d shells, written out *)
Theorem C82_low_shells : forall x y z, let r2 := x * x + y * y + z * z in
  map (fun m => solid 0 m x y z) (shell_orders 0) = [sqrt (1 / (4 * PI))] /\
  map (fun m => solid 1 m x y z) (shell_orders 1) = [sqrt (3 / (4 * PI)) * x; sqrt (3 / (4 * PI)) * y; sqrt (3 / (4 * PI)) * z] /\
  map (fun m => solid 2 m x y z) (shell_orders 2) =
    [sqrt (15 / (4 * PI)) * (x * y); sqrt (15 / (4 * PI)) * (y * z); sqrt (5 / (16 * PI)) * (3 * (z * z) - r2);
     sqrt (15 / (4 * PI)) * (x * z); sqrt (15 / (16 * PI)) * (x * x - y * y)].
Proof.
  intros x y z r2. pose proof PI_RGT_0 as P.
  assert (F00 : sphere_factor 0 0 = sqrt (1 / (4 * PI))) by (unfold sphere_factor; f_equal; simpl; field; lra).
  assert (F10 : sphere_factor 1 0 = sqrt (3 / (4 * PI))) by (unfold sphere_factor; f_equal; simpl; field; lra).
  assert (F11 : sphere_factor 1 1 = sqrt (3 / (8 * PI))) by (unfold sphere_factor; f_equal; simpl; field; lra).
  assert (F20 : sphere_factor 2 0 = sqrt (5 / (4 * PI))) by (unfold sphere_factor; f_equal; simpl; field; lra).
  assert (F21 : sphere_factor 2 1 = sqrt (5 / (24 * PI))) by (unfold sphere_factor; f_equal; simpl; field; lra).
  assert (F22 : sphere_factor 2 2 = sqrt (5 / (96 * PI))) by (unfold sphere_factor; f_equal; simpl; field; lra).
  assert (G11 : sqrt 2 * sqrt (3 / (8 * PI)) * 1 = sqrt (3 / (4 * PI))) by (apply sqrt2_coefficient; pi_field).
  assert (G20 : sqrt (5 / (4 * PI)) * / 2 = sqrt (5 / (16 * PI))) by (apply sqrt_coefficient; pi_field).
  assert (G21 : sqrt 2 * sqrt (5 / (24 * PI)) * 3 = sqrt (15 / (4 * PI))) by (apply sqrt2_coefficient; pi_field).
  assert (G22 : sqrt 2 * sqrt (5 / (96 * PI)) * 3 = sqrt (15 / (16 * PI))) by (apply sqrt2_coefficient; pi_field).
  assert (G22' : sqrt 2 * sqrt (5 / (96 * PI)) * 6 = sqrt (15 / (4 * PI))) by (apply sqrt2_coefficient; pi_field).
  assert (S0 : forall l, solid l 0 x y z = sphere_factor l 0 * zonal l 0 z r2) by reflexivity.
  assert (SP : forall l k, solid l (Zpos k) x y z = sqrt 2 * (sphere_factor l (Pos.to_nat k) * zonal l (Pos.to_nat k) z r2) * re_pow (Pos.to_nat k) x y) by reflexivity.
  assert (SN : forall l k, solid l (Zneg k) x y z = sqrt 2 * (sphere_factor l (Pos.to_nat k) * zonal l (Pos.to_nat k) z r2) * im_pow (Pos.to_nat k) x y) by reflexivity.
  split; [|split].
  - change (shell_orders 0) with [0%Z]. cbn [map]. rewrite S0, F00. f_equal. unfold zonal. cbn [Nat.sub zonal_pair fst odd_factorial]. ring.
  - change (shell_orders 1) with [1%Z; (-1)%Z; 0%Z]. cbn [map]. rewrite S0, SP, SN, F10. change (Pos.to_nat 1) with 1%nat. rewrite F11.
    unfold zonal. cbn [Nat.sub zonal_pair fst odd_factorial re_pow im_pow INR]. rewrite <- G11 at 2 3. f_equal; [ring|]. f_equal; [ring|]. f_equal. field.
  - change (shell_orders 2) with [(-2)%Z; (-1)%Z; 0%Z; 1%Z; 2%Z]. cbn [map]. rewrite S0, !SP, !SN, F20. change (Pos.to_nat 1) with 1%nat. change (Pos.to_nat 2) with 2%nat.
    rewrite F21, F22. unfold zonal. cbn [Nat.sub zonal_pair fst odd_factorial re_pow im_pow INR]. rewrite <- G20, <- G22. rewrite <- G22' at 1. rewrite <- G21. unfold r2.
    f_equal; [ring|]. f_equal; [field|]. f_equal; [field|]. f_equal; [field|]. f_equal. ring.
Qed.

(** Necessary: when the last contraction of the basis has only weights below the threshold, its orbitals are not
    the (almost zero) ones of the basis but copies of the contraction before it. *)
Definition one_atom : list atom_t := [(0%nat, fun _ => 0)].
Definition two_contractions : nat -> list shell := fun _ => [{| ell := 0; rows := [(1, [1; 0])] |}].
Theorem C82_empty_contraction_refuted : forall r,
  exists v, 0 < v /\ eval_aos one_atom two_contractions r = [v; v] /\ exists u, expected_aos kept one_atom two_contractions r = [u; 0].
Proof.
  intros r. assert (K1 : kept 1 = true). { unfold kept, tiny. destruct (Rlt_dec (/ 10 ^ 12) (Rabs 1)) as [|N]; [reflexivity|]. exfalso. apply N. rewrite Rabs_R1. rewrite <- Rinv_1. apply Rinv_lt_contravar; [rewrite Rmult_1_l; apply pow_lt; lra|]. apply Rlt_pow_R1; [lra|lia]. }
  assert (K0 : kept 0 = false). { unfold kept, tiny. destruct (Rlt_dec (/ 10 ^ 12) (Rabs 0)) as [L|]; [|reflexivity]. exfalso. rewrite Rabs_R0 in L. assert (0 < / 10 ^ 12) by (apply Rinv_0_lt_compat, pow_lt; lra). lra. }
  assert (X : eval_aos one_atom two_contractions r = [solid 0 0 (r 0%nat - 0) (r 1%nat - 0) (r 2%nat - 0) * (exp (- (1) * norm 3 (fun k => r k - 0) ^ 2) * 1 + 0);
     solid 0 0 (r 0%nat - 0) (r 1%nat - 0) (r 2%nat - 0) * (exp (- (1) * norm 3 (fun k => r k - 0) ^ 2) * 1 + 0)]).
  { unfold eval_aos. rewrite construction_closed. cbv zeta. cbn [s_alpha s_weights s_atom s_cshell s_radial s_angular].
    assert (B : blocks (cshells one_atom two_contractions) 0 = [(1, 1, 0%nat, 0%nat)]).
    { cbn -[kept]. rewrite K1, K0. reflexivity. }
    rewrite B. pose proof (solid_harmonic_entry (fun k => r k - 0) 0 0 0 ltac:(lia) ltac:(cbn; lia)) as S. cbn -[solid_harmonic solid norm exp] in S |- *.
    unfold gather. cbn -[solid_harmonic solid norm exp]. rewrite S. reflexivity. }
  destruct (C82_low_shells (r 0%nat - 0) (r 1%nat - 0) (r 2%nat - 0)) as [LS _]. pose proof (f_equal (hd 0) LS) as LS'. change (solid 0 0 (r 0%nat - 0) (r 1%nat - 0) (r 2%nat - 0) = sqrt (1 / (4 * PI))) in LS'.
  eexists. split; [|split; [exact X|]].
  - rewrite LS'. apply Rmult_lt_0_compat; [apply sqrt_lt_R0; pose proof PI_RGT_0; apply Rdiv_lt_0_compat; lra|]. pose proof (exp_pos (- (1) * norm 3 (fun k => r k - 0) ^ 2)). lra.
  - eexists. unfold expected_aos. cbn -[kept gaussian_sum solid]. f_equal. f_equal. unfold gaussian_sum. cbn -[kept]. rewrite K0. ring.
Qed.
(** A basis that meets the hypothesis: an s and a p shell on two atoms. *)
Example C82_basis_example : every_contraction_used [(0%nat, fun _ => 0); (1%nat, fun k => INR k)]
  (fun z => match z with O => [{| ell := 0; rows := [(1, [1])] |}] | _ => [{| ell := 1; rows := [(1, [1; 2]); (2, [0; 1])] |}] end).
Proof.
  assert (T : tiny < 1) by (unfold tiny; rewrite <- Rinv_1; apply Rinv_lt_contravar; [rewrite Rmult_1_l; apply pow_lt; lra|apply Rlt_pow_R1; [lra|lia]]).
  intros a b w A B W. destruct A as [<-|[<-|[]]]; cbn [fst] in B; destruct B as [<-|[]]; cbn in W.
  - exists (1, [1]). split; [left; reflexivity|]. replace w with 0%nat by lia. cbn. rewrite Rabs_R1. exact T.
  - exists (1, [1; 2]). split; [left; reflexivity|]. destruct w as [|[|w]]; [cbn; rewrite Rabs_R1; exact T|cbn; rewrite Rabs_right by lra; lra|lia].
Qed.
