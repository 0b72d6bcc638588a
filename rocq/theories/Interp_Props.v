From Coq Require Import List ZArith Bool Arith Lia.
From Verif Require Import Interp_Model Interp_Spec.
Import ListNotations.
Open Scope Z_scope.

Section Props.
Context {V : Type}.
Implicit Types (j : jaxpr V) (s : env V) (m : memory V).
Definition count (v : nat) (l : list nat) : Z := Z.of_nat (count_occ Nat.eq_dec l v).
Lemma count_cons v w l : count v (w :: l) = (if Nat.eqb w v then 1 else 0) + count v l.
Proof. unfold count. simpl. destruct (Nat.eq_dec w v), (Nat.eqb_spec w v); try contradiction; lia. Qed.
Lemma count_nonneg v l : 0 <= count v l.
Proof. unfold count. lia. Qed.
Lemma count_app v a b : count v (a ++ b) = count v a + count v b.
Proof. unfold count. rewrite count_occ_app. lia. Qed.
Lemma count_in v l : In v l <-> 0 < count v l.
Proof. unfold count. rewrite (count_occ_In Nat.eq_dec). lia. Qed.

(** [base v] references are never consumed by the reads in [todo]. *)
Record ok (base : nat -> Z) (todo : list nat) s m : Prop :=
  { ok_base : forall v, 0 <= base v;
    ok_cnt : forall v, cnt s v = base v + count v todo;
    ok_store : forall v, store s v = if 0 <? cnt s v then m v else None }.

Lemma ok_read base a todo s m : ok base (vars_of [a] ++ todo) s m ->
  match look m a with
  | None => read s a = None
  | Some x => exists s', read s a = Some (x, s') /\ ok base todo s' m
  end.
Proof.
  intros [B C S]. destruct a as [x|v]; cbn [look read vars_of flat_map app] in *.
  - exists s. split; [reflexivity|]. split; auto.
  - pose proof (C v) as Cv. rewrite count_cons, Nat.eqb_refl in Cv. pose proof (count_nonneg v todo). pose proof (B v).
    pose proof (S v) as Sv. rewrite (proj2 (Z.ltb_lt 0 (cnt s v))) in Sv by lia. rewrite Sv. destruct (m v) as [x|] eqn:M; [|reflexivity].
    destruct (Z.eqb_spec (cnt s v - 1) 0) as [E|N]; eexists; (split; [reflexivity|]); split; auto; cbn [cnt store]; intros w; unfold upd;
      destruct (Nat.eqb_spec w v) as [->|NE]; try lia.
    + rewrite C, count_cons. destruct (Nat.eqb_spec v w); [congruence|lia].
    + replace (0 <? 0) with false by reflexivity. reflexivity.
    + rewrite S. reflexivity.
    + rewrite C, count_cons. destruct (Nat.eqb_spec v w); [congruence|lia].
    + rewrite (proj2 (Z.ltb_lt 0 (cnt s v - 1))) by lia. rewrite Sv, M. reflexivity.
    + rewrite S. reflexivity.
Qed.
Lemma ok_read_many base m : forall l todo s, ok base (vars_of l ++ todo) s m ->
  match look_all m l with
  | None => read_many s l = None
  | Some xs => exists s', read_many s l = Some (xs, s') /\ ok base todo s' m
  end.
Proof.
  induction l as [|a l IH]; intros todo s O.
  - exists s. split; [reflexivity|exact O].
  - cbn [look_all read_many]. assert (O1 : ok base (vars_of [a] ++ (vars_of l ++ todo)) s m).
    { replace (vars_of [a] ++ vars_of l ++ todo) with (vars_of (a :: l) ++ todo); auto. unfold vars_of. cbn [flat_map]. rewrite app_nil_r, app_assoc. reflexivity. }
    pose proof (ok_read base a _ s m O1) as R. destruct (look m a) as [x|].
    + destruct R as (s1 & -> & O2). specialize (IH todo s1 O2). destruct (look_all m l) as [xs|].
      * destruct IH as (s2 & -> & O3). eexists. split; [reflexivity|exact O3].
      * rewrite IH. reflexivity.
    + rewrite R. destruct (look_all m l); reflexivity.
Qed.
Lemma ok_write_many base todo : forall vs xs s m, ok base todo s m -> ok base todo (write_many s vs xs) (put_all m vs xs).
Proof.
  induction vs as [|v vs IH]; intros [|x xs] s m O; cbn [write_many put_all]; auto.
  apply IH. destruct O as [B C S]. unfold write. destruct (Z.ltb_spec 0 (cnt s v)) as [L|G]; split; auto; cbn [cnt store]; intros w.
  - unfold upd. destruct (Nat.eqb_spec w v) as [->|NE]; [rewrite (proj2 (Z.ltb_lt _ _) L); reflexivity|apply S].
  - destruct (Nat.eqb_spec w v) as [->|NE]; [|apply S]. rewrite S. rewrite (proj2 (Z.ltb_ge 0 (cnt s v))) by lia. reflexivity.
Qed.
Definition reads (es : list (eqn V)) : list nat := flat_map (fun e => vars_of (ins e)) es.
Lemma ok_run base : forall es todo s m, ok base (reads es ++ todo) s m ->
  match plain_run m es with
  | None => run s es = None
  | Some m' => exists s', run s es = Some s' /\ ok base todo s' m'
  end.
Proof.
  induction es as [|e es IH]; intros todo s m O.
  - exists s. split; [reflexivity|exact O].
  - cbn [plain_run run]. assert (O1 : ok base (vars_of (ins e) ++ (reads es ++ todo)) s m).
    { rewrite app_assoc. exact O. }
    pose proof (ok_read_many base m (ins e) _ s O1) as R. destruct (look_all m (ins e)) as [xs|].
    + destruct R as (s1 & -> & O2). destruct (op e xs) as [ys|]; [|reflexivity]. apply IH. apply ok_write_many. exact O2.
    + rewrite R. reflexivity.
Qed.

Lemma bump_count l : forall c v, fold_left bump l c v = c v + count v l.
Proof.
  induction l as [|w l IH]; intros c v; [unfold count; simpl; lia|]. cbn [fold_left]. rewrite IH, count_cons. unfold bump, upd.
  destruct (Nat.eqb_spec v w), (Nat.eqb_spec w v); subst; try congruence; lia.
Qed.
Lemma pin_count l : forall (c : nat -> Z) v, fold_left (fun c v => upd c v int32_max) l c v = if 0 <? count v l then int32_max else c v.
Proof.
  induction l as [|w l IH]; intros c v; [reflexivity|]. cbn [fold_left]. rewrite IH, count_cons. pose proof (count_nonneg v l). unfold upd.
  destruct (Nat.eqb_spec w v) as [->|N].
  - rewrite (proj2 (Z.ltb_lt 0 (1 + _))) by lia. rewrite Nat.eqb_refl. destruct (0 <? count v l); reflexivity.
  - replace (Nat.eqb v w) with false by (symmetry; apply Nat.eqb_neq; congruence). reflexivity.
Qed.
Lemma mentions_count v l : Z.of_nat (mentions v l) = count v (@vars_of V l).
Proof.
  unfold mentions. induction l as [|[x|w] l IH]; [reflexivity|exact IH|]. cbn [filter vars_of flat_map app]. rewrite count_cons.
  fold (@vars_of V l). rewrite <- IH. destruct (Nat.eqb w v); cbn [length]; lia.
Qed.
Lemma uses_count v es : Z.of_nat (operand_uses v es) = count v (reads es).
Proof.
  unfold operand_uses, reads. induction es as [|e es IH]; [reflexivity|]. cbn [map list_sum fold_right flat_map]. rewrite count_app, <- mentions_count.
  unfold list_sum in IH. rewrite <- IH. lia.
Qed.

(** The references that survive all reads: one for every input, none for an intermediate
    value, and what is left of the pin for a result. *)
Definition kept j (v : nat) : Z :=
  if (0 <? result_uses v j)%nat then int32_max - Z.of_nat (operand_uses v (eqns j)) - Z.of_nat (result_uses v j)
  else count v (invars j ++ constvars j).
Definition fits j : Prop :=
  forall v, (0 < result_uses v j)%nat -> Z.of_nat (operand_uses v (eqns j)) + Z.of_nat (result_uses v j) <= int32_max.
Lemma ok_init j consts args : fits j -> ok (kept j) (reads (eqns j) ++ vars_of (outvars j)) (init j consts args) (plain_init j consts args).
Proof.
  intros F. unfold init, plain_init. apply ok_write_many, ok_write_many. split; cbn [cnt store].
  - intros v. unfold kept. destruct (Nat.ltb_spec 0 (result_uses v j)) as [L|]; [|apply count_nonneg]. specialize (F v L). lia.
  - intros v. unfold init_counter. rewrite pin_count, !bump_count, count_app. unfold kept, result_uses. rewrite <- !mentions_count. fold (reads (eqns j)). rewrite uses_count.
    destruct (Nat.ltb_spec 0 (mentions v (outvars j))) as [L|G].
    + rewrite (proj2 (Z.ltb_lt 0 _)) by lia. rewrite count_app, <- mentions_count. lia.
    + rewrite (proj2 (Z.ltb_ge 0 _)) by lia. rewrite !count_app, <- mentions_count. lia.
  - intros v. destruct (_ <? _); reflexivity.
Qed.
End Props.

(** C40: the interpreter computes what plain evaluation computes, exceptions included, as
    long as no result is read more than 2^31 - 1 times. *)
Definition read_at_most_int32 {V} (j : jaxpr V) : Prop :=
  forall v, (0 < result_uses v j)%nat -> Z.of_nat (operand_uses v (eqns j) + result_uses v j) <= 2 ^ 31 - 1.
Theorem C40_results : forall (V : Type) (j : jaxpr V) (consts args : list V), read_at_most_int32 j ->
  eval j consts args = plain_eval j consts args.
Proof.
  intros V j consts args F. assert (F' : fits j) by (intros v H; specialize (F v H); unfold int32_max; lia).
  pose proof (ok_init j consts args F') as O. unfold eval, plain_eval. apply ok_run in O. destruct (plain_run _ _) as [m|].
  - destruct O as (s & -> & O). rewrite <- (app_nil_r (vars_of (outvars j))) in O. apply ok_read_many in O. destruct (look_all m (outvars j)) as [xs|].
    + destruct O as (s' & -> & _). reflexivity.
    + rewrite O. reflexivity.
  - rewrite O. reflexivity.
Qed.

(** C40, memory: after any number of equations the environment holds exactly the values
    already computed that are inputs, results, or operands of a later equation. *)
Definition split_at {V} (k : nat) (j : jaxpr V) : list (eqn V) * list (eqn V) := (firstn k (eqns j), skipn k (eqns j)).
Theorem C40_liveness : forall (V : Type) (j : jaxpr V) (consts args : list V) (k : nat) (m : memory V), read_at_most_int32 j ->
  plain_run (plain_init j consts args) (firstn k (eqns j)) = Some m ->
  exists s, run (init j consts args) (firstn k (eqns j)) = Some s /\
  forall v, store s v =
    if (existsb (Nat.eqb v) (invars j ++ constvars j) || (0 <? result_uses v j)%nat || (0 <? operand_uses v (skipn k (eqns j)))%nat)%bool
    then m v else None.
Proof.
  intros V j consts args k m F R. assert (F' : fits j) by (intros v H; specialize (F v H); unfold int32_max; lia).
  pose proof (ok_init j consts args F') as O. rewrite <- (firstn_skipn k (eqns j)) in O at 1. unfold reads in O. rewrite flat_map_app, <- app_assoc in O.
  apply ok_run in O. rewrite R in O. destruct O as (s & E & [B C S]). exists s. split; [exact E|]. intros v. rewrite S, C. fold (reads (skipn k (eqns j))).
  rewrite count_app, <- uses_count, <- mentions_count. unfold kept. fold (result_uses v j).
  pose proof (uses_count v (skipn k (eqns j))) as U1.
  assert (U : (operand_uses v (skipn k (eqns j)) <= operand_uses v (eqns j))%nat).
  { apply Nat2Z.inj_le. rewrite !uses_count. rewrite <- (firstn_skipn k (eqns j)) at 2. unfold reads. rewrite flat_map_app, count_app. pose proof (count_nonneg v (flat_map (fun e => vars_of (ins e)) (firstn k (eqns j)))). lia. }
  destruct (Nat.ltb_spec 0 (result_uses v j)) as [L|G].
  - rewrite orb_true_r. specialize (F' v L). rewrite (proj2 (Z.ltb_lt 0 _)) by lia. reflexivity.
  - rewrite orb_false_r. replace (result_uses v j) with 0%nat by lia.
    destruct (existsb (Nat.eqb v) (invars j ++ constvars j)) eqn:X.
    + apply existsb_exists in X as (w & I & W). apply Nat.eqb_eq in W. subst w. apply count_in in I. cbn [orb]. rewrite (proj2 (Z.ltb_lt 0 _)) by lia. reflexivity.
    + assert (count v (invars j ++ constvars j) = 0).
      { pose proof (count_nonneg v (invars j ++ constvars j)). destruct (Z.eq_dec (count v (invars j ++ constvars j)) 0); auto.
        assert (In v (invars j ++ constvars j)) by (apply count_in; lia). assert (existsb (Nat.eqb v) (invars j ++ constvars j) = true); [|congruence].
        apply existsb_exists. exists v. split; auto. apply Nat.eqb_refl. }
      rewrite H. cbn [orb]. destruct (Nat.ltb_spec 0 (operand_uses v (skipn k (eqns j)))); [rewrite (proj2 (Z.ltb_lt 0 _)) by lia|rewrite (proj2 (Z.ltb_ge 0 _)) by lia]; reflexivity.
Qed.

(** The bound is sharp: a program that returns its input 2^31 times fails. *)
Lemma read_repeat {V} (v : nat) (x : V) : forall n (s : env V), store s v = Some x -> cnt s v = Z.of_nat n -> (0 < n)%nat ->
  read_many s (repeat (Var v) (S n)) = None.
Proof.
  induction n as [|n IH]; intros s S C P; [lia|].
  assert (U : forall s l, read_many s (@Var V v :: l) = match read s (Var v) with None => None | Some (x, s1) => match read_many s1 l with None => None | Some (xs, s2) => Some (x :: xs, s2) end end) by reflexivity.
  change (repeat (Var v) (Datatypes.S (Datatypes.S n))) with (@Var V v :: repeat (Var v) (Datatypes.S n)). rewrite U. cbn [read]. rewrite S, C.
  destruct (Z.eqb_spec (Z.of_nat (Datatypes.S n) - 1) 0) as [E|N].
  - assert (n = 0%nat) by lia. subst n. cbn [repeat read_many read store]. unfold upd. rewrite Nat.eqb_refl. reflexivity.
  - rewrite IH; auto; cbn [cnt store]; unfold upd; rewrite ?Nat.eqb_refl; lia.
Qed.
Lemma sharp {V} (x : V) n : Z.of_nat n = int32_max ->
  let j := {| constvars := []; invars := [0%nat]; eqns := []; outvars := repeat (Var 0%nat) (S n) |} in
  eval j [] [x] = None.
Proof.
  intros N j. assert (NP : (0 < n)%nat) by (unfold int32_max in N; lia).
  assert (C : forall c, fold_left (fun c v => upd c v int32_max) (@vars_of V (repeat (Var 0%nat) (S n))) c 0%nat = int32_max).
  { intros c. rewrite pin_count. cbn [repeat]. change (vars_of (Var 0%nat :: repeat (Var 0%nat) n)) with (0%nat :: @vars_of V (repeat (Var 0%nat) n)).
    rewrite count_cons. cbn [Nat.eqb]. pose proof (count_nonneg 0 (@vars_of V (repeat (Var 0%nat) n))). rewrite (proj2 (Z.ltb_lt 0 _)) by lia. reflexivity. }
  assert (K : init_counter j 0%nat = int32_max) by (unfold init_counter, j; cbn [outvars]; apply C).
  unfold eval. change (eqns j) with (@nil (eqn V)). cbn [run]. change (outvars j) with (repeat (@Var V 0%nat) (S n)).
  rewrite (read_repeat 0 x n); auto; unfold init; change (constvars j) with (@nil nat); change (invars j) with [0%nat]; cbn [write_many]; unfold write; cbn [cnt]; rewrite K;
    change (0 <? int32_max) with true; cbn [cnt store]; [reflexivity|]. rewrite K. symmetry. exact N.
Qed.
Theorem C40_limit_is_sharp : forall (V : Type) (x : V) (n : nat), Z.of_nat n = 2 ^ 31 ->
  let j := {| constvars := []; invars := [0%nat]; eqns := []; outvars := repeat (Var 0%nat) n |} in
  eval j [] [x] = None /\ plain_eval j [] [x] = Some (repeat x n).
Proof.
  intros V x n N j. split.
  - unfold j. destruct n as [|n]; [lia|]. apply sharp. unfold int32_max. lia.
  - unfold plain_eval. change (eqns j) with (@nil (eqn V)). cbn [plain_run]. change (outvars j) with (repeat (@Var V 0%nat) n).
    set (m := plain_init j [] [x]). assert (M : m 0%nat = Some x) by reflexivity. clearbody m. clear N j.
    induction n as [|n IH]; [reflexivity|]. cbn [repeat look_all look]. rewrite IH, M. reflexivity.
Qed.

(** x, y = inputs 0, 1; 2 := x + y; 3 := 2 * 2; 4 := dropped; result [3; 0]. *)
Example C40_example :
  let j := {| constvars := []; invars := [0; 1]%nat;
              eqns := [ {| ins := [Var 0; Var 1]%nat; outs := [2]%nat; op := fun l => match l with [a; b] => Some [a + b] | _ => None end |};
                        {| ins := [Var 2; Var 2]%nat; outs := [3; 4]%nat; op := fun l => match l with [a; b] => Some [a * b; a - b] | _ => None end |} ];
              outvars := [Var 3; Var 0]%nat |} in
  eval j [] [3; 4] = Some [49; 3] /\ read_at_most_int32 j /\
  (exists s, run (init j [] [3; 4]) (eqns j) = Some s /\ store s 2%nat = None /\ store s 3%nat = Some 49 /\ store s 4%nat = None /\ store s 1%nat = Some 4).
Proof.
  intros j. split; [reflexivity|]. split.
  - intros v H. unfold result_uses, operand_uses, mentions in *. destruct v as [|[|[|[|[|v]]]]]; cbn in *; lia.
  - eexists. split; [reflexivity|]. cbn. auto.
Qed.
Print Assumptions C40_results.
Print Assumptions C40_liveness.
