(** C44: soundness of the activity analysis. *)
From Coq Require Import List Arith Bool Lia.
From Verif Require Import Active_Model Active_Spec.
Import ListNotations.

Scheme jaxpr_rec' := Induction for jaxpr Sort Prop
with eqns_rec' := Induction for eqns Sort Prop
with eqn_rec' := Induction for eqn Sort Prop
with branches_rec' := Induction for branches Sort Prop.
Combined Scheme program_ind from jaxpr_rec', eqns_rec', eqn_rec', branches_rec'.

Lemma mem_In x l : mem x l = true <-> In x l.
Proof. unfold mem. rewrite existsb_exists. split; [intros [y [I E]]; apply Nat.eqb_eq in E; subst; auto|intros I; exists x; split; [auto|apply Nat.eqb_refl]]. Qed.
Lemma hits_In s : forall l pos i, In i (hits s l pos) <-> exists k x, i = pos + k /\ nth_error l k = Some x /\ In x s.
Proof.
  induction l as [|y l IH]; intros pos i; cbn [hits].
  - split; [intros []|intros [k [x [_ [H _]]]]; destruct k; discriminate].
  - rewrite in_app_iff, IH. split.
    + intros [H|[k [x [E [N I]]]]].
      * destruct (mem y s) eqn:M; [|destruct H]. destruct H as [<-|[]]. exists 0, y. split; [lia|]. split; [reflexivity|apply mem_In; auto].
      * exists (S k), x. split; [lia|auto].
    + intros [[|k] [x [E [N I]]]].
      * left. injection N as <-. apply mem_In in I. rewrite I. left. lia.
      * right. exists k, x. split; [lia|auto].
Qed.

Section Sound.
Variables (V : Type) (dflt : V) (slice : V -> nat -> V) (stack : list V -> V) (truth : V -> bool).
Local Notation evalj := (eval_jaxpr V dflt slice stack truth).
Local Notation evales := (eval_eqns V dflt slice stack truth).
Local Notation evale := (eval_eqn V dflt slice stack truth).
Local Notation evalb := (eval_branch V dflt slice stack truth).
Local Notation agr := (agree V dflt).
Lemma write_agree : forall outs (e1 e2 : env V) r1 r2 v, e1 v = e2 v -> (forall i, nth_error outs i = Some v -> nth i r1 dflt = nth i r2 dflt) -> write V dflt e1 outs r1 v = write V dflt e2 outs r2 v.
Proof.
  induction outs as [|o outs IH]; intros e1 e2 r1 r2 v E H; [exact E|]. cbn [write]. apply IH.
  - destruct (Nat.eqb_spec v o) as [->|]; [|exact E]. specialize (H 0 eq_refl). destruct r1, r2; exact H.
  - intros i N. specialize (H (S i) N). destruct r1, r2; cbn in *; auto; destruct i; auto.
Qed.
Lemma in_vars v l : In v (vars V l) <-> In (Var V v) l.
Proof. unfold vars. rewrite in_flat_map. split; [intros [[w|c] [I K]]; [destruct K as [<-|[]]; auto|destruct K]|intros I; exists (Var V v); split; [auto|left; auto]]. Qed.
Lemma in_at v l ps : In v (flat_map (fun p => match nth_error l p with Some (Var _ w) => [w] | _ => [] end) ps) <-> exists p, In p ps /\ nth_error l p = Some (Var V v).
Proof.
  rewrite in_flat_map. split.
  - intros [p [I K]]. exists p. split; auto. destruct (nth_error l p) as [[w|c]|]; [destruct K as [<-|[]]; auto|destruct K|destruct K].
  - intros [p [I E]]. exists p. split; auto. rewrite E. left. auto.
Qed.
Definition picks (outvars : list (atom V)) (sel : option (list nat)) (i : nat) : Prop := match sel with None => True | Some ps => In i ps end.
Definition reads (ins : list (atom V)) (r : option (list nat)) (e1 e2 : env V) : Prop :=
  match r with None => forall v, In (Var V v) ins -> e1 v = e2 v | Some ps => forall p v, In p ps -> nth_error ins p = Some (Var V v) -> e1 v = e2 v end.
Definition Pj (p : jaxpr V) := forall sel, closed_jaxpr V p sel -> forall its a b, agr (active_jaxpr V p sel) a b ->
  forall i, match sel with None => True | Some ps => In i ps end -> nth i (evalj p its a) dflt = nth i (evalj p its b) dflt.
Definition Pes (es : eqns V) := forall act, closed_eqns V es act -> forall its e1 e2, (forall v, In v (active_eqns V es act) -> e1 v = e2 v) -> forall v, In v act -> evales es its e1 v = evales es its e2 v.
Definition Pe (q : eqn V) := forall pos, closed_eqn V q pos -> forall its e1 e2, reads (ins_of V q) (active_eqn V q pos) e1 e2 ->
  exists r1 r2, evale q its e1 = write V dflt e1 (outs_of V q) r1 /\ evale q its e2 = write V dflt e2 (outs_of V q) r2 /\ agr pos r1 r2.
Definition Pb (bs : branches V) := forall pos, closed_branches V bs pos -> forall k its a b, agr (active_branches V bs pos) a b -> agr pos (evalb bs k its a) (evalb bs k its b).

Lemma read_args ins ps e1 e2 : reads ins (Some ps) e1 e2 -> agr ps (map (read V e1) ins) (map (read V e2) ins).
Proof.
  intros H i I. specialize (H i). destruct (nth_error ins i) as [a|] eqn:N.
  - rewrite !(nth_error_nth _ i dflt (map_nth_error (read V _) i ins N)). destruct a as [v|c]; cbn; auto.
  - apply nth_error_None in N. rewrite !nth_overflow by (rewrite map_length; auto). reflexivity.
Qed.
Lemma agr_app ps qs a b : agr (ps ++ qs) a b <-> agr ps a b /\ agr qs a b.
Proof. unfold agree. split; [intros H; split; intros i I; apply H; apply in_or_app; auto|intros [A B] i I; apply in_app_or in I as [I|I]; auto]. Qed.
Lemma sound_J invars body outvars : Pes body -> Pj (J V invars body outvars).
Proof.
  intros IH sel C its a b A i S. cbn [eval_jaxpr closed_jaxpr active_jaxpr] in *.
  assert (E : forall v, In v (selected V outvars sel) -> evales body its (write V dflt (fun _ => dflt) invars a) v = evales body its (write V dflt (fun _ => dflt) invars b) v).
  { apply (IH (selected V outvars sel) C its). intros v I. apply write_agree; [reflexivity|]. intros k N. apply A. apply hits_In. exists k, v. auto. }
  destruct (nth_error outvars i) as [x|] eqn:N.
  - rewrite !(nth_error_nth _ i dflt (map_nth_error (read V _) i outvars N)). destruct x as [v|c]; cbn [read]; [|reflexivity]. apply E.
    unfold selected. destruct sel as [ps|]; [apply in_at; exists i; auto|apply in_vars; eapply nth_error_In; eauto].
  - apply nth_error_None in N. rewrite !nth_overflow by (rewrite map_length; auto). reflexivity.
Qed.
Lemma sound_Then q rest : Pe q -> Pes rest -> Pes (Then V q rest).
Proof.
  intros IHq IHr act [CR CQ] its e1 e2 H v I. change (evales rest its (evale q its e1) v = evales rest its (evale q its e2) v). apply (IHr act CR its); auto. clear v I. intros v I.
  change (forall v, In v (match hits (active_eqns V rest act) (outs_of V q) 0 with [] => active_eqns V rest act | _ => activate V (active_eqns V rest act) (ins_of V q) (active_eqn V q (hits (active_eqns V rest act) (outs_of V q) 0)) end) -> e1 v = e2 v) in H. set (act' := active_eqns V rest act) in *. set (pos := hits act' (outs_of V q) 0) in *.
  assert (K : (pos = [] /\ (forall w, In w act' -> e1 w = e2 w)) \/ (pos <> [] /\ forall w, In w (activate V act' (ins_of V q) (active_eqn V q pos)) -> e1 w = e2 w)) by (destruct pos; [left|right]; split; auto; discriminate).
  destruct K as [[P0 K]|[PN K]].
  - assert (NO : forall i, nth_error (outs_of V q) i <> Some v).
    { intros i N. assert (J : In i pos) by (apply hits_In; exists i, v; auto). rewrite P0 in J. destruct J. }
    assert (W : forall q' its' e, exists r, evale q' its' e = write V dflt e (outs_of V q') r) by (intros [] ? ?; eexists; reflexivity).
    destruct (W q its e1) as [r1 ->]. destruct (W q its e2) as [r2 ->]. apply write_agree; [auto|]. intros i N. destruct (NO i N).
  - destruct (IHq pos (CQ PN) its e1 e2) as [r1 [r2 [-> [-> A]]]].
    + unfold reads. destruct (active_eqn V q pos) as [ps|]; cbn [activate] in K.
      * intros p w J N. apply K. apply in_or_app. left. apply in_at. exists p. auto.
      * intros w J. apply K. apply in_or_app. left. apply in_vars. auto.
    + apply write_agree; [apply K; unfold activate; destruct (active_eqn V q pos); apply in_or_app; right; auto|]. intros i N. apply A. apply hits_In. exists i, v. auto.
Qed.
Lemma sound_branch p rest : Pj p -> Pb rest -> Pb (Branch V p rest).
Proof.
  intros IHp IHr pos [CP CR] k its a b A. change (agr (active_jaxpr V p (Some pos) ++ active_branches V rest pos) a b) in A. apply agr_app in A as [AP AR]. intros i I.
  assert (HP : nth i (evalj p its a) dflt = nth i (evalj p its b) dflt) by (apply (IHp (Some pos) CP its a b AP i I)).
  destruct rest as [|q rest]; [exact HP|]. destruct k as [|k]; [exact HP|]. exact (IHr pos CR k its a b AR i I).
Qed.
Lemma eval_length p its a : length (evalj p its a) = match p with J _ _ _ o => length o end.
Proof. destruct p. cbn. apply map_length. Qed.
(** positions of the body arguments of a scan *)
Lemma scan_args nconst ncarry ps a b (ca cb : list V) it : length a = length b -> nconst + ncarry <= length a -> length ca = ncarry -> length cb = ncarry ->
  agr ps a b -> (forall k, k < ncarry -> In (nconst + k) ps -> nth k ca dflt = nth k cb dflt) ->
  agr ps (firstn nconst a ++ ca ++ map (fun x => slice x it) (skipn (nconst + ncarry) a)) (firstn nconst b ++ cb ++ map (fun x => slice x it) (skipn (nconst + ncarry) b)).
Proof.
  intros L B LA LB A C i I. assert (FA : length (firstn nconst a) = nconst) by (apply firstn_length_le; lia). assert (FB : length (firstn nconst b) = nconst) by (apply firstn_length_le; lia).
  destruct (Nat.lt_ge_cases i nconst) as [H|H].
  - rewrite !app_nth1 by lia. specialize (A i I). rewrite <- (firstn_skipn nconst a), <- (firstn_skipn nconst b) in A. rewrite !app_nth1 in A by lia. exact A.
  - rewrite !(app_nth2 (firstn nconst _)) by lia. rewrite FA, FB. destruct (Nat.lt_ge_cases (i - nconst) ncarry) as [H2|H2].
    + rewrite !app_nth1 by lia. apply C; auto. replace (nconst + (i - nconst)) with i by lia. auto.
    + rewrite !app_nth2 by lia. rewrite LA, LB. set (j := i - nconst - ncarry).
      assert (E : nth j (skipn (nconst + ncarry) a) dflt = nth j (skipn (nconst + ncarry) b) dflt).
      { specialize (A i I). rewrite <- (firstn_skipn (nconst + ncarry) a), <- (firstn_skipn (nconst + ncarry) b) in A.
        rewrite !app_nth2 in A by (rewrite firstn_length_le; lia). rewrite !firstn_length_le in A by lia. replace (i - (nconst + ncarry)) with j in A by (unfold j; lia). exact A. }
      destruct (Nat.lt_ge_cases j (length (skipn (nconst + ncarry) a))) as [J|J].
      * assert (J' : j < length (skipn (nconst + ncarry) b)) by (rewrite skipn_length in *; lia).
        rewrite (nth_indep _ dflt ((fun x => slice x it) dflt)) by (rewrite map_length; auto). rewrite (nth_indep (map _ (skipn _ b)) dflt ((fun x => slice x it) dflt)) by (rewrite map_length; auto).
        rewrite !(map_nth (fun x => slice x it)). rewrite E. reflexivity.
      * rewrite !nth_overflow; [reflexivity| |]; rewrite map_length; rewrite skipn_length in *; lia.
Qed.
Lemma rounds_agree pos found nconst ncarry (step1 step2 : nat -> list V -> list V) :
  (forall k, k < ncarry -> In (nconst + k) found -> In k pos) ->
  (forall it c1 c2, length c1 = ncarry -> length c2 = ncarry -> (forall k, k < ncarry -> In (nconst + k) found -> nth k c1 dflt = nth k c2 dflt) -> agr pos (step1 it c1) (step2 it c2) /\ ncarry <= length (step1 it c1) /\ ncarry <= length (step2 it c2)) ->
  forall k it c1 c2, length c1 = ncarry -> length c2 = ncarry -> (forall j, j < ncarry -> In (nconst + j) found -> nth j c1 dflt = nth j c2 dflt) ->
    length (fst (rounds V step1 ncarry k it c1)) = ncarry /\ length (fst (rounds V step2 ncarry k it c2)) = ncarry /\
    (1 <= k -> forall j, j < ncarry -> In j pos -> nth j (fst (rounds V step1 ncarry k it c1)) dflt = nth j (fst (rounds V step2 ncarry k it c2)) dflt) /\
    forall j, In (ncarry + j) pos -> map (fun r => nth j r dflt) (snd (rounds V step1 ncarry k it c1)) = map (fun r => nth j r dflt) (snd (rounds V step2 ncarry k it c2)).
Proof.
  intros CL ST. induction k as [|k IH]; intros it c1 c2 L1 L2 C; cbn [rounds fst snd].
  - split; [auto|]. split; [auto|]. split; [intros; lia|reflexivity].
  - destruct (ST it c1 c2 L1 L2 C) as [A [B1 B2]].
    assert (N1 : length (firstn ncarry (step1 it c1)) = ncarry) by (apply firstn_length_le; auto). assert (N2 : length (firstn ncarry (step2 it c2)) = ncarry) by (apply firstn_length_le; auto).
    assert (C' : forall j, j < ncarry -> In j pos -> nth j (firstn ncarry (step1 it c1)) dflt = nth j (firstn ncarry (step2 it c2)) dflt).
    { intros j J P. specialize (A j P). rewrite <- (firstn_skipn ncarry (step1 it c1)), <- (firstn_skipn ncarry (step2 it c2)) in A. rewrite !app_nth1 in A by lia. exact A. }
    specialize (IH (S it) _ _ N1 N2 (fun j J F => C' j J (CL j J F))).
    assert (K0 : k = 0 -> forall j, j < ncarry -> In j pos -> nth j (fst (rounds V step1 ncarry k (S it) (firstn ncarry (step1 it c1)))) dflt = nth j (fst (rounds V step2 ncarry k (S it) (firstn ncarry (step2 it c2)))) dflt) by (intros ->; cbn; exact C').
    destruct (rounds V step1 ncarry k (S it) (firstn ncarry (step1 it c1))) as [d1 y1]. destruct (rounds V step2 ncarry k (S it) (firstn ncarry (step2 it c2))) as [d2 y2]. cbn [fst snd] in *.
    destruct IH as [M1 [M2 [D Y]]]. split; [auto|]. split; [auto|]. split.
    + intros _ j J P. destruct (Nat.eq_dec k 0) as [Z|Z]; [apply K0; auto|apply D; auto; lia].
    + intros j P. cbn [map]. specialize (Y j P).
      assert (E : nth j (skipn ncarry (step1 it c1)) dflt = nth j (skipn ncarry (step2 it c2)) dflt).
      { specialize (A _ P). rewrite <- (firstn_skipn ncarry (step1 it c1)), <- (firstn_skipn ncarry (step2 it c2)) in A. rewrite !app_nth2 in A by lia. rewrite N1, N2 in A. replace (ncarry + j - ncarry) with j in A by lia. exact A. }
      rewrite E, Y. reflexivity.
Qed.
Lemma skip_init nconst ncarry (a b : list V) k : length a = length b -> nconst + ncarry <= length a -> k < ncarry -> nth (nconst + k) a dflt = nth (nconst + k) b dflt ->
  nth k (firstn ncarry (skipn nconst a)) dflt = nth k (firstn ncarry (skipn nconst b)) dflt.
Proof.
  intros L B K E. assert (H : forall l : list V, nconst + ncarry <= length l -> nth (nconst + k) l dflt = nth k (firstn ncarry (skipn nconst l)) dflt).
  { intros l Hl. rewrite <- (firstn_skipn nconst l) at 1. rewrite app_nth2 by (rewrite firstn_length_le; lia). rewrite firstn_length_le by lia.
    replace (nconst + k - nconst) with k by lia. rewrite <- (firstn_skipn ncarry (skipn nconst l)) at 1. rewrite app_nth1; [reflexivity|]. rewrite firstn_length_le; [auto|rewrite skipn_length; lia]. }
  rewrite !H in E by lia. exact E.
Qed.
Lemma sound_scan len nconst ncarry p ins outs : Pj p -> Pe (Scan V len nconst ncarry p ins outs).
Proof.
  intros IH pos [CP [[CL CI] [B LO]]] its e1 e2 R. cbn [ins_of active_eqn outs_of eval_eqn] in *. apply read_args in R.
  set (a := map (read V e1) ins) in *. set (b := map (read V e2) ins) in *.
  assert (La : length a = length ins) by (apply map_length). assert (Lb : length b = length ins) by (apply map_length).
  eexists. eexists. split; [reflexivity|]. split; [reflexivity|].
  set (found := active_jaxpr V p (Some pos)) in *.
  set (s1 := fun it carry => evalj p (it :: its) (firstn nconst a ++ carry ++ map (fun x => slice x it) (skipn (nconst + ncarry) a))).
  set (s2 := fun it carry => evalj p (it :: its) (firstn nconst b ++ carry ++ map (fun x => slice x it) (skipn (nconst + ncarry) b))).
  set (i1 := firstn ncarry (skipn nconst a)). set (i2 := firstn ncarry (skipn nconst b)).
  change (agr pos (fst (rounds V s1 ncarry len 0 i1) ++ map (column V dflt stack (snd (rounds V s1 ncarry len 0 i1))) (seq 0 (length outs - ncarry)))
                  (fst (rounds V s2 ncarry len 0 i2) ++ map (column V dflt stack (snd (rounds V s2 ncarry len 0 i2))) (seq 0 (length outs - ncarry)))).
  assert (I0 : forall k, k < ncarry -> In (nconst + k) found -> nth k i1 dflt = nth k i2 dflt).
  { intros k K F. apply skip_init; [lia|lia|auto|apply R; auto]. }
  destruct (rounds_agree pos found nconst ncarry s1 s2 CL) with (k := len) (it := 0) (c1 := i1) (c2 := i2) as [M1 [M2 [D Y]]].
  - intros it c1 c2 H1 H2 C. split; [|unfold s1, s2; rewrite !eval_length; destruct p; auto].
    intros i I. apply (IH (Some pos) CP); [|exact I]. apply scan_args; auto; lia.
  - unfold i1. apply firstn_length_le. rewrite skipn_length. lia.
  - unfold i2. apply firstn_length_le. rewrite skipn_length. lia.
  - exact I0.
  - intros i I. destruct (Nat.lt_ge_cases i ncarry) as [H|H].
    + rewrite !app_nth1 by lia. destruct (Nat.eq_dec len 0) as [Z|Z]; [|apply D; auto; lia]. subst len. cbn [rounds fst]. apply I0; auto.
    + rewrite !app_nth2 by lia. rewrite M1, M2. set (j := i - ncarry). assert (J : In (ncarry + j) pos) by (unfold j; replace (ncarry + (i - ncarry)) with i by lia; auto).
      destruct (Nat.lt_ge_cases j (length outs - ncarry)) as [K|K].
      * assert (G : forall ys, nth j (map (column V dflt stack ys) (seq 0 (length outs - ncarry))) dflt = column V dflt stack ys j).
        { intros ys. rewrite (nth_indep _ dflt (column V dflt stack ys 0)) by (rewrite map_length, seq_length; auto). rewrite map_nth, seq_nth by auto. reflexivity. }
        rewrite !G. unfold column. f_equal. apply Y. exact J.
      * rewrite !nth_overflow; [reflexivity| |]; rewrite map_length, seq_length; auto.
Qed.
Lemma sound_while limit ncond nbody c p ins outs : Pj c -> Pj p -> Pe (While V limit ncond nbody c p ins outs).
Proof.
  intros IHc IHp pos [-> [-> [CC [CP SUB]]]] its e1 e2 R. cbn [ins_of active_eqn outs_of eval_eqn] in *. apply read_args in R.
  eexists. eexists. split; [reflexivity|]. split; [reflexivity|]. cbn [firstn skipn app plus].
  set (a := map (read V e1) ins) in *. set (b := map (read V e2) ins) in *. clearbody a b.
  set (test := fun carry => truth (hd dflt (evalj c its carry))). set (step := fun carry => evalj p its carry).
  change (agr pos (loop V test step limit a) (loop V test step limit b)).
  intros i I. apply SUB in I. revert a b R i I. induction limit as [|k IH]; intros a b R i I; cbn [loop]; [apply R; exact I|].
  apply agr_app in R as R2. destruct R2 as [RC RP].
  assert (T : test a = test b).
  { unfold test. f_equal. pose proof (IHc None CC its a b RC 0 Logic.I) as H. destruct (evalj c its a), (evalj c its b); exact H. }
  rewrite T. destruct (test b); [|apply R; exact I]. apply IH; [|exact I].
  intros j _. apply (IHp None CP its a b RP j Logic.I).
Qed.
Lemma sound_all : (forall p, Pj p) /\ (forall es, Pes es) /\ (forall q, Pe q) /\ (forall bs, Pb bs).
Proof.
  apply program_ind.
  - intros. apply sound_J. auto.
  - intros act _ its e1 e2 H v I. exact (H v I).
  - intros. apply sound_Then; auto.
  - intros f ins outs pos _ its e1 e2 R. eexists. eexists. split; [reflexivity|]. split; [reflexivity|]. cbn in R.
    assert (E : map (read V e1) ins = map (read V e2) ins) by (apply map_ext_in; intros [v|c] I; cbn; auto). rewrite E. intros i _. reflexivity.
  - intros p IH ins outs pos C its e1 e2 R. eexists. eexists. split; [reflexivity|]. split; [reflexivity|]. apply read_args in R. intros i I. apply (IH (Some pos) C); auto.
  - intros ch ix bs IH ops outs pos C its e1 e2 R. eexists. eexists. split; [reflexivity|]. split; [reflexivity|]. cbn [ins_of active_eqn] in R. apply read_args in R.
    apply (IH pos C). intros i I. apply (R (S i)). apply in_map. exact I.
  - intros. apply sound_scan. auto.
  - intros. apply sound_while; auto.
  - intros pos _ k its a b _ i _. reflexivity.
  - intros. apply sound_branch; auto.
Qed.
Theorem C44_sound_partial : forall p, closed_jaxpr V p None -> determined V dflt slice stack truth p (active_jaxpr V p None).
Proof.
  intros p C its a b A. pose proof (proj1 sound_all p None C its a b A) as H.
  apply nth_ext with dflt dflt; [rewrite !eval_length; reflexivity|]. intros i _. apply H. exact Logic.I.
Qed.
Lemma put_other i j v l : j <> i -> nth j (put V i v l) dflt = nth j l dflt.
Proof.
  intros N. unfold put. rewrite <- (firstn_skipn i l) at 3. destruct (skipn i l) as [|x r] eqn:E; [reflexivity|].
  assert (L : i < length l) by (destruct (Nat.lt_ge_cases i (length l)) as [H|H]; [auto|rewrite skipn_all2 in E by auto; discriminate]).
  assert (F : length (firstn i l) = i) by (apply firstn_length_le; lia).
  destruct (Nat.lt_ge_cases j i) as [H|H]; [rewrite !app_nth1 by lia; reflexivity|]. rewrite !app_nth2 by lia. rewrite F. destruct (j - i) eqn:D; [lia|reflexivity].
Qed.
Lemma mask_false p leaves i : nth i (active_mask V p leaves) true = false -> ~ In i (active_jaxpr V p None).
Proof.
  intros M I. unfold active_mask in M. destruct (Nat.lt_ge_cases i leaves) as [H|H]; [|rewrite nth_overflow in M by (rewrite map_length, seq_length; auto); discriminate].
  rewrite (nth_indep _ true (mem 0 (active_jaxpr V p None))) in M by (rewrite map_length, seq_length; auto).
  rewrite (map_nth (fun i => mem i (active_jaxpr V p None))), seq_nth in M by auto. cbn [plus] in M. apply mem_In in I. congruence.
Qed.
(** A leaf pruned by the mask cannot influence the outputs: loops must be closed. *)
Theorem C44_pruned_partial : forall p leaves i, closed_jaxpr V p None -> nth i (active_mask V p leaves) true = false -> no_influence V dflt slice stack truth p i.
Proof.
  intros p leaves i C M its args v. apply C44_sound_partial; [exact C|]. intros j J. apply put_other. intros ->. exact (mask_false p leaves i M J).
Qed.
Lemma straight_closed : (forall p, straight_jaxpr V p -> forall sel, closed_jaxpr V p sel) /\ (forall es, straight_eqns V es -> forall act, closed_eqns V es act) /\
  (forall q, straight_eqn V q -> forall pos, closed_eqn V q pos) /\ (forall bs, straight_branches V bs -> forall pos, closed_branches V bs pos).
Proof.
  apply program_ind; try (intros; exact Logic.I).
  - intros ? body IH ? S sel. exact (IH S _).
  - intros q IHq rest IHr [S1 S2] act. split; [exact (IHr S2 act)|]. intros _. exact (IHq S1 _).
  - intros p IH ? ? S pos. exact (IH S _).
  - intros ? ? bs IH ? ? S pos. exact (IH S pos).
  - intros ? ? ? p IH ? ? S. destruct S.
  - intros. match goal with H : straight_eqn _ (While _ _ _ _ _ _ _ _) |- _ => destruct H end.
  - intros p IHp rest IHr [S1 S2] pos. split; [exact (IHp S1 _)|exact (IHr S2 pos)].
Qed.
(** Straight-line code with nested calls and conds: no further condition. *)
Theorem C44_straight : forall p leaves i, straight_jaxpr V p -> nth i (active_mask V p leaves) true = false -> no_influence V dflt slice stack truth p i.
Proof. intros p leaves i S. apply C44_pruned_partial. apply (proj1 straight_closed p S). Qed.
End Sound.

(** ** The full property fails for scans: a constant that enters the requested carry only in the
    second round is pruned.  Body (k, a, b) -> (b, k + b), two rounds, result the carry a. *)
Definition add2 : list nat -> list nat -> list nat := fun _ l => match l with [x; y] => [x + y] | _ => [] end.
Definition body : jaxpr nat := J nat [0; 1; 2] (Then nat (Prim nat add2 [Var nat 0; Var nat 2] [3]) (Done nat)) [Var nat 2; Var nat 3].
Definition late : jaxpr nat := J nat [0; 1; 2] (Then nat (Scan nat 2 1 2 body [Var nat 0; Var nat 1; Var nat 2] [3; 4]) (Done nat)) [Var nat 3].
Theorem C44_scan_refuted : nth 0 (active_mask nat late 3) true = false /\
  ~ no_influence nat 0 (fun x _ => x) (fun l => hd 0 l) (fun n => Nat.eqb n 0) late 0.
Proof. split; [reflexivity|]. intros H. specialize (H [] [0; 0; 0] 7). cbn in H. discriminate. Qed.
(** While loops with closed-over constants: the positions of the condition and body programs do
    not line up with those of the equation (condition constants, body constants, carry), so the
    last carry is lost.  Condition (k, x, y) -> k, body (w, x, y) -> (x + y, y), one round. *)
Definition loopy : jaxpr nat :=
  J nat [0; 1; 2; 3] (Then nat (While nat 1 1 1 (J nat [0; 1; 2] (Done nat) [Var nat 0])
     (J nat [0; 1; 2] (Then nat (Prim nat add2 [Var nat 1; Var nat 2] [3]) (Done nat)) [Var nat 3; Var nat 2])
     [Var nat 0; Var nat 1; Var nat 2; Var nat 3] [4; 5]) (Done nat)) [Var nat 4].
Theorem C44_while_refuted : nth 3 (active_mask nat loopy 4) true = false /\
  ~ no_influence nat 0 (fun x _ => x) (fun l => hd 0 l) (fun n => Nat.eqb n 0) loopy 3.
Proof. split; [reflexivity|]. intros H. specialize (H [] [0; 0; 0; 0] 7). cbn in H. discriminate. Qed.
(** The same loop with both carries requested is closed, and so is a scan with a plain accumulator. *)
Definition both : jaxpr nat := J nat [0; 1; 2; 5] (Then nat (Scan nat 2 1 2 body [Var nat 0; Var nat 1; Var nat 2] [3; 4]) (Done nat)) [Var nat 3; Var nat 4].
Example both_mask : active_mask nat both 4 = [true; false; true; false]. Proof. reflexivity. Qed.
Example both_closed : closed_jaxpr nat both None.
Proof.
  cbn. split; [exact I|]. intros _. split; [split; [exact I|intros; exact I]|]. split; [split; [|intros k _ _ H; discriminate]|split; lia].
  intros k K _. destruct k as [|[|k]]; [left; reflexivity|right; left; reflexivity|lia].
Qed.
(** a cond whose second branch ignores an operand, and an operand no branch reads *)
Definition branchy : jaxpr nat :=
  J nat [0; 1; 2] (Then nat (Cond nat (fun _ => 1) (Lit nat 1)
     (Branch nat (J nat [0; 1; 2] (Done nat) [Var nat 0]) (Branch nat (J nat [0; 1; 2] (Then nat (Call nat body [Var nat 0; Var nat 1; Var nat 1] [4; 5]) (Done nat)) [Var nat 4]) (NoBranch nat)))
     [Var nat 0; Var nat 1; Var nat 2] [7]) (Done nat)) [Var nat 7].
Example branchy_mask : straight_jaxpr nat branchy /\ active_mask nat branchy 3 = [true; true; false].
Proof. split; [cbn; tauto|reflexivity]. Qed.
Print Assumptions C44_sound_partial.
Print Assumptions C44_straight.
Print Assumptions C44_scan_refuted.
