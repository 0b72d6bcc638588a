(** C90: with a storage that works, losing the machine costs less than two blocks. *)
From Coq Require Import String Ascii List Bool Arith NArith Lia Permutation.
From Verif Require Import Roll_Model Roll_Spec Roll_Props Rem_Model Rem_Spec Rem_Names Rem_Props.
Import ListNotations.
Open Scope list_scope.

Section Calm.
Variables (S : Type) (init : S) (iter : nat -> S -> S -> Prop) (rejected : S -> S -> Prop) (prefix : string) (bs : nat) (h : handler).
Hypothesis (POS : 0 < bs) (ND : h <> Dummy).
Local Notation genuine := (genuine S init iter rejected).
Local Notation sound := (sound S init iter rejected).
Local Notation name d := (data_name prefix (d_step d)).
Local Notation dir := (dir S).
Definition proper (e : string * content S) : Prop := exists d, snd e = Whole d /\ fst e = name d /\ genuine d /\ d_step d mod bs = 0.
Definition covered (l : dir) (m : mgr S) : Prop :=
  match unsafe_step m with
  | Some u => u < t m <= u + bs /\ (u = 0 \/ exists d, In (name d, Whole d) l /\ d_step d + bs = u)
  | None => t m = 0 \/ exists d, In (name d, Whole d) l /\ d_step d < t m <= d_step d + bs
  end.
Definition kept (l : dir) (m : mgr S) : Prop := forall k d, safe_step m = Some k -> ws m k = Some d -> In (name d, Whole d) l.
Definition cinv (w : world S) : Prop :=
  (forall e, In e (rem w) -> proper e) /\ rloc w = [] /\ rrem w = [] /\ incl (loc w) (rem w) /\
  forall m, proc w = Some m -> sound m /\ multiples S bs m /\ covered (rem w) m /\ kept (rem w) m.

Lemma put_done_In d e (l : dir) : (forall x, In x l -> proper x) -> In e (put S h Done (name d) (Whole d) l) <-> e = (name d, Whole d) \/ (In e l /\ fst e <> name d).
Proof.
  intros SH. destruct h; [contradiction|..]; cbn [put]; [apply put_at_In|]. rewrite put_at_In, remove_In. split; [tauto|]. intros [E|[I N]]; [auto|]. right. split; [|exact N]. split; [exact I|].
  destruct (SH e I) as [d' [_ [-> _]]]. intros X. symmetry in X. apply copying_not_name in X. exact X.
Qed.
Lemma get_done_In n c e (l : dir) : In e (get S h Done n c l) -> In e l \/ e = (n, c).
Proof.
  destruct h; cbn [get]; [auto|..]; [intros H; apply put_at_In in H; tauto|]. destruct (has S n l); [auto|]. intros H. apply put_at_In in H. destruct H as [H|[H _]]; [auto|]. apply remove_In in H. tauto.
Qed.
Lemma store_inv w d : cinv w -> genuine d -> d_step d mod bs = 0 ->
  let w' := stored_as S prefix w h Uploaded [Good d] in
  (forall e, In e (rem w') -> proper e) /\ rloc w' = [] /\ rrem w' = [] /\ incl (loc w') (rem w') /\ In (name d, Whole d) (rem w').
Proof.
  intros [SH [RL [RR [IN _]]]] G M. cbn [stored_as upload loc rem rloc rrem fst snd]. pose proof (fun e => put_done_In d e (rem w) SH) as PI. split; [|split; [exact RL|split; [exact RR|split]]].
  - intros e I. apply PI in I. destruct I as [->|[I _]]; [|apply SH, I]. exists d. auto.
  - intros e I. cbn [put] in I. apply put_at_In in I. apply PI. destruct I as [I|[I N]]; auto.
  - apply PI. left. reflexivity.
Qed.
(** a start finds a whole file, and the newest one *)
Lemma started_calm w w' : (forall e, In e (rem w) -> proper e) -> rloc w = [] -> rrem w = [] -> incl (loc w) (rem w) -> started S init prefix h w w' ->
  rem w' = rem w /\ rloc w' = [] /\ rrem w' = [] /\ incl (loc w') (rem w') /\
  exists m, proc w' = Some m /\ sound m /\ multiples S bs m /\ unsafe_step m = None /\ safe_step m = None /\
    ((rem w = [] /\ t m = 0) \/ exists d, In (name d, Whole d) (rem w) /\ t m = d_step d + 1) /\ forall d, In (name d, Whole d) (rem w) -> (d_step d < t m)%nat.
Proof.
  intros SH RL RR IN ST. destruct ST as [w l1 l2 l3 l4 L1 L2 loc' rloc' L3 L4]. cbn [loc rem rloc rrem proc].
  assert (P1 : Permutation (rem w) l1) by (destruct h; [contradiction|exact L1..]).
  assert (E2 : l2 = []) by (rewrite RR in L2; destruct h; [exact L2|apply Permutation_nil, L2..]).
  assert (ER : rloc' = []) by (subst rloc' l2; unfold download; cbn; exact RL).
  assert (E4 : l4 = []) by (rewrite ER in L4; apply Permutation_nil, L4). rewrite E4, app_nil_r.
  assert (INC : incl loc' (rem w)).
  { intros e I. unfold loc', download in I. destruct (find_latest S prefix l1) as [[[n c] k]|] eqn:F; [|apply IN, I]. apply get_done_In in I. destruct I as [I| ->]; [apply IN, I|]. apply (Permutation_in _ (Permutation_sym P1)), (latest_some _ _ _ _ _ _ F). }
  split; [reflexivity|]. split; [exact ER|]. split; [exact RR|]. split; [exact INC|].
  assert (TOP : forall d, In (name d, Whole d) (rem w) -> exists e k, In e loc' /\ data_index prefix (fst e) = Some k /\ (d_step d <= k)%nat).
  { intros d I. apply (Permutation_in _ P1) in I. unfold loc', download. destruct (find_latest S prefix l1) as [[[n c] k]|] eqn:F.
    - destruct (latest_some _ _ _ _ _ _ F) as [I1 [K1 M1]]. specialize (M1 _ (d_step d) I (C90_names _ _)).
      assert (Q : exists c', In (n, c') (get S h Done n c (loc w))).
      { destruct h; [contradiction|..]; cbn [get]; [exists c; apply put_at_In; auto|]. destruct (has S n (loc w)) eqn:HS; [|exists c; apply put_at_In; auto]. unfold has in HS. apply existsb_exists in HS. destruct HS as [[n2 c2] [J E]]. apply String.eqb_eq in E. cbn in E. subst n2. exists c2. exact J. }
      destruct Q as [c' Q]. exists (n, c'), k. auto.
    - pose proof (latest_none _ _ _ F _ I) as X. cbn [fst] in X. rewrite C90_names in X. discriminate. }
  destruct (find_latest S prefix l3) as [[[n c] k]|] eqn:F.
  - destruct (latest_some _ _ _ _ _ _ F) as [I [K M]]. apply (Permutation_in _ (Permutation_sym L3)) in I. destruct (SH _ (INC _ I)) as [d [EC [EN [G MD]]]]. cbn [fst snd] in EC, EN. subst c n. rewrite C90_names in K. injection K as <-.
    destruct (load S init (Some (name d, Whole d, d_step d))) as [m|] eqn:LD; [|cbn in LD; rewrite Nat.eqb_refl in LD; discriminate]. exists m. split; [reflexivity|].
    destruct (load_sound S init iter rejected bs _ m LD) as [A [B [C [D Q]]]]; [intros n0 d0 k0 E; injection E as _ <- _; exact G|].
    split; [exact A|]. split; [exact B|]. split; [exact C|]. split; [exact D|].
    assert (T : t m = d_step d + 1) by (cbn in LD; rewrite Nat.eqb_refl in LD; injection LD as <-; reflexivity). split; [right; exists d; split; [apply INC, I|exact T]|].
    intros d' I'. destruct (TOP d' I') as [e [k [J [KE LE]]]]. specialize (M e k (Permutation_in _ L3 J) KE). lia.
  - destruct (load S init None) as [m|] eqn:LD; [|discriminate]. exists m. split; [reflexivity|]. destruct (load_sound S init iter rejected bs _ m LD) as [A [B [C [D Q]]]]; [discriminate|].
    split; [exact A|]. split; [exact B|]. split; [exact C|]. split; [exact D|].
    assert (NO : forall d, ~ In (name d, Whole d) (rem w)).
    { intros d I. destruct (TOP d I) as [e [k [J [KE _]]]]. pose proof (latest_none _ _ _ F e (Permutation_in _ L3 J)). congruence. }
    split; [|intros d I; destruct (NO d I)]. left. split; [|injection LD as <-; reflexivity]. destruct (rem w) as [|[n c] r] eqn:E; [reflexivity|]. exfalso. destruct (SH (n, c) ltac:(left; reflexivity)) as [d [E1 [E2' _]]]. cbn in E1, E2'. subst. apply (NO d). left. reflexivity.
Qed.
Lemma calm_inv w : calm S init iter rejected prefix bs h w -> cinv w.
Proof.
  induction 1 as [w [P [L [RL [RR SH]]]]|w w' H CI EV].
  - split; [|split; [exact RL|split; [exact RR|split; [rewrite L; intros e []|intros m E; congruence]]]]. intros [n c] I. destruct (SH n c I) as [d [A [B [C D]]]]. exists d. auto.
  - pose proof CI as [SH [RL [RR [IN SO]]]]. destruct EV as [w m s' P IT r|w m s1 P RJ|w m m' P RB|w m P|w m P|w|w w' P ST].
    + destruct (SO m P) as [SM [MM [CV KP]]]. destruct (run_sound S init iter rejected bs Good [] m s' SM MM IT) as [SM' MM']. fold r in SM', MM'. unfold covered in CV.
      assert (MUL : forall a b, a mod bs = 0 -> b mod bs = 0 -> a < b -> b <= a + bs -> b = a + bs) by (intros a b HA HB L1 L2; pose proof (gap bs a b POS HA HB L1); lia).
      assert (NOT : forall a b, a mod bs = 0 -> b mod bs <> 0 -> a < b -> b <= a + bs -> b + 1 <= a + bs).
      { intros a b HA HB L1 L2. destruct (Nat.eq_dec b (a + bs)) as [->|]; [|lia]. exfalso. apply HB. replace (a + bs) with (a + 1 * bs) by lia. rewrite Nat.mod_add by lia. exact HA. }
      assert (GRID : forall d, In (name d, Whole d) (rem w) -> d_step d mod bs = 0).
      { intros d I. destruct (SH _ I) as [d' [E [_ [_ M]]]]. cbn in E. injection E as ->. exact M. }
      destruct (run_cases S init iter rejected bs Good [] m s' SM) as [[Z E]|[[Z [U E]]|[Z [u [d [U [D [LT E]]]]]]]]; unfold r in *; rewrite E in *; cbn [fst snd] in *.
      * split; [exact SH|]. split; [exact RL|]. split; [exact RR|]. split; [exact IN|]. intros x X. injection X as <-. split; [exact SM'|]. split; [exact MM'|]. split; [|exact KP]. unfold covered. cbn. destruct (unsafe_step m) as [u|] eqn:U.
        -- destruct CV as [[L1 L2] F]. split; [split; [lia|]; apply NOT; auto; lia|exact F].
        -- destruct CV as [T0|[f [I [L1 L2]]]]; [rewrite T0 in Z; destruct Z; apply Nat.mod_0_l; lia|]. right. exists f. split; [exact I|]. split; [lia|]. apply NOT; auto; lia.
      * split; [exact SH|]. split; [exact RL|]. split; [exact RR|]. split; [exact IN|]. intros x X. injection X as <-. split; [exact SM'|]. split; [exact MM'|]. split.
        -- unfold covered. cbn. rewrite U in CV. split; [lia|]. destruct CV as [T0|[f [I [L1 L2]]]]; [auto|]. right. exists f. split; [exact I|]. symmetry. apply MUL; auto.
        -- intros k d K W. cbn in K, W. unfold set_ws in W. destruct (Nat.eqb_spec k (t m)) as [->|N]; [|eapply KP; eauto]. destruct (s_safe _ _ _ _ m SM (t m) K) as [d0 W0]. destruct (s_ws _ _ _ _ m SM _ _ W0) as [_ [_ [L _]]]. lia.
      * destruct (s_ws _ _ _ _ m SM u d D) as [DS [GD _]]. assert (UM : u mod bs = 0) by (apply MM; exact U). rewrite U in CV. destruct CV as [[L1 L2] F].
        destruct (store_inv w d CI GD ltac:(rewrite DS; exact UM)) as [A1 [A2 [A3 [A4 A5]]]]. change (put_file S (Good d) []) with [Good d]. split; [exact A1|]. split; [exact A2|]. split; [exact A3|]. split; [exact A4|].
        intros x X. injection X as <-. split; [exact SM'|]. split; [exact MM'|]. split.
        -- unfold covered. cbn [unsafe_step next_state t]. split; [lia|]. right. exists d. split; [exact A5|]. rewrite DS. symmetry. apply MUL; auto; lia.
        -- intros k d' K W. cbn in K. injection K as <-. assert (d' = d); [|subst; exact A5]. cbn [ws next_state] in W.
           assert (W2 : ws m u = Some d'); [|congruence]. destruct (safe_step m) as [v|] eqn:V; [|rewrite set_other in W by lia; exact W]. pose proof (s_order _ _ _ _ m SM u v U V). rewrite !set_other in W by lia. exact W.
    + destruct (SO m P) as [SM [MM [CV KP]]]. split; [exact SH|]. split; [exact RL|]. split; [exact RR|]. split; [exact IN|]. intros x X. injection X as <-. split; [|split; [exact MM|split; [exact CV|exact KP]]].
      destruct (s_trace _ _ _ _ m SM) as [s0 [TR AT]]. split; cbn; [exists s0; split; [exact TR|eapply attempts_snoc; eauto]|apply (s_ws _ _ _ _ m SM)|apply (s_only _ _ _ _ m SM)|apply (s_unsafe _ _ _ _ m SM)|apply (s_safe _ _ _ _ m SM)|apply (s_order _ _ _ _ m SM)].
    + destruct (SO m P) as [SM [MM [CV KP]]]. split; [exact SH|]. split; [exact RL|]. split; [exact RR|]. split; [exact IN|]. intros x X. injection X as <-.
      destruct (rollback_sound S init iter rejected bs m m' SM RB) as [A [B [k [d [K [K' [W [W' [T [_ [_ [U _]]]]]]]]]]]]. split; [exact A|]. split; [exact B|]. pose proof (KP k d K W) as I. destruct (s_ws _ _ _ _ m SM k d W) as [DS _]. split.
      * unfold covered. rewrite U. right. exists d. split; [exact I|]. lia.
      * intros k2 d2 K2 W2. assert (k2 = k) by congruence. subst k2. assert (d2 = d) by congruence. subst d2. exact I.
    + destruct (SO m P) as [SM [MM [CV KP]]]. unfold data_at. destruct (safe_step m) as [k|] eqn:K; [destruct (ws m k) as [d|] eqn:D|].
      * pose proof (KP k d K D) as I. destruct (SH _ I) as [d' [E [_ [G M]]]]. cbn in E. injection E as <-. destruct (store_inv w d CI G M) as [A1 [A2 [A3 [A4 _]]]]. split; [exact A1|]. split; [exact A2|]. split; [exact A3|]. split; [exact A4|]. intros x X. discriminate.
      * split; [exact SH|]. split; [exact RL|]. split; [exact RR|]. split; [exact IN|]. intros x X. discriminate.
      * split; [exact SH|]. split; [exact RL|]. split; [exact RR|]. split; [exact IN|]. intros x X. discriminate.
    + split; [exact SH|]. split; [exact RL|]. split; [exact RR|]. split; [exact IN|]. intros x X. discriminate.
    + split; [exact SH|]. split; [reflexivity|]. split; [exact RR|]. split; [intros e []|]. intros x X. discriminate.
    + destruct (started_calm w w' SH RL RR IN ST) as [ER [ERL [ERR [INC [m [P' [A [B [U [SF [T _]]]]]]]]]]]. split; [rewrite ER; exact SH|]. split; [exact ERL|]. split; [exact ERR|]. split; [exact INC|].
      intros x X. rewrite P' in X. injection X as <-. split; [exact A|]. split; [exact B|]. split; [|intros k d K; congruence]. unfold covered. rewrite U, ER. destruct T as [[_ T]|[d [I T]]]; [auto|]. right. exists d. split; [exact I|]. lia.
Qed.
(** Losing the machine (or only the process) at any moment: every start whose downloads work succeeds, and continues an
    execution without failures from less than two blocks before the point that was reached. *)
Theorem C90_survives : forall w m w0 w', calm S init iter rejected prefix bs h w -> proc w = Some m ->
  w0 = {| loc := []; rem := rem w; rloc := []; rrem := rrem w; proc := None |} \/ w0 = with_proc S w None -> started S init prefix h w0 w' ->
  exists m', proc w' = Some m' /\ (t m < t m' + 2 * bs)%nat /\ trace S init iter rejected (rows m') (cur m') (t m').
Proof.
  intros w m w0 w' CA P W ST. destruct (calm_inv w CA) as [SH [RL [RR [IN SO]]]]. destruct (SO m P) as [SM [MM [CV KP]]].
  assert (Q : (forall e, In e (rem w0) -> proper e) /\ rloc w0 = [] /\ rrem w0 = [] /\ incl (loc w0) (rem w0) /\ rem w0 = rem w).
  { destruct W as [-> | ->]; cbn; repeat split; auto. intros e []. }
  destruct Q as [Q1 [Q2 [Q3 [Q4 Q5]]]]. destruct (started_calm w0 w' Q1 Q2 Q3 Q4 ST) as [_ [_ [_ [_ [m' [P' [A [_ [U' [S' [T TOP]]]]]]]]]]]. rewrite Q5 in T, TOP. exists m'. split; [exact P'|]. split.
  - unfold covered in CV. destruct (unsafe_step m) as [u|].
    + destruct CV as [[L1 L2] [->|[d [I E]]]]; [lia|]. specialize (TOP d I). lia.
    + destruct CV as [->|[d [I L]]]; [lia|]. specialize (TOP d I). lia.
  - destruct ST as [w0 l1 l2 l3 l4 L1 L2 loc' rloc' L3 L4]. cbn [proc] in P'. destruct (load_sound S init iter rejected bs _ m' P') as [_ [_ [_ [_ R]]]].
    + intros n d k F. apply latest_some in F. destruct F as [I _]. assert (J : In (n, Whole d) (rem w0)).
      { destruct (started_calm w0 _ Q1 Q2 Q3 Q4 (Started S init prefix h w0 l1 l2 l3 l4 L1 L2 L3 L4)) as [_ [ERL [_ [INC _]]]]. cbn [loc rem rloc] in ERL, INC. apply in_app_or in I. destruct I as [I|I].
        - apply INC. apply (Permutation_in _ (Permutation_sym L3)), I.
        - apply (Permutation_in _ (Permutation_sym L4)) in I. unfold rloc' in I. rewrite ERL in I. destruct I. }
      destruct (Q1 _ J) as [d' [E [_ [G _]]]]. cbn in E. injection E as ->. exact G.
    + destruct R as [[_ [-> [-> ->]]]|[n [d [k [F [E [-> [-> ->]]]]]]]]; [constructor|]. apply latest_some in F. destruct F as [I _].
      assert (J : In (n, Whole d) (rem w0)).
      { destruct (started_calm w0 _ Q1 Q2 Q3 Q4 (Started S init prefix h w0 l1 l2 l3 l4 L1 L2 L3 L4)) as [_ [ERL [_ [INC _]]]]. cbn [loc rem rloc] in ERL, INC. apply in_app_or in I. destruct I as [I|I].
        - apply INC. apply (Permutation_in _ (Permutation_sym L3)), I.
        - apply (Permutation_in _ (Permutation_sym L4)) in I. unfold rloc' in I. rewrite ERL in I. destruct I. }
      destruct (Q1 _ J) as [d' [X [_ [G _]]]]. cbn in X. injection X as ->. rewrite <- E. exact G.
Qed.
End Calm.
