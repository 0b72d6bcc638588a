(** C55: console field specifications and printing interval. *)
From Coq Require Import String Ascii List Bool Arith ZArith Lia.
From Verif Require Import Common Common_Proofs Console_Model.
Import ListNotations.
Open Scope string_scope.

(** *** Splitting *)
Lemma split_first_app c a b : str_has c a = false -> split_first c (a ++ String c b) = Some (a, b).
Proof.
  induction a as [|x a IH]; simpl; intros H.
  - rewrite Ascii.eqb_refl. auto.
  - apply orb_false_iff in H as [E H]. rewrite E, IH; auto.
Qed.
Lemma split_first_none c a : str_has c a = false -> split_first c a = None.
Proof.
  induction a as [|x a IH]; simpl; intros H; auto.
  apply orb_false_iff in H as [E H]. rewrite E, IH; auto.
Qed.
Lemma split_last_none c a : str_has c a = false -> split_last c a = None.
Proof.
  induction a as [|x a IH]; simpl; intros H; auto.
  apply orb_false_iff in H as [E H]. rewrite IH, E; auto.
Qed.
Lemma split_last_app c a b : str_has c b = false -> split_last c (a ++ String c b) = Some (a, b).
Proof.
  intros H. induction a as [|x a IH]; simpl.
  - rewrite split_last_none, Ascii.eqb_refl; auto.
  - rewrite IH; auto.
Qed.
Lemma split_last_some c s a b : split_last c s = Some (a, b) -> s = a ++ String c b /\ str_has c b = false.
Proof.
  revert a b. induction s as [|x s IH]; simpl; [discriminate|]. intros a b.
  destruct (split_last c s) as [[u v]|] eqn:E.
  - intros H; inversion H; subst. destruct (IH u b eq_refl) as [-> Hb]. auto.
  - destruct (Ascii.eqb_spec c x); [|discriminate]. intros H; inversion H; subst. split; auto.
    clear -E. induction b as [|y b IH]; simpl in *; auto.
    destruct (split_last x b) as [[u v]|]; [discriminate|].
    destruct (Ascii.eqb_spec x y); [discriminate|]. simpl. auto.
Qed.
Lemma split_first_some c s a b : split_first c s = Some (a, b) -> s = a ++ String c b /\ str_has c a = false.
Proof.
  revert a b. induction s as [|x s IH]; simpl; [discriminate|]. intros a b.
  destruct (Ascii.eqb_spec c x).
  - intros H; inversion H; subst. auto.
  - destruct (split_first c s) as [[u v]|]; [|discriminate].
    intros H; inversion H; subst. destruct (IH u b eq_refl) as [-> Hb]. split; auto. simpl. rewrite Hb.
    destruct (Ascii.eqb_spec c x); auto. contradiction.
Qed.

Lemma NoDup_app_iff_local {A} (l1 l2 : list A) :
  NoDup l1 -> NoDup l2 -> (forall x, In x l1 -> In x l2 -> False) -> NoDup (l1 ++ l2)%list.
Proof.
  induction 1; simpl; intros; auto. constructor.
  - intros K. apply in_app_or in K as [K|K]; [contradiction|]. eapply H2; [left; reflexivity|auto].
  - apply IHNoDup; auto. intros y Y1 Y2. apply (H2 y); simpl; auto.
Qed.

(** *** Specification: the text [[alias=]key[:format]] of the documentation. *)
Definition spec_text (al : option string) (k : string) (f : option string) : string :=
  match al with Some a => a ++ "=" | None => "" end ++ k ++ match f with Some x => ":" ++ x | None => "" end.

(** The last ":"-segment of a key, if it has a colon. *)
Definition digit_tail (k : string) : Prop :=
  exists a b, k = a ++ String ":" b /\ str_has ":" b = false /\ any_digit b = true.

(** A specification is read back as written when the alias has no "=" (and, without an
    alias, neither key nor format has one), the format is one that contains a digit and
    no colon, and - without a format - the last colon segment of the key has no digit. *)
Theorem C55_parse_intended : forall al k f,
  (forall a, al = Some a -> str_has "=" a = false) ->
  (al = None -> str_has "=" k = false /\ forall x, f = Some x -> str_has "=" x = false) ->
  (forall x, f = Some x -> str_has ":" x = false /\ any_digit x = true) ->
  (f = None -> ~ digit_tail k) ->
  parse (spec_text al k f) = {| key := k; alias := al; fmt := f |}.
Proof.
  intros al k f Ha Hn Hf Hk.
  assert (R : forall rest, rest = k ++ match f with Some x => ":" ++ x | None => "" end ->
     match split_last ":" rest with
     | Some (k, candidate) => if any_digit candidate then {| key := k; alias := al; fmt := Some candidate |}
                              else {| key := rest; alias := al; fmt := None |}
     | None => {| key := rest; alias := al; fmt := None |} end = {| key := k; alias := al; fmt := f |}).
  { intros rest ->. destruct f as [x|].
    - destruct (Hf x eq_refl) as [C D]. change (":" ++ x) with (String ":" x). rewrite split_last_app by auto. rewrite D. auto.
    - rewrite app_nil_s. destruct (split_last ":" k) as [[a b]|] eqn:E; auto.
      destruct (any_digit b) eqn:D; auto. exfalso. apply (Hk eq_refl).
      apply split_last_some in E as [-> Hb]. exists a, b. auto. }
  unfold parse, spec_text. destruct al as [a|].
  - rewrite app_assoc_s. change ("=" ++ ?r) with (String "=" r).
    rewrite split_first_app by (apply Ha; auto). apply R; auto.
  - destruct (Hn eq_refl) as [H1 H2]. rewrite split_first_none; [apply R; auto|].
    change ("" ++ ?r) with r.
    assert (C : forall a b, str_has "=" (a ++ b) = str_has "=" a || str_has "=" b).
    { clear. induction a; simpl; intros; auto. rewrite IHa. apply orb_assoc. }
    rewrite C, H1. destruct f as [x|]; simpl; auto.
Qed.

(** Parsing loses nothing: the three parts always spell the specification, the alias
    never contains "=", a format always has a digit and no colon. *)
Theorem C55_parse_lossless : forall s,
  let p := parse s in
  s = spec_text (alias p) (key p) (fmt p) /\
  (forall a, alias p = Some a -> str_has "=" a = false) /\
  (forall x, fmt p = Some x -> str_has ":" x = false /\ any_digit x = true) /\
  (fmt p = None -> ~ digit_tail (key p)).
Proof.
  intros s. unfold parse.
  set (ar := match split_first "=" s with Some (a, r) => (Some a, r) | None => (None, s) end).
  assert (A : s = match fst ar with Some a => a ++ "=" | None => "" end ++ snd ar /\
              (forall a, fst ar = Some a -> str_has "=" a = false)).
  { subst ar. destruct (split_first "=" s) as [[a r]|] eqn:E; simpl.
    - apply split_first_some in E as [-> H]. rewrite app_assoc_s. split; auto. intros x Hx; inversion Hx; subst; auto.
    - split; auto. discriminate. }
  destruct ar as [al rest]; simpl in A. destruct A as [A1 A2].
  assert (G : forall r, split_last ":" r = None -> ~ digit_tail r).
  { intros r E (a & b & -> & Hb & _). rewrite split_last_app in E by auto. discriminate. }
  destruct (split_last ":" rest) as [[k c]|] eqn:E; [destruct (any_digit c) eqn:D|]; simpl.
  - apply split_last_some in E as [E Hc]. subst rest. unfold spec_text. split; [exact A1|].
    split; auto. split; [|discriminate]. intros x Hx; inversion Hx; subst; auto.
  - unfold spec_text. rewrite app_nil_s. split; auto. split; auto. split; [discriminate|].
    intros _ (a & b & Er & Hb & Db). rewrite Er, split_last_app in E by auto. inversion E; subst. congruence.
  - unfold spec_text. rewrite app_nil_s. split; auto. split; auto. split; [discriminate|]. intros _. auto.
Qed.

(** The examples of the documentation. *)
Example C55_doc_examples :
  parse "total_energy:.6f" = {| key := "total_energy"; alias := None; fmt := Some ".6f" |} /\
  parse "Lz=angular_momentum_z:+.4f" = {| key := "angular_momentum_z"; alias := Some "Lz"; fmt := Some "+.4f" |} /\
  parse "energy:kinetic" = {| key := "energy:kinetic"; alias := None; fmt := None |} /\
  fields_specs "loss, E=energy:kinetic:.3e" =
    [{| key := "loss"; alias := None; fmt := None |};
     {| key := "energy:kinetic"; alias := Some "E"; fmt := Some ".3e" |}].
Proof. repeat split. Qed.

(** The heuristic misreads a key whose last colon segment has a digit, and a format
    without a digit. *)
Theorem C55_key_with_digit_refuted :
  ~ (forall k, str_has "=" k = false -> parse (spec_text None k None) = {| key := k; alias := None; fmt := None |}).
Proof. intros H. specialize (H "energy:l2" eq_refl). discriminate H. Qed.
Theorem C55_format_without_digit_refuted :
  ~ (forall k x, str_has "=" k = false -> str_has "=" x = false -> str_has ":" x = false ->
       parse (spec_text None k (Some x)) = {| key := k; alias := None; fmt := Some x |}).
Proof. intros H. specialize (H "loss" "e" eq_refl eq_refl eq_refl). discriminate H. Qed.

(** *** Writing *)
Section Write.
  Variable V : Type.
  Variable of_step : Z -> V.
  Variable render : V -> string -> res string.
  Variable step_text : Z -> string.
  Notation write := (write V of_step render step_text).

  (** A run of writes: the writer state is threaded; messages per step. *)
  Fixpoint run (w : writer) (l : list (Z * list (string * V))) : res (list (Z * list message)) :=
    match l with
    | [] => Ok []
    | (s, st) :: l' => bind (write w s st) (fun r => bind (run (fst r) l') (fun ms => Ok ((s, snd r) :: ms)))
    end.

  Definition infos (ms : list message) : nat :=
    length (filter (fun m => match m with Info _ => true | Warn _ _ => false end) ms).

  Lemma write_interval w s st w' ms : write w s st = Ok (w', ms) ->
    interval w' = interval w /\ specs w' = specs w /\ interval w <> 0%Z /\
    infos ms = (if Z.eqb (s mod interval w) 0 then 1 else 0).
  Proof.
    unfold write. destruct (Z.eqb_spec (interval w) 0) as [|I]; [discriminate|].
    destruct (Z.eqb_spec (s mod interval w) 0); simpl.
    - destruct (parts _ _ _ _ _ _ _) as [[ps miss]|]; simpl; [|discriminate].
      destruct miss; intros H; inversion H; subst; simpl; auto.
    - intros H; inversion H; subst; simpl; auto.
  Qed.

  (** In any sequence of writes exactly one row is printed for each step that is a
      multiple of the interval, none for the others. *)
  Theorem C55_printed_every_interval : forall l w out, run w l = Ok out ->
    map fst out = map fst l /\
    Forall (fun sm => infos (snd sm) = if Z.eqb (fst sm mod interval w) 0 then 1 else 0) out.
  Proof.
    induction l as [|[s st] l IH]; simpl; intros w out H.
    - inversion H; subst; simpl; auto.
    - destruct (write w s st) as [[w' ms]|] eqn:E; simpl in H; [|discriminate].
      destruct (run w' l) as [rest|] eqn:R; simpl in H; [|discriminate]. inversion H; subst out; simpl.
      apply write_interval in E as (Ei & Es & _ & En). destruct (IH w' rest R) as [A B].
      rewrite A. split; auto. constructor; simpl; auto.
      rewrite <- Ei. exact B.
  Qed.

  (** The printed row: the step, then for every field that is present (in the
      configured order) [display_name=value rendered with its format or .4f]. *)
  Fixpoint row (values : list (string * V)) (ss : list field_spec) : res (list string) :=
    match ss with
    | [] => Ok []
    | s :: ss' =>
        match dict_get values (key s) with
        | Some v => bind (render v (match fmt s with Some f => f | None => ".4f" end))
                      (fun t => bind (row values ss') (fun r => Ok ((display_name s ++ "=" ++ t) :: r)))
        | None => row values ss'
        end
    end.

  Lemma parts_row values w ss : Forall (fun s => fmt s <> Some "") ss -> forall missing acc,
    match parts V render values w ss missing acc with
    | Ok (ps, _) => exists r, row values ss = Ok r /\ ps = (acc ++ r)%list
    | Raise e => row values ss = Raise e
    end.
  Proof.
    induction 1 as [|s ss Hs F IH]; intros missing acc; simpl.
    - exists []. rewrite app_nil_r. auto.
    - destruct (dict_get values (key s)) as [v|].
      + assert (FE : match fmt s with Some f => if f =? "" then ".4f" else f | None => ".4f" end
                     = match fmt s with Some f => f | None => ".4f" end).
        { destruct (fmt s) as [f|]; auto. destruct (String.eqb_spec f ""); auto. congruence. }
        rewrite FE. destruct (render v _) as [t|e]; simpl; auto.
        specialize (IH missing (acc ++ [(display_name s ++ "=" ++ t)%string])%list).
        destruct (parts _ _ _ _ _ _ _) as [[ps m]|e].
        * destruct IH as (r & -> & ->). simpl. exists ((display_name s ++ "=" ++ t) :: r).
          rewrite <- app_assoc. auto.
        * rewrite IH. auto.
      + destruct (mem (key s) w); apply IH.
  Qed.

  Lemma parse_fmt_nonempty s : fmt (parse s) <> Some "".
  Proof.
    destruct (C55_parse_lossless s) as (_ & _ & H & _). intros E. destruct (H _ E) as [_ D]. discriminate.
  Qed.

  Theorem C55_row_content : forall i fields wrn s st w' ms,
    write {| interval := i; specs := fields_specs fields; warned := wrn |} s st = Ok (w', ms) ->
    (s mod i = 0)%Z ->
    exists r pre, row (dict_update [("step", of_step s)] st) (fields_specs fields) = Ok r /\
      ms = (pre ++ [Info (str_join ", " (step_text s :: r))])%list /\ infos pre = 0.
  Proof.
    intros i fields wrn s st w' ms. unfold write. cbn [interval specs warned].
    destruct (Z.eqb_spec i 0); [discriminate|]. intros H Hm.
    destruct (Z.eqb_spec (s mod i) 0); [|contradiction]. cbn [negb] in H.
    set (values := dict_update _ st) in *.
    assert (F : Forall (fun s => fmt s <> Some "") (fields_specs fields)).
    { apply Forall_forall. intros x Hx. apply in_map_iff in Hx as (y & <- & _). apply parse_fmt_nonempty. }
    pose proof (parts_row values wrn _ F [] [step_text s]) as P.
    destruct (parts _ _ _ _ _ _ _) as [[ps miss]|]; simpl in H; [|discriminate].
    destruct P as (r & Er & ->). exists r. destruct miss; inversion H; subst.
    - exists []. auto.
    - eexists [_]. simpl. auto.
  Qed.

  (** A field is reported missing at most once over the life of the writer: the keys
      reported in a write are missing then and were never reported before. *)
  Definition reported (ms : list message) : list string :=
    flat_map (fun m => match m with Warn x _ => x | Info _ => [] end) ms.

  Lemma mem_In x l : mem x l = true <-> In x l.
  Proof.
    unfold mem. rewrite existsb_exists. split.
    - intros (y & H & E). apply String.eqb_eq in E. subst; auto.
    - intros H. exists x. split; auto. apply String.eqb_refl.
  Qed.

  Lemma parts_missing values w : forall ss missing acc ps m,
    parts V render values w ss missing acc = Ok (ps, m) ->
    NoDup missing -> (forall k, In k missing -> ~ In k w /\ dict_get values k = None) ->
    NoDup m /\ (forall k, In k m <-> In k missing \/ (In k (map key ss) /\ ~ In k w /\ dict_get values k = None)).
  Proof.
    induction ss as [|s ss IH]; simpl; intros missing acc ps m H ND I.
    - inversion H; subst. split; auto. intros k; intuition.
    - destruct (dict_get values (key s)) as [v|] eqn:E.
      + destruct (render v _); simpl in H; [|discriminate].
        destruct (IH _ _ _ _ H ND I) as [A B]. split; auto. intros k. rewrite B.
        split; [intuition|]. intros [K|([K|K] & W & N)]; [auto|subst; congruence|auto].
      + destruct (mem (key s) w) eqn:M.
        * destruct (IH _ _ _ _ H ND I) as [A B]. split; auto. intros k. rewrite B.
          apply mem_In in M. split; [intuition|]. intros [K|([K|K] & W & N)]; [auto|subst; contradiction|auto].
        * assert (NW : ~ In (key s) w) by (intros X; apply mem_In in X; congruence).
          unfold add in H. destruct (mem (key s) missing) eqn:Mm.
          -- apply mem_In in Mm. destruct (IH _ _ _ _ H ND I) as [A B]. split; auto. intros k. rewrite B.
             split; [intuition|]. intros [K|([K|K] & W & N)]; [auto|subst; auto|auto].
          -- assert (Nm : ~ In (key s) missing) by (intros X; apply mem_In in X; congruence).
             destruct (IH _ _ _ _ H) as [A B].
             ++ apply NoDup_Add with (a := key s) (l := missing); [|auto].
                rewrite <- (app_nil_r missing) at 1. apply Add_app.
             ++ intros k K. apply in_app_or in K as [K|[<-|[]]]; auto.
             ++ split; auto. intros k. rewrite B, in_app_iff. simpl. split; [intuition (subst; auto)|].
                intros [K|([K|K] & W & N)]; auto.
  Qed.

  Theorem C55_missing_reported_once : forall l w out, run w l = Ok out ->
    NoDup (flat_map (fun sm => reported (snd sm)) out) /\
    (forall k, In k (flat_map (fun sm => reported (snd sm)) out) -> ~ In k (warned w) /\ In k (map key (specs w))).
  Proof.
    induction l as [|[s st] l IH]; simpl; intros w out H.
    - inversion H; subst. simpl. split; [constructor|contradiction].
    - destruct (write w s st) as [[w' ms]|] eqn:E; simpl in H; [|discriminate].
      destruct (run w' l) as [rest|] eqn:R; simpl in H; [|discriminate]. inversion H; subst out; simpl.
      destruct (IH w' rest R) as [A B].
      assert (W : NoDup (reported ms) /\ (forall k, In k (reported ms) -> ~ In k (warned w) /\ In k (map key (specs w)))
        /\ specs w' = specs w /\ (forall k, In k (warned w') <-> In k (warned w) \/ In k (reported ms))).
      { clear - E. unfold write in E. destruct (interval w =? 0)%Z; [discriminate|].
        destruct (negb _).
        { inversion E; subst; simpl. repeat split; try constructor; try contradiction; intuition. }
        destruct (parts _ _ _ _ _ _ _) as [[ps miss]|] eqn:P; simpl in E; [|discriminate].
        apply parts_missing in P as [ND I]; [|constructor|contradiction].
        destruct miss as [|m0 miss]; inversion E; subst; simpl; [|rewrite app_nil_r].
        - repeat split; try constructor; try contradiction; intuition.
        - split; [exact ND|]. split; [|split; [auto|]].
          + intros k K. apply I in K as [[]|(K1 & K2 & _)]. auto.
          + intros k. rewrite in_app_iff. reflexivity. }
      destruct W as (W1 & W2 & W3 & W4). split.
      + apply NoDup_app_iff_local; auto.
        intros k K1 K2. apply B in K2 as [K2 _]. apply K2, W4. auto.
      + intros k K. apply in_app_or in K as [K|K]; [apply W2; auto|].
        apply B in K as [K1 K2]. rewrite W3 in K2. split; auto. intros X. apply K1, W4; auto.
  Qed.
End Write.

(** A zero interval is not rejected when the writer is built; the first write raises. *)
Theorem C55_zero_interval_raises : forall V os rd stx sp wrn s st,
  write V os rd stx {| interval := 0; specs := sp; warned := wrn |} s st = Raise ZeroDivisionError.
Proof. reflexivity. Qed.

Example C55_example :
  run Z (fun s => s) (fun _ f => Ok ("<" ++ f ++ ">")) (fun _ => "step=.")
    {| interval := 2; specs := fields_specs "loss, E=energy:.6f, gone"; warned := [] |}
    [(0%Z, [("loss", 1%Z); ("energy", 2%Z)]); (1%Z, [("loss", 1%Z)]); (2%Z, [("energy", 3%Z)])]
  = Ok [(0%Z, [Warn ["gone"] ["step"; "loss"; "energy"]; Info "step=., loss=<.4f>, E=<.6f>"]);
        (1%Z, []); (2%Z, [Warn ["loss"] ["step"; "energy"]; Info "step=., E=<.6f>"])].
Proof. reflexivity. Qed.

Print Assumptions C55_parse_intended.
Print Assumptions C55_row_content.
Print Assumptions C55_missing_reported_once.
