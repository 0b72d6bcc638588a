(** Lemmas for C95: directional derivatives in real coordinates. *)
From Coq Require Import Reals List Arith Bool Lra Lia FunctionalExtensionality.
From Coquelicot Require Import Complex Derive.
From Verif Require Import Lin Jet Lap_Spec Lap_Props Fl_Spec Cx_Lemmas Ad_Model Ad_Spec.
Import ListNotations.
Open Scope R_scope.
Local Notation total := Lap_Spec.total.

Lemma sum_add n m f : sum (n + m) f = sum n f + sum m (fun i => f (n + i)%nat).
Proof. induction m as [|m IH]; [rewrite Nat.add_0_r; cbn; ring|]. rewrite Nat.add_succ_r. cbn [sum]. rewrite IH. ring. Qed.
Lemma sum_2n n f : sum (2 * n) f = sum n f + sum n (fun i => f (n + i)%nat).
Proof. replace (2 * n)%nat with (n + n)%nat by lia. apply sum_add. Qed.
Lemma pick n j c : (j < n)%nat -> sum n (fun i => if Nat.eqb i j then c else 0) = c.
Proof.
  intros J. transitivity (sum n (fun i => c * delta i j)); [|exact (sum_delta_r n (fun _ => c) j J)]. apply sum_ext. intros i _. cbn beta. unfold delta. destruct (Nat.eqb i j); ring.
Qed.

Lemma coords_lo n x a : (a < n)%nat -> coords n x a = fst (x a).
Proof. intros A. unfold coords. destruct (Nat.ltb_spec a n); [reflexivity|lia]. Qed.
Lemma coords_hi n x a : coords n x (n + a)%nat = snd (x a).
Proof. unfold coords. destruct (Nat.ltb_spec (n + a) n); [lia|]. do 2 f_equal. lia. Qed.
Lemma coords_eye n i a : (i < n)%nat -> (a < 2 * n)%nat -> coords n (eye i) a = delta a i.
Proof.
  intros I A. unfold coords, eye, delta. destruct (Nat.ltb_spec a n); [destruct (Nat.eqb a i); reflexivity|].
  destruct (Nat.eqb_spec a i); [lia|]. destruct (Nat.eqb (a - n) i); reflexivity.
Qed.
Lemma coords_ieye n i a : (i < n)%nat -> (a < 2 * n)%nat -> coords n (ieye i) a = delta a (n + i).
Proof.
  intros I A. unfold coords, ieye, delta. destruct (Nat.ltb_spec a n).
  - destruct (Nat.eqb_spec a (n + i)); [lia|]. destruct (Nat.eqb a i); reflexivity.
  - destruct (Nat.eqb_spec a (n + i)), (Nat.eqb_spec (a - n) i); try reflexivity; lia.
Qed.
Lemma point_coords n kind x : typed n kind x -> forall i, (i < n)%nat -> point n kind (coords n x) i = x i.
Proof.
  intros T i I. unfold point. rewrite (coords_lo n x i I), coords_hi. destruct (kind i) eqn:K; [|destruct (x i); reflexivity].
  pose proof (T i I K) as Z. destruct (x i) as [a b]. cbn in *. subst. reflexivity.
Qed.
Lemma move_point n kind r x t h i : (forall i, (i < n)%nat -> x i = point n kind r i) -> typed n kind t -> (i < n)%nat ->
  move x t h i = point n kind (fun a => r a + h * coords n t a) i.
Proof.
  intros X T I. unfold move. rewrite (X i I). unfold point. rewrite (coords_lo n t i I), coords_hi.
  pose proof (T i I) as TI. destruct (kind i); [rewrite <- (surjective_pairing (t i)) || idtac|]; apply C_ext; cbn; try rewrite (TI eq_refl); ring.
Qed.

Lemma line_open N D r tau : openn N D -> D r -> exists e, 0 < e /\ forall h, Rabs h < e -> D (fun a => r a + h * tau a).
Proof.
  intros O DR. destruct (O r DR) as (e & E & H). set (M := sum N (fun a => Rabs (tau a))).
  assert (M0 : 0 <= M) by (apply sum_nonneg; intros; apply Rabs_pos).
  assert (LE : forall a, (a < N)%nat -> Rabs (tau a) <= M).
  { intros a A. unfold M. clear - A. induction N as [|N IH]; [lia|]. cbn [sum]. pose proof (Rabs_pos (tau N)).
    assert (0 <= sum N (fun a => Rabs (tau a))) by (apply sum_nonneg; intros; apply Rabs_pos).
    destruct (Nat.eq_dec a N) as [->|]; [lra|]. pose proof (IH ltac:(lia)). lra. }
  exists (e / (M + 1)). split; [apply Rdiv_lt_0_compat; lra|]. intros h HH. apply H. intros a A.
  replace (r a + h * tau a - r a) with (h * tau a) by ring. rewrite Rabs_mult. pose proof (LE a A). pose proof (Rabs_pos h).
  apply Rle_lt_trans with (Rabs h * (M + 1)); [apply Rmult_le_compat_l; lra|].
  replace e with (e / (M + 1) * (M + 1)) by (field; lra). apply Rmult_lt_compat_r; lra.
Qed.
Lemma total_line N F v g tau : total N F v g -> derivable_pt_lim (fun h => F (fun a => v a + h * tau a)) 0 (sum N (fun a => g a * tau a)).
Proof.
  intros T. apply (total_chain N F v g (fun a h => v a + h * tau a) tau 0); [intros; ring|exact T|].
  intros a _. apply (derivable_eq _ _ (0 + 1 * tau a)); [ring|]. apply (derivable_pt_lim_plus (fun _ => v a) (fun h => h * tau a)); [apply derivable_pt_lim_const|].
  apply (derivable_ext (fun h => tau a * h)); [intros; ring|]. apply (derivable_eq _ _ (tau a * 1)); [ring|]. apply (derivable_pt_lim_scal id). apply derivable_pt_lim_id.
Qed.

(** The derivative of a quantity that equals [Q] around the point. *)
Lemma derive_along n kind D (P : cvec -> R) Q r g x t : openn (2 * n) D -> D r ->
  (forall y r', D r' -> (forall i, (i < n)%nat -> y i = point n kind r' i) -> P y = Q r') ->
  total (2 * n) Q r g -> (forall i, (i < n)%nat -> x i = point n kind r i) -> typed n kind t ->
  Derive (fun h => P (move x t h)) 0 = sum (2 * n) (fun a => g a * coords n t a).
Proof.
  intros O DR PQ T X TT. apply is_derive_unique. apply is_derive_Reals.
  destruct (line_open (2 * n) D r (coords n t) O DR) as (e & E & H).
  apply (derivable_local (fun h => Q (fun a => r a + h * coords n t a))); [apply total_line; exact T|].
  exists e. split; [exact E|]. intros h HH. rewrite Rminus_0_r in HH. symmetry. apply PQ; [apply H; exact HH|].
  intros i I. apply move_point; auto.
Qed.
Lemma total_unique N D F F' r g g' : openn N D -> D r -> (forall v, D v -> F v = F' v) -> total N F r g -> total N F' r g' -> forall a, (a < N)%nat -> g a = g' a.
Proof.
  intros O DR EQ T T' a A. 
  assert (X : forall h : vec, sum N (fun b => h b * delta b a) = h a) by (intros h; apply (sum_delta_r N h a A)).
  rewrite <- (X g), <- (X g'). destruct (line_open N D r (fun b => delta b a) O DR) as (e & E & H).
  eapply uniqueness_limite; [apply total_line; exact T|]. apply (derivable_local (fun h => F' (fun b => r b + h * delta b a))); [apply total_line; exact T'|].
  exists e. split; [exact E|]. intros h HH. rewrite Rminus_0_r in HH. symmetry. apply EQ. apply H. exact HH.
Qed.

(** ** Conversion of the flattened array back to its leaves *)
Lemma existsb_false {A} (f : A -> bool) l : existsb f l = false -> forall x, In x l -> f x = false.
Proof. intros E x I. destruct (f x) eqn:F; auto. rewrite <- E. symmetry. apply existsb_exists. exists x. auto. Qed.
Lemma unravel_point n kind y r : (forall i, (i < n)%nat -> y i = point n (fun _ => flat_dtype n kind) r i) ->
  forall i, (i < n)%nat -> unravel n kind y i = point n kind r i.
Proof.
  intros Y i I. unfold unravel. rewrite (Y i I). unfold point, flat_dtype, mixed in *. assert (IN : In i (seq 0 n)) by (apply in_seq; lia).
  destruct (existsb (fun i => is_cx (kind i)) (seq 0 n)) eqn:A; cbn [andb].
  - destruct (existsb (fun i => negb (is_cx (kind i))) (seq 0 n)) eqn:B; [destruct (kind i); reflexivity|].
    pose proof (existsb_false _ _ B i IN) as Z. cbn beta in Z. destruct (kind i); [discriminate|reflexivity].
  - pose proof (existsb_false _ _ A i IN) as Z. cbn beta in Z. destruct (kind i); [reflexivity|discriminate].
Qed.
Lemma typed_flat n kind t : typed n kind t -> typed n (fun _ => flat_dtype n kind) t.
Proof.
  intros T i I F. apply (T i I). unfold flat_dtype in F. destruct (existsb (fun i => is_cx (kind i)) (seq 0 n)) eqn:A; [discriminate|].
  pose proof (existsb_false _ _ A i ltac:(apply in_seq; lia)) as Z. cbn beta in Z. destruct (kind i); [reflexivity|discriminate].
Qed.
Lemma unravel_const n dt y : unravel n (fun _ => dt) y = y.
Proof.
  apply functional_extensionality. intros i. unfold unravel, mixed. destruct dt; cbn [is_cx negb andb]; [|rewrite andb_comm].
  - destruct (existsb (fun _ => false) (seq 0 n)) eqn:A; [|reflexivity]. apply existsb_exists in A. destruct A as (z & _ & Z). discriminate.
  - destruct (existsb (fun _ => false) (seq 0 n)) eqn:A; [|reflexivity]. apply existsb_exists in A. destruct A as (z & _ & Z). discriminate.
Qed.
Lemma flat_dtype_const n dt : (0 < n)%nat -> flat_dtype n (fun _ => dt) = dt.
Proof. intros N. unfold flat_dtype. destruct n as [|n]; [lia|]. cbn. destruct dt; cbn; auto. destruct (existsb (fun _ => false) (seq 1 n)) eqn:A; [|reflexivity]. apply existsb_exists in A. destruct A as (z & _ & Z). discriminate. Qed.
Lemma smooth_flat n kind D f d : smooth n kind D f d -> smooth n (fun _ => flat_dtype n kind) D (fun y => f (unravel n kind y)) d.
Proof.
  intros (O & E & A & B). split; [exact O|]. split; [|].
  - intros x y XY. apply E. intros i I. unfold unravel. rewrite (XY i I). reflexivity.
  - assert (P : forall r, f (unravel n kind (point n (fun _ => flat_dtype n kind) r)) = f (point n kind r)).
    { intros r. apply E. apply unravel_point. auto. }
    split; intros v Dv; [destruct (A v Dv) as [T H]|destruct (B v Dv) as [T H]]; (split; [|exact H]);
      intros eps EPS; destruct (T eps EPS) as (del & DEL & K); exists del; (split; [exact DEL|]); intros u U; rewrite !P; apply K; exact U.
Qed.
