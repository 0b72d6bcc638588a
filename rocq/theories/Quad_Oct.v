(** C53: the octahedral rules are exact on polynomials. *)
From Coq Require Import Reals List Arith Lia Lra.
From Coquelicot Require Import Coquelicot.
From Verif Require Import Quad_Spec Quad_Sphere Quad_Rot Quad_Model.
Import ListNotations.
Open Scope R_scope.

(** ** From moments to polynomials *)
Definition wsum (cs : list R) (ps : list vec) (f : fn) : R := fold_right Rplus 0 (map (fun x => fst x * snd x) (combine (map (at_pt f) ps) cs)).
Lemma wsum_plus cs : forall ps f g, wsum cs ps (fun x y z => f x y z + g x y z) = wsum cs ps f + wsum cs ps g.
Proof. unfold wsum. induction cs as [|c cs IH]; intros [|p ps] f g; cbn [map combine fold_right fst snd]; try lra. rewrite IH. unfold at_pt. lra. Qed.
Lemma wsum_scal cs : forall ps f k, wsum cs ps (fun x y z => k * f x y z) = k * wsum cs ps f.
Proof. unfold wsum. induction cs as [|c cs IH]; intros [|p ps] f k; cbn [map combine fold_right fst snd]; try lra. rewrite IH. unfold at_pt. ring. Qed.
Lemma wsum_ext cs ps f g : (forall x y z, f x y z = g x y z) -> wsum cs ps f = wsum cs ps g.
Proof. intros E. unfold wsum. f_equal. f_equal. f_equal. apply map_ext. intros p. apply E. Qed.
Definition mono (a b c : nat) : fn := fun x y z => x ^ a * y ^ b * z ^ c.
Definition exact (q : quadrature) (d : nat) : Prop := forall f, Poly d f -> sphere_integral f (integrate q (map (at_pt f) (pts q))).
Lemma exact_moments q d : (forall a b c, (a + b + c <= d)%nat -> wsum (coefs q) (pts q) (mono a b c) * 4 * PI = mom a b c) -> exact q d.
Proof.
  intros M f F. change (integrate q (map (at_pt f) (pts q))) with (wsum (coefs q) (pts q) f * 4 * PI).
  induction F as [k a b c H|f g F IF G IG|f g F IF E].
  - fold (mono a b c). change (fun x y z => k * mono a b c x y z) with (fun x y z : R => k * (x ^ a * y ^ b * z ^ c)). 
    replace (wsum (coefs q) (pts q) (fun x y z : R => k * (x ^ a * y ^ b * z ^ c)) * 4 * PI) with (k * mom a b c); [apply mono_is|]. rewrite <- (M a b c H). rewrite <- (wsum_scal (coefs q) (pts q) (mono a b c) k) || idtac. rewrite (wsum_scal (coefs q) (pts q) (fun x y z => x ^ a * y ^ b * z ^ c) k). unfold mono. ring.
  - rewrite wsum_plus. replace ((wsum (coefs q) (pts q) f + wsum (coefs q) (pts q) g) * 4 * PI) with (wsum (coefs q) (pts q) f * 4 * PI + wsum (coefs q) (pts q) g * 4 * PI) by ring. apply sphere_plus; assumption.
  - rewrite <- (wsum_ext _ _ f g E). eapply sphere_ext; eauto.
Qed.
(** ** Weighted sums over orbits *)
Lemma wsum_app c1 : forall p1 c2 p2 f, length c1 = length p1 -> wsum (c1 ++ c2) (p1 ++ p2) f = wsum c1 p1 f + wsum c2 p2 f.
Proof.
  unfold wsum. induction c1 as [|c c1 IH]; intros [|p p1] c2 p2 f L; try discriminate; cbn [app map combine fold_right fst snd]; [lra|]. rewrite IH by (cbn in L; lia). lra.
Qed.
Definition total (ps : list vec) (f : fn) : R := fold_right Rplus 0 (map (at_pt f) ps).
Lemma total_app p1 p2 f : total (p1 ++ p2) f = total p1 f + total p2 f.
Proof. unfold total. induction p1 as [|p p1 IH]; cbn [app map fold_right]; [lra|rewrite IH; lra]. Qed.
Lemma wsum_repeat w : forall ps f n, n = length ps -> wsum (repeat w n) ps f = w * total ps f.
Proof.
  unfold wsum, total. intros ps f n ->. induction ps as [|p ps IH]; cbn [length repeat map combine fold_right fst snd]; [lra|]. rewrite IH. lra.
Qed.
(** the sum over the signs of one coordinate *)
Definition both (v : R) (a : nat) : R := v ^ a + (if Req_EM_T v 0 then 0 else (- v) ^ a).
Definition count (v : R) : nat := if Req_EM_T v 0 then 1%nat else 2%nat.
Lemma orbit_total x y z a b c : total (orbit x y z) (mono a b c) = both x a * both y b * both z c.
Proof.
  unfold orbit, total, both. cbn [expand_sign]. destruct (Req_EM_T z 0), (Req_EM_T y 0), (Req_EM_T x 0); cbn [map app fold_right]; unfold at_pt, mono, to_vec; cbn [fst snd nth]; ring.
Qed.
Lemma orbit_length x y z : length (orbit x y z) = (count x * count y * count z)%nat.
Proof. unfold orbit, count. cbn [expand_sign]. destruct (Req_EM_T z 0), (Req_EM_T y 0), (Req_EM_T x 0); reflexivity. Qed.
Lemma both_odd v a : Nat.Odd a -> both v a = 0.
Proof.
  intros [k ->]. unfold both. rewrite !pow_add, !pow_mult. destruct (Req_EM_T v 0) as [->|N]; [cbn; ring|]. replace ((- v) ^ 2) with (v ^ 2) by ring. ring.
Qed.
Lemma both_zero a : both 0 a = match a with O => 1 | _ => 0 end.
Proof. unfold both. destruct (Req_EM_T 0 0) as [_|N]; [|contradiction]. destruct a; cbn; ring. Qed.
Lemma both_even v w i : v <> 0 -> v ^ 2 = w -> both v (2 * i) = 2 * w ^ i.
Proof. intros N E. unfold both. destruct (Req_EM_T v 0); [contradiction|]. rewrite !pow_mult. replace ((- v) ^ 2) with (v ^ 2) by ring. rewrite E. ring. Qed.
Lemma count_zero : count 0 = 1%nat. Proof. unfold count. destruct (Req_EM_T 0 0); congruence. Qed.
Lemma count_nz v : v <> 0 -> count v = 2%nat. Proof. intros N. unfold count. destruct (Req_EM_T v 0); congruence. Qed.
(** the coordinates *)
Lemma sqrt_facts k n : 0 < k -> 0 < n -> n / sqrt k <> 0 /\ (n / sqrt k) ^ 2 = n * n / k.
Proof.
  intros K N. pose proof (sqrt_lt_R0 k K) as P. split; [apply Rgt_not_eq; apply Rdiv_lt_0_compat; assumption|]. pose proof (sqrt_sqrt k (Rlt_le _ _ K)) as Q. replace ((n / sqrt k) ^ 2) with (n * n / (sqrt k * sqrt k)) by (field; lra). rewrite Q. reflexivity.
Qed.
Definition orbA := orbit 1 0 0 ++ orbit 0 1 0 ++ orbit 0 0 1.
Definition orbB := let p := 1 / sqrt 2 in orbit p p 0 ++ orbit p 0 p ++ orbit 0 p p.
Definition orbC := let q := 1 / sqrt 3 in orbit q q q.
Definition orbD := let r := 1 / sqrt 11 in let s := 3 / sqrt 11 in orbit r r s ++ orbit r s r ++ orbit s r r.
Lemma oct_pts_orbits : oct_pts = orbA ++ orbB ++ orbC ++ orbD. Proof. reflexivity. Qed.
Lemma orb_lengths : length orbA = 6%nat /\ length orbB = 12%nat /\ length orbC = 8%nat /\ length orbD = 24%nat.
Proof.
  destruct (sqrt_facts 2 1) as [P _]; try lra. destruct (sqrt_facts 3 1) as [Q _]; try lra. destruct (sqrt_facts 11 1) as [R0 _]; try lra. destruct (sqrt_facts 11 3) as [S0 _]; try lra.
  unfold orbA, orbB, orbC, orbD. cbv zeta. rewrite !app_length, !orbit_length, count_zero, !(count_nz (1 / sqrt 2)), !(count_nz (1 / sqrt 3)), !(count_nz (1 / sqrt 11)), !(count_nz (3 / sqrt 11)), (count_nz 1) by (assumption || lra). cbn. auto.
Qed.
(** even moments of the four orbits *)
Definition d0 (i : nat) : R := match i with O => 1 | _ => 0 end.
Lemma zero_even i : both 0 (2 * i) = d0 i. Proof. rewrite both_zero. destruct i; reflexivity. Qed.
Lemma orbA_even i j k : total orbA (mono (2 * i) (2 * j) (2 * k)) = 2 * (d0 j * d0 k + d0 i * d0 k + d0 i * d0 j).
Proof. unfold orbA. rewrite !total_app, !orbit_total, !zero_even, !(both_even 1 1) by (try lra; ring). rewrite !pow1. ring. Qed.
Lemma orbB_even i j k : total orbB (mono (2 * i) (2 * j) (2 * k)) = 4 * ((1/2) ^ i * (1/2) ^ j * d0 k + (1/2) ^ i * d0 j * (1/2) ^ k + d0 i * (1/2) ^ j * (1/2) ^ k).
Proof. destruct (sqrt_facts 2 1) as [P E]; try lra. unfold orbB. cbv zeta. rewrite !total_app, !orbit_total, !zero_even, !(both_even (1 / sqrt 2) (1/2)) by (assumption || (rewrite E; field)). ring. Qed.
Lemma orbC_even i j k : total orbC (mono (2 * i) (2 * j) (2 * k)) = 8 * ((1/3) ^ i * (1/3) ^ j * (1/3) ^ k).
Proof. destruct (sqrt_facts 3 1) as [P E]; try lra. unfold orbC. cbv zeta. rewrite !orbit_total, !(both_even (1 / sqrt 3) (1/3)) by (assumption || (rewrite E; field)). ring. Qed.
Lemma orbD_even i j k : total orbD (mono (2 * i) (2 * j) (2 * k)) = 8 * ((1/11) ^ i * (1/11) ^ j * (9/11) ^ k + (1/11) ^ i * (9/11) ^ j * (1/11) ^ k + (9/11) ^ i * (1/11) ^ j * (1/11) ^ k).
Proof.
  destruct (sqrt_facts 11 1) as [P E]; try lra. destruct (sqrt_facts 11 3) as [P' E']; try lra. unfold orbD. cbv zeta. rewrite !total_app, !orbit_total, !(both_even (1 / sqrt 11) (1/11)), !(both_even (3 / sqrt 11) (9/11)) by (assumption || (rewrite E; field) || (rewrite E'; field)). ring.
Qed.
Lemma orb_odd a b c : Nat.Odd a \/ Nat.Odd b \/ Nat.Odd c -> total orbA (mono a b c) = 0 /\ total orbB (mono a b c) = 0 /\ total orbC (mono a b c) = 0 /\ total orbD (mono a b c) = 0.
Proof.
  intros H. unfold orbA, orbB, orbC, orbD. cbv zeta. rewrite !total_app, !orbit_total. assert (Z : forall x y z, both x a * both y b * both z c = 0) by (intros x y z; destruct H as [O|[O|O]]; rewrite (both_odd _ _ O); ring). rewrite !Z. repeat split; lra.
Qed.
(** a rule with weights on the orbits *)
Definition oct_weights (n : nat) : R * R * R * R :=
  match n with 6%nat => (1/6, 0, 0, 0) | 18%nat => (1/30, 1/15, 0, 0) | 26%nat => (1/21, 4/105, 27/840, 0) | _ => (4/315, 64/2835, 27/1280, 14641/725760) end.
Definition oct_degree (n : nat) : nat := match n with 6%nat => 3 | 18%nat => 5 | 26%nat => 7 | _ => 11 end.
Lemma firstn_exact {A} n (l l' : list A) : length l = n -> firstn n (l ++ l') = l.
Proof. intros <-. rewrite firstn_app, Nat.sub_diag, firstn_all. cbn. apply app_nil_r. Qed.
Lemma oct_wsum n q f : octahedron n = Some q -> wsum (coefs q) (pts q) f =
  match oct_weights n with (wa, wb, wc, wd) => wa * total orbA f + wb * total orbB f + wc * total orbC f + wd * total orbD f end.
Proof.
  destruct orb_lengths as [LA [LB [LC LD]]]. unfold octahedron. rewrite oct_pts_orbits.
  assert (N : oct_coefs n <> None -> n = 6%nat \/ n = 18%nat \/ n = 26%nat \/ n = 50%nat).
  { intros H. do 51 (destruct n as [|n]; [cbn in H; auto; congruence|]). cbn in H. congruence. }
  destruct (oct_coefs n) as [cs|] eqn:C; [|discriminate]. specialize (N ltac:(discriminate)). intros H. assert (QE : q = {| pts := firstn n (orbA ++ orbB ++ orbC ++ orbD); coefs := cs |}) by congruence. clear H. subst q. cbn [coefs pts].
  destruct N as [ -> | [ -> | [ -> | -> ] ] ]; unfold oct_coefs in C; match type of C with Some ?t = _ => assert (CE : cs = t) by congruence end; clear C; subst cs; cbn [oct_weights].
  - rewrite (firstn_exact 6) by exact LA. rewrite wsum_repeat by (symmetry; exact LA). lra.
  - rewrite (app_assoc orbA orbB), (firstn_exact 18) by (rewrite app_length, LA, LB; reflexivity). rewrite wsum_app by (rewrite repeat_length; symmetry; exact LA). rewrite !wsum_repeat by (symmetry; assumption). lra.
  - rewrite (app_assoc orbB orbC), (app_assoc orbA), (firstn_exact 26) by (rewrite !app_length, LA, LB, LC; reflexivity). rewrite !wsum_app by (rewrite repeat_length; symmetry; assumption). rewrite !wsum_repeat by (symmetry; assumption). lra.
  - rewrite firstn_all2 by (rewrite !app_length, LA, LB, LC, LD; cbn; lia). rewrite !wsum_app by (rewrite repeat_length; symmetry; assumption). rewrite !wsum_repeat by (symmetry; assumption). lra.
Qed.
Lemma oct_moments n q : octahedron n = Some q -> forall a b c, (a + b + c <= oct_degree n)%nat -> wsum (coefs q) (pts q) (mono a b c) * 4 * PI = mom a b c.
Proof.
  intros Q a b c D. rewrite (oct_wsum n q _ Q).
  assert (N : n = 6%nat \/ n = 18%nat \/ n = 26%nat \/ n = 50%nat).
  { unfold octahedron in Q. destruct (oct_coefs n) eqn:C; [|discriminate]. do 51 (destruct n as [|n]; [cbn in C; auto; congruence|]). cbn in C. congruence. }
  destruct (Nat.Even_or_Odd a) as [EA|OA]; [destruct (Nat.Even_or_Odd b) as [EB|OB]; [destruct (Nat.Even_or_Odd c) as [EC|OC]|]|].
  2,3,4: rewrite mom_odd by auto; destruct (orb_odd a b c) as ( -> & -> & -> & -> ); [auto|]; destruct (oct_weights n) as [[[? ?] ?] ?]; ring.
  destruct EA as [i ->], EB as [j ->], EC as [k ->]. rewrite mom_even, orbA_even, orbB_even, orbC_even, orbD_even.
  assert (L : (i + j + k <= oct_degree n / 2)%nat) by (apply Nat.div_le_lower_bound; lia). clear D Q.
  rewrite !(Rmult_assoc _ 4 PI), (Rmult_comm _ (4 * PI)). f_equal.
  destruct N as [ -> | [ -> | [ -> | -> ] ] ]; unfold oct_degree, oct_weights in *; change (3 / 2)%nat with 1%nat in L; change (5 / 2)%nat with 2%nat in L; change (7 / 2)%nat with 3%nat in L; change (11 / 2)%nat with 5%nat in L;
  (destruct i as [ | [ | [ | [ | [ | [ | i ] ] ] ] ] ]; try lia); (destruct j as [ | [ | [ | [ | [ | [ | j ] ] ] ] ] ]; try lia); (destruct k as [ | [ | [ | [ | [ | [ | k ] ] ] ] ] ]; try lia);
  cbn [odds dens d0 pow Nat.add Nat.mul INR]; lra.
Qed.
Lemma oct_exact n q : octahedron n = Some q -> exact q (oct_degree n).
Proof. intros Q. apply exact_moments. apply (oct_moments n q Q). Qed.
