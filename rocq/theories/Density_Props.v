(** C37: the periodic density is binned in lattice coordinates. *)
From Coq Require Import Reals List Arith Bool ZArith Lra Lia Sorting.Permutation Sorting.Sorted.
From Verif Require Import Lin Geom_Spec Geom_Props Density_Model.
Import ListNotations.
Open Scope R_scope.

Definition enabled (axes : list (option axis)) : list axis := flat_map (fun a => match a with Some x => [x] | None => [] end) axes.
Definition by_index (a b : axis) : Prop := (lattice_index a <= lattice_index b)%nat.
Definition in_range (n : nat) (axes : list (option axis)) : Prop := forall a, In (Some a) axes -> (lattice_index a < n)%nat.

Lemma insert_perm a l : Permutation (a :: l) (insert a l).
Proof.
  induction l as [|b l IH]; simpl; auto. destruct (Nat.leb _ _); auto. rewrite perm_swap. constructor. exact IH.
Qed.
Lemma sort_perm l : Permutation l (sort_axes l).
Proof. induction l as [|a l IH]; simpl; auto. rewrite <- insert_perm. constructor. exact IH. Qed.
Lemma insert_sorted a l : StronglySorted by_index l -> StronglySorted by_index (insert a l).
Proof.
  induction 1 as [|b l S IH F]; simpl; [constructor; constructor|]. destruct (Nat.leb_spec (lattice_index a) (lattice_index b)) as [L|L].
  - constructor; [constructor; auto|]. constructor; auto. apply Forall_forall. intros x Hx. rewrite Forall_forall in F. specialize (F x Hx). unfold by_index in *. lia.
  - constructor; auto. apply Forall_forall. intros x Hx. apply Permutation_in with (l' := a :: l) in Hx; [|symmetry; apply insert_perm].
    destruct Hx as [<-|Hx]; [unfold by_index; lia|]. rewrite Forall_forall in F. auto.
Qed.

(** Every enabled axis has one column, in the order of the lattice indices, and the bins are
    listed in the same order. *)
Theorem C37_columns : forall n inv axes r, exists order,
  Permutation (enabled axes) order /\ StronglySorted by_index order /\
  fst (histogram_spec axes) = map nbins order /\
  extract n inv axes r = map (fun a => fractional n inv r (lattice_index a)) order /\
  Forall (fun rg => rg = (0, 1)) (snd (histogram_spec axes)) /\ Forall (fun x => 0 <= x < 1) (extract n inv axes r).
Proof.
  intros n inv axes r. exists (sorted_axes axes). split; [apply sort_perm|]. split.
  - unfold sorted_axes. induction (flat_map _ axes) as [|a l IH]; simpl; [constructor|]. apply insert_sorted. exact IH.
  - split; [reflexivity|]. split; [reflexivity|]. split; apply Forall_forall; intros x Hx; apply in_map_iff in Hx as (a & <- & _); [reflexivity|].
    apply rmod1_range.
Qed.

(** ** C37, for symmetric lattice matrices: column a is the coordinate along lattice vector
    a, modulo one. *)
Theorem C37_symmetric_partial : forall n l inv axes r f,
  inverse n l inv -> (forall i j, (i < n)%nat -> (j < n)%nat -> l i j = l j i) -> in_range n axes ->
  has_coordinates n l r f ->
  extract n inv axes r = map (fun a => rmod (f (lattice_index a)) 1) (sorted_axes axes).
Proof.
  intros n l inv axes r f INV SY RG H. unfold extract. apply map_ext_in. intros a Ha.
  apply Permutation_in with (l' := enabled axes) in Ha; [|symmetry; apply sort_perm]. apply in_flat_map in Ha as (o & O1 & O2).
  destruct o as [b|]; [|inversion O2]. destruct O2 as [->|[]]. specialize (RG a O1). unfold fractional. f_equal.
  rewrite <- (coordinates_unique n l inv INV r f H _ RG). apply sum_ext. intros i Hi. f_equal.
  assert (IT : inverse n l (fun a b => inv b a)).
  { destruct INV as [I1 I2]. split; intros p q P Q.
    - rewrite (sum_ext n _ (fun k => inv q k * l k p)) by (intros; rewrite (SY p i0) by auto; ring). rewrite I2 by auto. unfold delta. rewrite Nat.eqb_sym. reflexivity.
    - rewrite (sum_ext n _ (fun k => l q k * inv k p)) by (intros; rewrite (SY q i0) by auto; ring). rewrite I1 by auto. unfold delta. rewrite Nat.eqb_sym. reflexivity. }
  apply (inverse_unique n l (fun a b => inv b a) inv i (lattice_index a)); auto.
Qed.

(** *** For other lattices it is wrong: line 77 multiplies by the transpose of the inverse.
    The electron at the middle of the second vector of this lattice, coordinates (0, 1/2, 0),
    is counted at 1/4 along the first ... *)
Definition shear_l := of_rows3 (of_list3 1 0 0) (of_list3 (1/2) 1 0) (of_list3 0 0 1).
Definition shear_i := of_rows3 (of_list3 1 0 0) (of_list3 (-1/2) 1 0) (of_list3 0 0 1).
Lemma shear_ok : inverse 3 shear_l shear_i.
Proof.
  split; intros a b A B; (destruct a as [|[|[|a]]]; [| | |lia]); (destruct b as [|[|[|b]]]; [| | |lia]);
    unfold delta, shear_l, shear_i, of_rows3, of_list3; simpl; field.
Qed.
Theorem C37_transposed_refuted :
  inverse 3 shear_l shear_i /\
  has_coordinates 3 shear_l (of_list3 (1/4) (1/2) 0) (of_list3 0 (1/2) 0) /\
  fractional 3 shear_i (of_list3 (1/4) (1/2) 0) 0 = 1 / 4 /\
  (** ... and the value is not even periodic: one second lattice vector further it is 3/4. *)
  is_image 3 shear_l (of_list3 (1/4) (1/2) 0) (of_list3 (3/4) (3/2) 0) /\
  fractional 3 shear_i (of_list3 (3/4) (3/2) 0) 0 = 3 / 4.
Proof.
  split; [exact shear_ok|]. split; [|split; [|split]].
  - intros j Hj. unfold shear_l. (destruct j as [|[|[|j]]]; [| | |lia]); simpl; field.
  - unfold fractional. rewrite rmod1_id; unfold shear_i; simpl; lra.
  - exists (fun i => match i with 1%nat => 1%Z | _ => 0%Z end). intros j Hj. rewrite lv3. unfold shear_l. (destruct j as [|[|[|j]]]; [| | |lia]); simpl; field.
  - unfold fractional. rewrite rmod1_id; unfold shear_i; simpl; lra.
Qed.

Example C37_example : inverse 3 rotated rotated_inv -> in_range 3 [Some {| lattice_index := 2; nbins := 5 |}; None; Some {| lattice_index := 0; nbins := 7 |}] /\
  fst (histogram_spec [Some {| lattice_index := 2; nbins := 5 |}; None; Some {| lattice_index := 0; nbins := 7 |}]) = [7%nat; 5%nat].
Proof.
  intros _. split; [|reflexivity]. intros a [H|[H|[H|[]]]]; try discriminate; inversion H; subst; simpl; lia.
Qed.
Print Assumptions C37_symmetric_partial.
