(** Model of the locality-aware (sparse) propagation of /repo/src/jaqmc/laplacian: sparse.py
    (OwnerRole 53-139, Local1/Local2 Jacobians 263-481), seed.py 18-66, primitives/sparse_ops.py,
    arithmetic.py, elementwise.py 42-127, selection.py, reductions.py 25-61, shape.py and the
    dot_general.py sparse rules.

    Simplifications: exact real arithmetic; arrays are functions on flat row-major indices;
    shapes, axes and owner values are naturals (negative axes are normalised by the code
    first); a Local1 (Local2) Jacobian is one with one (two) owner roles; [None] stands for a
    raised exception; the metadata check (same tracked input for both operands) always holds,
    since there is one tracked input. *)
From Coq Require Import Reals List Arith Bool.
From Verif Require Import Lin Shape Lap_Spec Lap_Lang Lap_Model.
Import ListNotations.
Open Scope R_scope.
Local Notation "a =? b" := (Nat.eqb a b).
Local Notation "a <? b" := (Nat.ltb a b).

(** ** Owner roles, sparse.py 53-139 *)
Record role := { ax : option nat; vals : list nat }.
(** sparse.py 73-93: a role with one value has no axis *)
Definition mk_role (a : option nat) (v : list nat) : role := {| ax := if length v =? 1 then None else a; vals := v |}.
Definition role0 : role := {| ax := None; vals := [0%nat] |}.
Fixpoint nats_eqb (l m : list nat) : bool :=
  match l, m with [], [] => true | x :: l', y :: m' => (x =? y) && nats_eqb l' m' | _, _ => false end.
(** sparse.py 136-139 *)
Definition role_eqb (r q : role) : bool :=
  match ax r, ax q with None, None => true | Some a, Some b => a =? b | _, _ => false end && nats_eqb (vals r) (vals q).
(** sparse.py 214-219 *)
Fixpoint roles_eqb (l m : list role) : bool :=
  match l, m with [], [] => true | x :: l', y :: m' => role_eqb x y && roles_eqb l' m' | _, _ => false end.
(** The owner id of output element [o]: values reshaped to factorized_shape and broadcast
    (sparse.py 117-135, sparse_ops.py 150-165). *)
Definition owner_id (shape : list nat) (r : role) (o : nat) : nat :=
  match ax r with None => nth 0 (vals r) 0%nat | Some a => nth (nth a (unravel shape o) 0%nat) (vals r) 0%nat end.
Definition mem (x : nat) (l : list nat) : bool := existsb (Nat.eqb x) l.
Definition count_below (a : nat) (l : list nat) : nat := length (filter (fun d => d <? a) l).
Definition all_equal (v : list nat) : bool := forallb (fun x => x =? nth 0 v 0%nat) v.
(** sparse.py 95-115 reduce_output_axes *)
Definition reduce_role (axes : list nat) (r : role) : option role :=
  match ax r with
  | None => Some r
  | Some a => if mem a axes then (if all_equal (vals r) then Some (mk_role None (firstn 1 (vals r))) else None)
              else Some (mk_role (Some (a - count_below a axes)%nat) (vals r))
  end.

(** ** Sparse Jacobians, sparse.py 263-481 *)
Record sparse := { sx : arr; owners : list role; blk : nat -> nat -> arr (* slot, coordinate *); sl : arr }.
Inductive sval := SPlain (a : arr) | SDense (t : lap) | SSparse (t : sparse).
Definition slots (t : sparse) : nat := length (owners t).
Definition owner (t : sparse) (s : nat) : role := nth s (owners t) role0.

(** The tracked input: [n] coordinates, grouped by the owner axis into [N] owners with [C]
    coordinates each. *)
Record basis := { b_n : nat; b_N : nat; b_C : nat; own : nat -> nat; crd : nat -> nat }.
(** sparse.py 345-402: derivative index k of the row-major input with owner axis [ax0] *)
Definition basis_of (pre : list nat) (N : nat) (post : list nat) : basis :=
  let T := size post in
  {| b_n := size pre * (N * T); b_N := N; b_C := size pre * T;
     own := fun k => ((k / T) mod N)%nat; crd := fun k => (k / (N * T) * T + k mod T)%nat |}.
(** sparse.py 121-133: one-hot selector *)
Definition selector (shape : list nat) (r : role) (o p : nat) : R := if owner_id shape r o =? p then 1 else 0.
(** sparse.py 404-481: to_dense *)
Definition to_dense (b : basis) (shape : list nat) (t : sparse) (k : nat) (o : nat) : R :=
  sum (slots t) (fun s => selector shape (owner t s) o (own b k) * blk t s (crd b k) o).

(** ** Layout operations, shape.py *)
Inductive layout :=
| Transpose (perm : list nat) | Squeeze (dims : list nat) | Rev (dims : list nat)
| Slice (start stop stride : list nat) | BroadcastInDim (shape dims : list nat) | Reshape (new : list nat).
Fixpoint index_of (a : nat) (l : list nat) : nat := match l with [] => 0%nat | x :: l' => if x =? a then 0%nat else S (index_of a l') end.
Definition kept (axes : list nat) (rank : nat) : list nat := filter (fun a => negb (mem a axes)) (seq 0 rank).
Definition at_ (l : list nat) (a : nat) : nat := nth a l 0%nat.
Definition cdiv (a b : nat) : nat := ((a + b - 1) / b)%nat.
Definition out_shape (l : layout) (sh : list nat) : list nat :=
  match l with
  | Transpose perm => map (at_ sh) perm
  | Squeeze dims => map (at_ sh) (kept dims (length sh))
  | Rev _ => sh
  | Slice start stop stride => map (fun a => cdiv (at_ stop a - at_ start a) (at_ stride a)) (seq 0 (length sh))
  | BroadcastInDim shape _ => shape
  | Reshape new => new
  end.
(** coordinate [a] of the source of the output element with index [idx] *)
Definition src_coord (l : layout) (sh idx : list nat) (a : nat) : nat :=
  match l with
  | Transpose perm => at_ idx (index_of a perm)
  | Squeeze dims => if mem a dims then 0%nat else at_ idx (a - count_below a dims)
  | Rev dims => if mem a dims then (at_ sh a - 1 - at_ idx a)%nat else at_ idx a
  | Slice start _ stride => (at_ start a + at_ idx a * at_ stride a)%nat
  | BroadcastInDim _ dims => if at_ sh a =? 1 then 0%nat else at_ idx (at_ dims a)
  | Reshape _ => 0%nat
  end.
Definition src (l : layout) (sh : list nat) (o : nat) : nat :=
  match l with
  | Reshape _ => o
  | _ => ravel sh (map (src_coord l sh (unravel (out_shape l sh) o)) (seq 0 (length sh)))
  end.
(** shape.py 348-370: the loop over the new axes *)
Fixpoint reshape_axis (leading trailing count : nat) (axis prefix : nat) (sizes : list nat) (preserved : option nat) : option (option nat) :=
  match sizes with
  | [] => Some preserved
  | d :: rest =>
      if (prefix =? leading) && (d =? count) && (size rest =? trailing)
      then match preserved with Some _ => None | None => reshape_axis leading trailing count (S axis) (prefix * d) rest (Some axis) end
      else reshape_axis leading trailing count (S axis) (prefix * d) rest preserved
  end.
Definition layout_role (l : layout) (sh : list nat) (r : role) : option role :=
  match ax r with
  | None => Some r
  | Some a =>
      match l with
      | Transpose perm => Some (mk_role (Some (index_of a perm)) (vals r)) (* 59-63 *)
      | Squeeze dims => Some (if mem a dims then mk_role None (firstn 1 (vals r)) else mk_role (Some (a - count_below a dims)%nat) (vals r)) (* 73-84 *)
      | Rev dims => Some (if mem a dims then mk_role (Some a) (rev (vals r)) else r) (* 149-153 *)
      | Slice start stop stride => (* 160-172: numpy values[start:stop:stride] *)
          Some (mk_role (Some a) (map (fun j => at_ (vals r) (at_ start a + j * at_ stride a)) (seq 0 (cdiv (Nat.min (at_ stop a) (length (vals r)) - at_ start a) (at_ stride a)))))
      | BroadcastInDim _ dims => Some (mk_role (Some (at_ dims a)) (vals r)) (* 268-274 *)
      | Reshape new =>
          match reshape_axis (size (firstn a sh)) (size (skipn (S a) sh)) (length (vals r)) 0 1 new None with
          | Some (Some a') => Some (mk_role (Some a') (vals r))
          | _ => None
          end
      end
  end.
Fixpoint map_roles (f : role -> option role) (l : list role) : option (list role) := (* sparse.py 221-232 *)
  match l with
  | [] => Some []
  | r :: l' => match f r with None => None | Some q => match map_roles f l' with None => None | Some m => Some (q :: m) end end
  end.
(** sparse_ops.py 27-47 and shape.py: value, blocks and Laplacian are re-indexed, roles mapped *)
Definition apply_layout (l : layout) (sh : list nat) (t : sparse) : option sparse :=
  match map_roles (layout_role l sh) (owners t) with
  | None => None
  | Some ow => Some {| sx := fun o => sx t (src l sh o); owners := ow; blk := fun s c o => blk t s c (src l sh o); sl := fun o => sl t (src l sh o) |}
  end.
(** sparse_ops.py 62-111: numpy broadcasting to [out] *)
Definition bcast_layout (sh out : list nat) : layout :=
  BroadcastInDim out (map (fun a => a + (length out - length sh))%nat (seq 0 (length sh))).
Definition bsrc (sh out : list nat) (o : nat) : nat := src (bcast_layout sh out) sh o.
Definition bcast_role (sh out : list nat) (r : role) : role :=
  match ax r with None => r | Some a => mk_role (Some (a + (length out - length sh))%nat) (vals r) end.
Definition bcast (sh out : list nat) (t : sparse) : sparse :=
  {| sx := fun o => sx t (bsrc sh out o); owners := map (bcast_role sh out) (owners t);
     blk := fun s c o => blk t s c (bsrc sh out o); sl := fun o => sl t (bsrc sh out o) |}.

(** ** Arithmetic *)
(** sparse_ops.py 200-226 *)
Definition scale (t : sparse) (f : arr) : nat -> nat -> arr := fun s c o => blk t s c o * f o.
(** sparse_ops.py 150-165 *)
Definition same_ids (shape : list nat) (r q : role) (o : nat) : bool := owner_id shape r o =? owner_id shape q o.
(** sparse_ops.py 229-262 with conjugate=False *)
Definition trace (b : basis) (shape : list nat) (t : sparse) (o : nat) : R :=
  if slots t =? 1 then sum (b_C b) (fun c => blk t 0 c o * blk t 0 c o)
  else
    let norms := sum 2 (fun s => sum (b_C b) (fun c => blk t s c o * blk t s c o)) in
    let same := sum (b_N b) (fun p => selector shape (owner t 0) o p * selector shape (owner t 1) o p) in
    let cross := 2 * sum (b_C b) (fun c => blk t 0 c o * blk t 1 c o) in
    norms + (if Rlt_dec 0 same then cross else 0).
(** arithmetic.py 60-112 and dot_general.py 214-252: slots of the merged roles *)
Definition find_role (r : role) (l : list role) : option nat :=
  (fix go i l := match l with [] => None | q :: l' => if role_eqb q r then Some i else go (S i) l' end) 0%nat l.
Fixpoint assign (rs : list role) (acc : list role) : list nat * list role :=
  match rs with
  | [] => ([], acc)
  | r :: rs' =>
      match find_role r acc with
      | Some i => let (slots, acc') := assign rs' acc in (i :: slots, acc')
      | None => let (slots, acc') := assign rs' (acc ++ [r]) in (length acc :: slots, acc')
      end
  end.
Record merged := { m_owners : list role; m_lhs : list nat; m_rhs : list nat }.
Definition merge_roles (l r : list role) : merged :=
  let (ls, acc) := assign l [] in let (rs, acc') := assign r acc in {| m_owners := acc'; m_lhs := ls; m_rhs := rs |}.
(** arithmetic.py 96-112: accumulate blocks into the output slots *)
Definition put (slots : list nat) (f : nat -> nat -> arr) (s c : nat) (o : nat) : R :=
  sum (length slots) (fun i => if nth i slots 0%nat =? s then f i c o else 0).
Definition merge_blocks (m : merged) (f g : nat -> nat -> arr) : nat -> nat -> arr := fun s c o => put (m_lhs m) f s c o + put (m_rhs m) g s c o.
(** arithmetic.py 60-94: at most two roles; a single one is repeated *)
Definition merge2 (l r : list role) : option merged :=
  let m := merge_roles l r in
  match m_owners m with
  | [q] => Some {| m_owners := [q; q]; m_lhs := m_lhs m; m_rhs := m_rhs m |}
  | [_; _] => Some m
  | _ => None
  end.
(** arithmetic.py 115-154; [sg] is 1 for add, -1 for sub *)
Definition add_local1 (sg : R) (l r : sparse) : sparse :=
  if roles_eqb (owners l) (owners r)
  then {| sx := fun o => sx l o + sg * sx r o; owners := owners l; blk := fun s c o => blk l s c o + sg * blk r s c o; sl := fun o => sl l o + sg * sl r o |}
  else {| sx := fun o => sx l o + sg * sx r o; owners := [owner l 0; owner r 0];
          blk := fun s c o => if s =? 0 then blk l 0 c o else sg * blk r 0 c o; sl := fun o => sl l o + sg * sl r o |}.
(** arithmetic.py 157-190 *)
Definition add_local2 (sg : R) (l r : sparse) : option sparse :=
  match merge2 (owners l) (owners r) with
  | None => None
  | Some m => Some {| sx := fun o => sx l o + sg * sx r o; owners := m_owners m;
                      blk := merge_blocks m (blk l) (fun s c o => sg * blk r s c o); sl := fun o => sl l o + sg * sl r o |}
  end.
(** arithmetic.py 281-327 *)
Definition mul_local1 (b : basis) (shape : list nat) (l r : sparse) : sparse :=
  let cross := fun o => sum (b_C b) (fun c => blk l 0 c o * blk r 0 c o) in
  let lapl := fun o => sx r o * sl l o + sx l o * sl r o in
  if roles_eqb (owners l) (owners r)
  then {| sx := fun o => sx l o * sx r o; owners := owners l;
          blk := fun s c o => scale l (sx r) s c o + scale r (sx l) s c o; sl := fun o => lapl o + 2 * cross o |}
  else {| sx := fun o => sx l o * sx r o; owners := [owner l 0; owner r 0];
          blk := fun s c o => if s =? 0 then scale l (sx r) 0%nat c o else scale r (sx l) 0%nat c o;
          sl := fun o => lapl o + 2 * (if same_ids shape (owner l 0) (owner r 0) o then cross o else 0) |}.
(** arithmetic.py 330-352 *)
Definition cross_trace (b : basis) (shape : list nat) (l r : sparse) (o : nat) : R :=
  sum (slots l) (fun s => sum (slots r) (fun s' =>
    if same_ids shape (owner l s) (owner r s') o then sum (b_C b) (fun c => blk l s c o * blk r s' c o) else 0)).
(** arithmetic.py 355-385 *)
Definition mul_local2 (b : basis) (shape : list nat) (l r : sparse) : option sparse :=
  match merge2 (owners l) (owners r) with
  | None => None
  | Some m => Some {| sx := fun o => sx l o * sx r o; owners := m_owners m; blk := merge_blocks m (scale l (sx r)) (scale r (sx l));
                      sl := fun o => sx r o * sl l o + sx l o * sl r o + 2 * cross_trace b shape l r o |}
  end.
(** arithmetic.py 470-482 *)
Definition reciprocal (b : basis) (shape : list nat) (t : sparse) : sparse :=
  let inv := fun o => / sx t o in
  {| sx := inv; owners := owners t; blk := scale t (fun o => - (inv o * inv o));
     sl := fun o => - sl t o * (inv o * inv o) + 2 * trace b shape t o * (inv o * inv o * inv o) |}.

(** ** Equations of sparse programs *)
Inductive sinstr :=
| SUnary (f : smooth1) (x : nat)
| SNeg (x : nat)
| SAdd (x y : nat) (out : list nat)
| SSub (x y : nat) (out : list nat)
| SMul (x y : nat) (out : list nat)
| SDiv (x y : nat) (out : list nat)
| SAbs (x : nat)
| SMax (x y : nat)
| SMin (x y : nat)
| SSelect (c x y : nat)
| SSum (axes : list nat) (x : nat)
| SLayout (l : layout) (x : nat)
| SConcat (axis : nat) (xs : list nat)
| SDot (lc rc lb rb : list nat) (x y : nat)
| SOther (i : instr) (out : list nat). (* primitives without a sparse rule *)

(** reductions: input elements summed into output element [o] *)
Definition sum_shape (axes sh : list nat) : list nat := map (at_ sh) (kept axes (length sh)).
Definition sum_dest (axes sh : list nat) (m : nat) : nat := ravel (sum_shape axes sh) (map (at_ (unravel sh m)) (kept axes (length sh))).
Definition sum_elems (axes sh : list nat) (o : nat) : list nat := filter (fun m => sum_dest axes sh m =? o) (seq 0 (size sh)).
(** concatenation: output element [o] is element [snd] of segment [fst] *)
Definition cat_shape (axis : nat) (shs : list (list nat)) : list nat :=
  let sh0 := nth 0 shs [] in
  map (fun a => if a =? axis then fold_right Nat.add 0%nat (map (fun sh => at_ sh axis) shs) else at_ sh0 a) (seq 0 (length sh0)).
Fixpoint locate (sizes : list nat) (i : nat) : nat * nat := (* segment, position in it *)
  match sizes with
  | [] => (0, i)%nat
  | d :: rest => if i <? d then (0, i)%nat else let (j, k) := locate rest (i - d) in (S j, k)
  end.
Definition cat_src (axis : nat) (shs : list (list nat)) (o : nat) : nat * nat :=
  let idx := unravel (cat_shape axis shs) o in
  let (j, k) := locate (map (fun sh => at_ sh axis) shs) (at_ idx axis) in
  (j, ravel (nth j shs []) (map (fun a => if a =? axis then k else at_ idx a) (seq 0 (length idx)))).
(** dot_general.py 40-128: output layout is batch, lhs free, rhs free *)
Definition free (batch contract : list nat) (rank : nat) : list nat := kept (batch ++ contract) rank.
Definition dot_shape (lc rc lb rb shl shr : list nat) : list nat :=
  map (at_ shl) lb ++ map (at_ shl) (free lb lc (length shl)) ++ map (at_ shr) (free rb rc (length shr)).
(** coordinate of an operand: from the output index for batch and free axes, else from the
    contraction index [kappa] *)
Definition dot_coord (batch contract frees : list nat) (offset : nat) (idx kappa : list nat) (a : nat) : nat :=
  if mem a contract then at_ kappa (index_of a contract)
  else if mem a batch then at_ idx (index_of a batch) else at_ idx (offset + index_of a frees).
Definition dot_pairs (lc rc lb rb shl shr : list nat) (o : nat) : list (nat * nat) :=
  let idx := unravel (dot_shape lc rc lb rb shl shr) o in
  let ksh := map (at_ shl) lc in
  let lf := free lb lc (length shl) in let rf := free rb rc (length shr) in
  map (fun q => let kappa := unravel ksh q in
         (ravel shl (map (dot_coord lb lc lf (length lb) idx kappa) (seq 0 (length shl))),
          ravel shr (map (dot_coord rb rc rf (length lb + length lf) idx kappa) (seq 0 (length shr)))))
      (seq 0 (size ksh)).
(** dot_general.py 158-211 (with output_axis 101-128) *)
Definition dot_role (batch contract frees : list nat) (offset rank : nat) (r : role) : option role :=
  match reduce_role contract r with
  | None => None
  | Some q =>
      match ax q with
      | None => Some q
      | Some a => let surviving := kept contract rank in
          if a <? length surviving
          then let orig := nth a surviving 0%nat in
               Some (mk_role (Some (if mem orig batch then index_of orig batch else offset + index_of orig frees)%nat) (vals q))
          else None
      end
  end.

Definition shape_of (sh : nat -> list nat) (i : sinstr) : list nat :=
  match i with
  | SUnary _ x | SNeg x | SAbs x => sh x
  | SAdd _ _ out | SSub _ _ out | SMul _ _ out | SDiv _ _ out => out
  | SMax x _ | SMin x _ => sh x
  | SSelect c x y => sh x
  | SSum axes x => sum_shape axes (sh x)
  | SLayout l x => out_shape l (sh x)
  | SConcat axis xs => cat_shape axis (map sh xs)
  | SDot lc rc lb rb x y => dot_shape lc rc lb rb (sh x) (sh y)
  | SOther _ out => out
  end.
(** The same primitive for the dense interpreter (Lap_Lang.v). *)
Definition lower (sh : nat -> list nat) (i : sinstr) : instr :=
  match i with
  | SUnary f x => Unary f x
  | SNeg x => Linear [x] (fun o => [((x, o), -1)])
  | SAdd x y out => Add (bsrc (sh x) out) (bsrc (sh y) out) x y
  | SSub x y out => Sub (bsrc (sh x) out) (bsrc (sh y) out) x y
  | SMul x y out => Mul (bsrc (sh x) out) (bsrc (sh y) out) x y
  | SDiv x y out => Div (bsrc (sh x) out) (bsrc (sh y) out) x y
  | SAbs x => Abs x
  | SMax x y => Max (fun o => o) (fun o => o) x y
  | SMin x y => Min (fun o => o) (fun o => o) x y
  | SSelect c x y => Select c x y
  | SSum axes x => Linear [x] (fun o => map (fun m => ((x, m), 1)) (sum_elems axes (sh x) o))
  | SLayout l x => Linear [x] (fun o => [((x, src l (sh x) o), 1)])
  | SConcat axis xs => Linear xs (fun o => let (j, m) := cat_src axis (map sh xs) o in [((nth j xs 0%nat, m), 1)])
  | SDot lc rc lb rb x y => Dot (dot_pairs lc rc lb rb (sh x) (sh y)) x y
  | SOther i _ => i
  end.

(** ** Evaluation *)
Definition is_sparse (v : sval) : bool := match v with SSparse _ => true | _ => false end.
Definition is_dense (v : sval) : bool := match v with SDense _ => true | _ => false end.
(** core.py 74-86: densify *)
Definition densify (b : basis) (shape : list nat) (v : sval) : value :=
  match v with
  | SPlain a => Plain a
  | SDense t => Tracked t
  | SSparse t => Tracked {| lx := sx t; jac := to_dense b shape t; lapl := sl t |}
  end.
Definition embed (v : value) : sval := match v with Plain a => SPlain a | Tracked t => SDense t end.
(** core.py 200-212 fallback_dense, and the ordinary dense path *)
Definition dense_path (b : basis) (sh : nat -> list nat) (e : nat -> sval) (i : sinstr) : sval :=
  embed (eval_eqn (b_n b) (fun v => densify b (sh v) (e v)) (lower sh i)).
Definition plain_of (v : sval) : arr := match v with SPlain a => a | SDense t => lx t | SSparse t => sx t end.

(** arithmetic.py 193-247 *)
Definition add_sub (b : basis) (sh : nat -> list nat) (e : nat -> sval) (sg : R) (x y : nat) (out : list nat) (dense : sval) : sval :=
  match e x, e y with
  | SSparse l0, SSparse r0 =>
      let l := bcast (sh x) out l0 in let r := bcast (sh y) out r0 in
      if (slots l =? 1) && (slots r =? 1) then SSparse (add_local1 sg l r)
      else if (slots l =? 2) && (slots r =? 2) then match add_local2 sg l r with Some t => SSparse t | None => dense end
      else dense
  | SSparse l0, SPlain p =>
      let l := bcast (sh x) out l0 in
      SSparse {| sx := fun o => sx l o + sg * p (bsrc (sh y) out o); owners := owners l; blk := blk l; sl := sl l |}
  | SPlain p, SSparse r0 =>
      let r := bcast (sh y) out r0 in
      SSparse {| sx := fun o => p (bsrc (sh x) out o) + sg * sx r o; owners := owners r;
                 blk := if Req_EM_T sg 1 then blk r else scale r (fun _ => -1); sl := fun o => sg * sl r o |}
  | _, _ => dense
  end.
(** arithmetic.py 388-438 *)
Definition mul (b : basis) (out : list nat) (x y : sval) (shx shy : list nat) (dense : sval) : sval :=
  match x, y with
  | SSparse l0, SPlain p =>
      let l := bcast shx out l0 in let q := fun o => p (bsrc shy out o) in
      SSparse {| sx := fun o => sx l o * q o; owners := owners l; blk := scale l q; sl := fun o => sl l o * q o |}
  | SPlain p, SSparse r0 =>
      let r := bcast shy out r0 in let q := fun o => p (bsrc shx out o) in
      SSparse {| sx := fun o => sx r o * q o; owners := owners r; blk := scale r q; sl := fun o => sl r o * q o |}
  | SSparse l0, SSparse r0 =>
      let l := bcast shx out l0 in let r := bcast shy out r0 in
      if (slots l =? 1) && (slots r =? 1) then SSparse (mul_local1 b out l r)
      else if (slots l =? 2) && (slots r =? 2) then match mul_local2 b out l r with Some t => SSparse t | None => dense end
      else dense
  | _, _ => dense
  end.
(** arithmetic.py 485-512; the fallback inside [mul] divides by multiplying with the reciprocal *)
Definition div (b : basis) (out : list nat) (x y : sval) (shx shy : list nat) (dense : sval) : sval :=
  match x, y with
  | SSparse _, SDense _ | SDense _, SSparse _ => dense
  | SSparse l0, SPlain p =>
      let l := bcast shx out l0 in let q := fun o => / p (bsrc shy out o) in
      SSparse {| sx := fun o => sx l o * q o; owners := owners l; blk := scale l q; sl := fun o => sl l o * q o |}
  | _, SSparse r =>
      let rinv := SSparse (reciprocal b shy r) in
      let dense' := embed (eval_eqn (b_n b) (fun v => if v =? 0 then densify b shx x else densify b shy rinv) (Mul (bsrc shx out) (bsrc shy out) 0 1)) in
      mul b out x rinv shx shy dense'
  | _, _ => dense
  end.
(** selection.py 32-99: [better a b] is the comparison of the primitive *)
Definition pointwise_select (b : basis) (x y : sval) (better : R -> R -> bool) (best : R -> R -> R) (dense : sval) : sval :=
  match x, y with
  | SSparse l, SPlain p | SPlain p, SSparse l =>
      let mask := fun o => if better (sx l o) (p o) then 1 else 0 in
      SSparse {| sx := fun o => best (sx l o) (p o); owners := owners l; blk := scale l mask; sl := fun o => if better (sx l o) (p o) then sl l o else 0 |}
  | SSparse l, SSparse r =>
      if roles_eqb (owners l) (owners r)
      then
        let wl := fun o => if Req_EM_T (sx l o) (sx r o) then / 2 else if better (sx l o) (sx r o) then 1 else 0 in
        let wr := fun o => if Req_EM_T (sx l o) (sx r o) then / 2 else if better (sx l o) (sx r o) then 0 else 1 in
        SSparse {| sx := fun o => best (sx l o) (sx r o); owners := owners l;
                   blk := fun s c o => wl o * blk l s c o + wr o * blk r s c o; sl := fun o => wl o * sl l o + wr o * sl r o |}
      else dense
  | _, _ => dense
  end.
Definition geb (a b : R) : bool := if Rle_dec b a then true else false.
Definition leb (a b : R) : bool := if Rle_dec a b then true else false.
(** selection.py 124-205, two cases *)
Definition select (c : sval) (x y : sval) (dense : sval) : sval :=
  let which := plain_of c in
  match x, y with
  | SSparse l, SSparse r =>
      if roles_eqb (owners l) (owners r)
      then SSparse {| sx := fun o => if Req_EM_T (which o) 0 then sx l o else sx r o; owners := owners l;
                      blk := fun s c o => if Req_EM_T (which o) 0 then blk l s c o else blk r s c o; sl := fun o => if Req_EM_T (which o) 0 then sl l o else sl r o |}
      else dense
  | SSparse l, SPlain p =>
      SSparse {| sx := fun o => if Req_EM_T (which o) 0 then sx l o else p o; owners := owners l;
                 blk := fun s c o => if Req_EM_T (which o) 0 then blk l s c o else 0; sl := fun o => if Req_EM_T (which o) 0 then sl l o else 0 |}
  | SPlain p, SSparse r =>
      SSparse {| sx := fun o => if Req_EM_T (which o) 0 then p o else sx r o; owners := owners r;
                 blk := fun s c o => if Req_EM_T (which o) 0 then 0 else blk r s c o; sl := fun o => if Req_EM_T (which o) 0 then 0 else sl r o |}
  | _, _ => dense
  end.
(** shape.py 426-456 *)
Definition concat_role (axis : nat) (sizes : list nat) (rs : list role) : option role :=
  let r0 := nth 0 rs role0 in
  let on_axis := fun r => match ax r with Some a => a =? axis | None => false end in
  let constant := fun r => match ax r with None => true | Some _ => false end in
  if forallb constant rs && forallb (role_eqb r0) rs then Some r0
  else if forallb (fun r => constant r || on_axis r) rs
  then Some (mk_role (Some axis) (List.concat (map (fun q => if on_axis (fst q) then vals (fst q) else repeat (nth 0 (vals (fst q)) 0%nat) (snd q)) (combine rs sizes))))
  else if forallb (fun r => negb (on_axis r)) rs
  then (if forallb (role_eqb r0) rs then Some r0 else None)
  else None.
(** shape.py 459-522, 525-613: a plain segment takes the template's roles *)
Definition concat (sh : nat -> list nat) (e : nat -> sval) (axis : nat) (xs : list nat) (dense : sval) : option sval :=
  if existsb (fun x => is_dense (e x)) xs then Some dense
  else
    match find (fun x => is_sparse (e x)) xs with
    | None => Some dense
    | Some x0 =>
        match e x0 with
        | SSparse t0 =>
            if forallb (fun x => match e x with SSparse t => slots t =? slots t0 | _ => true end) xs
            then
              let out := cat_shape axis (map sh xs) in
              let roles_of := fun x => match e x with SSparse t => owners t | _ => owners t0 end in
              let role_at := fun s => concat_role axis (map (fun x => at_ (sh x) axis) xs) (map (fun x => nth s (roles_of x) role0) xs) in
              match (fix go s k := match k with
                                   | 0 => Some []
                                   | S k' => match role_at s with None => None | Some q => match go (S s) k' with None => None | Some m => Some (q :: m) end end
                                   end%nat) 0%nat (slots t0) with
              | None => Some dense
              | Some ow =>
                  (* sparse.py 298-330: the constructor checks that the roles fit the output shape *)
                  if forallb (fun r => match ax r with None => true | Some a => length (vals r) =? at_ out a end) ow
                  then
                    let pick := fun o (f : sparse -> nat -> R) => let (j, m) := cat_src axis (map sh xs) o in
                                  match e (nth j xs 0%nat) with SSparse t => f t m | _ => 0 end in
                    Some (SSparse {| sx := fun o => let (j, m) := cat_src axis (map sh xs) o in plain_of (e (nth j xs 0%nat)) m; owners := ow;
                                     blk := fun s c o => pick o (fun t m => blk t s c m); sl := fun o => pick o (fun t m => sl t m) |})
                  else None
              end
            else Some dense
        | _ => Some dense
        end
    end.
(** dot_general.py 567-710 *)
Definition dot_rule (b : basis) (lc rc lb rb shl shr : list nat) (x y : sval) (dense : sval) : sval :=
  let out := dot_shape lc rc lb rb shl shr in
  let lf := free lb lc (length shl) in let rf := free rb rc (length shr) in
  let pairs := dot_pairs lc rc lb rb shl shr in
  let lrole := dot_role lb lc lf (length lb) (length shl) in
  let rrole := dot_role rb rc rf (length lb + length lf) (length shr) in
  let dotp := fun (f g : arr) o => lsum (fun t => f (fst t) * g (snd t)) (pairs o) in
  let fits := fun m => match m_owners m with [_] | [_; _] => true | _ => false end in
  match x, y with
  | SSparse l, SPlain p =>
      match map_roles lrole (owners l) with
      | None => dense
      | Some ls => let m := merge_roles ls [] in
          if fits m
          then SSparse {| sx := dotp (sx l) p; owners := m_owners m; blk := fun s c o => put (m_lhs m) (fun i c' => dotp (blk l i c') p) s c o; sl := dotp (sl l) p |}
          else dense
      end
  | SPlain p, SSparse r =>
      match map_roles rrole (owners r) with
      | None => dense
      | Some rs => let m := merge_roles [] rs in
          if fits m
          then SSparse {| sx := dotp p (sx r); owners := m_owners m; blk := fun s c o => put (m_rhs m) (fun i c' => dotp p (blk r i c')) s c o; sl := dotp p (sl r) |}
          else dense
      end
  | SSparse l, SSparse r =>
      match map_roles lrole (owners l), map_roles rrole (owners r) with
      | Some ls, Some rs =>
          let m := merge_roles ls rs in
          if fits m
          then
            let mixed := fun o => sum (length (m_lhs m)) (fun i => sum (length (m_rhs m)) (fun j =>
              if same_ids out (nth (nth i (m_lhs m) 0%nat) (m_owners m) role0) (nth (nth j (m_rhs m) 0%nat) (m_owners m) role0) o
              then lsum (fun t => sum (b_C b) (fun c => blk l i c (fst t) * blk r j c (snd t))) (pairs o) else 0)) in
            SSparse {| sx := dotp (sx l) (sx r); owners := m_owners m;
                       blk := merge_blocks m (fun i c => dotp (blk l i c) (sx r)) (fun j c => dotp (sx l) (blk r j c));
                       sl := fun o => dotp (sl l) (sx r) o + dotp (sx l) (sl r) o + 2 * mixed o |}
          else dense
      | _, _ => dense
      end
  | _, _ => dense
  end.

Definition eval_sparse (b : basis) (sh : nat -> list nat) (e : nat -> sval) (i : sinstr) : option sval :=
  let dense := dense_path b sh e i in
  match i with
  | SUnary f x => (* elementwise.py 42-72 *)
      match e x with
      | SSparse t => Some (SSparse {| sx := fun o => sf f (sx t o); owners := owners t; blk := scale t (fun o => sf1 f (sx t o));
                                      sl := fun o => sf1 f (sx t o) * sl t o + sf2 f (sx t o) * trace b (sh x) t o |})
      | _ => Some dense
      end
  | SNeg x => (* arithmetic.py 260-269 *)
      match e x with
      | SSparse t => Some (SSparse {| sx := fun o => - sx t o; owners := owners t; blk := scale t (fun _ => -1); sl := fun o => - sl t o |})
      | _ => Some dense
      end
  | SAdd x y out => Some (add_sub b sh e 1 x y out dense)
  | SSub x y out => Some (add_sub b sh e (-1) x y out dense)
  | SMul x y out => Some (mul b out (e x) (e y) (sh x) (sh y) dense)
  | SDiv x y out => Some (div b out (e x) (e y) (sh x) (sh y) dense)
  | SAbs x => (* elementwise.py 118-127 *)
      match e x with
      | SSparse t => let f := fun o => if Rle_dec 0 (sx t o) then 1 else -1 in
                     Some (SSparse {| sx := fun o => Rabs (sx t o); owners := owners t; blk := scale t f; sl := fun o => f o * sl t o |})
      | _ => Some dense
      end
  | SMax x y => Some (pointwise_select b (e x) (e y) geb Rmax dense)
  | SMin x y => Some (pointwise_select b (e x) (e y) leb Rmin dense)
  | SSelect c x y => Some (select (e c) (e x) (e y) dense)
  | SSum axes x => (* reductions.py 25-61 *)
      match e x with
      | SSparse t =>
          let total := fun (f : arr) o => lsum f (sum_elems axes (sh x) o) in
          match map_roles (reduce_role axes) (owners t) with
          | Some ow => Some (SSparse {| sx := total (sx t); owners := ow; blk := fun s c => total (blk t s c); sl := total (sl t) |})
          | None => Some (SDense {| lx := total (sx t); jac := fun k => total (to_dense b (sh x) t k); lapl := total (sl t) |})
          end
      | _ => Some dense
      end
  | SLayout l x =>
      match e x with
      | SSparse t => match apply_layout l (sh x) t with Some t' => Some (SSparse t') | None => Some dense end
      | _ => Some dense
      end
  | SConcat axis xs => concat sh e axis xs dense
  | SDot lc rc lb rb x y => Some (dot_rule b lc rc lb rb (sh x) (sh y) (e x) (e y) dense)
  | SOther _ _ => Some dense
  end.

Fixpoint run_sparse (b : basis) (prog : list sinstr) (shapes : list (list nat)) (env : list sval) : option (list sval) :=
  match prog with
  | [] => Some env
  | i :: prog' =>
      let sh := fun v => nth v shapes [] in
      match eval_sparse b sh (fun v => nth v env (SPlain zero_arr)) i with
      | None => None
      | Some v => run_sparse b prog' (shapes ++ [shape_of sh i]) (env ++ [v])
      end
  end.
(** The dense program and the shapes of its values. *)
Fixpoint lower_program (prog : list sinstr) (shapes : list (list nat)) : list (instr * list nat) :=
  match prog with
  | [] => []
  | i :: prog' => let sh := fun v => nth v shapes [] in (lower sh i, shape_of sh i) :: lower_program prog' (shapes ++ [shape_of sh i])
  end.

(** seed.py 18-66: input of shape pre ++ [N] ++ post, owner axis = length pre *)
Definition seed_sparse (pre : list nat) (N : nat) (post : list nat) (w p : vec) : sval :=
  let b := basis_of pre N post in
  SSparse {| sx := leaf 0 p; owners := [mk_role (Some (length pre)) (seq 0 N)];
             blk := fun _ c o => w o * (if crd b o =? c then 1 else 0); sl := fun _ => 0 |}.
