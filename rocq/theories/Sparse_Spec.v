(** Specification for C39: when a sparse result agrees with a dense one, which equations are
    shape-correct, and which are outside the cases where the two propagations are known to
    differ (Sparse_Props.v, [C39_*_refuted]). *)
From Coq Require Import Reals List Arith Bool.
From Verif Require Import Lin Shape Lap_Spec Lap_Lang Lap_Model Sparse_Model.
Import ListNotations.
Open Scope R_scope.

(** Same kind of value, with equal elements in range: value, Jacobian and Laplacian. *)
Definition agree (n size : nat) (u v : value) : Prop :=
  match u, v with
  | Plain a, Plain c => forall o, (o < size)%nat -> a o = c o
  | Tracked s, Tracked t =>
      (forall o, (o < size)%nat -> lx s o = lx t o) /\
      (forall k o, (k < n)%nat -> (o < size)%nat -> jac s k o = jac t k o) /\
      (forall o, (o < size)%nat -> lapl s o = lapl t o)
  | _, _ => False
  end.

(** The constructor checks of sparse.py 73-93 and 298-330. *)
Definition wf_role (N : nat) (sh : list nat) (r : role) : Prop :=
  (match ax r with
   | None => length (vals r) = 1%nat
   | Some a => (a < length sh)%nat /\ length (vals r) = nth a sh 0%nat /\ length (vals r) <> 1%nat
   end) /\ Forall (fun p => (p < N)%nat) (vals r).
Definition wf_value (b : basis) (sh : list nat) (v : sval) : Prop :=
  (0 < size sh)%nat /\
  match v with
  | SSparse t => (slots t = 1%nat \/ slots t = 2%nat) /\ Forall (wf_role (b_N b) sh) (owners t)
  | _ => True
  end.
(** Derivative index k corresponds one to one to an owner and a coordinate. *)
Definition wf_basis (b : basis) : Prop :=
  forall g, sum (b_n b) (fun k => g (own b k) (crd b k)) = sum (b_N b) (fun p => sum (b_C b) (fun c => g p c)).

(** ** Shape-correct equations *)
Definition broadcasts (sh out : list nat) : Prop :=
  (length sh <= length out)%nat /\
  forall a, (a < length sh)%nat -> nth a sh 0%nat = 1%nat \/ nth a sh 0%nat = nth (a + (length out - length sh)) out 0%nat.
Definition layout_ok (l : layout) (sh : list nat) : Prop :=
  match l with
  | Transpose perm => NoDup perm /\ length perm = length sh /\ (forall a, In a perm -> (a < length sh)%nat)
  | Squeeze dims => NoDup dims /\ forall a, In a dims -> (a < length sh)%nat /\ nth a sh 0%nat = 1%nat
  | Rev dims => True
  | Slice start stop stride => length start = length sh /\ length stop = length sh /\ length stride = length sh /\
      forall a, (a < length sh)%nat -> (nth a start 0 < nth a stop 0)%nat /\ (nth a stop 0 <= nth a sh 0)%nat /\ (0 < nth a stride 0)%nat
  | BroadcastInDim shape dims => length dims = length sh /\ (0 < size shape)%nat /\
      forall a, (a < length sh)%nat -> (nth a dims 0 < length shape)%nat /\ (nth a sh 0%nat = 1%nat \/ nth a sh 0%nat = nth (nth a dims 0%nat) shape 0%nat)
  | Reshape new => size new = size sh
  end.
Definition concat_ok (axis : nat) (shs : list (list nat)) : Prop :=
  shs <> [] /\ forall sh, In sh shs -> (axis < length sh)%nat /\ length sh = length (nth 0 shs []) /\
    forall a, (a < length sh)%nat -> a <> axis -> nth a sh 0%nat = nth a (nth 0 shs []) 0%nat.
Definition axes_ok (batch contract sh : list nat) : Prop := NoDup (batch ++ contract) /\ forall a, In a (batch ++ contract) -> (a < length sh)%nat.
Definition dot_ok (lc rc lb rb shl shr : list nat) : Prop :=
  axes_ok lb lc shl /\ axes_ok rb rc shr /\
  map (at_ shl) lc = map (at_ shr) rc /\ map (at_ shl) lb = map (at_ shr) rb.
Definition fits (len : nat) (sh : nat -> list nat) (i : sinstr) : Prop :=
  match i with
  | SUnary _ x | SNeg x | SAbs x => (x < len)%nat
  | SAdd x y out | SSub x y out | SMul x y out | SDiv x y out =>
      (x < len)%nat /\ (y < len)%nat /\ (0 < size out)%nat /\ broadcasts (sh x) out /\ broadcasts (sh y) out
  | SMax x y | SMin x y => (x < len)%nat /\ (y < len)%nat /\ sh x = sh y
  | SSelect c x y => (c < len)%nat /\ (x < len)%nat /\ (y < len)%nat /\ sh c = sh x /\ sh x = sh y
  | SSum axes x => (x < len)%nat /\ NoDup axes /\ forall a, In a axes -> (a < length (sh x))%nat
  | SLayout l x => (x < len)%nat /\ layout_ok l (sh x)
  | SConcat axis xs => (forall x, In x xs -> (x < len)%nat) /\ concat_ok axis (map sh xs)
  | SDot lc rc lb rb x y => (x < len)%nat /\ (y < len)%nat /\ dot_ok lc rc lb rb (sh x) (sh y)
  | SOther i out => (0 < size out)%nat /\
      match i with General _ args _ => forall a, (snd (args a) < size (sh (fst (args a))))%nat | _ => True end /\
      forall o, (o < size out)%nat -> forall v j, In (v, j) (reads i o) -> In v (operands i) /\ (v < len)%nat /\ (j < size (sh v))%nat
  end.

(** ** Equations outside the known differences *)
Definition tracked (v : sval) : bool := match v with SPlain _ => false | _ => true end.
Definition safe (sh : nat -> list nat) (e : nat -> sval) (i : sinstr) : Prop :=
  match i with
  (* a tracked divisor is not zero *)
  | SDiv x y out => tracked (e y) = true -> forall m, (m < size (sh y))%nat -> plain_of (e y) m <> 0
  (* no tie between a tracked and a plain operand *)
  | SMax x y | SMin x y => tracked (e x) <> tracked (e y) -> forall o, (o < size (sh x))%nat -> plain_of (e x) o <> plain_of (e y) o
  (* no kink *)
  | SAbs x => tracked (e x) = true -> forall o, (o < size (sh x))%nat -> plain_of (e x) o <> 0
  (* a plain segment next to a sparse one whose owners vary along the concatenated axis has the same length *)
  | SConcat axis xs => forall x y t r, In x xs -> tracked (e x) = false -> In y xs -> e y = SSparse t -> In r (owners t) -> ax r = Some axis ->
      at_ (sh x) axis = at_ (sh y) axis
  | _ => True
  end.
Fixpoint fits_program (prog : list sinstr) (shapes : list (list nat)) : Prop :=
  match prog with
  | [] => True
  | i :: prog' => let sh := fun v => nth v shapes [] in fits (length shapes) sh i /\ fits_program prog' (shapes ++ [shape_of sh i])
  end.
Fixpoint safe_program (b : basis) (prog : list sinstr) (shapes : list (list nat)) (env : list sval) : Prop :=
  match prog with
  | [] => True
  | i :: prog' =>
      let sh := fun v => nth v shapes [] in let e := fun v => nth v env (SPlain zero_arr) in
      safe sh e i /\ forall v, eval_sparse b sh e i = Some v -> safe_program b prog' (shapes ++ [shape_of sh i]) (env ++ [v])
  end.
