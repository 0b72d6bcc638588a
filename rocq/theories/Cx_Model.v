(** Model of how /repo/src/jaqmc/laplacian propagates complex values: primitives/elementwise.py
    42-115, complex.py 24-61, arithmetic.py (add, sub, neg, mul, div on complex operands),
    dtype.py 25-40, sparse_ops.py 200-281 and core.py 448-533.

    Simplifications: exact complex arithmetic; a real array is a complex array without imaginary
    parts; otherwise as in Sparse_Model.v (flat row-major arrays, owner roles, one tracked
    input of real coordinates). *)
From Coq Require Import Reals ZArith List Arith Bool.
From Coquelicot Require Import Complex.
From Verif Require Import Lin Shape Lap_Spec Lap_Lang Lap_Model Sparse_Model Fl_Spec Gather_Model.
Import ListNotations.
Open Scope C_scope.
Local Notation "a =? b" := (Nat.eqb a b).

(** types.py 27-66, sparse.py 263-343: complex value, Jacobian (dense or owner blocks), Laplacian *)
Record xdense := { xdx : nat -> C; xdj : nat -> nat -> C; xdl : nat -> C }.
Record xsparse := { xsx : nat -> C; xowners : list role; xblk : nat -> nat -> nat -> C; xsl : nat -> C }.
Inductive xval := XPlain (a : nat -> C) | XDense (t : xdense) | XSparse (t : xsparse).
Definition x_slots (t : xsparse) : nat := length (xowners t).
Definition x_owner (t : xsparse) (s : nat) : role := nth s (xowners t) role0.
(** sparse.py 404-481 to_dense *)
Definition x_to_dense (b : basis) (shape : list nat) (t : xsparse) (k o : nat) : C :=
  csum (x_slots t) (fun s => RtoC (selector shape (x_owner t s) o (own b k)) * xblk t s (crd b k) o).
(** core.py 74-86 densify_tree *)
Definition x_densify (b : basis) (shape : list nat) (v : xval) : xval :=
  match v with XSparse t => XDense {| xdx := xsx t; xdj := x_to_dense b shape t; xdl := xsl t |} | _ => v end.
(** sparse_ops.py 62-111 *)
Definition x_bcast (sh out : list nat) (t : xsparse) : xsparse :=
  {| xsx := fun o => xsx t (bsrc sh out o); xowners := map (bcast_role sh out) (xowners t);
     xblk := fun s c o => xblk t s c (bsrc sh out o); xsl := fun o => xsl t (bsrc sh out o) |}.
(** sparse_ops.py 200-226 scale_sparse_jacobian *)
Definition x_scale (t : xsparse) (f : nat -> C) : nat -> nat -> nat -> C := fun s c o => xblk t s c o * f o.
(** sparse_ops.py 229-281: tr(J J^T), or tr(J J^H) with [conjugate]. The 0/1 selectors have the
    dtype of the blocks; comparing their complex products with 0 compares the real parts. *)
Definition x_trace (conjugate : bool) (b : basis) (shape : list nat) (t : xsparse) (o : nat) : C :=
  let rhs s c := if conjugate then Cconj (xblk t s c o) else xblk t s c o in
  let total :=
    if x_slots t =? 1 then csum (b_C b) (fun c => xblk t 0 c o * rhs 0%nat c)
    else
      let norms := csum 2 (fun s => csum (b_C b) (fun c => xblk t s c o * rhs s c)) in
      let same := csum (b_N b) (fun p => RtoC (selector shape (x_owner t 0) o p) * RtoC (selector shape (x_owner t 1) o p)) in
      let cross := RtoC 2 * csum (b_C b) (fun c => xblk t 0 c o * rhs 1%nat c) in
      norms + (if Rlt_dec 0 (fst same) then cross else RtoC 0) in
  if conjugate then RtoC (fst total) else total.

(** ** Elementwise functions *)
(** A primitive that is complex differentiable, with its first two derivatives (jax.jvp twice). *)
Record xfun := { xf : C -> C; xf1 : C -> C; xf2 : C -> C }.
(** elementwise.py 42-72; dense: jvp.py 24-58 and hessian.py elementwise_jac_hessian_jac *)
Definition x_unary (b : basis) (sh : list nat) (h : xfun) (x : xval) : xval :=
  match x with
  | XPlain a => XPlain (fun o => xf h (a o))
  | XDense t => XDense {| xdx := fun o => xf h (xdx t o); xdj := fun k o => xf1 h (xdx t o) * xdj t k o;
                          xdl := fun o => xf1 h (xdx t o) * xdl t o + xf2 h (xdx t o) * csum (b_n b) (fun k => xdj t k o * xdj t k o) |}
  | XSparse t => XSparse {| xsx := fun o => xf h (xsx t o); xowners := xowners t; xblk := x_scale t (fun o => xf1 h (xsx t o));
                            xsl := fun o => xf1 h (xsx t o) * xsl t o + xf2 h (xsx t o) * x_trace false b sh t o |}
  end.
(** d|z| along the increment [d]: the projection of [d] on the direction of [z], elementwise.py 87-89, 92-99, 108-110 *)
Definition radial (z d : C) : C := RtoC ((fst z * fst d + snd z * snd d) / Cmod z).
(** elementwise.py 75-115 handle_abs, complex branch *)
Definition x_abs (b : basis) (sh : list nat) (x : xval) : xval :=
  match x with
  | XPlain a => XPlain (fun o => RtoC (Cmod (a o)))
  | XSparse t =>
      let t' := {| xsx := fun o => RtoC (Cmod (xsx t o)); xowners := xowners t; xblk := fun s c o => radial (xsx t o) (xblk t s c o); xsl := fun o => radial (xsx t o) (xsl t o) |} in
      XSparse {| xsx := xsx t'; xowners := xowners t'; xblk := xblk t';
                 xsl := fun o => xsl t' o + (x_trace true b sh t o - x_trace false b sh t' o) / RtoC (Cmod (xsx t o)) |}
  | XDense t =>
      let jr := fun k o => radial (xdx t o) (xdj t k o) in
      XDense {| xdx := fun o => RtoC (Cmod (xdx t o)); xdj := jr;
                xdl := fun o => radial (xdx t o) (xdl t o) +
                  (RtoC (sum (b_n b) (fun k => Cmod (xdj t k o) ^ 2)%R) - csum (b_n b) (fun k => jr k o * jr k o)) / RtoC (Cmod (xdx t o)) |}
  end.
(** elementwise.py 164 (wrap_without_fwd_laplacian, core.py 536-560): z / |z|, and 0 at 0, without derivatives *)
Definition x_sign (x : xval) : xval :=
  let s := fun z => if Req_EM_T (Cmod z) 0 then RtoC 0 else z / RtoC (Cmod z) in
  match x with XPlain a => XPlain (fun o => s (a o)) | XDense t => XPlain (fun o => s (xdx t o)) | XSparse t => XPlain (fun o => s (xsx t o)) end.

(** ** Components: core.py 504-533, complex.py 58-63 *)
Definition x_map (f : C -> C) (x : xval) : xval :=
  match x with
  | XPlain a => XPlain (fun o => f (a o))
  | XDense t => XDense {| xdx := fun o => f (xdx t o); xdj := fun k o => f (xdj t k o); xdl := fun o => f (xdl t o) |}
  | XSparse t => XSparse {| xsx := fun o => f (xsx t o); xowners := xowners t; xblk := fun s c o => f (xblk t s c o); xsl := fun o => f (xsl t o) |}
  end.
Definition x_real := x_map (fun z => RtoC (fst z)).
Definition x_imag := x_map (fun z => RtoC (snd z)).
Definition x_conj := x_map Cconj.
(** arithmetic.py 260-269 handle_neg *)
Definition x_neg := x_map Copp.
(** dtype.py 25-40 and types.py 92-106: to complex, to real floating (the imaginary parts are
    dropped), to integer (toward zero; derivatives are dropped) *)
Inductive dtype := Complex | Floating | Integer.
Definition x_convert (d : dtype) (x : xval) : xval :=
  match d with
  | Complex => x
  | Floating => x_real x
  | Integer => let f := fun z => RtoC (trunc (fst z)) in
               match x with XPlain a => XPlain (fun o => f (a o)) | XDense t => XPlain (fun o => f (xdx t o)) | XSparse t => XPlain (fun o => f (xsx t o)) end
  end.

(** ** Addition: arithmetic.py 115-247 *)
(** core.py 389-414 wrap_linear of add/sub *)
Definition x_dense_add (shx shy out : list nat) (sg : R) (x y : xval) : xval :=
  let bx := bsrc shx out in let by_ := bsrc shy out in
  let val := fun v : xval => match v with XPlain a => a | XDense t => xdx t | XSparse t => xsx t end in
  let jac := fun v : xval => match v with XDense t => xdj t | _ => fun _ _ => RtoC 0 end in
  let lap := fun v : xval => match v with XDense t => xdl t | _ => fun _ => RtoC 0 end in
  match x, y with
  | XPlain a, XPlain c => XPlain (fun o => a (bx o) + RtoC sg * c (by_ o))
  | _, _ => XDense {| xdx := fun o => val x (bx o) + RtoC sg * val y (by_ o);
                      xdj := fun k o => jac x k (bx o) + RtoC sg * jac y k (by_ o);
                      xdl := fun o => lap x (bx o) + RtoC sg * lap y (by_ o) |}
  end.
(** arithmetic.py 60-112, on complex blocks *)
Definition x_put (slots : list nat) (f : nat -> nat -> nat -> C) (s c o : nat) : C :=
  csum (length slots) (fun i => if nth i slots 0%nat =? s then f i c o else RtoC 0).
Definition x_merge (m : merged) (f g : nat -> nat -> nat -> C) : nat -> nat -> nat -> C := fun s c o => x_put (m_lhs m) f s c o + x_put (m_rhs m) g s c o.
Definition x_add_local1 (sg : R) (l r : xsparse) : xsparse :=
  if roles_eqb (xowners l) (xowners r)
  then {| xsx := fun o => xsx l o + RtoC sg * xsx r o; xowners := xowners l; xblk := fun s c o => xblk l s c o + RtoC sg * xblk r s c o; xsl := fun o => xsl l o + RtoC sg * xsl r o |}
  else {| xsx := fun o => xsx l o + RtoC sg * xsx r o; xowners := [x_owner l 0; x_owner r 0];
          xblk := fun s c o => if s =? 0 then xblk l 0 c o else RtoC sg * xblk r 0 c o; xsl := fun o => xsl l o + RtoC sg * xsl r o |}.
Definition x_add_local2 (sg : R) (l r : xsparse) : option xsparse :=
  match merge2 (xowners l) (xowners r) with
  | None => None
  | Some m => Some {| xsx := fun o => xsx l o + RtoC sg * xsx r o; xowners := m_owners m;
                      xblk := x_merge m (xblk l) (fun s c o => RtoC sg * xblk r s c o); xsl := fun o => xsl l o + RtoC sg * xsl r o |}
  end.
Definition x_add (b : basis) (shx shy out : list nat) (sg : R) (x y : xval) : xval :=
  let dense := x_dense_add shx shy out sg (x_densify b shx x) (x_densify b shy y) in
  match x, y with
  | XSparse l0, XSparse r0 =>
      let l := x_bcast shx out l0 in let r := x_bcast shy out r0 in
      if (x_slots l =? 1) && (x_slots r =? 1) then XSparse (x_add_local1 sg l r)
      else if (x_slots l =? 2) && (x_slots r =? 2) then match x_add_local2 sg l r with Some t => XSparse t | None => dense end
      else dense
  | XSparse l0, XPlain p =>
      let l := x_bcast shx out l0 in
      XSparse {| xsx := fun o => xsx l o + RtoC sg * p (bsrc shy out o); xowners := xowners l; xblk := xblk l; xsl := xsl l |}
  | XPlain p, XSparse r0 =>
      let r := x_bcast shy out r0 in
      XSparse {| xsx := fun o => p (bsrc shx out o) + RtoC sg * xsx r o; xowners := xowners r;
                 xblk := if Req_EM_T sg 1 then xblk r else x_scale r (fun _ => RtoC (-1)); xsl := fun o => RtoC sg * xsl r o |}
  | _, _ => dense
  end.

(** ** Multiplication: arithmetic.py 281-438, core.py 448-501 *)
Definition x_dense_mul (b : basis) (shx shy out : list nat) (x y : xval) : xval :=
  let bx := bsrc shx out in let by_ := bsrc shy out in
  match x, y with
  | XPlain a, XPlain c => XPlain (fun o => a (bx o) * c (by_ o))
  | XDense t, XPlain c => XDense {| xdx := fun o => xdx t (bx o) * c (by_ o); xdj := fun k o => xdj t k (bx o) * c (by_ o); xdl := fun o => xdl t (bx o) * c (by_ o) |}
  | XPlain a, XDense u => XDense {| xdx := fun o => a (bx o) * xdx u (by_ o); xdj := fun k o => xdj u k (by_ o) * a (bx o); xdl := fun o => xdl u (by_ o) * a (bx o) |}
  | XDense t, XDense u =>
      XDense {| xdx := fun o => xdx t (bx o) * xdx u (by_ o);
                xdj := fun k o => xdj t k (bx o) * xdx u (by_ o) + xdj u k (by_ o) * xdx t (bx o);
                xdl := fun o => xdl t (bx o) * xdx u (by_ o) + xdl u (by_ o) * xdx t (bx o) + RtoC 2 * csum (b_n b) (fun k => xdj t k (bx o) * xdj u k (by_ o)) |}
  | _, _ => x
  end.
Definition x_mul_local1 (b : basis) (shape : list nat) (l r : xsparse) : xsparse :=
  let cross := fun o => csum (b_C b) (fun c => xblk l 0 c o * xblk r 0 c o) in
  let lapl := fun o => xsx r o * xsl l o + xsx l o * xsl r o in
  if roles_eqb (xowners l) (xowners r)
  then {| xsx := fun o => xsx l o * xsx r o; xowners := xowners l;
          xblk := fun s c o => x_scale l (xsx r) s c o + x_scale r (xsx l) s c o; xsl := fun o => lapl o + RtoC 2 * cross o |}
  else {| xsx := fun o => xsx l o * xsx r o; xowners := [x_owner l 0; x_owner r 0];
          xblk := fun s c o => if s =? 0 then x_scale l (xsx r) 0%nat c o else x_scale r (xsx l) 0%nat c o;
          xsl := fun o => lapl o + RtoC 2 * (if same_ids shape (x_owner l 0) (x_owner r 0) o then cross o else RtoC 0) |}.
(** arithmetic.py 330-352 *)
Definition x_cross_trace (b : basis) (shape : list nat) (l r : xsparse) (o : nat) : C :=
  csum (x_slots l) (fun s => csum (x_slots r) (fun s' =>
    if same_ids shape (x_owner l s) (x_owner r s') o then csum (b_C b) (fun c => xblk l s c o * xblk r s' c o) else RtoC 0)).
Definition x_mul_local2 (b : basis) (shape : list nat) (l r : xsparse) : option xsparse :=
  match merge2 (xowners l) (xowners r) with
  | None => None
  | Some m => Some {| xsx := fun o => xsx l o * xsx r o; xowners := m_owners m; xblk := x_merge m (x_scale l (xsx r)) (x_scale r (xsx l));
                      xsl := fun o => xsx r o * xsl l o + xsx l o * xsl r o + RtoC 2 * x_cross_trace b shape l r o |}
  end.
Definition x_mul (b : basis) (shx shy out : list nat) (x y : xval) : xval :=
  let dense := x_dense_mul b shx shy out (x_densify b shx x) (x_densify b shy y) in
  match x, y with
  | XSparse l0, XPlain p =>
      let l := x_bcast shx out l0 in let q := fun o => p (bsrc shy out o) in
      XSparse {| xsx := fun o => xsx l o * q o; xowners := xowners l; xblk := x_scale l q; xsl := fun o => xsl l o * q o |}
  | XPlain p, XSparse r0 =>
      let r := x_bcast shy out r0 in let q := fun o => p (bsrc shx out o) in
      XSparse {| xsx := fun o => xsx r o * q o; xowners := xowners r; xblk := x_scale r q; xsl := fun o => xsl r o * q o |}
  | XSparse l0, XSparse r0 =>
      let l := x_bcast shx out l0 in let r := x_bcast shy out r0 in
      if (x_slots l =? 1) && (x_slots r =? 1) then XSparse (x_mul_local1 b out l r)
      else if (x_slots l =? 2) && (x_slots r =? 2) then match x_mul_local2 b out l r with Some t => XSparse t | None => dense end
      else dense
  | _, _ => dense
  end.

(** ** Division: arithmetic.py 470-547 *)
Definition x_reciprocal (b : basis) (sh : list nat) (t : xsparse) : xsparse :=
  let inv := fun o => / xsx t o in
  {| xsx := inv; xowners := xowners t; xblk := x_scale t (fun o => - (inv o * inv o));
     xsl := fun o => - xsl t o * (inv o * inv o) + RtoC 2 * x_trace false b sh t o * (inv o * inv o * inv o) |}.
Definition x_dense_div (b : basis) (shx shy out : list nat) (x y : xval) : xval :=
  let bx := bsrc shx out in let by_ := bsrc shy out in
  match x, y with
  | XPlain a, XPlain c => XPlain (fun o => a (bx o) / c (by_ o))
  | XDense t, XPlain c => XDense {| xdx := fun o => xdx t (bx o) / c (by_ o); xdj := fun k o => / c (by_ o) * xdj t k (bx o); xdl := fun o => / c (by_ o) * xdl t (bx o) |}
  | XPlain a, XDense u =>
      let d1 := fun o => - (a (bx o) / (xdx u (by_ o) * xdx u (by_ o))) in
      XDense {| xdx := fun o => a (bx o) / xdx u (by_ o); xdj := fun k o => d1 o * xdj u k (by_ o);
                xdl := fun o => d1 o * xdl u (by_ o) + RtoC 2 * a (bx o) / (xdx u (by_ o) * xdx u (by_ o) * xdx u (by_ o)) * csum (b_n b) (fun k => xdj u k (by_ o) * xdj u k (by_ o)) |}
  | XDense t, XDense u =>
      let d1 := fun o => - (xdx t (bx o) / (xdx u (by_ o) * xdx u (by_ o))) in
      XDense {| xdx := fun o => xdx t (bx o) / xdx u (by_ o); xdj := fun k o => / xdx u (by_ o) * xdj t k (bx o) + d1 o * xdj u k (by_ o);
                xdl := fun o => / xdx u (by_ o) * xdl t (bx o) + d1 o * xdl u (by_ o)
                  + (RtoC 2 * xdx t (bx o) / (xdx u (by_ o) * xdx u (by_ o) * xdx u (by_ o)) * csum (b_n b) (fun k => xdj u k (by_ o) * xdj u k (by_ o))
                     - RtoC 2 / (xdx u (by_ o) * xdx u (by_ o)) * csum (b_n b) (fun k => xdj t k (bx o) * xdj u k (by_ o))) |}
  | _, _ => x
  end.
Definition x_div (b : basis) (shx shy out : list nat) (x y : xval) : xval :=
  let dense := x_dense_div b shx shy out (x_densify b shx x) (x_densify b shy y) in
  match x, y with
  | XSparse _, XDense _ | XDense _, XSparse _ => dense
  | XSparse l0, XPlain p =>
      let l := x_bcast shx out l0 in let q := fun o => / p (bsrc shy out o) in
      XSparse {| xsx := fun o => xsx l o * q o; xowners := xowners l; xblk := x_scale l q; xsl := fun o => xsl l o * q o |}
  | _, XSparse r => x_mul b shx shy out x (XSparse (x_reciprocal b shy r))
  | _, _ => dense
  end.

(** complex.py 24-56 handle_complex: both parts are converted to complex, the second is multiplied
    by 1j and added; the value is lax.complex of the two values. [sh] is the common shape. *)
Definition x_complex (b : basis) (sh : list nat) (re im : xval) : xval :=
  let val := fun v : xval => match v with XPlain a => a | XDense t => xdx t | XSparse t => xsx t end in
  let value := fun o => (fst (val re o), fst (val im o)) in
  match x_add b sh sh sh 1 (x_convert Complex re) (x_mul b sh [] sh (x_convert Complex im) (XPlain (fun _ => Ci))) with
  | XPlain a => XPlain a
  | XDense t => XDense {| xdx := value; xdj := xdj t; xdl := xdl t |}
  | XSparse t => XSparse {| xsx := value; xowners := xowners t; xblk := xblk t; xsl := xsl t |}
  end.
