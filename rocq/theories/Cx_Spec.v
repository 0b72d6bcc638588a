(** Specification for C92: complex values that carry derivatives with respect to real coordinates. *)
From Coq Require Import Reals List Arith Bool.
From Coquelicot Require Import Complex.
From Verif Require Import Lin Shape Lap_Spec Lap_Lang Lap_Model Sparse_Model Sparse_Spec Fl_Spec Cx_Model.
Import ListNotations.
Open Scope R_scope.

(** [d] is the complex derivative of [f] at [z]. *)
Definition complex_derivative (f : C -> C) (z d : C) : Prop :=
  forall eps, 0 < eps -> exists del, 0 < del /\ forall u : C, Cmod (u - z)%C < del -> Cmod (f u - f z - d * (u - z))%C <= eps * Cmod (u - z)%C.
Definition open_in_plane (D : C -> Prop) : Prop := forall z, D z -> exists e, 0 < e /\ forall u : C, Cmod (u - z)%C < e -> D u.
(** [f] is twice differentiable on the open set [D], with derivatives [f1] and [f2]. *)
Definition holomorphic (D : C -> Prop) (f f1 f2 : C -> C) : Prop :=
  open_in_plane D /\ forall z, D z -> complex_derivative f z (f1 z) /\ complex_derivative f1 z (f2 z).

(** Value, Jacobian in the public dense layout and Laplacian of a possibly tracked complex array. *)
Definition x_value (v : xval) : nat -> C := match v with XPlain a => a | XDense t => xdx t | XSparse t => xsx t end.
Definition x_jacobian (b : basis) (sh : list nat) (v : xval) (k o : nat) : C :=
  match v with XPlain _ => RtoC 0 | XDense t => xdj t k o | XSparse t => x_to_dense b sh t k o end.
Definition x_laplacian (v : xval) : nat -> C := match v with XPlain _ => fun _ => RtoC 0 | XDense t => xdl t | XSparse t => xsl t end.
(** [v] holds the value and the exact derivatives of the complex array [F] at [p]. *)
Definition x_exact (b : basis) (w p : vec) (sh : list nat) (F : vec -> nat -> C) (v : xval) : Prop :=
  forall o, (o < size sh)%nat -> complex_gradient_and_laplacian (b_n b) w p (fun q => F q o) (x_value v o) (fun k => x_jacobian b sh v k o) (x_laplacian v o).
(** The constructor checks of sparse.py 73-93 and 298-330. *)
Definition x_wf (b : basis) (sh : list nat) (v : xval) : Prop :=
  (0 < size sh)%nat /\ match v with XSparse t => (x_slots t = 1%nat \/ x_slots t = 2%nat) /\ Forall (wf_role (b_N b) sh) (xowners t) | _ => True end.
(** No imaginary part in the value or the derivatives. *)
Definition is_real (v : xval) : Prop :=
  match v with
  | XPlain a => forall o, snd (a o) = 0
  | XDense t => forall o, snd (xdx t o) = 0 /\ snd (xdl t o) = 0 /\ forall k, snd (xdj t k o) = 0
  | XSparse t => forall o, snd (xsx t o) = 0 /\ snd (xsl t o) = 0 /\ forall s c, snd (xblk t s c o) = 0
  end.
