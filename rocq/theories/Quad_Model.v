(** Model of /repo/src/jaqmc/estimator/ecp/quadrature.py, in exact real arithmetic. *)
From Coq Require Import Reals List Arith String.
From Verif Require Import Quad_Spec.
Import ListNotations.
Open Scope string_scope.
Open Scope list_scope.
Open Scope R_scope.

(** 22-44 *)
Fixpoint expand_sign (values : list R) : list (list R) :=
  match values with
  | [] => [] (* values[0] raises; never called so *)
  | [v] => [v] :: (if Req_EM_T v 0 then [] else [[- v]])
  | v :: vs => let rest := expand_sign vs in map (cons v) rest ++ (if Req_EM_T v 0 then [] else map (cons (- v)) rest)
  end.
Definition to_vec (l : list R) : vec := (nth 0 l 0, nth 1 l 0, nth 2 l 0).
Definition orbit (x y z : R) : list vec := map to_vec (expand_sign [x; y; z]).

Record quadrature := { pts : list vec; coefs : list R }.
(** 139-148 *)
Definition oct_coefs (n : nat) : option (list R) :=
  match n with
  | 6%nat => Some (repeat (1 / 6) 6)
  | 18%nat => Some (repeat (1 / 30) 6 ++ repeat (1 / 15) 12)
  | 26%nat => Some (repeat (1 / 21) 6 ++ repeat (4 / 105) 12 ++ repeat (27 / 840) 8)
  | 50%nat => Some (repeat (4 / 315) 6 ++ repeat (64 / 2835) 12 ++ repeat (27 / 1280) 8 ++ repeat (14641 / 725760) 24)
  | _ => None
  end.
(** 158-190 *)
Definition oct_pts : list vec :=
  let p := 1 / sqrt 2 in let q := 1 / sqrt 3 in let r := 1 / sqrt 11 in let s := 3 / sqrt 11 in
  (orbit 1 0 0 ++ orbit 0 1 0 ++ orbit 0 0 1) ++ (orbit p p 0 ++ orbit p 0 p ++ orbit 0 p p) ++ orbit q q q ++ (orbit r r s ++ orbit r s r ++ orbit s r r).
(** 150-190; [None] = ValueError *)
Definition octahedron (n : nat) : option quadrature := match oct_coefs n with Some c => Some {| pts := firstn n oct_pts; coefs := c |} | None => None end.

(** 200-203 *)
Definition ico_coefs (n : nat) : option (list R) :=
  match n with
  | 12%nat => Some (repeat (1 / 12) 12)
  | 32%nat => Some (repeat (5 / 168) 12 ++ repeat (27 / 840) 20)
  | _ => None
  end.
(** 212-238: polar angles *)
Definition ring (theta : R) (azimuth : nat -> R) : list (R * R) := map (fun k => (theta, azimuth k)) (seq 0 5).
Definition even_az (k : nat) : R := 2 * INR k * PI / 5.
Definition odd_az (k : nat) : R := (2 * INR k + 1) * PI / 5.
Definition ico_down : R := sqrt (15 + 6 * sqrt 5).
Definition theta1 : R := acos ((2 + sqrt 5) / ico_down).
Definition theta2 : R := acos (1 / ico_down).
Definition polars : list (R * R) :=
  [(0, 0); (PI, 0)] ++ ring (atan 2) even_az ++ ring (PI - atan 2) odd_az ++
  ring theta1 odd_az ++ ring theta2 odd_az ++ ring (PI - theta1) even_az ++ ring (PI - theta2) even_az.
(** 240-248 *)
Definition cartesian (p : R * R) : vec := (sin (fst p) * cos (snd p), sin (fst p) * sin (snd p), cos (fst p)).
Definition icosahedron (n : nat) : option quadrature := match ico_coefs n with Some c => Some {| pts := map cartesian (firstn n polars); coefs := c |} | None => None end.

(** 80-105: the rotation for two uniform draws *)
Record mat := { m11 : R; m12 : R; m13 : R; m21 : R; m22 : R; m23 : R; m31 : R; m32 : R; m33 : R }.
Definition rotation (u1 u2 : R) : mat :=
  let phi := u1 * PI * 2 in
  let cos_theta := 1 - 2 * u2 in
  let sin_theta := sqrt (1 - cos_theta * cos_theta) in
  let sin_phi := sin phi in let cos_phi := cos phi in
  let sin_phi2 := sin_phi * sin_phi in let cos_phi2 := cos_phi * cos_phi in
  let m12 := sin_phi * cos_phi * (cos_theta - 1) in
  let m13 := sin_theta * cos_phi in
  let m23 := sin_theta * sin_phi in
  {| m11 := sin_phi2 + cos_theta * cos_phi2; m12 := m12; m13 := m13; m21 := m12; m22 := cos_phi2 + cos_theta * sin_phi2; m23 := m23; m31 := - m13; m32 := - m23; m33 := cos_theta |}.
(** 107-120: einsum ijk,lk->ilj *)
Definition apply (m : mat) (p : vec) : vec :=
  let x := fst (fst p) in let y := snd (fst p) in let z := snd p in
  (m11 m * x + m12 m * y + m13 m * z, m21 m * x + m22 m * y + m23 m * z, m31 m * x + m32 m * y + m33 m * z).
Definition rotated (q : quadrature) (u1 u2 : R) : list vec := map (apply (rotation u1 u2)) (pts q).
(** 122-133 *)
Definition integrate (q : quadrature) (values : list R) : R := fold_right Rplus 0 (map (fun x => fst x * snd x) (combine values (coefs q))) * 4 * PI.
(** 254-293, with the identifier already split into its type and its number; [None] as the identifier
    is the absent (or empty) one, [None] as the result is ValueError.  The registry only caches. *)
Definition get_quadrature (id : option (string * nat)) : option quadrature :=
  match id with
  | None => icosahedron 12
  | Some (t, n) => if String.eqb t "octahedron" then octahedron n else if String.eqb t "icosahedron" then icosahedron n else None
  end.
