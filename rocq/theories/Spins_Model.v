(** Model of /repo/src/jaqmc/utils/atomic/initialization.py: _atom_initial_spin_config
    (lines 14-36) and distribute_spins (lines 39-121), with atom.spin_config
    (utils/atomic/atom.py lines 67-79) and the per-atom checks of
    utils/atomic/atomic_system.py lines 87-104.

    Simplifications: an atom is its charge and its number of unpaired electrons; the
    random choice is a function of the number of draws made and of the number of
    candidates; the [while] loop has a step budget ([None]: still running), shown
    sufficient in Spins_Props. *)
From Coq Require Import ZArith List Bool Arith.
From Verif Require Import Common.
Import ListNotations.
Open Scope Z_scope.

Record atom := { charge : Z; unpaired : Z }.
Record ainit := { imbalance : option Z; local_charge : Z }.

(** atom.py lines 77-79; Python's [//] is [Z.div] *)
Definition spin_config (a : atom) : Z * Z :=
  ((charge a + unpaired a) / 2, (charge a - unpaired a) / 2).

(** lines 14-36 *)
Definition atom_spins (a : atom) (i : ainit) : res (Z * Z) :=
  let spins :=
    match imbalance i with
    | Some d => let nelec := charge a + local_charge i in ((nelec + d) / 2, (nelec - d) / 2)
    | None =>
        if local_charge i >? fst (spin_config a)
        then (0, fst (spin_config a) + snd (spin_config a) - local_charge i)
        else (fst (spin_config a) - local_charge i, snd (spin_config a))
    end in
  if (fst spins <? 0) || (snd spins <? 0) then Raise ValueError else Ok spins.

Fixpoint map_res {A B} (f : A -> res B) (l : list A) : res (list B) :=
  match l with
  | [] => Ok []
  | x :: l' => bind (f x) (fun y => bind (map_res f l') (fun ys => Ok (y :: ys)))
  end.

Definition zsum (l : list Z) : Z := fold_right Z.add 0 l.
Definition alphas (l : list (Z * Z)) : Z := zsum (map fst l).
Definition betas (l : list (Z * Z)) : Z := zsum (map snd l).
Definition is_fixed (i : ainit) : bool := match imbalance i with Some _ => true | None => false end.

(** Positions of the candidates, lines 103-107. *)
Definition candidates (fixed : list bool) (spins : list (Z * Z)) (up : bool) : list nat :=
  filter (fun j => negb (nth j fixed true) && (0 <? (if up then snd else fst) (nth j spins (0, 0))))
         (seq 0 (List.length fixed)).
Fixpoint set_nth {A} (l : list A) (n : nat) (v : A) : list A :=
  match l, n with
  | [], _ => []
  | _ :: l', O => v :: l'
  | x :: l', S n' => x :: set_nth l' n' v
  end.

Section Dist.
Variable pick : nat -> nat -> nat.

(** The loop, lines 101-120. *)
Fixpoint adjust (fuel : nat) (draws : nat) (fixed : list bool) (spins : list (Z * Z)) (current target : Z)
  : option (res (list (Z * Z))) :=
  if current =? target then Some (Ok spins)
  else
    match fuel with
    | O => None
    | S fuel' =>
        let up := target >? current in
        match candidates fixed spins up with
        | [] => Some (Raise ValueError)
        | c0 :: cs =>
            let c := nth (pick draws (List.length (c0 :: cs))) (c0 :: cs) O in
            let s := nth c spins (0, 0) in
            if up then adjust fuel' (S draws) fixed (set_nth spins c (fst s + 1, snd s - 1)) (current + 1) target
            else adjust fuel' (S draws) fixed (set_nth spins c (fst s - 1, snd s + 1)) (current - 1) target
        end
    end.

(** distribute_spins, lines 39-121 *)
Definition distribute (fuel : nat) (atoms : list atom) (inits : list ainit) (total : Z * Z) : option (res (list (Z * Z))) :=
  if negb (zsum (map local_charge inits) =? 0) then Some (Raise ValueError)
  else
    match map_res (fun p => atom_spins (fst p) (snd p)) (combine atoms inits) with
    | Raise e => Some (Raise e)
    | Ok spins =>
        let fixed := map is_fixed inits in
        let explicit := map fst (filter snd (combine spins fixed)) in
        let specified := (alphas explicit, betas explicit) in
        if negb (fst total + snd total =? alphas spins + betas spins) then Some (Raise ValueError)
        else if forallb (fun b => b) fixed then
          if (fst specified =? fst total) && (snd specified =? snd total) then Some (Ok explicit) else Some (Raise ValueError)
        else adjust fuel 0 fixed spins (alphas spins) (fst total)
    end.
End Dist.

(** The per-atom checks of the configuration, atomic_system.py lines 87-104. *)
Definition atom_config_ok (a : atom) (i : ainit) : bool :=
  let n := charge a + local_charge i in
  (0 <=? n) &&
  match imbalance i with
  | None => true
  | Some d => (Z.abs d <=? n) && ((n + d) mod 2 =? 0)
  end.
(** electron_spins, lines 139-142 *)
Definition electron_spins (atoms : list atom) (total_charge imb : Z) : Z * Z :=
  let nelec := zsum (map charge atoms) - total_charge in ((nelec + imb) / 2, (nelec - imb) / 2).
