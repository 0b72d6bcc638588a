(** Model of /repo/src/jaqmc/sampler/mcmc.py (gaussian_proposal 55-56, MCMCSampler.init
    80-98, _mh_update 100-145, step 147-202) and of SamplePlan in sampler/base.py
    (will_sample 107-121, init 123-145, step 147-187).

    Simplifications: exact arithmetic (Q) instead of floats for the width and the
    acceptance rates; random numbers are arbitrary functions of a key and a shape; a
    log-probability is an abstract value and the test [log p2 - log p1 > log u] (lines
    132-135) an arbitrary decision [accept] - Sampler_Props instantiates both with
    (extended) real numbers. *)
From Coq Require Import String List Bool Arith ZArith QArith.
From Verif Require Import Common Data_Model.
Import ListNotations.

Section MCMC.
  Variables (V Sh L U Key : Type).
  (** A leaf of the sampled pytree: shape of one row and one row per walker. *)
  Record leaf := { lshape : Sh; rows : list V }.
  Definition tree := list leaf.

  Variable split3 : Key -> Key * Key * Key.
  Variable uniform : Key -> nat -> list U.
  Variable accept : L -> L -> U -> bool.           (* log_prob_2 - log_prob_1 > log(u) *)
  Variable proposal : Key -> tree -> Q -> tree.
  Variable blp : tree -> list L.                   (* batch_log_prob(x).real *)

  (** jnp.where on the walker axis. *)
  Fixpoint where_ {A} (c : list bool) (x y : list A) : list A :=
    match c, x, y with
    | b :: c', u :: x', v :: y' => (if b then u else v) :: where_ c' x' y'
    | _, _, _ => []
    end.
  Fixpoint decide (l2 l1 : list L) (us : list U) : list bool :=
    match l2, l1, us with
    | a :: l2', b :: l1', u :: us' => accept a b u :: decide l2' l1' us'
    | _, _, _ => []
    end.
  Fixpoint where_tree (c : list bool) (x2 x1 : tree) : tree :=
    match x2, x1 with
    | a :: x2', b :: x1' => {| lshape := lshape b; rows := where_ c (rows a) (rows b) |} :: where_tree c x2' x1'
    | _, _ => []
    end.
  Definition count_true (c : list bool) : nat := length (filter (fun b => b) c).

  Record mh := { pos : tree; key : Key; logp : list L; num_accepts : nat }.

  (** _mh_update, lines 128-145. *)
  Definition mh_update (stddev : Q) (s : mh) : mh :=
    let '(rng_new, rng_sample, rng_cond) := split3 (key s) in
    let x2 := proposal rng_sample (pos s) stddev in
    let log_prob_2 := blp x2 in
    let cond := decide log_prob_2 (logp s) (uniform rng_cond (length (logp s))) in
    {| pos := where_tree cond x2 (pos s);
       key := rng_new;
       logp := where_ cond log_prob_2 (logp s);
       num_accepts := num_accepts s + count_true cond |}.

  (** lax.fori_loop(0, n, ...) *)
  Fixpoint iter_mh (n : nat) (stddev : Q) (s : mh) : mh :=
    match n with O => s | S n' => iter_mh n' stddev (mh_update stddev s) end.

  (** MCMCState, lines 40-52. *)
  Record mcmc_state := { stddev : Q; pmoves : list Q; counter : nat }.

  Record sampler := { steps : nat; initial_width : Q; adapt_frequency : nat; pmove_range : Q * Q }.

  (** init, lines 80-98. *)
  Definition init (c : sampler) : mcmc_state :=
    {| stddev := initial_width c; pmoves := repeat (0%Q) (adapt_frequency c); counter := 0 |}.

  Definition qsum (l : list Q) : Q := fold_right Qplus 0%Q l.
  Definition qmean (l : list Q) : Q := (qsum l / inject_Z (Z.of_nat (length l)))%Q.
  Definition qlt (a b : Q) : bool := negb (Qle_bool b a).

  (** pmoves.at[i].set(v) *)
  Fixpoint set_nth (i : nat) (v : Q) (l : list Q) : list Q :=
    match l, i with
    | [], _ => []
    | _ :: l', O => v :: l'
    | x :: l', S i' => x :: set_nth i' v l'
    end.

  (** The adaptation of lines 184-201. *)
  Definition adapt (c : sampler) (st : mcmc_state) (pmove : Q) : mcmc_state :=
    let counter' := (counter st + 1)%nat in
    let t := (counter' mod adapt_frequency c)%nat in
    let pmoves' := set_nth t pmove (pmoves st) in
    let stddev' :=
      if Nat.eqb t 0 then
        if qlt (snd (pmove_range c)) (qmean pmoves') then (stddev st * (11 # 10))%Q
        else if qlt (qmean pmoves') (fst (pmove_range c)) then (stddev st / (11 # 10))%Q
        else stddev st
      else stddev st in
    {| stddev := stddev'; pmoves := pmoves'; counter := counter' |}.

  (** The walkers of one device after the loop of lines 168-180. *)
  Definition run_device (c : sampler) (sd : Q) (dk : tree * Key) : mh :=
    iter_mh (steps c) sd {| pos := fst dk; key := snd dk; logp := blp (fst dk); num_accepts := 0 |}.

  (** lines 181-182 before pmean. *)
  Definition local_pmove (c : sampler) (sd : Q) (dk : tree * Key) : Q :=
    (inject_Z (Z.of_nat (num_accepts (run_device c sd dk))) /
     inject_Z (Z.of_nat (steps c * length (blp (fst dk)))))%Q.

  (** step, lines 147-202, on all devices at once: every device holds its own walkers
      and key, the sampler state is shared, pmean averages over the devices. *)
  Definition step (c : sampler) (devices : list (tree * Key)) (st : mcmc_state) : list tree * Q * mcmc_state :=
    if Nat.eqb (steps c) 0 then (map fst devices, 0%Q, st)
    else
      let pmove := qmean (map (local_pmove c (stddev st)) devices) in
      (map (fun dk => pos (run_device c (stddev st) dk)) devices, pmove, adapt c st pmove).
End MCMC.
Arguments lshape {V Sh} l.
Arguments rows {V Sh} l.

(** gaussian_proposal, lines 55-56, for rows of rationals: the same key is used for
    every leaf, the numbers drawn depend on the key and on the leaf's shape only. *)
Section Gaussian.
  Variables (Sh Key : Type).
  Variable normal : Key -> nat -> Sh -> list Q.
  Fixpoint add_noise (xs zs : list Q) (sd : Q) : list Q :=
    match xs, zs with
    | x :: xs', z :: zs' => (x + z * sd)%Q :: add_noise xs' zs' sd
    | _, _ => []
    end.
  Definition gaussian_proposal (k : Key) (x : tree Q Sh) (sd : Q) : tree Q Sh :=
    map (fun l => {| lshape := lshape l; rows := add_noise (rows l) (normal k (length (rows l)) (lshape l)) sd |}) x.
End Gaussian.

(** *** SamplePlan *)
Section Plan.
  Variables (V L Key St : Type).
  Variable split2 : Key -> Key * Key.
  (** log-amplitude times two of the full data, for given parameters (line 181). *)
  Variable log_prob : data V -> L.

  Definition stats := list (string * Q).
  (** sampler.step: scoring function, part of the data, state, key. *)
  Definition sampler_step := (list (string * V) -> res L) -> list (string * V) -> St -> Key
                             -> list (string * V) * stats * St.

  Definition plan := list (list string * sampler_step).

  Fixpoint strs_eqb (a b : list string) : bool :=
    match a, b with
    | [], [] => true
    | x :: a', y :: b' => String.eqb x y && strs_eqb a' b'
    | _, _ => false
    end.
  (** will_sample, lines 107-121: a dict keyed by the tuple of names. *)
  Fixpoint will_sample (p : plan) (keys : list string) (s : sampler_step) : plan :=
    match p with
    | [] => [(keys, s)]
    | (k, s') :: p' => if strs_eqb k keys then (k, s) :: p' else (k, s') :: will_sample p' keys s
    end.

  Definition state_key (keys : list string) : string := str_join "," keys.

  (** The loop of lines 176-187.  [orig] is batched_data.data, [d] the running data. *)
  Fixpoint plan_loop (orig : data V) (p : plan) (d : data V) (state : list (string * St)) (k : Key) (acc : stats)
    : res (data V * stats * list (string * St)) :=
    match p with
    | [] => Ok (d, acc, state)
    | (keys, smp) :: p' =>
        let (k', sub) := split2 k in
        bind (subset V orig keys) (fun part =>
        match dict_get state (state_key keys) with
        | None => Raise KeyError
        | Some st =>
            let '(part', sts, st') := smp (fun x => bind (merge V d x) (fun m => Ok (log_prob m))) part st sub in
            bind (merge V d part') (fun d' =>
              plan_loop orig p' d' (dict_set state (state_key keys) st') k' (dict_update acc sts))
        end)
    end.
  Definition plan_step (p : plan) (d : data V) (state : list (string * St)) (k : Key) :=
    plan_loop d p d state k [].
End Plan.
