(** Model of the molecular and solid wavefunctions:
    /repo/src/jaqmc/geometry/obc.py, wavefunction/input/atomic.py, wavefunction/backbone/ferminet.py,
    wavefunction/backbone/psiformer.py, wavefunction/backbone/lapnet/_backbone.py (and the value of
    lapnet_sparse_attention, _attention.py 20-34), wavefunction/output/{orbital,envelope,logdet}.py,
    wavefunction/jastrow.py, app/molecule/wavefunction/{ferminet,psiformer,lapnet}.py and
    app/solid/wavefunction.py.

    Simplifications: exact real arithmetic (so the maximum subtracted inside softmax is left out, and
    x/0 is a number instead of a NaN); parameters are arbitrary, not those an initialiser draws; an
    electron array is a function from electron numbers to positions, the up electrons first; the
    feature axis is a list, with the width known from the shapes carried beside it; a dense layer is a
    list of (weights, bias), bias 0 standing for [use_bias=False]; flax's MultiHeadDotProductAttention,
    LayerNorm and Dense, and jax.nn.softmax are modelled by their documented formulas. *)
From Coq Require Import Reals List Arith Bool Lra.
From Coquelicot Require Import Coquelicot.
From Verif Require Import Lin Geom_Model Det.
Import ListNotations.
Open Scope R_scope.

Local Notation vec := Lin.vec.
Definition rsum (l : list R) : R := fold_right Rplus 0 l.
Definition ldot (w x : list R) : R := rsum (map (fun p => fst p * snd p) (combine w x)).
Definition wb := (list R * R)%type.
Definition affine (p : wb) (x : list R) : R := ldot (fst p) x + snd p.
(** nn.Dense *)
Definition dense := list wb.
Definition apply_dense (d : dense) (x : list R) : list R := map (fun p => affine p x) d.
Definition lmap2 (f : R -> R -> R) (x y : list R) : list R := map (fun p => f (fst p) (snd p)) (combine x y).
Definition ladd := lmap2 Rplus.
Definition tanh_dense (d : dense) (x : list R) : list R := map tanh (apply_dense d x).

(** ** obc.py *)
(** pair_displacements_within, lines 39-48: displacement and distance of electrons i and j *)
Definition ee_disp (e : nat -> vec) (i j : nat) : vec := fun k => e i k - e j k.
Definition ee_dist (d : nat) (e : nat -> vec) (i j : nat) : R :=
  norm d (fun k => ee_disp e i j k + delta i j) * (1 - delta i j).
(** pair_displacements_between, lines 85-87 *)
Definition ae_disp (e atoms : nat -> vec) (i a : nat) : vec := fun k => e i k - atoms a k.
Definition ae_dist (d : nat) (e atoms : nat -> vec) (i a : nat) : R := norm d (ae_disp e atoms i a).
Definition to_list (d : nat) (v : vec) : list R := map v (seq 0 d).

(** ** atomic.py *)
(** AtomicEmbedding, lines 19-34 *)
Record embedding := {
  ae_width : nat; ae_feat : nat -> list R;
  ee_width : nat; ee_feat : nat -> nat -> list R;
  emb_r : nat -> nat -> R; emb_vec : nat -> nat -> list R }.
(** MoleculeFeatures.__call__, lines 56-79: [d] coordinates, [na] atoms *)
Definition pair_feature (rescale : bool) (d : nat) (r : R) (v : vec) : list R :=
  if rescale then ln (1 + r) :: to_list d (fun k => v k * ln (1 + r) / r) else r :: to_list d v.
Definition molecule_features (rescale : bool) (d na : nat) (e atoms : nat -> vec) : embedding :=
  {| ae_width := na * (1 + d);
     ae_feat := fun i => concat (map (fun a => pair_feature rescale d (ae_dist d e atoms i a) (ae_disp e atoms i a)) (seq 0 na));
     ee_width := 1 + d;
     ee_feat := fun i j => pair_feature rescale d (ee_dist d e i j) (ee_disp e i j);
     emb_r := ae_dist d e atoms;
     emb_vec := fun i a => to_list d (ae_disp e atoms i a) |}.
(** SolidFeatures.__call__, lines 118-147 *)
Definition vec_width (t : distance_type) (d : nat) : nat := match t with Tri => d + d | Nu => d end.
Definition solid_features (t : distance_type) (d na : nat) (prim sim : cell) (e atoms : nat -> vec) : embedding :=
  let w := vec_width t d in
  let ae := Geom_Model.ae_features d t prim e atoms in
  let ee := Geom_Model.ee_features d t sim e in
  {| ae_width := na * (1 + w);
     ae_feat := fun i => concat (map (fun a => fst (ae i a) :: to_list w (snd (ae i a))) (seq 0 na));
     ee_width := 1 + w;
     ee_feat := fun i j => fst (ee i j) :: to_list w (snd (ee i j));
     emb_r := fun i a => fst (ae i a);
     emb_vec := fun i a => to_list w (snd (ae i a)) |}.

(** ** Spin channels *)
Definition spins := (nat * nat)%type.
Definition n_el (ns : spins) : nat := fst ns + snd ns.
Definition both (ns : spins) : bool := Nat.ltb 0 (fst ns) && Nat.ltb 0 (snd ns).
(** split_nonempty_channels (utils/array.py 24-45): the electron numbers of each channel *)
Definition channels (ns : spins) : list (list nat) :=
  if both ns then [seq 0 (fst ns); seq (fst ns) (snd ns)] else [seq 0 (n_el ns)].
(** jnp.mean over one channel, feature by feature *)
Definition channel_mean (w : nat) (ch : list nat) (f : nat -> list R) : list R :=
  map (fun k => rsum (map (fun i => nth k (f i) 0) ch) / INR (length ch)) (seq 0 w).

(** ** FermiLayers, backbone/ferminet.py *)
Record stream1 := { w1 : nat; f1 : nat -> list R }.
Record stream2 := { w2 : nat; f2 : nat -> nat -> list R }.
(** residual, lines 60-63 *)
Definition residual (wx wy : nat) (x y : list R) : list R :=
  if Nat.eqb wx wy then map (fun v => v / sqrt 2) (ladd x y) else y.
(** aggregate_features, lines 82-90; the pair stream is averaged over its first axis *)
Definition aggregate (ns : spins) (h1 : stream1) (h2 : stream2) : stream1 :=
  let chs := channels ns in
  {| w1 := w1 h1 + length chs * w1 h1 + length chs * w2 h2;
     f1 := fun i => f1 h1 i ++ concat (map (fun ch => channel_mean (w1 h1) ch (f1 h1)) chs)
                            ++ concat (map (fun ch => channel_mean (w2 h2) ch (fun j => f2 h2 j i)) chs) |}.
(** _update_single_stream, 51-54, and _update_double_stream, 56-58 *)
Definition update_single (ns : spins) (p : dense) (h1 : stream1) (h2 : stream2) : stream1 :=
  let a := aggregate ns h1 h2 in
  {| w1 := length p; f1 := fun i => residual (w1 h1) (length p) (f1 h1 i) (tanh_dense p (f1 a i)) |}.
Definition update_double (p : dense) (h2 : stream2) : stream2 :=
  {| w2 := length p; f2 := fun i j => residual (w2 h2) (length p) (f2 h2 i j) (tanh_dense p (f2 h2 i j)) |}.
(** __call__, lines 30-49 *)
Fixpoint fermi_layers (ns : spins) (use_last : bool) (ps : list (dense * dense)) (h1 : stream1) (h2 : stream2) : stream1 :=
  match ps with
  | [] => h1
  | [(s, dbl)] =>
      let h1' := update_single ns s h1 h2 in
      if use_last then aggregate ns h1' (update_double dbl h2) else h1'
  | (s, dbl) :: rest => fermi_layers ns use_last rest (update_single ns s h1 h2) (update_double dbl h2)
  end.

(** ** Psiformer, backbone/psiformer.py *)
(** nn.LayerNorm: (scale, bias) *)
Definition layer_norm (eps : R) (p : list R * list R) (x : list R) : list R :=
  let n := INR (length x) in
  let mu := rsum x / n in
  let var := Rmax 0 (rsum (map (fun v => v * v) x) / n - mu * mu) in
  lmap2 Rplus (lmap2 Rmult (map (fun v => (v - mu) / sqrt (var + eps)) x) (fst p)) (snd p).
(** One attention head over [n] electrons *)
Definition attend (n hd : nat) (q k v : nat -> list R) (i : nat) : list R :=
  let e j := exp (ldot (q i) (k j) / sqrt (INR hd)) in
  let z := rsum (map e (seq 0 n)) in
  map (fun c => rsum (map (fun j => e j / z * nth c (v j) 0) (seq 0 n))) (seq 0 hd).
Record head := { hq : dense; hk : dense; hv : dense }.
Definition attention (n hd : nat) (hs : list head) (out : dense) (x : nat -> list R) (i : nat) : list R :=
  apply_dense out (concat (map (fun h => attend n hd (fun j => apply_dense (hq h) (x j)) (fun j => apply_dense (hk h) (x j)) (fun j => apply_dense (hv h) (x j)) i) hs)).
Inductive norm_mode := Pre | Post | NoNorm.
Record psi_layer := { heads : list head; attn_out : dense; mlp : list dense; mlp_last : dense; ln_a : list R * list R; ln_b : list R * list R }.
Definition eps5 : R := / 100000.
(** PsiformerLayer.__call__, lines 70-99 *)
Definition psiformer_layer (mode : norm_mode) (n hd : nat) (p : psi_layer) (x : nat -> list R) : nat -> list R :=
  let x_in j := match mode with Pre => layer_norm eps5 (ln_a p) (x j) | _ => x j end in
  let xa j := ladd (x j) (attention n hd (heads p) (attn_out p) x_in j) in
  let xb j := match mode with Post => layer_norm eps5 (ln_a p) (xa j) | _ => xa j end in
  let m0 j := match mode with Pre => layer_norm eps5 (ln_b p) (xa j) | _ => xb j end in
  let m j := tanh_dense (mlp_last p) (fold_left (fun y d => tanh_dense d y) (mlp p) (m0 j)) in
  fun j => let y := ladd (xb j) (m j) in match mode with Post => layer_norm eps5 (ln_b p) y | _ => y end.
(** line 169: +1 for up, -1 for down *)
Definition spin_of (ns : spins) (i : nat) : R := if Nat.ltb i (fst ns) then 1 else -1.
(** PsiformerBackbone.__call__, lines 164-187 *)
Record psi_backbone := { psi_in : dense; psi_layers : list psi_layer; psi_mode : norm_mode; psi_hd : nat }.
Definition psiformer (ns : spins) (p : psi_backbone) (h : nat -> list R) : nat -> list R :=
  fold_left (fun x l => psiformer_layer (psi_mode p) (n_el ns) (psi_hd p) l x) (psi_layers p)
    (fun i => apply_dense (psi_in p) (h i ++ [spin_of ns i])).

(** ** LapNet, backbone/lapnet/_backbone.py *)
Record lap_layer := { qk : dense; vproj : dense; oproj : dense; vupd : dense; upd : list dense;
                      lns : option ((list R * list R) * (list R * list R) * (list R * list R)) }.
Definition eps6 : R := / 1000000.
Definition opt_norm (p : option (list R * list R)) (x : list R) : list R := match p with Some s => layer_norm eps6 s x | None => x end.
(** project_qk_stream, 113-124, and qk_stream_block, 126-137 *)
Definition project_qk (p : lap_layer) (adim : nat) (x : list R) : list R * list R :=
  let y := apply_dense (qk p) (opt_norm (option_map (fun t => fst (fst t)) (lns p)) x) in (firstn adim y, skipn adim y).
Definition qk_block (p : lap_layer) (x : list R) : list R := fold_left (fun y d => ladd y (tanh_dense d y)) (upd p) x.
(** Slice of one head after reshape(n_electrons, num_heads, heads_dim) *)
Definition head_slice (hd h : nat) (x : list R) : list R := firstn hd (skipn (h * hd) x).
(** dense_block of the layer, 66-111 *)
Definition lap_dense_block (n nh hd : nat) (p : lap_layer) (qs : nat -> list R * list R) (x : nat -> list R) : nat -> list R :=
  let v j := apply_dense (vproj p) (opt_norm (option_map (fun t => snd (fst t)) (lns p)) (x j)) in
  let att j := concat (map (fun h => attend n hd (fun k => head_slice hd h (fst (qs k))) (fun k => head_slice hd h (snd (qs k))) (fun k => head_slice hd h (v k)) j) (seq 0 nh)) in
  let y j := ladd (x j) (apply_dense (oproj p) (att j)) in
  fun j => ladd (y j) (tanh_dense (vupd p) (opt_norm (option_map snd (lns p)) (y j))).
(** individual_stream_block, 191-213: query/key of every layer for one electron *)
Fixpoint qk_streams (adim : nat) (ps : list lap_layer) (x : list R) : list (list R * list R) :=
  match ps with [] => [] | p :: ps' => project_qk p adim x :: qk_streams adim ps' (qk_block p x) end.
(** LapNetBackbone.__call__, 241-263, with dense_block, 215-239 *)
Record lap_backbone := { lap_in : dense; lap_layers : list lap_layer; lap_nh : nat; lap_hd : nat }.
Definition lapnet (ns : spins) (p : lap_backbone) (h : nat -> list R) : nat -> list R :=
  let hs i := apply_dense (lap_in p) (h i ++ [spin_of ns i]) in
  let qs i := qk_streams (lap_nh p * lap_hd p) (lap_layers p) (hs i) in
  fold_left (fun x li => lap_dense_block (n_el ns) (lap_nh p) (lap_hd p) (snd li) (fun i => nth (fst li) (qs i) ([], [])) x)
    (combine (seq 0 (length (lap_layers p))) (lap_layers p)) hs.

(** ** OrbitalProjection, output/orbital.py 24-30 and 60-78: per spin (true = up or shared), determinant and orbital *)
Definition orbital_params := bool -> nat -> nat -> wb.
Definition channel_of (ns : spins) (split : bool) (i : nat) : bool := if split && both ns then Nat.ltb i (fst ns) else true.
Definition orbital_projection (ns : spins) (split : bool) (p : orbital_params) (h : nat -> list R) (k i j : nat) : R :=
  affine (p (channel_of ns split i) k j) (h i).

(** ** Envelope, output/envelope.py 99-163: the parameters are indexed by orbital, atom, (coordinate,) determinant *)
Inductive envelope_type := Isotropic | AbsIsotropic | Diagonal | NullEnvelope.
Record envelope_params := { env_pi : nat -> nat -> nat -> R; env_sigma : nat -> nat -> nat -> R; env_sigmas : nat -> nat -> nat -> list R }.
Definition envelope (t : envelope_type) (ns : spins) (split : bool) (p : bool -> envelope_params) (na : nat) (emb : embedding) (k i j : nat) : R :=
  let q := p (channel_of ns split i) in
  match t with
  | NullEnvelope => 1
  | Isotropic => rsum (map (fun a => env_pi q j a k * exp (env_sigma q j a k * - emb_r emb i a)) (seq 0 na))
  | AbsIsotropic => rsum (map (fun a => env_pi q j a k * exp (- Rabs (env_sigma q j a k * emb_r emb i a))) (seq 0 na))
  | Diagonal => rsum (map (fun a => env_pi q j a k * exp (- sqrt (rsum (map (fun x => x * x) (lmap2 Rmult (env_sigmas q j a k) (emb_vec emb i a)))))) (seq 0 na))
  end.

(** ** SimpleEEJastrow, jastrow.py 58-104, and _cusp_function, 107-122 *)
Definition cusp (c alpha r : R) : R := - (c * (alpha * alpha)) / (alpha + r).
(** r[jnp.triu_indices(len, k=1)] of the block starting at [lo] *)
Definition upper_pairs (lo len : nat) : list (nat * nat) :=
  concat (map (fun i => map (fun j => (i, j)) (seq (S i) (lo + len - S i))) (seq lo len)).
Definition jastrow (ns : spins) (alpha_par alpha_anti : R) (r : nat -> nat -> R) : R :=
  rsum (map (fun p => cusp (/ 4) alpha_par (r (fst p) (snd p))) (upper_pairs 0 (fst ns) ++ upper_pairs (fst ns) (snd ns))) +
  rsum (map (fun p => cusp (/ 2) alpha_anti (r (fst p) (snd p))) (list_prod (seq 0 (fst ns)) (seq (fst ns) (snd ns)))).

(** ** LogDet, output/logdet.py 53-79 *)
Inductive ext := Fin (r : R) | NegInf | NaN.
Definition rdet := @det R 0 1 Rplus Rmult Ropp.
Definition cdet := @det C (RtoC 0) (RtoC 1) Cplus Cmult Copp.
Definition rsign (x : R) : R := if Rlt_dec x 0 then -1 else if Rlt_dec 0 x then 1 else 0.
(** jnp.linalg.slogdet *)
Definition slogdet (d : R) : R * ext := if Req_EM_T d 0 then (0, NegInf) else (rsign d, Fin (ln (Rabs d))).
Definition emax (a b : ext) : ext :=
  match a, b with NaN, _ => NaN | _, NaN => NaN | NegInf, _ => b | _, NegInf => a | Fin x, Fin y => Fin (Rmax x y) end.
Definition list_emax (l : list ext) : ext := match l with [] => NaN | x :: l' => fold_left emax l' x end.
(** sign * exp(logdet - logmax); None is a NaN *)
Definition shifted (m : ext) (s : R) (l : ext) : option R :=
  match l, m with
  | Fin x, Fin y => Some (s * exp (x - y))
  | NegInf, Fin _ => Some (s * 0)
  | _, _ => None
  end.
Fixpoint osum (l : list (option R)) : option R :=
  match l with [] => Some 0 | x :: l' => match x, osum l' with Some a, Some b => Some (a + b) | _, _ => None end end.
(** log|s| + logmax *)
Definition elog (s : R) (m : ext) : ext :=
  match m with Fin y => if Req_EM_T s 0 then NegInf else Fin (ln (Rabs s) + y) | _ => NaN end.
Record real_out := { sign_logpsi : option R; logpsi : ext }.
Definition logdet_real (dets : list R) : real_out :=
  let sl := map slogdet dets in
  let logmax := list_emax (map snd sl) in
  match osum (map (fun p => shifted logmax (fst p) (snd p)) sl) with
  | Some s => {| sign_logpsi := Some (rsign s); logpsi := elog s logmax |}
  | None => {| sign_logpsi := None; logpsi := NaN |}
  end.

(** Complex matrices: slogdet returns a unit phase; jnp.log is the principal logarithm *)
Definition Ceqb (z : C) : bool := if Req_EM_T (fst z) 0 then (if Req_EM_T (snd z) 0 then true else false) else false.
Definition carg (z : C) : R := let a := acos (fst z / Cmod z) in if Rlt_dec (snd z) 0 then - a else a.
Definition clog (z : C) : C := (ln (Cmod z), carg z).
Definition cexp (z : C) : C := Cmult (RtoC (exp (fst z))) (cos (snd z), sin (snd z)).
Definition cslogdet (d : C) : C * ext := if Ceqb d then (RtoC 0, NegInf) else (Cdiv d (RtoC (Cmod d)), Fin (ln (Cmod d))).
Definition cshifted (m : ext) (s : C) (l : ext) : option C :=
  match l, m with
  | Fin x, Fin y => Some (Cmult s (RtoC (exp (x - y))))
  | NegInf, Fin _ => Some (Cmult s (RtoC 0))
  | _, _ => None
  end.
Fixpoint cosum (l : list (option C)) : option C :=
  match l with [] => Some (RtoC 0) | x :: l' => match x, cosum l' with Some a, Some b => Some (Cplus a b) | _, _ => None end end.
Inductive complex_out := CFin (z : C) | CNegInf | CNaN.
Definition logdet_complex (dets : list C) : complex_out :=
  let sl := map cslogdet dets in
  let logmax := list_emax (map snd sl) in
  match cosum (map (fun p => cshifted logmax (fst p) (snd p)) sl), logmax with
  | Some s, Fin y => if Ceqb s then CNegInf else CFin (Cplus (clog s) (RtoC y))
  | _, _ => CNaN
  end.

(** ** The molecular wavefunctions: __call__ of each *)
Definition orbital_matrices (ns : spins) (ndets : nat) (entry : nat -> nat -> nat -> R) : list R :=
  map (fun k => rdet (n_el ns) (entry k)) (seq 0 ndets).
Definition plus_jastrow (o : real_out) (j : option R) : real_out :=
  match j with
  | None => o
  | Some v => {| sign_logpsi := sign_logpsi o; logpsi := match logpsi o with Fin l => Fin (l + v) | x => x end |}
  end.
Record common := { ndets : nat; split : bool; orb : orbital_params; env_t : envelope_type; env_p : bool -> envelope_params; rescale : bool }.
Definition molecule_entry (ns : spins) (c : common) (na : nat) (emb : embedding) (h : nat -> list R) (k i j : nat) : R :=
  orbital_projection ns (split c) (orb c) h k i j * envelope (env_t c) ns (split c) (env_p c) na emb k i j.

(** FermiNetWavefunction, app/molecule/wavefunction/ferminet.py 53-96 ([rescale] stays False there) *)
Record ferminet_params := { fn_common : common; fn_layers : list (dense * dense); fn_last : bool }.
Definition ferminet_h (ns : spins) (p : ferminet_params) (emb : embedding) : nat -> list R :=
  f1 (fermi_layers ns (fn_last p) (fn_layers p) {| w1 := ae_width emb; f1 := ae_feat emb |} {| w2 := ee_width emb; f2 := ee_feat emb |}).
Definition ferminet (ns : spins) (p : ferminet_params) (d na : nat) (e atoms : nat -> vec) : real_out :=
  let emb := molecule_features false d na e atoms in
  logdet_real (orbital_matrices ns (ndets (fn_common p)) (molecule_entry ns (fn_common p) na emb (ferminet_h ns p emb))).

(** PsiformerWavefunction, app/molecule/wavefunction/psiformer.py 91-170; [None] is jastrow=none *)
Record psiformer_params := { pf_common : common; pf_backbone : psi_backbone; pf_jastrow : option (R * R) }.
Definition ee_jastrow (ns : spins) (p : option (R * R)) (d : nat) (e : nat -> vec) : option R :=
  option_map (fun a => jastrow ns (fst a) (snd a) (ee_dist d e)) p.
Definition psiformer_wf (ns : spins) (p : psiformer_params) (d na : nat) (e atoms : nat -> vec) : real_out :=
  let emb := molecule_features (rescale (pf_common p)) d na e atoms in
  let h := psiformer ns (pf_backbone p) (ae_feat emb) in
  plus_jastrow (logdet_real (orbital_matrices ns (ndets (pf_common p)) (molecule_entry ns (pf_common p) na emb h)))
    (ee_jastrow ns (pf_jastrow p) d e).

(** LapNetWavefunction, app/molecule/wavefunction/lapnet.py 78-140 *)
Record lapnet_params := { lp_common : common; lp_backbone : lap_backbone; lp_jastrow : option (R * R) }.
Definition lapnet_wf (ns : spins) (p : lapnet_params) (d na : nat) (e atoms : nat -> vec) : real_out :=
  let emb := molecule_features (rescale (lp_common p)) d na e atoms in
  let h := lapnet ns (lp_backbone p) (ae_feat emb) in
  plus_jastrow (logdet_real (orbital_matrices ns (ndets (lp_common p)) (molecule_entry ns (lp_common p) na emb h)))
    (ee_jastrow ns (lp_jastrow p) d e).

(** ** SolidWavefunction, app/solid/wavefunction.py 58-147 *)
Record solid_params := { so_layers : list (dense * dense); so_ndets : nat; so_split : bool; so_real : orbital_params; so_imag : orbital_params;
                         so_env_t : envelope_type; so_env : bool -> envelope_params; so_dist : distance_type }.
(** get_orbitals, lines 91-114: phases = exp(1j * electrons @ klist.T) *)
Definition solid_entry (ns : spins) (p : solid_params) (d na : nat) (klist : nat -> vec) (e : nat -> vec) (emb : embedding) (k i j : nat) : C :=
  let h := f1 (fermi_layers ns false (so_layers p) {| w1 := ae_width emb; f1 := ae_feat emb |} {| w2 := ee_width emb; f2 := ee_feat emb |}) in
  let env := envelope (so_env_t p) ns (so_split p) (so_env p) na emb k i j in
  let ph := Lin.dot d (e i) (klist j) in
  Cmult (Cmult (orbital_projection ns (so_split p) (so_real p) h k i j, orbital_projection ns (so_split p) (so_imag p) h k i j) (RtoC env)) (cos ph, sin ph).
Definition solid (ns : spins) (p : solid_params) (d na : nat) (prim sim : cell) (klist : nat -> vec) (e atoms : nat -> vec) : complex_out :=
  let emb := solid_features (so_dist p) d na prim sim e atoms in
  logdet_complex (map (fun k => cdet (n_el ns) (solid_entry ns p d na klist e emb k)) (seq 0 (so_ndets p))).
(** phase_logpsi, lines 143-147; log(0) is -inf + 0j *)
Definition solid_phase_logpsi (o : complex_out) : option (C * ext) :=
  match o with CFin z => Some ((cos (snd z), sin (snd z)), Fin (fst z)) | CNegInf => Some (RtoC 1, NegInf) | CNaN => None end.
