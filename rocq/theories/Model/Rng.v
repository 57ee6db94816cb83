(** Model of the random number generators managed by
    /repo/decent_bench/utils/interoperability/_rng.py and of the per-trial seeds,
    /repo/decent_bench/benchmark/_benchmark.py:533-538.

    A generator is a state [G]; what a request returns and the next state are
    given by [next]. Simplifications: all CUDA devices are one generator; library
    calls that copy a generator's state out and in are faithful
    (numpy [bit_generator.state], [random.getstate], torch [get_state],
    tensorflow [from_state] with the philox algorithm, jax [key_data]); the
    TensorFlow global op seed, which no code of the package draws from, is left
    out. *)
From Coq Require Import List Bool Arith ZArith.
From Verif.Model Require Import PyDict.
Import ListNotations.
Local Open Scope Z_scope.

(** [SupportedFrameworks], utils/types.py:103-109 *)
Inductive framework := NumPy | PyTorch | TensorFlow | JAX.
Definition fw_eqb (a b : framework) : bool :=
  match a, b with NumPy, NumPy | PyTorch, PyTorch | TensorFlow, TensorFlow | JAX, JAX => true | _, _ => false end.
Definition selected (fw : option (list framework)) (f : framework) : bool :=
  match fw with None => true | Some l => existsb (fw_eqb f) l end.   (** [_selected_frameworks], _rng.py:65-68 *)

(** What a draw can be taken from: Python's [random], the shared NumPy generator,
    legacy [np.random], torch's global CPU generator, the CUDA generators, the
    torch generator of a device, the TensorFlow generator, the JAX key. *)
Inductive source := SPython | SNumPy | SLegacy | STorch | SCuda | STorchGen (dev : nat) | STf | SJax.

Section Rng.
  Variables (G V : Type).
  (** request number [r] to a generator of the source in the given state *)
  Variable next : source -> nat -> G -> V * G.
  (** a generator of that source freshly seeded *)
  Variable seeded : source -> Z -> G.
  (** [torch.initial_seed], a function of torch's global state; a new torch
      generator without a seed *)
  Variables (torch_initial : G -> Z) (torch_default : nat -> G).
  (** optional packages present in the process, _rng.py:17-37; CUDA present *)
  Record libs := mkLibs { has_torch : bool; has_cuda : bool; has_tf : bool; has_jax : bool }.
  Variable e : libs.

  (** [_RngState] and the libraries' own global generators, _rng.py:48-62 *)
  Record rng := mkRng {
    g_seed : option Z; g_py : G; g_np : G; g_leg : G; g_torch : G; g_cuda : G;
    g_tgens : list (nat * G); g_tf : option G; g_jax : option G }.

  (** One request. [None]: RuntimeError, _rng.py:132-188 ([rng_numpy],
      [rng_jax], [rng_torch], [rng_tensorflow]). *)
  Definition with_fst {A B C} (f : B -> C) (p : A * B) : option A * C := (Some (fst p), f (snd p)).
  Definition draw (src : source) (r : nat) (s : rng) : option V * rng :=
    match src with
    | SPython => with_fst (fun g => mkRng (g_seed s) g (g_np s) (g_leg s) (g_torch s) (g_cuda s) (g_tgens s) (g_tf s) (g_jax s)) (next src r (g_py s))
    | SNumPy => with_fst (fun g => mkRng (g_seed s) (g_py s) g (g_leg s) (g_torch s) (g_cuda s) (g_tgens s) (g_tf s) (g_jax s)) (next src r (g_np s))
    | SLegacy => with_fst (fun g => mkRng (g_seed s) (g_py s) (g_np s) g (g_torch s) (g_cuda s) (g_tgens s) (g_tf s) (g_jax s)) (next src r (g_leg s))
    | STorch => if has_torch e then with_fst (fun g => mkRng (g_seed s) (g_py s) (g_np s) (g_leg s) g (g_cuda s) (g_tgens s) (g_tf s) (g_jax s)) (next src r (g_torch s)) else (None, s)
    | SCuda => if has_torch e && has_cuda e then with_fst (fun g => mkRng (g_seed s) (g_py s) (g_np s) (g_leg s) (g_torch s) g (g_tgens s) (g_tf s) (g_jax s)) (next src r (g_cuda s)) else (None, s)
    | STorchGen d =>
        if has_torch e then
          let g0 := match dget Nat.eqb (g_tgens s) d with
                    | Some g => g
                    | None => match g_seed s with Some _ => seeded src (torch_initial (g_torch s)) | None => torch_default d end
                    end in
          with_fst (fun g => mkRng (g_seed s) (g_py s) (g_np s) (g_leg s) (g_torch s) (g_cuda s) (dset Nat.eqb (g_tgens s) d g) (g_tf s) (g_jax s)) (next src r g0)
        else (None, s)
    | STf => match has_tf e, g_tf s with
             | true, Some g0 => with_fst (fun g => mkRng (g_seed s) (g_py s) (g_np s) (g_leg s) (g_torch s) (g_cuda s) (g_tgens s) (Some g) (g_jax s)) (next src r g0)
             | _, _ => (None, s)
             end
    | SJax => match has_jax e, g_jax s with
              | true, Some g0 => with_fst (fun g => mkRng (g_seed s) (g_py s) (g_np s) (g_leg s) (g_torch s) (g_cuda s) (g_tgens s) (g_tf s) (Some g)) (next src r g0)
              | _, _ => (None, s)
              end
    end.
  Fixpoint draws (l : list (source * nat)) (s : rng) : list (option V) * rng :=
    match l with
    | [] => ([], s)
    | (src, r) :: l' => let '(v, s1) := draw src r s in let '(vs, s2) := draws l' s1 in (v :: vs, s2)
    end.

  (** [_set_seed], _rng.py:86-124; [torch.manual_seed] seeds CPU and CUDA *)
  Definition set_seed (z : Z) (fw : option (list framework)) (global : bool) (s : rng) : rng :=
    let sel f := selected fw f in
    let tsel := has_torch e && sel PyTorch in
    mkRng (if global then Some z else g_seed s)
      (seeded SPython z)
      (if sel NumPy then seeded SNumPy z else g_np s)
      (if sel NumPy then seeded SLegacy z else g_leg s)
      (if tsel then seeded STorch z else g_torch s)
      (if tsel then seeded SCuda z else g_cuda s)
      (if tsel then [] else g_tgens s)
      (if has_tf e && sel TensorFlow then Some (seeded STf z) else g_tf s)
      (if has_jax e && sel JAX then Some (seeded SJax z) else g_jax s).

  (** [get_rng_state], _rng.py:191-220: the keys that are only sometimes present
      are options *)
  Record snap := mkSnap {
    s_seed : option Z; s_py : G; s_np : G; s_leg : G;
    s_torch : option G; s_cuda : option G; s_tgens : option (list (nat * G)); s_tf : option G; s_jax : option G }.
  Definition get_state (fw : option (list framework)) (s : rng) : snap :=
    let tsel := has_torch e && selected fw PyTorch in
    mkSnap (g_seed s) (g_py s) (g_np s) (g_leg s)
      (if tsel then Some (g_torch s) else None)
      (if tsel && has_cuda e then Some (g_cuda s) else None)
      (if tsel then Some (g_tgens s) else None)
      (if has_tf e && selected fw TensorFlow then g_tf s else None)
      (if has_jax e && selected fw JAX then g_jax s else None).
  (** [set_rng_state], _rng.py:223-256 *)
  Definition opt {X} (b : bool) (o : option X) (x : X) : X := match b, o with true, Some y => y | _, _ => x end.
  Definition set_state (p : snap) (s : rng) : rng :=
    mkRng (s_seed p) (s_py p) (s_np p) (s_leg p)
      (opt (has_torch e) (s_torch p) (g_torch s))
      (opt (has_torch e && has_cuda e) (s_cuda p) (g_cuda s))
      (opt (has_torch e) (s_tgens p) (g_tgens s))
      (match has_tf e, s_tf p with true, Some g => Some g | _, _ => g_tf s end)
      (match has_jax e, s_jax p with true, Some g => Some g | _, _ => g_jax s end).
End Rng.
Arguments mkRng {G}. Arguments g_seed {G}. Arguments g_py {G}. Arguments g_np {G}. Arguments g_leg {G}. Arguments g_torch {G}. Arguments g_cuda {G}.
Arguments g_tgens {G}. Arguments g_tf {G}. Arguments g_jax {G}.
Arguments draw {G V}. Arguments draws {G V}. Arguments set_seed {G}. Arguments get_state {G}. Arguments set_state {G}.

(** [_derive_trial_seed], _benchmark.py:533-538, when a base seed is set *)
Definition trial_seed (base : Z) (alg trial : nat) : Z :=
  (base + 0x9E3779B9 * (Z.of_nat alg + 1) + 0x85EBCA6B * (Z.of_nat trial + 1)) mod 2 ^ 32.
