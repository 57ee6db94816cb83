(** Vocabulary for C41 and C48. *)
From Coq Require Import List Bool Arith ZArith.
From Verif.Model Require Import PyDict Rng.
Import ListNotations.

(** Two generator states are indistinguishable by draws from the sources [cov]:
    whatever the sequence of requests (to any sources), requests to sources of
    [cov] are answered alike. *)
Definition same_draws {G V} next seeded ti td (e : libs) (cov : source -> Prop) (s s' : rng G) : Prop :=
  forall l i src r, nth_error l i = Some (src, r) -> cov src ->
    nth_error (fst (draws (V := V) next seeded ti td e l s)) i = nth_error (fst (draws next seeded ti td e l s')) i.

(** The framework a source belongs to; Python's own generator to none. *)
Definition framework_of (src : source) : option framework :=
  match src with
  | SPython => None
  | SNumPy | SLegacy => Some NumPy
  | STorch | SCuda | STorchGen _ => Some PyTorch
  | STf => Some TensorFlow
  | SJax => Some JAX
  end.
Definition chosen (fw : option (list framework)) (f : framework) : Prop := match fw with None => True | Some l => In f l end.

(** States a process can be in: installed TensorFlow and JAX have a generator
    (they get one when the module is imported and always keep one). *)
Definition ready {G} (e : libs) (s : rng G) : Prop := (has_tf e = true -> g_tf s <> None) /\ (has_jax e = true -> g_jax s <> None).
