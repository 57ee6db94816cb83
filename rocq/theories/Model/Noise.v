(** Model of the noise schemes, /repo/decent_bench/schemes.py:752-797, as the network
    uses them (networks.py:323-327).

    Simplifications: entries are real numbers; a message is its entries in row-major
    order, as a function of the index ([size] of them); call [d] of the random
    generator gives the stream [z d] of standard normal draws, and a normal draw with
    [mean] and [std] is [mean + std * z] (see [RandArrays] for the frameworks). *)
From Coq Require Import Reals Arith ZArith.
From Verif.Model Require Import PyDict History Messages Network.
Local Open Scope R_scope.

(** entries of a message *)
Definition entries := nat -> R.
Inductive noise_scheme := NoNoise | GaussianNoise (mean std : R).
(** [GaussianNoise.__init__], schemes.py:790-794; [None]: ValueError *)
Definition gaussian_noise (mean std : R) : option noise_scheme :=
  if Rlt_dec std 0 then None else Some (GaussianNoise mean std).
(** [make_noise] with shape [(receivers, *shape)], schemes.py:765-771, 796-797: one
    array of [receivers * size] draws in row-major order, [None] for [NoNoise] *)
Definition make_noise (s : noise_scheme) (z : nat -> R) : option (nat -> R) :=
  match s with NoNoise => None | GaussianNoise mean std => Some (fun k => mean + std * z k) end.
(** [noise[i]], networks.py:327: row [i] of that array *)
Definition row (size : nat) (noise : nat -> R) (i : nat) : entries := fun j => noise (i * size + j)%nat.
(** the noise of agent [a]'s messages of [size] entries, networks.py:323-324 *)
Definition message_noise (scheme : agent_id -> noise_scheme) (size : nat) (z : nat -> nat -> R) (d : nat) (a : agent_id) : option (nat -> entries) :=
  match make_noise (scheme a) (z d) with None => None | Some noise => Some (row size noise) end.
(** [msg + noise[i]], entry by entry *)
Definition add_entries (m n : entries) : entries := fun j => m j + n j.
(** a network with these schemes *)
Definition noisy_env (act : nat -> agent_id -> nat -> bool) (drop : nat -> agent_id -> bool) (comp : nat -> agent_id -> entries -> entries) (csize : agent_id -> entries -> Z)
  (scheme : agent_id -> noise_scheme) (size : nat) (z : nat -> nat -> R) : env entries :=
  mkEnv act drop comp csize (message_noise scheme size z) add_entries.
