(** Model of [P2PNetwork.weights], /repo/decent_bench/networks.py:403-428
    (Metropolis-Hastings weights), over an arbitrary ordered field instead of
    floats.  Agents are their indices 0..n-1 (networks.py:71-72); a matrix is a
    function, and [W[i, j] = v] a function update. *)
From mathcomp Require Import all_ssreflect all_algebra.
Set Implicit Arguments.
Unset Strict Implicit.
Import Order.TTheory GRing.Theory Num.Theory.
Local Open Scope ring_scope.

Section W.
  Variable F : numFieldType.
  Definition mat := nat -> nat -> F.
  (** [np.zeros((n, n))] *)
  Definition mzero : mat := fun _ _ => 0.
  (** [W[i, j] = v] *)
  Definition mset (W : mat) (i j : nat) (v : F) : mat :=
    fun a b => if (a == i) && (b == j) then v else W a b.
  (** Python's [sum(W[i])] over a row of length [n] *)
  Definition row_sum (n : nat) (W : mat) (i : nat) : F :=
    foldl (fun acc j => acc + W i j) 0 (iota 0 n).

  Variables (n : nat) (adj : nat -> seq nat).
  (** [graph.degree()], networks.py:214-217: networkx counts a self-loop twice *)
  Definition degree (i : nat) : nat := (size (adj i) + (i \in adj i))%N.

  (** networks.py:419-424 *)
  Definition off_diagonal : mat :=
    foldl (fun W i =>
      foldl (fun W j => mset W i j (1 / (1 + (maxn (degree i) (degree j))%:R))) W (adj i))
      mzero (iota 0 n).

  (** networks.py:425-426 *)
  Definition weights : mat :=
    foldl (fun W i => mset W i i (1 - row_sum n W i)) off_diagonal (iota 0 n).
End W.
