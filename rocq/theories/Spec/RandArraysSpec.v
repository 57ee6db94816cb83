(** Vocabulary for C107. *)
From Coq Require Import List Bool Arith ZArith Permutation.
Import ListNotations.

(** [size] positions out of [n], different ones unless drawn with replacement *)
Definition positions (n size : nat) (replace : bool) (l : list nat) : Prop :=
  length l = size /\ (forall i, In i l -> i < n) /\ (replace = false -> NoDup l).
(** a library's sampling of positions, as documented: for arguments it accepts *)
Definition samples_positions {G} (draw : nat -> nat -> bool -> G -> list nat * G) : Prop :=
  forall n size replace g, (replace = true -> 0 < n \/ size = 0) -> (replace = false -> size <= n) -> positions n size replace (fst (draw n size replace g)).
(** [out] lists the rows of [rows] at the positions [l]. *)
Definition rows_listed {A} (rows : list A) (l : list nat) (out : list A) : Prop := Forall2 (fun i a => nth_error rows i = Some a) l out.
(** [out] is a sample of [size] rows of [rows]. *)
Definition sample_of {A} (rows : list A) (size : nat) (replace : bool) (out : list A) : Prop :=
  exists l, positions (length rows) size replace l /\ rows_listed rows l out.
