(** Model of [AgentHistory], /repo/decent_bench/agents.py:352-481.

    Iterations are Python ints (Z).  Arrays are values of an arbitrary type
    [V]; object aliasing is not modelled (the code stores copies,
    agents.py:177-178 and 204). *)
From Coq Require Import List ZArith Bool.
From Verif.Model Require Import PyDict.
Import ListNotations.
Open Scope Z_scope.

(** Results of operations that may raise [ValueError] / [KeyError]. *)
Inductive res (A : Type) : Type := Ok (a : A) | ValueError | KeyError.
Arguments Ok {A}. Arguments ValueError {A}. Arguments KeyError {A}.

(** CPython [bisect.bisect_right(a, x, lo, hi)]: the [while lo < hi] loop with
    explicit fuel; [bisect_right] passes [length a], which always suffices
    (proved in Proofs/HistoryProofs.v). *)
Fixpoint bisect_right_loop (fuel : nat) (a : list Z) (x : Z) (lo hi : nat) : nat :=
  match fuel with
  | O => lo
  | S f =>
    if Nat.ltb lo hi then
      let mid := Nat.div (lo + hi) 2 in
      if x <? nth mid a 0 then bisect_right_loop f a x lo mid
      else bisect_right_loop f a x (S mid) hi
    else lo
  end.
Definition bisect_right (a : list Z) (x : Z) : nat :=
  bisect_right_loop (length a) a x 0 (length a).

(** [list.insert(i, x)] for [i <= len]. *)
Definition list_insert {A} (a : list A) (i : nat) (x : A) : list A :=
  firstn i a ++ x :: skipn i a.

(** CPython [bisect.insort] (= insort_right). *)
Definition insort (a : list Z) (x : Z) : list Z := list_insert a (bisect_right a x) x.

Section History.
  Variable V : Type.

  (** agents.py:364-366 *)
  Record history := mkHist { h_dict : list (Z * V); h_keys : list Z }.
  Definition h_empty : history := mkHist [] [].

  (** [AgentHistory.max], agents.py:368-378 *)
  Definition h_max (h : history) : res Z :=
    match h_keys h with
    | [] => ValueError
    | k :: ks => Ok (last (k :: ks) 0)
    end.

  (** [AgentHistory.min], agents.py:380-390 *)
  Definition h_min (h : history) : res Z :=
    match h_keys h with
    | [] => ValueError
    | k :: _ => Ok k
    end.

  (** [self._x_history[k]] *)
  Definition h_at (h : history) (k : Z) : res V :=
    match dget Z.eqb (h_dict h) k with Some v => Ok v | None => KeyError end.

  (** [AgentHistory.items], agents.py:392-394: [None] entries would be a KeyError
      raised while iterating. *)
  Definition h_items (h : history) : list (Z * option V) :=
    map (fun k => (k, dget Z.eqb (h_dict h) k)) (h_keys h).

  (** [AgentHistory.keys], agents.py:400-402 *)
  Definition h_keylist (h : history) : list Z := h_keys h.

  (** [AgentHistory.set_x] / [__setitem__], agents.py:404-419, 454-456 *)
  Definition h_set (h : history) (it : Z) (x : V) : res history :=
    if it <? 0 then ValueError
    else
      let ks := if dmem Z.eqb (h_dict h) it then h_keys h else insort (h_keys h) it in
      Ok (mkHist (dset Z.eqb (h_dict h) it x) ks).

  (** [AgentHistory.get_x] / [__getitem__], agents.py:421-452, 458-465 *)
  Definition h_get (h : history) (it : Z) : res V :=
    if it <? -1 then ValueError
    else if it =? -1 then
      match h_max h with Ok m => h_at h m | ValueError => ValueError | KeyError => KeyError end
    else if dmem Z.eqb (h_dict h) it then h_at h it
    else
      let idx := Z.of_nat (bisect_right (h_keys h) it) - 1 in
      if idx <? 0 then ValueError
      else h_at h (nth (Z.to_nat idx) (h_keys h) 0).

  (** [AgentHistory.__contains__], agents.py:467-469 *)
  Definition h_contains (h : history) (it : Z) : bool := dmem Z.eqb (h_dict h) it.

  (** [AgentHistory.__len__], agents.py:475-477 *)
  Definition h_len (h : history) : nat := length (h_dict h).

  (** A client program: a sequence of writes; a write that raises leaves the
      object unchanged and the caller continues. *)
  Definition h_write (h : history) (w : Z * V) : history :=
    match h_set h (fst w) (snd w) with Ok h' => h' | _ => h end.
  Definition h_run (ws : list (Z * V)) : history := fold_left h_write ws h_empty.
End History.

Arguments mkHist {V}. Arguments h_dict {V}. Arguments h_keys {V}.
Arguments h_empty {V}. Arguments h_max {V}. Arguments h_min {V}. Arguments h_at {V}.
Arguments h_items {V}. Arguments h_keylist {V}. Arguments h_set {V}. Arguments h_get {V}.
Arguments h_contains {V}. Arguments h_len {V}. Arguments h_write {V}. Arguments h_run {V}.
