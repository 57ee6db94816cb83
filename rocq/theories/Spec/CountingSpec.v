(** What should be counted, read off the program text. *)
From Coq Require Import List Bool Arith ZArith.
From Verif.Model Require Import PyDict Messages Counting.
Import ListNotations.
Open Scope nat_scope.

(** Does executing [p] end with an exception? *)
Fixpoint raises (p : prog) : bool :=
  match p with
  | PSkip => false
  | PCall _ _ _ ok => negb ok
  | PSeq p q => raises p || raises q
  | PNoCount _ p => raises p
  | PRaise => true
  | PTry p q => raises p && raises q
  end.

(** Total size of the successful [k]-calls of agent [a] that [p] makes outside
    every block listing [a]; [b] tells whether such a block already encloses
    [p]. *)
Fixpoint counted (a : agent_id) (k : okind) (b : bool) (p : prog) : nat :=
  match p with
  | PSkip | PRaise => 0
  | PCall a' k' n ok => if ok && Nat.eqb a a' && okind_eqb k k' && negb b then n else 0
  | PSeq p q => counted a k b p + (if raises p then 0 else counted a k b q)
  | PNoCount l p => counted a k (b || existsb (Nat.eqb a) l) p
  | PTry p q => counted a k b p + (if raises p then counted a k b q else 0)
  end.

(** Number of times [a] is listed by blocks that are currently open. *)
Definition open_listings (a : agent_id) (open : list (nat * list agent_id)) : nat :=
  fold_right (fun il n => count_occ Nat.eq_dec (snd il) a + n) 0 open.
