(** What the figures of runtime metrics should show. *)
From Coq Require Import Reals List Bool Arith String.
From Verif.Model Require Import Metrics Runtime Plotter.
Import ListNotations.

(** a trial: name of its algorithm, number, and the points its metrics sent *)
Record ptrial := mkPT { pt_alg : string; pt_trial : nat; pt_points : list Runtime.point }.
Definition messages (metas : list (string * option string)) (T : ptrial) : list pmsg :=
  trial_messages metas (pt_alg T) (pt_trial T) (pt_points T).
(** values that can be drawn, in order *)
Definition drawable (l : list (nat * fval)) : list (nat * R) :=
  flat_map (fun p => match snd p with Fin y => [(fst p, y)] | _ => [] end) l.
(** in a queue: the values sent for a line *)
Definition values (k : pkey) (q : list pmsg) : list (nat * fval) :=
  flat_map (fun x => match x with PUpdate m a t it v => if pkeyb k (m, a, t) then [(it, v)] else [] | _ => [] end) q.
(** the messages after the first that announces metric [m] *)
Fixpoint announced (m : string) (q : list pmsg) : list pmsg :=
  match q with
  | [] => []
  | PInit m' _ :: q => if String.eqb m m' then q else announced m q
  | _ :: q => announced m q
  end.
(** the path that came with the first announcement *)
Fixpoint first_path (m : string) (q : list pmsg) : option string :=
  match q with
  | [] => None
  | PInit m' p :: q => if String.eqb m m' then p else first_path m q
  | _ :: q => first_path m q
  end.
