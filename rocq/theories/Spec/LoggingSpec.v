(** What the user sees of the log. *)
From Coq Require Import List Arith.
From Verif.Model Require Import Logging.
Import ListNotations.

(** "minimum level to log": the records the user asks for *)
Definition wanted (level : nat) (rs : list record) : list record := filter (fun r => level <=? r_level r) rs.
(** what the processes log, in order *)
Definition logged (steps : list bstep) : list record :=
  flat_map (fun s => match s with BLog r => [r] | BListen => [] end) steps.
(** the user leaves the root logger to the library, and benchmarks with several
    processes return *)
Definition plain (c : call) : Prop :=
  match c with CMulti _ _ _ returned => returned = true | CConfigure _ => False | _ => True end.
Definition single (c : call) : Prop := match c with CSingle _ _ => True | _ => False end.
(** levels at which records are wanted and the records logged, in calls made in the
    main process only *)
Definition all_logged (cs : list call) : list record :=
  flat_map (fun c => match c with CSingle _ rs => rs | _ => [] end) cs.
