(** Progress bars: /repo/decent_bench/utils/progress_bar.py, used by
    /repo/decent_bench/benchmark/_benchmark.py:470, 581-586.

    A bar is named by a number (its [TaskID]).  The queue is a list of records;
    the rendering of the bars, their clocks and the [trial] field are left out,
    and so is which bars are visible.  Iterations and [progress_step] are natural
    numbers; [ceil] of the quotient is exact. *)
From Coq Require Import List Arith Bool.
Import ListNotations.

(** [_ProgressRecord], lines 28-34 *)
Record precord := mkPR { p_bar : nat; p_inc : nat }.
Definition ceil_div (a b : nat) : nat := (a + b - 1) / b.
(** the steps of one trial, lines 221, 223, 242 *)
Definition steps_per_trial (step : option nat) (iters : nat) : nat :=
  match step with None => 1 | Some s => Nat.max 1 (ceil_div iters s) end.
(** the total of a bar, lines 220-226 *)
Definition bar_total (step : option nat) (n_trials iters : nat) : nat := n_trials * steps_per_trial step iters.
(** [mark_one_trial_as_complete], lines 239-243 *)
Definition complete_record (step : option nat) (bar iters : nat) : precord := mkPR bar (steps_per_trial step iters).
(** [start_progress_bar], lines 134-149 *)
Definition start_record (step : option nat) (bar start : nat) : precord :=
  mkPR bar (match step with Some (S s) => start / S s | _ => 0 end).
(** [advance_progress_bar], lines 151-160 *)
Definition advance (step : option nat) (bar iters k : nat) : list precord :=
  match step with
  | None => if k + 1 <? iters then [] else [mkPR bar 1]
  | Some s => if negb ((k + 1) mod s =? 0) && (k + 1 <? iters) then [] else [mkPR bar 1]
  end.
(** what a trial that starts at [start] has put after [k] iterations in all
    (_benchmark.py:581, 586; _algorithm.py:118-125) *)
Definition trial_records (step : option nat) (bar iters start k : nat) : list precord :=
  start_record step bar start :: concat (map (advance step bar iters) (seq start (k - start))).

(** [_progress_listener], lines 267-286: completed units of every bar *)
Definition bars := nat -> nat.
Definition apply_record (r : precord) (b : bars) : bars := fun i => if i =? p_bar r then b i + p_inc r else b i.
Section Listener.
  (** the numbers of the bars and their totals *)
  Variables (ids : list nat) (total : nat -> nat).
  Definition finished (b : bars) : bool := forallb (fun i => total i <=? b i) ids.
  Fixpoint listener (q : list precord) (b : bars) : bars :=
    match q with
    | [] => b
    | r :: q => if finished b then b else listener q (apply_record r b)
    end.
End Listener.
