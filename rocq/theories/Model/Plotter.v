(** The plotter process of runtime metrics:
    /repo/decent_bench/metrics/_runtime_metric_plotter.py, and the messages of a
    trial: /repo/decent_bench/metrics/_runtime_metric.py:96-141,
    /repo/decent_bench/benchmark/_benchmark.py:626-645.

    Metrics are known to the plotter by the name of their class
    (_runtime_metric.py:111-112), algorithms by their name, trials by number,
    paths by strings.  Axis labels and scales, redrawing and batching of messages
    are left out: they do not change which points a line holds.  Drawing
    functions do not raise. *)
From Coq Require Import Reals List Bool Arith String.
From Verif.Model Require Import Metrics Runtime Display.
Import ListNotations.

(** what arrives on the queue: lines 247-266; [PJunk] is anything else *)
Inductive pmsg :=
| PInit (metric : string) (save : option string)
| PUpdate (metric alg : string) (trial iteration : nat) (value : fval)
| PJunk.

(** (metric, algorithm, trial) *)
Definition pkey := (string * string * nat)%type.
Definition pkeyb (a b : pkey) : bool :=
  (String.eqb (fst (fst a)) (fst (fst b)) && String.eqb (snd (fst a)) (snd (fst b)) && Nat.eqb (snd a) (snd b))%bool.
(** (algorithm, trial) *)
Definition skeyb (a b : string * nat) : bool := (String.eqb (fst a) (fst b) && Nat.eqb (snd a) (snd b))%bool.

(** a line: its colour index and its points *)
Definition pline := (nat * list (nat * R))%type.
(** the dictionaries of lines 45-52, in order of insertion; [_data] and [_lines]
    have the same keys and are kept as one; of [_algorithm_trial_colors] the key
    at position [i] has the value [i] (line 184: [len] of a dictionary that never
    loses an entry) *)
Record pstate := mkP {
  ps_figs : list string;
  ps_lines : list (pkey * pline);
  ps_colors : list (string * nat);
  ps_saves : list (string * string)
}.
Definition p_start : pstate := mkP [] [] [] [].

(** [create_figure], lines 117-147 *)
Definition create_figure (m : string) (save : option string) (s : pstate) : pstate :=
  if existsb (String.eqb m) (ps_figs s) then s
  else mkP (ps_figs s ++ [m]) (ps_lines s) (ps_colors s)
         (match save with Some p => ps_saves s ++ [(m, p)] | None => ps_saves s end).

(** position in the dictionary of colours *)
Fixpoint color_index (k : string * nat) (l : list (string * nat)) : option nat :=
  match l with
  | [] => None
  | k' :: l => if skeyb k k' then Some 0 else option_map S (color_index k l)
  end.
(** appending to the data of an existing line, lines 173-177 and 203-205 *)
Fixpoint append_point (k : pkey) (p : nat * R) (l : list (pkey * pline)) : list (pkey * pline) :=
  match l with
  | [] => []
  | (k', (c, pts)) :: l' => if pkeyb k k' then (k', (c, pts ++ [p])) :: l' else (k', (c, pts)) :: append_point k p l'
  end.
Definition has_line (k : pkey) (l : list (pkey * pline)) : bool := existsb (fun e => pkeyb k (fst e)) l.

(** [update], lines 149-211 *)
Definition update (m a : string) (t it : nat) (v : fval) (s : pstate) : pstate :=
  if existsb (String.eqb m) (ps_figs s)
  then match v with
       | Fin y =>
           let k := (m, a, t) in
           if has_line k (ps_lines s) then mkP (ps_figs s) (append_point k (it, y) (ps_lines s)) (ps_colors s) (ps_saves s)
           else
             let colors := match color_index (a, t) (ps_colors s) with Some _ => ps_colors s | None => ps_colors s ++ [(a, t)] end in
             let c := match color_index (a, t) colors with Some c => c | None => 0 end in
             mkP (ps_figs s) (ps_lines s ++ [(k, (c, [(it, y)]))]) colors (ps_saves s)
       | _ => s
       end
  else s.

(** [_process_message], lines 241-268 *)
Definition process (s : pstate) (x : pmsg) : pstate :=
  match x with PInit m p => create_figure m p s | PUpdate m a t it v => update m a t it v s | PJunk => s end.
(** all messages of [run], lines 60-115 *)
Definition process_all (q : list pmsg) : pstate := fold_left process q p_start.

(** a file: directory, name, and the lines of the figure with their marker, line
    style and colour (lines 185-196) *)
Definition pfile := (string * string * list (pkey * ((nat * nat * nat) * list (nat * R))))%type.
Definition figure (s : pstate) (m : string) : list (pkey * ((nat * nat * nat) * list (nat * R))) :=
  map (fun e => (fst e, (marker_style_color (fst (snd e)), snd (snd e)))) (filter (fun e => String.eqb m (fst (fst (fst e)))) (ps_lines s)).
(** [_close_all], lines 286-314 *)
Definition saved (s : pstate) : list pfile :=
  map (fun e => (snd e, (fst e ++ ".png")%string, figure s (fst e))) (filter (fun e => existsb (String.eqb (fst e)) (ps_figs s)) (ps_saves s)).
(** how [run] ends: the queue is shut down after the messages, or Ctrl+C, where
    [_close_all(dont_save=True)] has emptied the dictionaries before the
    [_close_all()] of the [finally] (lines 99-102, 114-115) *)
Inductive pend := QueueShutDown | CtrlC.
Definition files (q : list pmsg) (e : pend) : list pfile :=
  match e with QueueShutDown => saved (process_all q) | CtrlC => saved (mkP [] [] [] []) end.

(** The messages of one trial of [a]: [metas] are the class names and paths of the
    runtime metrics, [ps] the points of Model/Runtime.v. *)
Definition trial_messages (metas : list (string * option string)) (a : string) (t : nat) (ps : list Runtime.point) : list pmsg :=
  map (fun m => PInit (fst m) (snd m)) metas ++
  map (fun p => match nth_error metas (fst (fst p)) with Some m => PUpdate (fst m) a t (snd (fst p)) (snd p) | None => PJunk end) ps.
