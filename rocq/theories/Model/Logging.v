(** Where log messages go: /repo/decent_bench/utils/logger.py, as used by
    /repo/decent_bench/benchmark/_benchmark.py:289, 319-321, 389-421, 505-519,
    /repo/decent_bench/benchmark/_compute/_compute_metrics.py:84,
    /repo/decent_bench/benchmark/_display/_display_metrics.py:106,
    /repo/decent_bench/benchmark/_utils.py:56-57, 161-162, 240-241 and
    /repo/decent_bench/centralized_algorithms.py:45-46.

    Levels are the numbers of Python's [logging] (DEBUG 10, INFO 20, WARNING 30).
    [LOGGER] is the root logger (logger.py:12).  A record keeps its text (a
    [QueueHandler] formats it before it puts it); records of other libraries'
    loggers and [logging.disable] are left out, and handlers do not fail.  Putting
    a record on a queue is one step: the order of the queue is the order in which
    the processes have logged. *)
From Coq Require Import List Arith Bool String.
Import ListNotations.

(** a record: the process that logs it (0 is the main one), its level and text *)
Record record := mkRec { r_proc : nat; r_level : nat; r_text : string }.
(** handlers: [RichHandler] with its level, [QueueHandler], and one of the user's *)
Inductive handler := Rich (level : nat) | ToQueue (q : nat) | Own (level : nat).
(** the root logger of a process *)
Record logger := mkLog { lg_handlers : list handler; lg_level : nat }.

(** the main process's root logger; the queues of records and, of each, the level of
    the [QueueListener] thread reading it if it runs; the next unused queue; what
    has been displayed by [RichHandler]s, printed on stderr by Python's handler of
    last resort, and given to the user's own handlers *)
Record world := mkW {
  w_main : logger;
  w_queue : nat -> list record;
  w_listener : nat -> option nat;
  w_next : nat;
  w_screen : list record;
  w_stderr : list record;
  w_own : list record }.
(** a new interpreter: the root logger has no handlers and level WARNING *)
Definition interpreter : world := mkW (mkLog [] 30) (fun _ => []) (fun _ => None) 0 [] [] [].

Definition put {A} (f : nat -> A) (i : nat) (a : A) : nat -> A := fun j => if j =? i then a else f j.
Definition set_main (lg : logger) (w : world) : world :=
  mkW lg (w_queue w) (w_listener w) (w_next w) (w_screen w) (w_stderr w) (w_own w).
Definition display (r : record) (w : world) : world :=
  mkW (w_main w) (w_queue w) (w_listener w) (w_next w) (w_screen w ++ [r]) (w_stderr w) (w_own w).

(** one handler gets a record ([Logger.callHandlers] of Python's logging); a
    [QueueHandler] has level NOTSET (logger.py:92) *)
Definition emit (r : record) (w : world) (h : handler) : world :=
  match h with
  | Rich l => if l <=? r_level r then display r w else w
  | ToQueue q => mkW (w_main w) (put (w_queue w) q (w_queue w q ++ [r])) (w_listener w) (w_next w) (w_screen w) (w_stderr w) (w_own w)
  | Own l => if l <=? r_level r then mkW (w_main w) (w_queue w) (w_listener w) (w_next w) (w_screen w) (w_stderr w) (w_own w ++ [r]) else w
  end.
(** [LOGGER.log] in a process whose root logger is [lg]; without handlers Python
    prints records from WARNING on *)
Definition log (lg : logger) (w : world) (r : record) : world :=
  if lg_level lg <=? r_level r
  then match lg_handlers lg with
       | [] => if 30 <=? r_level r
               then mkW (w_main w) (w_queue w) (w_listener w) (w_next w) (w_screen w) (w_stderr w ++ [r]) (w_own w)
               else w
       | hs => fold_left (emit r) hs w
       end
  else w.
(** the main process logs; nothing it logs changes its logger *)
Definition log_all (w : world) (rs : list record) : world := fold_left (log (w_main w)) rs w.

(** [start_logger], logger.py:32-53 *)
Definition start_logger (level : nat) (w : world) : world :=
  match lg_handlers (w_main w) with
  | [] => set_main (mkLog [Rich 0] level) w
  | _ => w
  end.
(** [start_queue_logger], logger.py:82-93, in any process: what its root logger
    becomes, whatever it was *)
Definition queue_logger (q : nat) : logger := mkLog [ToQueue q] 0.
(** [start_log_listener], logger.py:56-79 *)
Definition start_log_listener (level : nat) (w : world) : world :=
  let q := w_next w in
  mkW (queue_logger q) (put (w_queue w) q []) (put (w_listener w) q (Some level)) (S q) (w_screen w) (w_stderr w) (w_own w).

(** the listener's thread takes one record from its queue (Python's
    [QueueListener._monitor] and [handle], with [respect_handler_level=True],
    logger.py:76) *)
Definition listen (q : nat) (w : world) : world :=
  match w_listener w q, w_queue w q with
  | Some l, r :: rest =>
      let w := mkW (w_main w) (put (w_queue w) q rest) (w_listener w) (w_next w) (w_screen w) (w_stderr w) (w_own w) in
      if l <=? r_level r then display r w else w
  | _, _ => w
  end.
(** [QueueListener.stop]: what is in the queue is still handled, then the thread
    ends *)
Definition stop (q : nat) (w : world) : world :=
  match w_listener w q with
  | Some l => mkW (w_main w) (put (w_queue w) q []) (put (w_listener w) q None) (w_next w)
                  (w_screen w ++ filter (fun r => l <=? r_level r) (w_queue w q)) (w_stderr w) (w_own w)
  | None => w
  end.

(** while trials run in several processes: a process logs, or the listener gets to
    run.  The worker processes have called [start_queue_logger] with the same queue
    as the main one (_benchmark.py:511-513). *)
Inductive bstep := BLog (r : record) | BListen.
Definition do_step (q : nat) (w : world) (s : bstep) : world :=
  match s with BLog r => log (queue_logger q) w r | BListen => listen q w end.

(** What the user does.
    [CSingle level rs]: a call that does everything in the main process
    ([benchmark] or [resume_benchmark] with [max_processes=1], _benchmark.py:398-400;
    [compute_metrics]; [display_metrics]; creating a problem or solving it, with
    level INFO): [start_logger] first, then it logs [rs].
    [CMulti level early steps returned]: [benchmark] or [resume_benchmark] with
    several processes: [early] is logged before the listener is started
    ([_should_use_spawn_context], _benchmark.py:653-670, called in line 402); an
    exception passes the call of [log_listener.stop()] (_benchmark.py:319-321,
    189-190).
    [CListen q]: a listener left running gets to run.
    [CConfigure lg]: the user sets the handlers and level of the root logger. *)
Inductive call :=
| CSingle (level : nat) (rs : list record)
| CMulti (level : nat) (early : list record) (steps : list bstep) (returned : bool)
| CListen (q : nat)
| CConfigure (lg : logger).
Definition do_call (w : world) (c : call) : world :=
  match c with
  | CSingle level rs => log_all (start_logger level w) rs
  | CMulti level early steps returned =>
      let w := log_all w early in
      let q := w_next w in
      let w := fold_left (do_step q) steps (start_log_listener level w) in
      if returned then stop q w else w
  | CListen q => listen q w
  | CConfigure lg => set_main lg w
  end.
Definition session (w : world) (cs : list call) : world := fold_left do_call cs w.
