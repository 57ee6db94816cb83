(** Model of oracle-call counting: /repo/decent_bench/agents.py:206-244
    (_call_counting_function/gradient/hessian/proximal) and 268-293
    (Agent.no_count).

    Simplification: the numeric result of a call is irrelevant here; a call is
    described by its agent, its kind, the number it adds when counted
    ([len(batch_used)] for empirical costs, 1 otherwise) and whether the
    underlying cost raises. Counters are naturals. *)
From Coq Require Import List Bool Arith ZArith.
From Verif.Model Require Import PyDict Messages.
Import ListNotations.
Open Scope nat_scope.

Inductive okind := KFunction | KGradient | KHessian | KProximal.
Definition okind_eqb (a b : okind) : bool :=
  match a, b with KFunction, KFunction | KGradient, KGradient | KHessian, KHessian | KProximal, KProximal => true | _, _ => false end.

(** [_no_count_depth] (an int, agents.py:75) and the four counters *)
Record cstate := mkC { c_depth : agent_id -> Z; c_count : agent_id -> okind -> nat }.
Definition c_init : cstate := mkC (fun _ => 0%Z) (fun _ _ => 0).

(** agents.py:206-244; the wrapped cost is called first, so a raising call is
    never counted *)
Definition do_call (a : agent_id) (k : okind) (n : nat) (ok : bool) (s : cstate) : cstate * bool :=
  if negb ok then (s, true)
  else if (0 <? c_depth s a)%Z then (s, false)
  else (mkC (c_depth s) (fun b j => if (Nat.eqb b a && okind_eqb j k)%bool then c_count s b j + n else c_count s b j), false).

Definition shift (d : Z) (s : cstate) (a : agent_id) : cstate :=
  mkC (fun b => if Nat.eqb b a then (c_depth s b + d)%Z else c_depth s b) (c_count s).

(** [for agent in agents: agent._no_count_depth += 1], agents.py:287-288, and
    the loop of the [finally] block, 292-293 *)
Definition enter (l : list agent_id) (s : cstate) : cstate := fold_left (shift 1) l s.
Definition leave (l : list agent_id) (s : cstate) : cstate := fold_left (shift (-1)) l s.

(** Programs: calls, sequencing, [with Agent.no_count(l): p], raise, and
    [try: p except: q]. Data-dependent control flow is covered by unrolling:
    a program is one arbitrary execution tree. *)
Inductive prog :=
| PSkip
| PCall (a : agent_id) (k : okind) (n : nat) (ok : bool)
| PSeq (p q : prog)
| PNoCount (l : list agent_id) (p : prog)
| PRaise
| PTry (p q : prog).

(** Result: state and whether an exception propagates. *)
Fixpoint exec (p : prog) (s : cstate) : cstate * bool :=
  match p with
  | PSkip => (s, false)
  | PCall a k n ok => do_call a k n ok s
  | PSeq p q => let '(s1, r) := exec p s in if r then (s1, true) else exec q s1
  | PNoCount l p => let '(s1, r) := exec p (enter l s) in (leave l s1, r)
  | PRaise => (s, true)
  | PTry p q => let '(s1, r) := exec p s in if r then exec q s1 else (s1, false)
  end.

(** Overlapping blocks: context managers entered and exited in any order
    (e.g. through ExitStack or generators). A context object [i] keeps its own
    agent list; exiting a context that is not open is not possible. *)
Inductive fop :=
| FEnter (i : nat) (l : list agent_id)
| FExit (i : nat)
| FCall (a : agent_id) (k : okind) (n : nat) (ok : bool).
Record fstate := mkF { f_c : cstate; f_open : list (nat * list agent_id) }.
Definition f_step (s : fstate) (o : fop) : fstate :=
  match o with
  | FEnter i l => if dmem Nat.eqb (f_open s) i then s else mkF (enter l (f_c s)) (dset Nat.eqb (f_open s) i l)
  | FExit i => match dget Nat.eqb (f_open s) i with
               | Some l => mkF (leave l (f_c s)) (dpop Nat.eqb (f_open s) i)
               | None => s end
  | FCall a k n ok => mkF (fst (do_call a k n ok (f_c s))) (f_open s)
  end.
Definition f_run (l : list fop) : fstate := fold_left f_step l (mkF c_init []).
