(** Array objects: which operations copy an array and which keep a reference.
    /repo/decent_bench/agents.py:108-129 (the [x] property), 131-142
    ([messages], [message], [aux_vars]), 144-204 ([initialize],
    [_copy_aux_var], [_snapshot]) and networks.py:266-353 ([Network.send],
    [_step]).

    The other modules use value semantics for arrays.  Here an array is an
    object with an identity: a location of a heap, whose content can be changed
    in place by whoever holds a reference ([x += y], [iop.set_item]).  A client
    program (an algorithm, a cost or the user's own code) is a sequence of the
    operations below; it can use a reference only if it created the array or
    obtained it from [x], [aux_vars] or a received message.

    Simplifications: agents are numbers; the checks of [send] are in
    Model/Network.v, so [rs] are the receivers left after validation and
    dropping; the counters are in Model/Counting.v and Model/Network.v; what the
    dictionary [aux_vars] holds is read and replaced as a whole (any sequence of
    item assignments amounts to that); references to history entries are not
    among those a client gets ([_x_history] is private and is read by the
    metrics after the run). *)
From Coq Require Import List ZArith Bool.
From Verif.Model Require Import PyDict History.
Import ListNotations.

Definition loc := nat.
(** keys of the inbox: (channel, sender) *)
Definition key_eqb (p q : nat * nat) : bool := Nat.eqb (fst p) (fst q) && Nat.eqb (snd p) (snd q).

(** the values of [aux_vars]: arrays, or dictionaries of such values *)
Inductive auxv := ALeaf (l : loc) | AMap (kvs : list (nat * auxv)).

Section Heap.
  Context {V : Type}.
  (** [cost.shape] agrees with the shape of x, agents.py:175-176 *)
  Variable shape_ok : nat -> V -> bool.
  (** [state_snapshot_period], agents.py:126-129 *)
  Variable period : nat -> Z.
  (** the sum of two arrays, networks.py:327 *)
  Variable vadd : V -> V -> V.

  Definition heap := list V.
  (** a new array object with content [v] *)
  Definition new (h : heap) (v : V) : heap * loc := (h ++ [v], length h).
  (** the content of an array is overwritten in place *)
  Fixpoint write (h : heap) (l : loc) (v : V) : heap :=
    match h, l with
    | [], _ => []
    | _ :: h, O => v :: h
    | w :: h, S l => w :: write h l v
    end.

  (** the attributes of [Agent] that hold arrays, agents.py:61-64 *)
  Record agent := mkAgent {
    a_x : option loc;
    a_hist : history loc;
    a_aux : list (nat * auxv);
    a_inbox : list ((nat * nat) * loc)      (* (channel, sender) to message *)
  }.
  Definition agent0 : agent := mkAgent None h_empty [] [].

  (** heap, agents, and the references the client holds *)
  Record state := mkState { s_heap : heap; s_agent : nat -> agent; s_refs : list loc }.
  Definition state0 : state := mkState [] (fun _ => agent0) [].
  Definition put (st : state) (a : nat) (g : agent) : state :=
    mkState (s_heap st) (fun b => if Nat.eqb b a then g else s_agent st b) (s_refs st).

  (** all arrays in a value of [aux_vars] *)
  Fixpoint leaves (v : auxv) : list loc :=
    match v with
    | ALeaf l => [l]
    | AMap kvs => (fix go (kvs : list (nat * auxv)) : list loc :=
                     match kvs with [] => [] | (_, v) :: kvs => leaves v ++ go kvs end) kvs
    end.
  Definition aux_leaves (d : list (nat * auxv)) : list loc := leaves (AMap d).

  (** [iop.copy], utils/interoperability/_functions.py:491-512: a new array with
      the same content *)
  Definition copy (h : heap) (l : loc) : option (heap * loc) :=
    option_map (new h) (nth_error h l).

  (** [_copy_aux_var], agents.py:182-185 *)
  Fixpoint copy_aux (h : heap) (v : auxv) : option (heap * auxv) :=
    match v with
    | ALeaf l => option_map (fun hl => (fst hl, ALeaf (snd hl))) (copy h l)
    | AMap kvs =>
      option_map (fun hk => (fst hk, AMap (snd hk)))
        ((fix go (h : heap) (kvs : list (nat * auxv)) : option (heap * list (nat * auxv)) :=
            match kvs with
            | [] => Some (h, [])
            | (k, v) :: kvs =>
              match copy_aux h v with
              | None => None
              | Some (h, v) => option_map (fun hk => (fst hk, (k, v) :: snd hk)) (go h kvs)
              end
            end) h kvs)
    end.
  Definition copy_dict (h : heap) (d : list (nat * auxv)) : option (heap * list (nat * auxv)) :=
    match copy_aux h (AMap d) with Some (h, AMap d) => Some (h, d) | _ => None end.

  (** [Agent.initialize], agents.py:144-180.  On a wrong shape it raises after
      the reset (lines 160-171) and leaves the old [_current_x] in place. *)
  Definition initialize (st : state) (a : nat) (x : option loc) (aux : option (list (nat * auxv)))
    : option state :=
    let g := s_agent st a in
    let reset := mkAgent (a_x g) h_empty [] [] in
    let with_aux st g :=
      match aux with
      | None => Some (put st a g)
      | Some d =>
        option_map (fun hd => put (mkState (fst hd) (s_agent st) (s_refs st)) a
                                  (mkAgent (a_x g) (a_hist g) (snd hd) (a_inbox g)))
                   (copy_dict (s_heap st) d)
      end in
    match x with
    | None => with_aux st reset
    | Some l =>
      match nth_error (s_heap st) l with
      | None => None
      | Some v =>
        if shape_ok a v then
          let (h1, lh) := new (s_heap st) v in
          let (h2, lx) := new h1 v in
          match h_set (h_empty (V := loc)) 0 lh with
          | Ok hist => with_aux (mkState h2 (s_agent st) (s_refs st)) (mkAgent (Some lx) hist [] [])
          | _ => None
          end
        else Some (put st a reset)
      end
    end.

  (** [Agent._snapshot], agents.py:187-204; a negative iteration raises in
      [AgentHistory.set_x] and changes nothing *)
  Definition snapshot (st : state) (a : nat) (it : Z) (force : bool) : option state :=
    let g := s_agent st a in
    match a_x g with
    | None => Some st
    | Some l =>
      if force || (it mod period a =? 0)%Z then
        match copy (s_heap st) l with
        | None => None
        | Some (h, lh) =>
          match h_set (a_hist g) it lh with
          | Ok hist => Some (put (mkState h (s_agent st) (s_refs st)) a
                                 (mkAgent (a_x g) hist (a_aux g) (a_inbox g)))
          | _ => Some (mkState h (s_agent st) (s_refs st))
          end
        end
      else Some st
    end.

  (** delivery to the confirmed receivers, networks.py:325-329 and
      agents.py:302-306 ([ReceivedMessages.put]: the entry of the same sender and
      channel is replaced).  [noise] is [None] or one array per receiver. *)
  Definition deliver1 (st : state) (s ch : nat) (r : nat) (l : loc) : state :=
    let g := s_agent st r in
    put st r (mkAgent (a_x g) (a_hist g) (a_aux g)
                      (dset key_eqb
                            (a_inbox g) (ch, s) l)).
  Fixpoint deliver (st : state) (s ch : nat) (l : loc) (v : V) (rs : list nat) (noise : option (list V))
    : option state :=
    match rs with
    | [] => Some st
    | r :: rs =>
      match noise with
      | None => deliver (deliver1 st s ch r l) s ch l v rs None
      | Some [] => None
      | Some (n :: ns) =>
        let (h, l') := new (s_heap st) (vadd v n) in
        deliver (deliver1 (mkState h (s_agent st) (s_refs st)) s ch r l') s ch l v rs (Some ns)
      end
    end.

  (** what [CompressionScheme.compress] does with the array it is given:
      [NoCompression] returns the same array (schemes.py:486-487), the others
      return a new one (schemes.py:510-512, 565-578, 610-620, 656-666) *)
  Inductive compression := Same | Fresh (f : V -> V).

  (** [Network.send], networks.py:321-329 *)
  Definition send (st : state) (s ch : nat) (l : loc) (c : compression) (rs : list nat)
      (noise : option (list V)) : option state :=
    match nth_error (s_heap st) l with
    | None => None
    | Some v =>
      let (h1, l1) := new (s_heap st) v in
      match c with
      | Same => deliver (mkState h1 (s_agent st) (s_refs st)) s ch l1 v rs noise
      | Fresh f =>
        let (h2, l2) := new h1 (f v) in
        deliver (mkState h2 (s_agent st) (s_refs st)) s ch l2 (f v) rs noise
      end
    end.

  (** [Network._step], networks.py:331-353: all inboxes are cleared *)
  Definition step (st : state) : state :=
    mkState (s_heap st)
            (fun a => let g := s_agent st a in mkAgent (a_x g) (a_hist g) (a_aux g) []) (s_refs st).

  Inductive op :=
  | ONew (v : V)                      (* the client creates an array *)
  | OWrite (l : loc) (v : V)          (* the client changes an array in place *)
  | OInit (a : nat) (x : option loc) (aux : option (list (nat * auxv)))
  | OGetX (a : nat)                   (* y = agent.x, agents.py:117-119 *)
  | OSetX (a : nat) (l : loc)         (* agent.x = y, agents.py:121-124 *)
  | OGetAux (a : nat)
  | OSetAux (a : nat) (d : list (nat * auxv))
  | OGetMsg (r ch s : nat)            (* agents.py:131-137 *)
  | OSnapshot (a : nat) (it : Z) (force : bool)
  | OSend (s ch : nat) (l : loc) (c : compression) (rs : list nat) (noise : option (list V))
  | OStep.

  Definition holds (st : state) (l : loc) : bool := existsb (Nat.eqb l) (s_refs st).
  Definition holds_all (st : state) (ls : list loc) : bool := forallb (holds st) ls.
  Definition learn (st : state) (ls : list loc) : state :=
    mkState (s_heap st) (s_agent st) (ls ++ s_refs st).
  (** the operations that use references are possible only with references the
      client holds *)
  Definition guard (b : bool) (r : option state) : option state := if b then r else None.

  Definition exec (st : state) (o : op) : option state :=
    match o with
    | ONew v => let (h, l) := new (s_heap st) v in Some (mkState h (s_agent st) (l :: s_refs st))
    | OWrite l v => guard (holds st l) (Some (mkState (write (s_heap st) l v) (s_agent st) (s_refs st)))
    | OInit a x aux =>
      guard (holds_all st (match x with Some l => [l] | None => [] end)
             && holds_all st (match aux with Some d => aux_leaves d | None => [] end))
            (initialize st a x aux)
    | OGetX a => match a_x (s_agent st a) with Some l => Some (learn st [l]) | None => None end
    | OSetX a l =>
      guard (holds st l)
            (Some (let g := s_agent st a in
                   put st a (mkAgent (Some l) (a_hist g) (a_aux g) (a_inbox g))))
    | OGetAux a => Some (learn st (aux_leaves (a_aux (s_agent st a))))
    | OSetAux a d =>
      guard (holds_all st (aux_leaves d))
            (Some (let g := s_agent st a in put st a (mkAgent (a_x g) (a_hist g) d (a_inbox g))))
    | OGetMsg r ch s =>
      match dget key_eqb
                 (a_inbox (s_agent st r)) (ch, s) with
      | Some l => Some (learn st [l])
      | None => None
      end
    | OSnapshot a it force => snapshot st a it force
    | OSend s ch l c rs noise => guard (holds st l) (send st s ch l c rs noise)
    | OStep => Some (step st)
    end.
  Fixpoint execs (st : state) (os : list op) : option state :=
    match os with
    | [] => Some st
    | o :: os => match exec st o with Some st => execs st os | None => None end
    end.

  (** What can be observed: the current x, the recorded history and a received
      message, as values. *)
  Definition content (st : state) (l : loc) : option V := nth_error (s_heap st) l.
  Definition x_value (st : state) (a : nat) : option V :=
    match a_x (s_agent st a) with Some l => content st l | None => None end.
  Definition history_value (st : state) (a : nat) (k : Z) : option V :=
    match dget Z.eqb (h_dict (a_hist (s_agent st a))) k with Some l => content st l | None => None end.
  Definition message_value (st : state) (r ch s : nat) : option V :=
    match dget key_eqb
               (a_inbox (s_agent st r)) (ch, s) with
    | Some l => content st l
    | None => None
    end.
End Heap.

Arguments op : clear implicits. Arguments state : clear implicits. Arguments heap : clear implicits.
Arguments compression : clear implicits.
