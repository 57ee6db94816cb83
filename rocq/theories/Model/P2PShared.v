(** Model of DLM and DiNNO, /repo/decent_bench/algorithms/p2p/_dlm.py and
    _dinno.py.  They write into received arrays with [+=] and [/=], and all
    receivers of one [send] without noise hold the same array
    (networks.py:320-328), so received arrays have an identity here.

    A message is what was delivered together with the name of the array holding
    it; a heap gives the present contents of the arrays written since.  The
    networks of Model/Network.v are used with such messages.  [iadd] and [idiv]
    write in place for NumPy and PyTorch and create a new array for TensorFlow
    and JAX (_operators.py:66-80): the flag [ip].  The agents' own variables are
    not shared ([i.x = ...] rebinds, auxiliary variables are copied when
    initialised, agents.py:177-185, and written only by their agent), so they are
    values.  Other simplifications are those of Model/P2P.v. *)
From Coq Require Import Reals String List Bool Arith.
From Verif.Model Require Import PyDict History Messages Network Runner Vec P2P.
Import ListNotations.
Open Scope R_scope.

(** the name of an array made by [send]: sender, draw at which it was made, and
    0 for the compressed copy (line 321) or [S i] for the noisy copy of receiver
    number [i] (line 326) *)
Record tag := mkTag { g_sender : agent_id; g_draw : nat; g_row : nat }.
Definition tag_eqb (a b : tag) : bool :=
  Nat.eqb (g_sender a) (g_sender b) && Nat.eqb (g_draw a) (g_draw b) && Nat.eqb (g_row a) (g_row b).
Definition buf : Type := vec * tag.
(** an own variable *)
Definition own (v : vec) : buf := (v, mkTag 0%nat 0%nat 0%nat).

(** the schemes of a network acting on named arrays: [compress(iop.copy(msg))]
    is one new array, [msg + noise[i]] a new array per receiver
    (networks.py:320-328) *)
Definition shared_env (e : env vec) : env buf :=
  mkEnv (e_act e) (e_dropd e)
        (fun d s m => (e_comp e d s (fst m), mkTag s d 0%nat))
        (fun s m => e_csize e s (fst m))
        (fun d s => option_map (fun (f : nat -> vec) i => (f i, mkTag s d (S i))) (e_noise e d s))
        (fun m n => (e_add e (fst m) (fst n), snd n)).

Definition heap : Type := tag -> option vec.
Definition no_writes : heap := fun _ => None.
Definition content (h : heap) (b : buf) : vec := match h (snd b) with Some v => v | None => fst b end.
Definition hwrite (h : heap) (b : buf) (v : vec) : heap := fun g => if tag_eqb g (snd b) then Some v else h g.

(** the own variables of an agent, and writing them back *)
Definition aux_out (v : auxv buf) : auxv vec :=
  match v with AArr b => AArr (fst b) | AMap m => AMap (map (fun jv => (fst jv, fst (snd jv))) m) end.
Definition aux_in (v : auxv vec) : auxv buf :=
  match v with AArr x => AArr (own x) | AMap m => AMap (map (fun jv => (fst jv, own (snd jv))) m) end.
Definition spriv_of (a : agent buf) : priv :=
  mkPriv (option_map fst (a_x a)) (map (fun kv => (fst kv, aux_out (snd kv))) (a_aux a)) (a_nx a).
Definition sput_priv (p : priv) (a : agent buf) : agent buf :=
  mkAgent (option_map own (v_x p)) (a_hist a) (map (fun kv => (fst kv, aux_in (snd kv))) (v_aux p)) (a_msgs a) (v_nx p)
          (a_sent a) (a_recv a) (a_drop a) (a_nsel a).

(** the loops [for i in network.active_agents(): body(i)] of the two classes: a
    broadcast on the default channel, or a computation with the messages of the
    agent on that channel, in order of arrival, which may write into them *)
Inductive sphase :=
| SSend (f : agent_id -> L vec)
| SUpd (f : agent_id -> list (agent_id * buf) -> heap -> L heap).

Section Exec.
  Variables (t : topo) (e : env vec).
  Definition sworld : Type := world buf (nat * heap).
  Definition sinbox (st : net buf) (i : agent_id) : list (agent_id * buf) := s_by_channel (a_msgs (n_agents st i)) dflt.
  Definition do_sbody (ph : sphase) (i : agent_id) (w : sworld) : sworld * bool :=
    let '((d, h), st) := w in
    match ph with
    | SUpd f => match f i (sinbox st i) h (spriv_of (n_agents st i), d) with
                | Some (h', (p, d')) => (((d', h'), upd_agent i (sput_priv p) st), false)
                | None => (w, true)
                end
    | SSend f => match f i (spriv_of (n_agents st i), d) with
                 | Some (v, (p, d')) =>
                     match send t (shared_env e) (upd_agent i (sput_priv p) st) i RNone (Some (own v)) dflt with
                     | SOk st' => (((d', h), st'), false)
                     | SErr st' => (((d', h), st'), true)
                     end
                 | None => (w, true)
                 end
    end.
  Fixpoint sfor_each (body : agent_id -> sworld -> sworld * bool) (l : list agent_id) (w : sworld) : sworld * bool :=
    match l with
    | [] => (w, false)
    | i :: l' => match body i w with (w', true) => (w', true) | (w', false) => sfor_each body l' w' end
    end.
  Definition do_sphase (ph : sphase) (w : sworld) : sworld * bool :=
    let '(act, st) := active_agents t (shared_env e) (snd w) in sfor_each (do_sbody ph) act (fst w, st).
  Fixpoint do_sphases (phs : list sphase) (w : sworld) : sworld * bool :=
    match phs with
    | [] => (w, false)
    | ph :: l => match do_sphase ph w with (w', true) => (w', true) | (w', false) => do_sphases l w' end
    end.
  (** [for i in network.agents(): i.initialize(x=.., aux_vars=..)], which also
      forgets all received arrays (agents.py:163) *)
  Definition do_sinit (init : agent_id -> vec * list (string * auxv vec)) (w : sworld) : sworld :=
    ((fst (fst w), no_writes),
     fold_left (fun st i => upd_agent i (initialize (Some (own (fst (init i)))) (map (fun kv => (fst kv, aux_in (snd kv))) (snd (init i)))) st)
               (agents t) (snd w)).
  Definition shared (iters : nat) (init : agent_id -> vec * list (string * auxv vec)) (phases : nat -> list sphase) : alg buf (nat * heap) :=
    mkAlg iters (do_sinit init) (fun k => do_sphases (phases k)).
End Exec.

Section Algorithms.
  Variable ip : bool.
  Variable grad : nat -> agent_id -> vec -> vec.

  (** [s = None; for val in messages.values(): s = val if s is None else s += val],
      _dlm.py:94-101, _dinno.py:91-96 and 105-110: [s] is the first message and
      the others are added to it; the result is [s], [None] without messages *)
  Definition sum_messages (msgs : list (agent_id * buf)) (h : heap) : option (vec * heap) :=
    match msgs with
    | [] => None
    | (_, b0) :: rest =>
        Some (fold_left (fun sh m => let s := vadd (fst sh) (content (snd sh) (snd m)) in
                                     (s, if ip then hwrite (snd sh) b0 s else snd sh))
                        rest (content h b0, h))
    end.
  (** [s /= 2.0] on the result, _dinno.py:111-112 *)
  Definition halve (msgs : list (agent_id * buf)) (sh : vec * heap) : vec * heap :=
    let s := vscal (/ 2) (fst sh) in
    (s, match msgs with (_, b0) :: _ => if ip then hwrite (snd sh) b0 s else snd sh | [] => snd sh end).
  Definition number (msgs : list (agent_id * buf)) : R := INR (length msgs).

  (** [DLM.initialize], _dlm.py:58-62, and [DLM.step], _dlm.py:64-92 *)
  Definition dlm_init (x0 : agent_id -> vec) (i : agent_id) : vec * list (string * auxv vec) :=
    (x0 i, [("y", AArr vzero); ("s", AArr vzero)]%string).
  Definition dlm_gather : sphase :=
    SUpd (fun i msgs h => match sum_messages msgs h with
      | None => lret h
      | Some (s, h') => x <- getx ;; put "s" (vsub (vscal (number msgs) x) s) ;;; lret h'
      end).
  Definition dlm_send : sphase := SSend (fun i => getx).
  Definition dlm (mu rho : R) (k : nat) : list sphase :=
    match k with
    | O => [dlm_send; dlm_gather]
    | S _ =>
      [ SUpd (fun i _ h => x <- getx ;; g <- gradient grad i x ;; s <- aux "s" ;; y <- aux "y" ;;
          setx (vsub x (vscal mu (vadd (vadd g (vscal rho s)) y))) ;;; lret h);
        dlm_send; dlm_gather;
        SUpd (fun i _ h => y <- aux "y" ;; s <- aux "s" ;; put "y" (vadd y (vscal rho s)) ;;; lret h) ]
    end.

  (** [DiNNO.initialize], _dinno.py:62-73, and [DiNNO.step] with
      [_auxiliary_update] and [_local_training], _dinno.py:75-136 *)
  Definition dinno_init (x0 : agent_id -> vec) (i : agent_id) : vec * list (string * auxv vec) :=
    (x0 i, [("p"%string, AArr vzero)]).
  (** the body of the loop of lines 115-133; [c] is [neighbor_thetas_sum] and the
      number of messages *)
  Definition dinno_local (a rho : R) (i : agent_id) (x p : vec) (c : option (vec * R)) (psi : vec) : L vec :=
    g <- gradient grad i psi ;;
    let cons := match c with
      | Some (m, n) => vscal (2 * rho) (vsub (vscal n (vsub psi (vscal (/ 2) x))) m)
      | None => vzero
      end in
    lret (vsub psi (vscal a (vadd (vadd g p) cons))).
  Definition dinno (a rho : R) (B : nat) (_ : nat) : list sphase :=
    [ SSend (fun i => getx);
      SUpd (fun i msgs h => match sum_messages msgs h with
        | None => lret h
        | Some (s, h') => x <- getx ;; p <- aux "p" ;;
            put "p" (vadd p (vscal rho (vsub (vscal (number msgs) x) s))) ;;; lret h'
        end);
      SUpd (fun i msgs h => x <- getx ;;
        let sh := option_map (halve msgs) (sum_messages msgs h) in
        p <- aux "p" ;;
        psi <- ltimes B (dinno_local a rho i x p (option_map (fun sh => (fst sh, number msgs)) sh)) x ;;
        setx psi ;;; lret (match sh with Some (_, h') => h' | None => h end)) ].

  (** ** The same programs without shared arrays *)
  (** what they are when [+=] and [/=] create new arrays, on the networks of
      Model/P2P.v *)
  Definition msg_sum (l : list (agent_id * vec)) : vec :=
    match l with [] => vzero | m :: r => fold_left (fun s v => vadd s (snd v)) r (snd m) end.
  Definition plain_init (f : agent_id -> vec * list (string * auxv vec)) : agent_id -> nat -> (vec * list (string * auxv vec)) * nat :=
    fun i d => (f i, d).
  Definition dlm_plain_gather : phase :=
    PUpd (fun i inb => match inb dflt with
      | [] => lret tt
      | _ :: _ => x <- getx ;; put "s" (vsub (vscal (INR (length (inb dflt))) x) (msg_sum (inb dflt)))
      end).
  Definition bcast_x : phase := PSend (fun i => x <- getx ;; lret [OBcast dflt x]).
  Definition dlm_plain (mu rho : R) (k : nat) : list phase :=
    match k with
    | O => [bcast_x; dlm_plain_gather]
    | S _ =>
      [ PUpd (fun i _ => x <- getx ;; g <- gradient grad i x ;; s <- aux "s" ;; y <- aux "y" ;;
          setx (vsub x (vscal mu (vadd (vadd g (vscal rho s)) y))));
        bcast_x; dlm_plain_gather;
        PUpd (fun i _ => y <- aux "y" ;; s <- aux "s" ;; put "y" (vadd y (vscal rho s))) ]
    end.
  Definition dinno_plain (a rho : R) (B : nat) (_ : nat) : list phase :=
    [ bcast_x;
      PUpd (fun i inb => match inb dflt with
        | [] => lret tt
        | _ :: _ => x <- getx ;; p <- aux "p" ;;
            put "p" (vadd p (vscal rho (vsub (vscal (INR (length (inb dflt))) x) (msg_sum (inb dflt)))))
        end);
      PUpd (fun i inb => x <- getx ;; p <- aux "p" ;;
        psi <- ltimes B (dinno_local a rho i x p
                 (match inb dflt with [] => None | _ :: _ => Some (vscal (/ 2) (msg_sum (inb dflt)), INR (length (inb dflt))) end)) x ;;
        setx psi) ].
End Algorithms.
