(** Model of the peer-to-peer algorithms, /repo/decent_bench/algorithms/p2p/,
    running on the network model (Model/Network.v) under [Algorithm.run]
    (Model/Runner.v), with real vectors as arrays.

    Every [step] of these classes is a sequence of loops
    [for i in network.active_agents(): body(i)].  A body either computes
    something from agent [i]'s own variables and then sends ([PSend]), or reads
    the messages [i] has received and updates [i]'s own variables ([PUpd]).
    No algorithm in this file modifies a received array in place, so messages
    may be values (DLM and DiNNO do; see Model/P2PShared.v).

    Simplifications: costs are oracles (any deterministic or stochastic
    gradient is an instance, draws being numbered); parameters are reals; a body
    that raises leaves its agent as it was. *)
From Coq Require Import Reals String List Bool Arith.
From Verif.Model Require Import PyDict History Messages Network Runner Vec.
Import ListNotations.
Open Scope R_scope.

(** ** Local computations *)
(** agent variables an algorithm can read and write: [agent.x], [agent.aux_vars]
    (agents.py:110-142); writing [x] counts (agents.py:121-124) *)
Record priv := mkPriv { v_x : option vec; v_aux : list (string * auxv vec); v_nx : nat }.
Definition priv_of (a : agent vec) : priv := mkPriv (a_x a) (a_aux a) (a_nx a).
Definition put_priv (p : priv) (a : agent vec) : agent vec :=
  mkAgent (v_x p) (a_hist a) (v_aux p) (a_msgs a) (v_nx p) (a_sent a) (a_recv a) (a_drop a) (a_nsel a).

(** a computation on these and on the number of oracle draws so far; [None] if
    it raises *)
Definition L (A : Type) : Type := priv * nat -> option (A * (priv * nat)).
Definition lret {A} (a : A) : L A := fun s => Some (a, s).
Definition lbind {A B} (m : L A) (f : A -> L B) : L B :=
  fun s => match m s with Some (a, s') => f a s' | None => None end.
Declare Scope l_scope.
Delimit Scope l_scope with L.
Notation "x <- m ;; k" := (lbind m (fun x => k)) (at level 61, m at next level, right associativity) : l_scope.
Notation "m ;;; k" := (lbind m (fun _ => k)) (at level 61, right associativity) : l_scope.
Open Scope l_scope.

(** [agent.x], agents.py:110-119: raises if not initialised *)
Definition getx : L vec := fun s => match v_x (fst s) with Some v => Some (v, s) | None => None end.
(** [agent.x = v], agents.py:121-124 *)
Definition setx (v : vec) : L unit := fun s => Some (tt, (mkPriv (Some v) (v_aux (fst s)) (S (v_nx (fst s))), snd s)).
(** [agent.aux_vars[k]] *)
Definition aux (k : string) : L vec :=
  fun s => match dget String.eqb (v_aux (fst s)) k with Some (AArr v) => Some (v, s) | _ => None end.
(** [agent.aux_vars[k] = v] *)
Definition put (k : string) (v : vec) : L unit :=
  fun s => Some (tt, (mkPriv (v_x (fst s)) (dset String.eqb (v_aux (fst s)) k (AArr v)) (v_nx (fst s)), snd s)).
(** the same for a stack of arrays with one row per neighbour, e.g. [z] with
    [neighbor_to_idx] (_admm.py:77-79): a mapping from neighbours to rows *)
Definition auxm (k : string) : L (list (agent_id * vec)) :=
  fun s => match dget String.eqb (v_aux (fst s)) k with Some (AMap m) => Some (m, s) | _ => None end.
Definition putm (k : string) (m : list (agent_id * vec)) : L unit :=
  fun s => Some (tt, (mkPriv (v_x (fst s)) (dset String.eqb (v_aux (fst s)) k (AMap m)) (v_nx (fst s)), snd s)).
(** [v = op(v)], [n] times *)
Fixpoint ltimes (n : nat) (op : vec -> L vec) (v : vec) : L vec :=
  match n with O => lret v | S m => w <- op v ;; ltimes m op w end.
(** [for j, msg in messages: body] *)
Fixpoint lfor {A} (l : list A) (body : A -> L unit) : L unit :=
  match l with [] => lret tt | a :: l' => body a ;;; lfor l' body end.

(** ** Phases *)
(** a send at the end of a body: [network.broadcast(i, v, channel=c)], or
    [for j in network.active_neighbors(i): network.send(i, j, ..., channel=..)]
    for one or more channels *)
Inductive out := OBcast (c : channel) (v : vec) | OEach (l : list (channel * (agent_id -> option vec))).
Arguments OBcast _%string _.
(** [i.messages(c)] as (sender, message) pairs in order of arrival *)
Definition inbox := channel -> list (agent_id * vec).
Inductive phase :=
| PSend (f : agent_id -> L (list out))
| PUpd (f : agent_id -> inbox -> L unit).

Section Exec.
  Variables (t : topo) (e : env vec).
  Definition pworld : Type := world vec nat.
  Definition inbox_of (st : net vec) (i : agent_id) : inbox := s_by_channel (a_msgs (n_agents st i)).

  (** sends; a message that cannot be computed (KeyError) or a refused send
      raises *)
  Fixpoint send_all (i : agent_id) (l : list (receiver * channel * option vec)) (st : net vec) : net vec * bool :=
    match l with
    | [] => (st, false)
    | (r, c, v) :: l' =>
        match send t e st i r v c with SOk st' => send_all i l' st' | SErr st' => (st', true) end
    end.
  Definition do_out (i : agent_id) (o : out) (st : net vec) : net vec * bool :=
    match o with
    | OBcast c v => send_all i [(RNone, c, Some v)] st
    | OEach l =>
        let '(js, st) := active_connected t e st i in
        send_all i (flat_map (fun j => map (fun cf => (ROne j, fst cf, snd cf j)) l) js) st
    end.
  Fixpoint do_outs (i : agent_id) (os : list out) (st : net vec) : net vec * bool :=
    match os with
    | [] => (st, false)
    | o :: os' => match do_out i o st with (st', true) => (st', true) | (st', false) => do_outs i os' st' end
    end.
  (** one execution of a body *)
  Definition do_body (ph : phase) (i : agent_id) (w : pworld) : pworld * bool :=
    let '(d, st) := w in
    match ph with
    | PUpd f => match f i (inbox_of st i) (priv_of (n_agents st i), d) with
                | Some (_, (p, d')) => ((d', upd_agent i (put_priv p) st), false)
                | None => (w, true)
                end
    | PSend f => match f i (priv_of (n_agents st i), d) with
                 | Some (os, (p, d')) => let '(st', b) := do_outs i os (upd_agent i (put_priv p) st) in ((d', st'), b)
                 | None => (w, true)
                 end
    end.
  Fixpoint for_each (body : agent_id -> pworld -> pworld * bool) (l : list agent_id) (w : pworld) : pworld * bool :=
    match l with
    | [] => (w, false)
    | i :: l' => match body i w with (w', true) => (w', true) | (w', false) => for_each body l' w' end
    end.
  (** [for i in network.active_agents(): body(i)] *)
  Definition do_phase (ph : phase) (w : pworld) : pworld * bool :=
    let '(act, st) := active_agents t e (snd w) in for_each (do_body ph) act (fst w, st).
  Fixpoint do_phases (phs : list phase) (w : pworld) : pworld * bool :=
    match phs with
    | [] => (w, false)
    | ph :: l => match do_phase ph w with (w', true) => (w', true) | (w', false) => do_phases l w' end
    end.

  (** [for i in network.agents(): i.initialize(x=.., aux_vars=..)]; [init]
      computes the two from the agent and the number of draws *)
  Definition do_init (init : agent_id -> nat -> (vec * list (string * auxv vec)) * nat) (w : pworld) : pworld :=
    fold_left (fun w i => let '((x, aux), d) := init i (fst w) in (d, upd_agent i (initialize (Some x) aux) (snd w)))
              (agents t) w.
  (** an algorithm for [Algorithm.run] *)
  Definition p2p (iters : nat) (init : agent_id -> nat -> (vec * list (string * auxv vec)) * nat)
             (phases : nat -> list phase) : alg vec nat :=
    mkAlg iters (do_init init) (fun k => do_phases (phases k)).
End Exec.

(** ** Default weights *)
(** [W[i, j] = v] *)
Definition mset (W : agent_id -> agent_id -> R) (i j : agent_id) (v : R) : agent_id -> agent_id -> R :=
  fun a b => if Nat.eqb a i && Nat.eqb b j then v else W a b.
(** [P2PNetwork.weights] as initialised, networks.py:403-428, with exact
    arithmetic and [W] indexed by agents (see Model/Weights.v for the same over
    an arbitrary ordered field with self-loops) *)
Definition metropolis (t : topo) : agent_id -> agent_id -> R :=
  let degree i := length (t_adj t i) in
  let off := fold_left (fun W i => fold_left (fun W j => mset W i j (1 / (1 + INR (Nat.max (degree i) (degree j))))) (t_adj t i) W)
                       (t_nodes t) (fun _ _ => 0) in
  fold_left (fun W i => mset W i i (1 - rsum (map (W i) (t_nodes t)))) (t_nodes t) off.

(** ** The algorithms *)
Definition dflt : channel := "default"%string.
Section Algorithms.
  Variables (W : agent_id -> agent_id -> R) (t : topo).
  (** [i.cost.gradient(x)] at a given draw, and [i.cost.proximal(x, penalty)] *)
  Variables (grad : nat -> agent_id -> vec -> vec) (prox : nat -> agent_id -> vec -> R -> vec).
  Definition gradient (i : agent_id) (x : vec) : L vec := fun s => Some (grad (snd s) i x, (fst s, S (snd s))).
  Definition proximal (i : agent_id) (x : vec) (rho : R) : L vec := fun s => Some (prox (snd s) i x rho, (fst s, S (snd s))).
  (** [avg = M[i, i] * own; for j, v in messages: avg += M[i, j] * v] *)
  Definition wavg (M : agent_id -> agent_id -> R) (i : agent_id) (own : vec) (msgs : list (agent_id * vec)) : vec :=
    fold_left (fun a m => vadd a (vscal (M i (fst m)) (snd m))) msgs (vscal (M i i) own).
  (** [iop.eye_like(W)] indexed by agents *)
  Definition eye (i j : agent_id) : R := if Nat.eqb i j then 1 else 0.

  (** [DGD], _dgd.py:45-60 *)
  Definition dgd_init (x0 : agent_id -> vec) : agent_id -> nat -> (vec * list (string * auxv vec)) * nat :=
    fun i d => ((x0 i, []), d).
  Definition dgd (a : R) (_ : nat) : list phase :=
    [ PSend (fun i => x <- getx ;; lret [OBcast dflt x]);
      PUpd (fun i inb => x <- getx ;; g <- gradient i x ;; setx (vsub (wavg W i x (inb dflt)) (vscal a g))) ].

  (** [ATC], _atc.py:49-70 *)
  Definition atc_init (x0 : agent_id -> vec) : agent_id -> nat -> (vec * list (string * auxv vec)) * nat :=
    fun i d => ((x0 i, [("y"%string, AArr (x0 i))]), d).
  Definition atc (a : R) (_ : nat) : list phase :=
    [ PUpd (fun i _ => x <- getx ;; g <- gradient i x ;; put "y" (vsub x (vscal a g)));
      PSend (fun i => y <- aux "y" ;; lret [OBcast dflt y]);
      PUpd (fun i inb => x <- getx ;; setx (wavg W i x (inb dflt))) ].

  (** [SimpleGT], _simple_gt.py:49-68 *)
  Definition simple_gt_init := atc_init.
  Definition simple_gt (a : R) (_ : nat) : list phase :=
    [ PSend (fun i => x <- getx ;; lret [OBcast dflt x]);
      PUpd (fun i inb => x <- getx ;; g <- gradient i x ;; put "y_new" (vsub x (vscal a g)) ;;;
        yn <- aux "y_new" ;; y <- aux "y" ;;
        setx (vadd (vsub yn y) (wavg W i x (inb dflt))) ;;; put "y" yn) ].

  (** [ATC_Tracking], _atc_tracking.py:58-98, and [AugDGM], _aug_dgm.py:58-97 *)
  Definition track_init (x0 : agent_id -> vec) : agent_id -> nat -> (vec * list (string * auxv vec)) * nat :=
    fun i d => let y0 := grad d i (x0 i) in
      ((x0 i, [("y", AArr y0); ("g", AArr y0); ("g_new", AArr vzero); ("s", AArr vzero)]%string), S d).
  Definition track_round1 (a : R) : list phase :=
    [ PUpd (fun i _ => x <- getx ;; y <- aux "y" ;; put "s" (vsub x (vscal a y)));
      PSend (fun i => s <- aux "s" ;; lret [OBcast "state" s]);
      PUpd (fun i inb => s <- aux "s" ;; setx (wavg W i s (inb "state"%string)) ;;;
        x <- getx ;; g <- gradient i x ;; put "g_new" g) ].
  Definition atct (a : R) (_ : nat) : list phase :=
    track_round1 a ++
    [ PSend (fun i => y <- aux "y" ;; lret [OBcast "gradient_tracker" y]);
      PUpd (fun i inb => y <- aux "y" ;; gn <- aux "g_new" ;; g <- aux "g" ;;
        put "y" (vsub (vadd (wavg W i y (inb "gradient_tracker"%string)) gn) g) ;;; put "g" gn) ].
  Definition aug_dgm (a : R) (_ : nat) : list phase :=
    track_round1 a ++
    [ PSend (fun i => y <- aux "y" ;; gn <- aux "g_new" ;; g <- aux "g" ;;
        put "msg" (vsub (vadd y gn) g) ;;; lret [OBcast "gradient_tracker" (vsub (vadd y gn) g)]);
      PUpd (fun i inb => m <- aux "msg" ;; put "y" (wavg W i m (inb "gradient_tracker"%string)) ;;;
        gn <- aux "g_new" ;; put "g" gn) ].

  (** [EXTRA], _extra.py:52-95 *)
  Definition extra_init (x0 : agent_id -> vec) : agent_id -> nat -> (vec * list (string * auxv vec)) * nat :=
    fun i d => ((x0 i, [("x_old", AArr (x0 i)); ("x_old_old", AArr vzero); ("x_cons", AArr vzero)]%string), d).
  Definition extra (a : R) (k : nat) : list phase :=
    [ PSend (fun i => x <- getx ;; lret [OBcast dflt x]);
      PUpd (fun i inb => x <- getx ;; let avg := wavg W i x (inb dflt) in
        match k with
        | O => put "x_cons" avg ;;; put "x_old" x ;;; g <- gradient i x ;; setx (vsub avg (vscal a g))
        | S _ => xo <- aux "x_old" ;; put "x_old_old" xo ;;; put "x_old" x ;;;
            xc <- aux "x_cons" ;; xoo <- aux "x_old_old" ;; g <- gradient i x ;; go <- gradient i xoo ;;
            setx (vsub (vsub (vsub (vadd x avg) (vscal (1/2) xoo)) (vscal (1/2) xc)) (vscal a (vsub g go))) ;;;
            put "x_cons" avg
        end) ].

  (** [NIDS], _nids.py:53-87 *)
  Definition nids_init (x0 : agent_id -> vec) : agent_id -> nat -> (vec * list (string * auxv vec)) * nat :=
    fun i d => ((x0 i, [("x_old", AArr (x0 i)); ("g", AArr vzero); ("g_old", AArr vzero); ("y", AArr vzero)]%string), d).
  (** [0.5 * (iop.eye_like(W) + W)], _nids.py:60, _ed.py:59 *)
  Definition halfW (i j : agent_id) : R := 1/2 * (eye i j + W i j).
  Definition nids (a : R) (k : nat) : list phase :=
    match k with
    | O => [ PUpd (fun i _ => x <- getx ;; g <- gradient i x ;; put "g" g ;;; xo <- aux "x_old" ;; setx (vsub xo (vscal a g))) ]
    | S _ =>
      [ PUpd (fun i _ => g0 <- aux "g" ;; put "g_old" g0 ;;; x <- getx ;; g <- gradient i x ;; put "g" g ;;;
          xo <- aux "x_old" ;; go <- aux "g_old" ;;
          put "y" (vadd (vsub (vsub (vscal 2 x) xo) (vscal a g)) (vscal a go)));
        PSend (fun i => y <- aux "y" ;; lret [OBcast dflt y]);
        PUpd (fun i inb => y <- aux "y" ;; x <- getx ;; put "x_old" x ;;; setx (wavg halfW i y (inb dflt))) ]
    end.

  (** [ED], _ed.py:51-73 *)
  Definition ed_init (a : R) (x0 : agent_id -> vec) : agent_id -> nat -> (vec * list (string * auxv vec)) * nat :=
    fun i d => ((x0 i, [("y", AArr (x0 i)); ("y_new", AArr (vsub (x0 i) (vscal a (grad d i (x0 i)))))]%string), S d).
  Definition ed (a : R) (_ : nat) : list phase :=
    [ PSend (fun i => x <- getx ;; yn <- aux "y_new" ;; y <- aux "y" ;;
        put "msg" (vsub (vadd x yn) y) ;;; lret [OBcast dflt (vsub (vadd x yn) y)]);
      PUpd (fun i inb => m <- aux "msg" ;; setx (wavg halfW i m (inb dflt)) ;;;
        yn <- aux "y_new" ;; put "y" yn ;;; x <- getx ;; g <- gradient i x ;; put "y_new" (vsub x (vscal a g))) ].

  (** [WangElia], _wang_elia.py:56-91 *)
  Definition we_init (x0 : agent_id -> vec) : agent_id -> nat -> (vec * list (string * auxv vec)) * nat :=
    fun i d => ((x0 i, [("z", AArr vzero); ("x_old", AArr (x0 i))]%string), d).
  Definition weK (i j : agent_id) : R := 1/2 * (eye i j - W i j).
  Definition wang_elia (a : R) (_ : nat) : list phase :=
    [ PSend (fun i => x <- getx ;; z <- aux "z" ;; put "msg" (vadd x z) ;;; lret [OBcast "state" (vadd x z)]);
      PUpd (fun i inb => m <- aux "msg" ;; x <- getx ;; put "x_old" x ;;; g <- gradient i x ;;
        setx (vsub (vsub x (wavg weK i m (inb "state"%string))) (vscal a g)));
      PSend (fun i => xo <- aux "x_old" ;; lret [OBcast "previous_state" xo]);
      PUpd (fun i inb => xo <- aux "x_old" ;; z <- aux "z" ;; put "z" (vadd z (wavg weK i xo (inb "previous_state"%string)))) ].

  (** [LED], _led.py:54-123 *)
  Definition led_init (x0 : agent_id -> vec) : agent_id -> nat -> (vec * list (string * auxv vec)) * nat :=
    fun i d => ((x0 i, [("y", AArr vzero); ("phi", AArr (x0 i))]%string), d).
  Definition led (tau : nat) (a b : R) (_ : nat) : list phase :=
    [ PUpd (fun i _ => x <- getx ;; y <- aux "y" ;;
        phi <- ltimes tau (fun phi => g <- gradient i phi ;; lret (vsub phi (vadd (vscal a g) (vscal b y)))) x ;; put "phi" phi);
      PSend (fun i => phi <- aux "phi" ;; lret [OBcast dflt phi]);
      PUpd (fun i inb => phi <- aux "phi" ;; setx (wavg W i phi (inb dflt)));
      PUpd (fun i _ => y <- aux "y" ;; phi <- aux "phi" ;; x <- getx ;; put "y" (vadd y (vsub phi x))) ].

  (** [KGT], _kgt.py:57-143; [set(..).intersection(..)]: the senders heard on
      both channels, whose order does not matter to the sums *)
  Definition kgt_init (x0 : agent_id -> vec) : agent_id -> nat -> (vec * list (string * auxv vec)) * nat :=
    fun i d => ((x0 i, [("c", AArr vzero); ("x_before_local", AArr (x0 i)); ("z_i", AArr (x0 i))]%string), d).
  Definition both (p q : list (agent_id * vec)) : list (agent_id * vec) := filter (fun m => dmem Nat.eqb q (fst m)) p.
  Definition kgt (kk : nat) (a b : R) (_ : nat) : list phase :=
    [ PUpd (fun i _ => x <- getx ;; put "x_before_local" x ;;; c <- aux "c" ;;
        xk <- ltimes kk (fun xk => g <- gradient i xk ;; lret (vsub xk (vscal a (vadd g c)))) x ;; setx xk);
      PSend (fun i => xb <- aux "x_before_local" ;; x <- getx ;;
        put "z_i" (vscal (/ (INR kk * a)) (vsub xb x)) ;;; z <- aux "z_i" ;;
        put "msg" (vsub xb (vscal (INR kk * b * a) z)) ;;; m <- aux "msg" ;;
        lret [OBcast "state" m; OBcast "gradient_tracker" z]);
      PUpd (fun i inb => z <- aux "z_i" ;; m <- aux "msg" ;;
        let ms := inb "state"%string in let zs := inb "gradient_tracker"%string in
        c <- aux "c" ;; put "c" (vadd (vsub c z) (wavg W i z (both zs ms))) ;;;
        setx (wavg W i m (both ms zs))) ].

  (** [ProxSkip], _prox_skip.py:59-148; the coin of an iteration is an oracle *)
  Definition ps_init := led_init.
  Definition psW (chi : R) (i j : agent_id) : R := eye i j - 1 / (2 * chi) * (eye i j - W i j).
  Definition prox_skip (coin : nat -> bool) (chi a b : R) (k : nat) : list phase :=
    PUpd (fun i _ => x <- getx ;; g <- gradient i x ;; y <- aux "y" ;; put "z" (vsub (vsub x (vscal a g)) y)) ::
    if coin k then
      [ PSend (fun i => z <- aux "z" ;; lret [OBcast dflt z]);
        PUpd (fun i inb => z <- aux "z" ;; setx (wavg (psW chi) i z (inb dflt)) ;;;
          y <- aux "y" ;; x <- getx ;; put "y" (vadd y (vscal b (vsub z x)))) ]
    else [ PUpd (fun i _ => z <- aux "z" ;; setx z) ].

  (** ** ADMM-type algorithms: one row per neighbour *)
  Definition deg (i : agent_id) : R := INR (length (t_adj t i)).
  Definition row (m : list (agent_id * vec)) (j : agent_id) : option vec := dget Nat.eqb m j.
  Definition rowmap (m : list (agent_id * vec)) (f : vec -> vec) (j : agent_id) : option vec := option_map f (row m j).
  (** [z[idx] = (1 - alpha) * z[idx] - alpha * msg] *)
  Definition relax (k : string) (al : R) (m : agent_id * vec) : L unit :=
    z <- auxm k ;;
    match row z (fst m) with
    | Some zj => putm k (dset Nat.eqb z (fst m) (vsub (vscal (1 - al) zj) (vscal al (snd m))))
    | None => fun _ => None
    end.
  Definition stack (t : topo) (i : agent_id) (z : vec) : list (agent_id * vec) := map (fun j => (j, z)) (t_adj t i).
  Definition rows_sum (m : list (agent_id * vec)) : vec := vsum (map snd m).

  (** [ADMM], _admm.py:69-93; [x0 = None] with [z0] given: [x0] is computed from
      [z0] (lines 71-76) *)
  Definition admm_init (rho : R) (x0 : option (agent_id -> vec)) (z0 : agent_id -> vec) :
    agent_id -> nat -> (vec * list (string * auxv vec)) * nat :=
    fun i d => let z := [("z"%string, AMap (stack t i (z0 i)))] in
      match x0 with
      | Some x0 => ((x0 i, z), d)
      | None => ((prox d i (vscal (/ rho) (z0 i)) (/ (rho * deg i)), z), S d)
      end.
  Definition admm (rho al : R) (_ : nat) : list phase :=
    [ PUpd (fun i _ => z <- auxm "z" ;; x <- proximal i (vscal (/ (rho * deg i)) (rows_sum z)) (/ (rho * deg i)) ;; setx x);
      PSend (fun i => z <- auxm "z" ;; x <- getx ;; lret [OEach [(dflt, rowmap z (fun zj => vsub zj (vscal (2 * rho) x)))]]);
      PUpd (fun i inb => lfor (inb dflt) (relax "z" al)) ].

  (** [LT_ADMM], _lt_admm.py:62-141 *)
  Definition lt_admm_init (x0 : agent_id -> vec) : agent_id -> nat -> (vec * list (string * auxv vec)) * nat :=
    fun i d => ((x0 i, [("phi", AArr (x0 i)); ("z_i", AMap (stack t i (x0 i)))]%string), d).
  Definition lt_admm (tau : nat) (ga be rho al : R) (_ : nat) : list phase :=
    [ PUpd (fun i _ => x <- getx ;; z <- auxm "z_i" ;;
        let corr := vscal be (vsub (vscal (rho * deg i) x) (rows_sum z)) in
        phi <- ltimes tau (fun phi => g <- gradient i phi ;; lret (vsub phi (vadd (vscal ga g) corr))) x ;;
        put "phi" phi ;;; setx phi);
      PSend (fun i => z <- auxm "z_i" ;; x <- getx ;; lret [OEach [(dflt, rowmap z (fun zj => vsub zj (vscal (2 * rho) x)))]]);
      PUpd (fun i inb => lfor (inb dflt) (relax "z_i" al)) ].

  (** [ATG], _atg.py:81-124 *)
  Definition atg_init (x0 z0 : agent_id -> vec) : agent_id -> nat -> (vec * list (string * auxv vec)) * nat :=
    fun i d => ((x0 i, [("y", AArr vzero); ("s", AArr vzero); ("z_y", AMap (stack t i (z0 i))); ("z_s", AMap (stack t i (z0 i)))]%string), d).
  (** [z[idx] = (1 - alpha) * z[idx] + alpha * msg] *)
  Definition relax_add (k : string) (al : R) (m : agent_id * vec) : L unit :=
    z <- auxm k ;;
    match row z (fst m) with
    | Some zj => putm k (dset Nat.eqb z (fst m) (vadd (vscal (1 - al) zj) (vscal al (snd m))))
    | None => fun _ => None
    end.
  Definition atg (rho al ga de : R) (_ : nat) : list phase :=
    [ PUpd (fun i _ => x <- getx ;; zy <- auxm "z_y" ;; put "y" (vscal (/ (1 + rho * deg i)) (vadd x (rows_sum zy))) ;;;
        g <- gradient i x ;; zs <- auxm "z_s" ;; put "s" (vscal (/ (1 + rho * deg i)) (vadd g (rows_sum zs))) ;;;
        y <- aux "y" ;; s <- aux "s" ;; setx (vadd (vscal (1 - ga) x) (vscal ga (vsub y (vscal de s)))));
      PSend (fun i => zy <- auxm "z_y" ;; zs <- auxm "z_s" ;; y <- aux "y" ;; s <- aux "s" ;;
        lret [OEach [("z_y"%string, rowmap zy (fun z => vadd (vscal (-1) z) (vscal (2 * rho) y)));
                     ("z_s"%string, rowmap zs (fun z => vadd (vscal (-1) z) (vscal (2 * rho) s)))]]);
      PUpd (fun i inb => let ys := inb "z_y"%string in let ss := inb "z_s"%string in
        lfor (both ys ss) (relax_add "z_y" al) ;;; lfor (both ss ys) (relax_add "z_s" al)) ].
End Algorithms.
