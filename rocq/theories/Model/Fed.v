(** Model of the federated algorithms, /repo/decent_bench/algorithms/federated/,
    running on the network model (Model/Network.v) under [Algorithm.run]
    (Model/Runner.v), with real vectors as arrays. Local computations are those
    of Model/P2P.v ([L]).

    Simplifications: costs are oracles (any deterministic or stochastic gradient
    is an instance, draws being numbered), and so are client selection schemes
    (Model/Schemes.v has the library's) and the coin of FedPD; parameters are
    reals; arithmetic is exact; a two-row array [iop.stack([a, b])] is the
    interleaving of its rows; a message of FedNova with one entry is a vector
    with that entry. No class modifies a received array in place
    ([_get_server_broadcast] copies, _fed_algorithm.py:105-116), so messages may
    be values. *)
From Coq Require Import Reals String List Bool Arith ZArith.
From Verif.Model Require Import PyDict History Messages Network Runner Vec P2P.
Import ListNotations.
Open Scope R_scope.
Open Scope l_scope.

(** element-wise operations on arrays *)
Definition vmul (a b : vec) : vec := fun n => a n * b n.
Definition vdiv (a b : vec) : vec := fun n => a n / b n.
Definition vsqrt (a : vec) : vec := fun n => sqrt (a n).
Definition sgn (x : R) : R := if Rlt_dec 0 x then 1 else if Rlt_dec x 0 then -1 else 0.
Definition vsign (a : vec) : vec := fun n => sgn (a n).
Definition vconst (c : R) : vec := fun _ => c.
(** [iop.stack([a, b], dim=0)] and its rows *)
Definition vstack (a b : vec) : vec := fun n => if Nat.even n then a (Nat.div2 n) else b (Nat.div2 n).
Definition vrow0 (s : vec) : vec := fun n => s (2 * n)%nat.
Definition vrow1 (s : vec) : vec := fun n => s (S (2 * n)).

(** ** Executions that touch the whole network *)
(** a computation on the network (and the number of oracle draws); [None] if it
    raises *)
Definition F (A : Type) : Type := world vec nat -> world vec nat * option A.
Definition fret {A} (a : A) : F A := fun w => (w, Some a).
Definition fbind {A B} (m : F A) (f : A -> F B) : F B :=
  fun w => match m w with (w', Some a) => f a w' | (w', None) => (w', None) end.
Fixpoint fall (l : list agent_id) (body : agent_id -> F unit) : F unit :=
  match l with [] => fret tt | i :: l' => fbind (body i) (fun _ => fall l' body) end.
(** an algorithm's [step] for [Algorithm.run] *)
Definition fstep (m : F unit) : world vec nat -> world vec nat * bool :=
  fun w => let '(w', r) := m w in (w', match r with Some _ => false | None => true end).

Section Fed.
  Variables (t : topo) (e : env vec) (sv : agent_id).
  (** a computation on agent [i]'s own variables and received messages *)
  Definition local {A} (i : agent_id) (f : inbox -> L A) : F A :=
    fun w => let '(d, st) := w in
      match f (inbox_of st i) (priv_of (n_agents st i), d) with
      | Some (a, (p, d')) => ((d', upd_agent i (put_priv p) st), Some a)
      | None => (w, None)
      end.
  (** [network.send(sender=.., receiver=.., msg=.., channel=..)] *)
  Definition sendf (s : agent_id) (r : receiver) (c : channel) (v : vec) : F unit :=
    fun w => match send t e (snd w) s r (Some v) c with SOk st' => ((fst w, st'), Some tt) | SErr st' => ((fst w, st'), None) end.
  (** several messages of one client to the server *)
  Fixpoint uploads (i : agent_id) (l : list (channel * vec)) : F unit :=
    match l with [] => fret tt | (c, v) :: l' => fbind (sendf i (ROne sv) c v) (fun _ => uploads i l') end.

  (** A [ClientSelectionScheme]: from the number of draws, the active clients and
      the iteration to the selected clients *)
  Definition scheme := nat -> list agent_id -> nat -> list agent_id.
  (** [FedAlgorithm.select_clients] and [_record_selected_clients],
      _fed_algorithm.py:62-85 *)
  Definition record (sel : list agent_id) (st : net vec) : net vec :=
    fold_left (fun st i => upd_agent i add_sel st) sel st.
  Definition select_clients (sch : option scheme) (k : nat) : F (list agent_id) :=
    fun w => let '(d, st) := w in
      let '(act, st1) := active_agents t e st in
      match act with
      | [] => ((d, st1), Some [])
      | _ => let sel := match sch with None => act | Some f => f d act k end in
             ((match sch with None => d | Some _ => S d end, record sel st1), Some sel)
      end.
  (** [_clients_with_server_broadcast], _fed_algorithm.py:96-103 *)
  Definition has_broadcast (c : channel) (st : net vec) (i : agent_id) : bool := dmem Nat.eqb (inbox_of st i c) sv.
  Definition with_broadcast (sel : list agent_id) : F (list agent_id) :=
    fun w => (w, Some (filter (has_broadcast dflt (snd w)) sel)).
  (** [_get_server_broadcast], _fed_algorithm.py:105-116 *)
  Definition server_broadcast_of (inb : inbox) : L vec :=
    fun s => match dget Nat.eqb (inb dflt) sv with Some v => Some (v, s) | None => None end.
  (** [_weighted_average], _fed_algorithm.py:118-124 *)
  Definition weighted_average (vs : list vec) (ws : list R) (total : R) : vec :=
    vscal (/ total) (fold_left (fun a p => vadd a (vscal (snd p) (fst p))) (combine vs ws) vzero).
  (** the messages of [clients] on channel [c] *)
  Definition msgs_of (inb : inbox) (c : channel) (clients : list agent_id) : list vec :=
    flat_map (fun i => match dget Nat.eqb (inb c) i with Some v => [v] | None => [] end) clients.
  Definition received (inb : inbox) (c : channel) (clients : list agent_id) : list agent_id :=
    filter (fun i => dmem Nat.eqb (inb c) i) clients.
  Definition uniform_average (vs : list vec) : vec :=
    weighted_average vs (map (fun _ => 1) vs) (INR (length vs)).

  (** The [step] shared by the classes, e.g. _fed_avg.py:74-84 (the same text in
      _fed_prox.py:83-93, _fed_opt.py:108-118, _fed_dyn.py:98-108,
      _fed_nova.py:169-179, _scaffold.py:119-129; _fed_lt.py:210-223 computes the
      server's variable first): what the server does first, what it broadcasts,
      what a participating client computes from the broadcast and uploads, and how
      the server aggregates. *)
  Record fedalg := mkFed {
    f_pre : L unit;
    f_payload : L vec;
    f_client : agent_id -> vec -> L (list (channel * vec));
    f_agg : list agent_id -> inbox -> L unit
  }.
  Definition client_round (A : fedalg) (i : agent_id) : F unit :=
    fbind (local i (fun inb => b <- server_broadcast_of inb ;; f_client A i b)) (uploads i).
  Definition fed_round (A : fedalg) (sch : option scheme) (k : nat) : F unit :=
    fbind (local sv (fun _ => f_pre A)) (fun _ =>
    fbind (select_clients sch k) (fun sel =>
    match sel with
    | [] => fret tt
    | _ =>
      fbind (local sv (fun _ => f_payload A)) (fun p =>
      fbind (sendf sv (RMany sel) dflt p) (fun _ =>
      fbind (with_broadcast sel) (fun part =>
      match part with
      | [] => fret tt
      | _ => fbind (fall part (client_round A)) (fun _ => local sv (f_agg A part))
      end)))
    end)).

  (** [server.initialize(..)], then [client.initialize(..)] for all clients *)
  Definition fed_init (sx : vec) (saux : list (string * auxv vec)) (cx : agent_id -> vec) (caux : agent_id -> list (string * auxv vec))
             (w : world vec nat) : world vec nat :=
    (fst w, fold_left (fun st i => upd_agent i (initialize (Some (cx i)) (caux i)) st) (agents t)
                      (upd_agent sv (initialize (Some sx) saux) (snd w))).
  Definition fed (iters : nat) (init : world vec nat -> world vec nat) (round : nat -> F unit) : alg vec nat :=
    mkAlg iters init (fun k => fstep (round k)).

  (** ** The algorithms *)
  Variable grad : nat -> agent_id -> vec -> vec.
  Variable prox : nat -> agent_id -> vec -> R -> vec.
  Notation gradient := (gradient grad).
  (** [FedAlgorithm.aggregate], _fed_algorithm.py:126-142 *)
  Definition agg_average (part : list agent_id) (inb : inbox) : L unit :=
    let got := received inb dflt part in
    match got with [] => lret tt | _ => setx (uniform_average (msgs_of inb dflt got)) end.

  (** [FedAvg], _fed_avg.py:86-102 *)
  Definition fedavg_alg (K : nat) (a : R) : fedalg :=
    mkFed (lret tt) getx
      (fun i b => y <- ltimes K (fun y => g <- gradient i y ;; lret (vsub y (vscal a g))) b ;; setx y ;;; lret [(dflt, y)])
      agg_average.
  (** [FedProx], _fed_prox.py:95-112 *)
  Definition fedprox_alg (K : nat) (a mu : R) : fedalg :=
    mkFed (lret tt) getx
      (fun i b => y <- ltimes K (fun y => g <- gradient i y ;; lret (vsub y (vscal a (vadd g (vscal mu (vsub y b)))))) b ;;
        setx y ;;; lret [(dflt, y)])
      agg_average.

  (** [FedOpt], _fed_opt.py:120-164, for any second-moment rule [Phi];
      [server_x / (sqrt(v) + eps)] is element-wise *)
  Definition fedopt_agg (b1 eps eta : R) (Phi : vec -> vec -> vec) (part : list agent_id) (inb : inbox) : L unit :=
    let got := received inb dflt part in
    match got with
    | [] => lret tt
    | _ => x <- getx ;; let D := uniform_average (msgs_of inb dflt got) in
      m <- aux "m" ;; put "m" (vadd (vscal b1 m) (vscal (1 - b1) D)) ;;;
      v <- aux "v" ;; put "v" (Phi v D) ;;;
      m' <- aux "m" ;; v' <- aux "v" ;;
      setx (vadd x (vdiv (vscal eta m') (vadd (vsqrt v') (vconst eps))))
    end.
  Definition fedopt_alg (K : nat) (a b1 eps eta : R) (Phi : vec -> vec -> vec) : fedalg :=
    mkFed (lret tt) getx
      (fun i b => y <- ltimes K (fun y => g <- gradient i y ;; lret (vsub y (vscal a g))) b ;; setx y ;;; lret [(dflt, vsub y b)])
      (fedopt_agg b1 eps eta Phi).
  (** [FedAdam._update_second_moment], _fed_adam.py:75-77 *)
  Definition adam_moment (b2 : R) (v D : vec) : vec := vadd (vscal b2 v) (vscal (1 - b2) (vmul D D)).
  (** [FedYogi._update_second_moment], _fed_yogi.py:77-79 *)
  Definition yogi_moment (b2 : R) (v D : vec) : vec :=
    vsub v (vmul (vscal (1 - b2) (vmul D D)) (vsign (vsub v (vmul D D)))).
  (** [FedAdagrad._update_second_moment], _fed_adagrad.py:61-62 *)
  Definition adagrad_moment (v D : vec) : vec := vadd v (vmul D D).

  (** [Scaffold], _scaffold.py:131-212 *)
  Definition cm : channel := "model_delta"%string.
  Definition cc : channel := "control_variate_delta"%string.
  Definition scaffold_client (K : nat) (a : R) (i : agent_id) (b : vec) : L (list (channel * vec)) :=
    let x := vrow0 b in let c := vrow1 b in
    ci <- aux "c_i" ;;
    y <- ltimes K (fun y => g <- gradient i y ;; lret (vsub y (vscal a (vadd (vsub g ci) c)))) x ;;
    let cn := vadd (vsub ci c) (vscal (/ (INR K * a)) (vsub x y)) in
    put "c_i" cn ;;; setx y ;;; put "delta_c" (vsub cn ci) ;;;
    lret [(cm, vsub y x); (cc, vsub cn ci)].
  Definition scaffold_agg (eta : R) (part : list agent_id) (inb : inbox) : L unit :=
    let got := filter (fun i => dmem Nat.eqb (inb cm) i && dmem Nat.eqb (inb cc) i) part in
    match got with
    | [] => lret tt
    | _ => x <- getx ;; setx (vadd x (vscal eta (uniform_average (msgs_of inb cm got)))) ;;;
      c <- aux "c" ;;
      put "c" (vadd c (vscal (INR (length got) / INR (length (agents t))) (uniform_average (msgs_of inb cc got))))
    end.
  Definition scaffold_alg (K : nat) (a eta : R) : fedalg :=
    mkFed (lret tt) (x <- getx ;; c <- aux "c" ;; lret (vstack x c)) (scaffold_client K a) (scaffold_agg eta).

  (** [FedDyn], _fed_dyn.py:110-157 *)
  Definition feddyn_client (K : nat) (a al : R) (i : agent_id) (b : vec) : L (list (channel * vec)) :=
    g0 <- aux "g" ;;
    y <- ltimes K (fun y => g <- gradient i y ;; lret (vsub y (vscal a (vadd (vsub g g0) (vscal al (vsub y b)))))) b ;;
    setx y ;;; g <- aux "g" ;; put "g" (vsub g (vscal al (vsub y b))) ;;; lret [(dflt, y)].
  Definition feddyn_agg (al : R) (part : list agent_id) (inb : inbox) : L unit :=
    let got := received inb dflt part in
    match got with
    | [] => lret tt
    | _ => x <- getx ;; let ms := msgs_of inb dflt got in
      let dsum := fold_left (fun s m => vadd s (vsub m x)) ms vzero in
      h <- aux "h" ;; put "h" (vsub h (vscal (/ INR (length (agents t))) (vscal al dsum))) ;;;
      h' <- aux "h" ;; setx (vsub (uniform_average ms) (vscal (/ al) h'))
    end.
  Definition feddyn_alg (K : nat) (a al : R) : fedalg := mkFed (lret tt) getx (feddyn_client K a al) (feddyn_agg al).

  (** [FedNova], _fed_nova.py:181-288. [None] for momentum/penalty/server momentum
      is [use_..=False]. [count] are the sample counts resolved by [initialize]
      and stored on the server, [steps] the local steps per client. *)
  Definition cn : channel := "normalizer"%string.
  Definition cg : channel := "cumulative_gradient"%string.
  Definition one_entry (r : R) : vec := fun n => match n with O => r | S _ => 0 end.
  Record nova := mkNova { nv_x : vec; nv_cum : vec; nv_mom : vec; nv_a : R; nv_s : R }.
  Definition nova_step (a : R) (beta mu : option R) (i : agent_id) (ref : vec) (s : nova) : L nova :=
    g <- gradient i (nv_x s) ;;
    let g := match mu with Some mu => vadd g (vscal mu (vsub (nv_x s) ref)) | None => g end in
    let mom := match beta with Some be => vadd (vscal be (nv_mom s)) g | None => nv_mom s end in
    let dir := match beta with Some _ => mom | None => g end in
    let u := vscal a dir in
    let ms := match beta with Some be => be * nv_s s + 1 | None => 1 end in
    let ai := match mu with Some mu => (1 - a * mu) * nv_a s + ms | None => nv_a s + ms end in
    lret (mkNova (vsub (nv_x s) u) (vadd (nv_cum s) u) mom ai ms).
  Fixpoint nova_steps (n : nat) (a : R) (beta mu : option R) (i : agent_id) (ref : vec) (s : nova) : L nova :=
    match n with O => lret s | S m => s' <- nova_step a beta mu i ref s ;; nova_steps m a beta mu i ref s' end.
  Definition fednova_client (steps : agent_id -> nat) (a : R) (beta mu : option R) (i : agent_id) (b : vec) : L (list (channel * vec)) :=
    s <- nova_steps (steps i) a beta mu i b (mkNova b vzero vzero 0 0) ;;
    setx (nv_x s) ;;; lret [(cn, one_entry (nv_a s)); (cg, nv_cum s)].
  Definition fednova_agg (count : agent_id -> R) (smom : option R) (part : list agent_id) (inb : inbox) : L unit :=
    let got := filter (fun i => dmem Nat.eqb (inb cn) i && dmem Nat.eqb (inb cg) i) part in
    match got with
    | [] => lret tt
    | _ => x <- getx ;;
      let cums := msgs_of inb cg got in
      let avals := map (fun m => m O) (msgs_of inb cn got) in
      if existsb (fun a => if Rle_dec a 0 then true else false) avals then fun _ => None else
      let counts := map count got in
      let total := rsum counts in
      let ws := map (fun n => n / total) counts in
      let tau := rsum (map (fun p => fst p * snd p) (combine ws avals)) in
      let terms := map (fun p => vscal (snd p * (tau / snd (fst p))) (fst (fst p))) (combine (combine cums avals) ws) in
      let upd := fold_left vadd terms vzero in
      match smom with
      | Some ga => m <- aux "m" ;; put "m" (vadd (vscal ga m) upd) ;;; m' <- aux "m" ;; setx (vsub x m')
      | None => setx (vsub x upd)
      end
    end.
  Definition fednova_alg (steps : agent_id -> nat) (count : agent_id -> R) (a : R) (beta mu smom : option R) : fedalg :=
    mkFed (lret tt) getx (fednova_client steps a beta mu) (fednova_agg count smom).

  (** [FedLT], _fed_lt.py:225-304 *)
  Inductive solver := Gd | Nesterov (mom : R) | Adam (b1 b2 eps : R).
  Fixpoint nesterov_steps (n : nat) (i : agent_id) (a rho mom : R) (v u w : vec) : L vec :=
    match n with
    | O => lret w
    | S m => g <- gradient i w ;; let u' := vsub w (vscal a (vadd g (vscal (/ rho) (vsub w v)))) in
        nesterov_steps m i a rho mom v u' (vadd u' (vscal mom (vsub u' u)))
    end.
  (** [n] steps left, the next is number [l] *)
  Fixpoint adam_steps (n l : nat) (i : agent_id) (a rho b1 b2 eps : R) (v m s w : vec) : L vec :=
    match n with
    | O => lret w
    | S n' => g <- gradient i w ;; let g := vadd g (vscal (/ rho) (vsub w v)) in
        let m := vadd (vscal b1 m) (vscal (1 - b1) g) in
        let s := vadd (vscal b2 s) (vscal (1 - b2) (vmul g g)) in
        let mh := vscal (/ (1 - b1 ^ l)) m in
        let sh := vscal (/ (1 - b2 ^ l)) s in
        adam_steps n' (S l) i a rho b1 b2 eps v m s (vsub w (vdiv (vscal a mh) (vadd (vsqrt sh) (vconst eps))))
    end.
  Definition fedlt_solve (sol : solver) (K : nat) (a rho : R) (i : agent_id) (v w : vec) : L vec :=
    match sol with
    | Gd => ltimes K (fun w => g <- gradient i w ;; lret (vsub w (vscal a (vadd g (vscal (/ rho) (vsub w v)))))) w
    | Nesterov mom => nesterov_steps K i a rho mom v w w
    | Adam b1 b2 eps => adam_steps K 1 i a rho b1 b2 eps v vzero vzero w
    end.
  Definition fedlt_pre (rho : R) : L unit :=
    zs <- auxm "z_by_client" ;;
    let avg := vscal (/ INR (length zs)) (fold_left vadd (map snd zs) vzero) in
    y <- (fun s => Some (prox (snd s) sv avg (rho / INR (length (agents t))), (fst s, S (snd s)))) ;; setx y.
  Definition fedlt_client (sol : solver) (K : nat) (a rho : R) (i : agent_id) (b : vec) : L (list (channel * vec)) :=
    z <- aux "z" ;; x <- getx ;;
    w <- fedlt_solve sol K a rho i (vsub (vscal 2 b) z) x ;;
    setx w ;;; put "z" (vadd z (vscal 2 (vsub w b))) ;;; lret [(dflt, vadd z (vscal 2 (vsub w b)))].
  Definition fedlt_agg (part : list agent_id) (inb : inbox) : L unit :=
    lfor part (fun i => match dget Nat.eqb (inb dflt) i with
      | Some v => zs <- auxm "z_by_client" ;; putm "z_by_client" (dset Nat.eqb zs i v)
      | None => lret tt
      end).
  Definition fedlt_alg (sol : solver) (K : nat) (a rho : R) : fedalg :=
    mkFed (fedlt_pre rho) getx (fedlt_client sol K a rho) fedlt_agg.

  (** [FedPD], _fed_pd.py:108-183; [coin k]: [random.random() >= skip_probability] *)
  Definition cand : channel := "center_candidate"%string.
  Definition cupd : channel := "center_update"%string.
  Definition fedpd_client (steps : agent_id -> nat) (a eta : R) (i : agent_id) : L unit :=
    c <- aux "center" ;; l <- aux "lambda" ;; x <- getx ;;
    y <- ltimes (steps i) (fun y => g <- gradient i y ;; lret (vsub y (vscal a (vadd (vadd g l) (vscal (/ eta) (vsub y c)))))) x ;;
    let l' := vadd l (vscal (/ eta) (vsub y c)) in
    setx y ;;; put "lambda" l' ;;; put "center" (vadd y (vscal eta l')).
  Definition fedpd_aggregate (part : list agent_id) : F unit :=
    fbind (local sv (fun inb =>
      let got := received inb cand part in
      match got with
      | [] => lret None
      | _ => setx (uniform_average (msgs_of inb cand got)) ;;; x <- getx ;; lret (Some x)
      end)) (fun r =>
    match r with
    | None => fret tt
    | Some x =>
      fbind (sendf sv (RMany part) cupd x) (fun _ =>
      fall part (fun i => local i (fun inb =>
        match dget Nat.eqb (inb cupd) sv with Some v => put "center" v | None => lret tt end)))
    end).
  Definition fedpd_round (steps : agent_id -> nat) (a eta : R) (coin : nat -> bool) (k : nat) : F unit :=
    fbind (select_clients None k) (fun part =>
    match part with
    | [] => fret tt
    | _ =>
      fbind (fall part (fun i => local i (fun _ => fedpd_client steps a eta i))) (fun _ =>
      if coin k then
        fbind (fall part (fun i => fbind (local i (fun _ => aux "center")) (fun c => sendf i (ROne sv) cand c)))
              (fun _ => fedpd_aggregate part)
      else fret tt)
    end).
End Fed.

(** ** Initial states *)
(** The classes' [initialize] for resolved initial states [x0] (and [c0], [z0]):
    FedAvg, FedProx and FedNova without server momentum (_fed_avg.py:68-72,
    _fed_prox.py:77-81, _fed_nova.py:156-167; FedNova's sample counts are a
    parameter of [fednova_alg] here), FedNova with server momentum, FedOpt
    (_fed_opt.py:97-106), Scaffold (_scaffold.py:103-117), FedDyn
    (_fed_dyn.py:89-96), FedLT (_fed_lt.py:200-208), FedPD (_fed_pd.py:91-106). *)
Section Init.
  Variables (t : topo) (sv : agent_id) (x0 : agent_id -> vec).
  Definition fedavg_init := fed_init t sv (x0 sv) [] x0 (fun _ => []).
  Definition fednova_mom_init := fed_init t sv (x0 sv) [("m"%string, AArr vzero)] x0 (fun _ => []).
  Definition fedopt_init := fed_init t sv (x0 sv) [("m"%string, AArr vzero); ("v"%string, AArr vzero)] x0 (fun _ => []).
  Definition scaffold_init (c0 : agent_id -> vec) :=
    fed_init t sv (x0 sv) [("c"%string, AArr (c0 sv))] x0 (fun i => [("c_i"%string, AArr (c0 i))]).
  Definition feddyn_init := fed_init t sv (x0 sv) [("h"%string, AArr vzero)] x0 (fun _ => [("g"%string, AArr vzero)]).
  Definition fedlt_init (z0 : agent_id -> vec) :=
    fed_init t sv (x0 sv) [("z_by_client"%string, AMap (map (fun i => (i, z0 i)) (agents t)))] x0 (fun i => [("z"%string, AArr (z0 i))]).
  Definition fedpd_init :=
    fed_init t sv (x0 sv) [] x0 (fun _ => [("lambda"%string, AArr vzero); ("center"%string, AArr (x0 sv))]).
End Init.
(** [initial_states(x0, network)] for a dictionary without the server's entry,
    algorithms/utils.py:60-67: the mean of the clients' *)
Definition inferred_server (t : topo) (x0 : agent_id -> vec) : vec :=
  vscal (/ INR (length (agents t))) (fold_left vadd (map x0 (agents t)) vzero).

(** ** Selection metric *)
(** [_observed_rounds], metrics/utils.py:131-140: the latest recorded iteration
    of any of the agents *)
Fixpoint observed_rounds (st : net vec) (l : list agent_id) : res Z :=
  match l with
  | [] => Ok 0%Z
  | i :: l' =>
      match h_max (a_hist (n_agents st i)), observed_rounds st l' with
      | Ok m, Ok r => Ok (Z.max m r)
      | ValueError, _ => ValueError
      | KeyError, _ => KeyError
      | _, r => r
      end
  end.
(** [FractionSelectedClients.compute], metrics/metric_library.py:691-701;
    [None] is nan *)
Definition fraction_selected (t : topo) (st : net vec) : res (option R) :=
  match observed_rounds st (agents t) with
  | Ok n =>
      if (n =? 0)%Z || (match agents t with [] => true | _ => false end) then Ok None
      else Ok (Some (INR (fold_left Nat.add (map (fun i => a_nsel (n_agents st i)) (agents t)) O) / (IZR n * INR (length (agents t)))))
  | ValueError => ValueError
  | KeyError => KeyError
  end.
