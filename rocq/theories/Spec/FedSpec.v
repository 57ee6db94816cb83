(** Vocabulary for the theorems about federated algorithms. *)
From Coq Require Import Reals String List Bool Arith.
From Verif.Model Require Import PyDict History Messages Network Runner Vec P2P Fed.
From Verif.Spec Require Import NetworkSpec P2PSpec.
Import ListNotations.
Open Scope R_scope.

(** A federated network with server [sv], which is always active. *)
Definition fed_net (t : topo) (e : env vec) (sv : agent_id) : Prop :=
  wf_topo t /\ t_server t = Some sv /\ (forall d k, e_act e d sv k = true).
(** A selection scheme that selects some of the clients it is given, each once. *)
Definition proper (sch : option scheme) : Prop :=
  forall f d l k, sch = Some f -> NoDup l -> l <> [] -> NoDup (f d l k) /\ incl (f d l k) l.
(** The clients chosen from the active ones. *)
Definition chosen (sch : option scheme) (d k : nat) (act : list agent_id) : list agent_id :=
  match act with [] => [] | _ => match sch with None => act | Some f => f d act k end end.

(** Who takes part in a round that ends in state [st']: [S] are the selected
    clients, [P] those of them that received the server's broadcast, [R c] those
    of them whose upload on channel [c] the server has received. On a reliable
    network nobody is lost. *)
Definition took_part (t : topo) (e : env vec) (sv : agent_id) (st' : net vec) (S P : list agent_id) : Prop :=
  NoDup P /\ incl P S /\ incl S (agents t) /\
  (forall i, In i S -> (In i P <-> exists b, sees st' i sv dflt b)) /\
  (reliable e -> P = S).
Definition uploaded (e : env vec) (sv : agent_id) (st' : net vec) (P : list agent_id) (c : channel) (R : list agent_id) : Prop :=
  NoDup R /\ incl R P /\ (forall i, In i R <-> exists m, sees st' sv i c m) /\ (reliable e -> R = P).

(** Mean of some agents' vectors. *)
Definition mean_over (l : list agent_id) (v : agent_id -> vec) : vec :=
  fun c => / INR (length l) * rsum (map (fun i => v i c) l).
Definition sum_over (l : list agent_id) (v : agent_id -> vec) : vec :=
  fun c => rsum (map (fun i => v i c) l).

(** One round of algorithm [A] in iteration [k], from state [st] to [st'], in which
    the clients [P] take part; [d1] is the number of oracle draws when clients are
    selected. *)
Definition round_result (t : topo) (e : env vec) (sv : agent_id) (A : fedalg) (sch : option scheme) (k d1 d : nat) (st st' : net vec) (P : list agent_id) : Prop :=
  (exists d', fstep (fed_round t e sv A sch k) (d, step t k st) = ((d', st'), false)) /\
  took_part t e sv st' (chosen sch d1 k (active_at t e k st)) P /\
  (forall i, In i (agents t) -> ~ In i P -> untouched st st' i).
(** Client [i] has received [B i] from the server; it is the payload [b] if
    messages are not altered. *)
Definition got (e : env vec) (sv : agent_id) (st' : net vec) (i : agent_id) (Bi b : vec) : Prop :=
  sees st' i sv dflt Bi /\ (faithful e -> Bi = b).
(** The server has received [Mi] from [i] on channel [c]; it is what [i] sent, [m],
    if messages are not altered. *)
Definition delivered (e : env vec) (sv : agent_id) (st' : net vec) (c : channel) (i : agent_id) (Mi m : vec) : Prop :=
  sees st' sv i c Mi /\ (faithful e -> Mi = m).
(** The clients from which uploads on both channels have been received. *)
Definition uploaded2 (e : env vec) (sv : agent_id) (st' : net vec) (P : list agent_id) (c1 c2 : channel) (R : list agent_id) : Prop :=
  NoDup R /\ incl R P /\
  (forall i, In i R <-> (exists m, sees st' sv i c1 m) /\ (exists m, sees st' sv i c2 m)) /\ (reliable e -> R = P).

(** ** FedNova *)
(** The normalisation coefficient (and the momentum scalar) of [n] local steps with
    step size [a], momentum [beta], penalty [mu]. *)
Fixpoint nova_coeff (a : R) (beta mu : option R) (n : nat) : R * R :=
  match n with
  | O => (0, 0)
  | S m => let '(ai, s) := nova_coeff a beta mu m in
      let s' := match beta with Some be => be * s + 1 | None => 1 end in
      (match mu with Some mu => (1 - a * mu) * ai + s' | None => ai + s' end, s')
  end.
(** Local steps with momentum [m] and a proximal term around [ref]. *)
Inductive nova_path (grad : nat -> agent_id -> vec -> vec) (i : agent_id) (a : R) (beta mu : option R) (ref : vec) : nat -> vec -> vec -> vec -> Prop :=
| np_nil x m : nova_path grad i a beta mu ref 0 x m x
| np_cons n x m g m' z : gradient_of grad i x g ->
    m' = (let g' := match mu with Some mu => vadd g (vscal mu (vsub x ref)) | None => g end in
          match beta with Some be => vadd (vscal be m) g' | None => g' end) ->
    nova_path grad i a beta mu ref n (vsub x (vscal a m')) m' z -> nova_path grad i a beta mu ref (S n) x m z.
(** The weighted aggregate: [count] are the sample counts, [A i] the coefficients,
    [c i] the clients' cumulative updates. *)
Definition nova_aggregate (count A : agent_id -> R) (c : agent_id -> vec) (R : list agent_id) : vec :=
  let p := fun i => count i / rsum (map count R) in
  let tau := rsum (map (fun i => p i * A i) R) in
  fun n => rsum (map (fun i => p i * (tau / A i) * c i n) R).

(** ** FedLT *)
Inductive nesterov_path (grad : nat -> agent_id -> vec -> vec) (i : agent_id) (a rho mom : R) (v : vec) : nat -> vec -> vec -> vec -> Prop :=
| ne_nil u w : nesterov_path grad i a rho mom v 0 u w w
| ne_cons n u w g u' z : gradient_of grad i w g -> u' = vsub w (vscal a (vadd g (vscal (/ rho) (vsub w v)))) ->
    nesterov_path grad i a rho mom v n u' (vadd u' (vscal mom (vsub u' u))) z -> nesterov_path grad i a rho mom v (S n) u w z.
(** [l] is the number of the next step *)
Inductive adam_path (grad : nat -> agent_id -> vec -> vec) (i : agent_id) (a rho b1 b2 eps : R) (v : vec) : nat -> nat -> vec -> vec -> vec -> vec -> Prop :=
| ad_nil l m s w : adam_path grad i a rho b1 b2 eps v 0 l m s w w
| ad_cons n l m s w g m' s' z : 
    (exists g0, gradient_of grad i w g0 /\ g = vadd g0 (vscal (/ rho) (vsub w v))) ->
    m' = (fun c => b1 * m c + (1 - b1) * g c) -> s' = (fun c => b2 * s c + (1 - b2) * (g c * g c)) ->
    adam_path grad i a rho b1 b2 eps v n (S l) m' s'
      (fun c => w c - a * (m' c / (1 - b1 ^ l)) / (sqrt (s' c / (1 - b2 ^ l)) + eps)) z ->
    adam_path grad i a rho b1 b2 eps v (S n) l m s w z.
Definition fedlt_local (grad : nat -> agent_id -> vec -> vec) (sol : solver) (K : nat) (a rho : R) (i : agent_id) (v w z : vec) : Prop :=
  match sol with
  | Gd => exists s, local_steps grad i (fun w g => vsub w (vscal a (vadd g (vscal (/ rho) (vsub w v))))) K w z s
  | Nesterov mom => nesterov_path grad i a rho mom v K w w z
  | Adam b1 b2 eps => adam_path grad i a rho b1 b2 eps v K 1 vzero vzero w z
  end.
(** A variable with one row per client. *)
Definition client_rows (t : topo) (z : agent_id -> vec) : list (agent_id * vec) := map (fun i => (i, z i)) (agents t).
(** What FedLT's server stores: the rows received, the old ones for the others. *)
Definition replaced (R : list agent_id) (M zs : agent_id -> vec) (i : agent_id) : vec := if memb i R then M i else zs i.

(** ** FedPD *)
(** The local solution of client [i] from its state [x], dual variable [l] and
    center [c]. *)
Definition fedpd_local (grad : nat -> agent_id -> vec -> vec) (steps : agent_id -> nat) (a eta : R) (i : agent_id) (x l c y : vec) : Prop :=
  exists s, local_steps grad i (fun y g => vsub y (vscal a (vadd (vadd g l) (vscal (/ eta) (vsub y c))))) (steps i) x y s.

(** ** Runs *)
(** The run finishes, [Obs k] holds of the network at the beginning of iteration
    [k], [Obs (S k)] when the callback of iteration [k] is made, and [Obs N] at
    the end. *)
Definition throughout (t : topo) (period : agent_id -> nat) (A : alg vec nat) (w : world vec nat) (Obs : nat -> net vec -> Prop) : Prop :=
  let r := run t period A 0 w in
  r_out r = Finished /\
  (forall k w', In (CStep k w') (r_calls r) -> Obs k (snd w')) /\
  (forall k w', In (CCallback k w') (r_calls r) -> Obs (S k) (snd w')) /\
  Obs (al_iters A) (snd (r_world r)).
(** Who takes part in a round: [P] compute, the server receives from [R]. *)
Definition participation (t : topo) (e : env vec) (sch : option scheme) (P R : list agent_id) : Prop :=
  NoDup P /\ incl P (agents t) /\ NoDup R /\ incl R P /\ (reliable e -> R = P) /\
  (reliable e -> always_active e -> sch = None -> P = agents t).
(** Costs whose gradients are functions of the point (no mini-batches). *)
Definition deterministic (grad : nat -> agent_id -> vec -> vec) : Prop := forall n m i x, grad n i x = grad m i x.
