(** The algorithms of the library, as modelled in Model/P2P.v, Model/P2PVR.v and
    Model/Fed.v (DLM and DiNNO, of Model/P2PShared.v, apart). *)
From Coq Require Import Reals String List Bool Arith.
From Verif.Model Require Import PyDict History Messages Network Runner Vec P2P P2PVR Fed.
From Verif.Spec Require Import NetworkSpec P2PSpec FedSpec.
Import ListNotations.
Open Scope R_scope.

Section S.
  Variables (t : topo) (e : env vec).
  Variables (grad : nat -> agent_id -> vec -> vec) (prox : nat -> agent_id -> vec -> R -> vec).
  (** [A] is one of the modelled peer-to-peer algorithms, run for [N] iterations,
      with any weights and any parameters. *)
  Inductive p2p_class (N : nat) : alg vec nat -> Prop :=
  | cl_dgd W x0 a : p2p_class N (p2p t e N (dgd_init x0) (dgd W grad a))
  | cl_atc W x0 a : p2p_class N (p2p t e N (atc_init x0) (atc W grad a))
  | cl_sgt W x0 a : p2p_class N (p2p t e N (simple_gt_init x0) (simple_gt W grad a))
  | cl_atct W x0 a : p2p_class N (p2p t e N (track_init grad x0) (atct W grad a))
  | cl_augdgm W x0 a : p2p_class N (p2p t e N (track_init grad x0) (aug_dgm W grad a))
  | cl_extra W x0 a : p2p_class N (p2p t e N (extra_init x0) (extra W grad a))
  | cl_nids W x0 a : p2p_class N (p2p t e N (nids_init x0) (nids W grad a))
  | cl_ed W x0 a : p2p_class N (p2p t e N (ed_init grad a x0) (ed W grad a))
  | cl_we W x0 a : p2p_class N (p2p t e N (we_init x0) (wang_elia W grad a))
  | cl_led W x0 tau a b : p2p_class N (p2p t e N (led_init x0) (led W grad tau a b))
  | cl_kgt W x0 kk a b : p2p_class N (p2p t e N (kgt_init x0) (kgt W grad kk a b))
  | cl_ps W x0 coin chi a b : p2p_class N (p2p t e N (ps_init x0) (prox_skip W grad coin chi a b))
  | cl_admm rho al x0 z0 : p2p_class N (p2p t e N (admm_init t prox rho x0 z0) (admm t prox rho al))
  | cl_lt x0 tau ga be rho al : p2p_class N (p2p t e N (lt_admm_init t x0) (lt_admm t grad tau ga be rho al))
  | cl_atg x0 z0 rho al ga de : p2p_class N (p2p t e N (atg_init t x0 z0) (atg t grad rho al ga de))
  | cl_saga W x0 m sg batch a : p2p_class N (p2p t e N (saga_init m sg x0) (saga W sg batch a))
  | cl_vr W x0 m sg batch coin a : p2p_class N (p2p t e N (vr_init m sg x0) (gt_vr W m sg batch coin a))
  | cl_sarah W x0 m sg batch a q : p2p_class N (p2p t e N (sarah_init x0) (sarah W m sg batch a q))
  | cl_ltvr x0 m sg batch v2 tau ga be rho al : p2p_class N (p2p t e N (ltvr_init t m sg v2 x0) (lt_admm_vr t m sg batch v2 tau ga be rho al)).
  (** The same for the federated algorithms with server [sv] and selection scheme
      [sch]; FedPD has none. *)
  Inductive fed_class (sv : agent_id) (sch : option scheme) (N : nat) : alg vec nat -> Prop :=
  | cl_fedavg x0 saux caux K a : fed_class sv sch N (fed N (fed_init t sv (x0 sv) saux x0 caux) (fed_round t e sv (fedavg_alg grad K a) sch))
  | cl_fedprox x0 saux caux K a mu : fed_class sv sch N (fed N (fed_init t sv (x0 sv) saux x0 caux) (fed_round t e sv (fedprox_alg grad K a mu) sch))
  | cl_fedopt x0 saux caux K a b1 eps eta Phi : fed_class sv sch N (fed N (fed_init t sv (x0 sv) saux x0 caux) (fed_round t e sv (fedopt_alg grad K a b1 eps eta Phi) sch))
  | cl_scaffold x0 saux caux K a eta : fed_class sv sch N (fed N (fed_init t sv (x0 sv) saux x0 caux) (fed_round t e sv (scaffold_alg t grad K a eta) sch))
  | cl_feddyn x0 saux caux K a al : fed_class sv sch N (fed N (fed_init t sv (x0 sv) saux x0 caux) (fed_round t e sv (feddyn_alg t grad K a al) sch))
  | cl_fednova x0 saux caux steps count a beta mu smom : fed_class sv sch N (fed N (fed_init t sv (x0 sv) saux x0 caux) (fed_round t e sv (fednova_alg grad steps count a beta mu smom) sch))
  | cl_fedlt x0 saux caux sol K a rho : fed_class sv sch N (fed N (fed_init t sv (x0 sv) saux x0 caux) (fed_round t e sv (fedlt_alg t sv grad prox sol K a rho) sch))
  | cl_fedpd x0 saux caux steps a eta coin : sch = None -> fed_class sv sch N (fed N (fed_init t sv (x0 sv) saux x0 caux) (fedpd_round t e sv grad steps a eta coin)).
End S.

(** Iteration [k] of a federated algorithm, from world [w'] on, selects the
    clients [sel]: what its scheme returns for the active clients. *)
Definition selects (t : topo) (e : env vec) (sch : option scheme) (k : nat) (w' : world vec nat) (sel : list agent_id) : Prop :=
  exists d, sel = chosen sch d k (fst (active_agents t e (snd w'))).
