(** Vocabulary for the theorems about variance-reduced algorithms. *)
From Coq Require Import Reals String List Bool Arith Permutation.
From Verif.Model Require Import PyDict History Messages Network Runner Vec.
From Verif.Spec Require Import NetworkSpec P2PSpec.
Import ListNotations.
Open Scope R_scope.

(** Average of [f] over the samples in [B]. *)
Definition avg (B : list nat) (f : nat -> vec) : vec := fun c => rsum (map (fun s => f s c) B) / INR (length B).
(** The gradient of the whole local cost: the average over all samples. *)
Definition full_gradient (m : agent_id -> nat) (sg : agent_id -> nat -> vec -> vec) (i : agent_id) (x : vec) : vec :=
  avg (seq 0 (m i)) (fun s => sg i s x).
(** Every batch consists of at least one of the agent's samples, none twice. *)
Definition proper (m : agent_id -> nat) (batch : nat -> agent_id -> list nat) : Prop :=
  forall n i, batch n i <> [] /\ NoDup (batch n i) /\ incl (batch n i) (seq 0 (m i)).
(** [B] is a batch that agent [i] may draw. *)
Definition drawn (batch : nat -> agent_id -> list nat) (i : agent_id) (B : list nat) : Prop := exists n, B = batch n i.

(** A table with one row [T s] per sample [s]. *)
Definition table (n : nat) (T : nat -> vec) : list (nat * vec) := map (fun s => (s, T s)) (seq 0 n).
(** The table after the rows of [B] have been replaced. *)
Definition refresh (B : list nat) (new T : nat -> vec) : nat -> vec := fun s => if existsb (Nat.eqb s) B then new s else T s.

(** The published estimators: SAGA (with the table [T] of gradients), SVRG (with
    the snapshot [tau]) and SARAH (with the previous point and estimate). *)
Definition saga_est (m : agent_id -> nat) (sg : agent_id -> nat -> vec -> vec) (i : agent_id) (B : list nat) (T : nat -> vec) (x : vec) : vec :=
  fun c => avg B (fun s => sg i s x) c - avg B T c + avg (seq 0 (m i)) T c.
Definition svrg_est (m : agent_id -> nat) (sg : agent_id -> nat -> vec -> vec) (i : agent_id) (B : list nat) (tau x : vec) : vec :=
  fun c => avg B (fun s => sg i s x) c - avg B (fun s => sg i s tau) c + full_gradient m sg i tau c.
Definition sarah_est (sg : agent_id -> nat -> vec -> vec) (i : agent_id) (B : list nat) (xp v x : vec) : vec :=
  fun c => avg B (fun s => sg i s x) c - avg B (fun s => sg i s xp) c + v c.

(** The active neighbours of agent [i]. *)
Definition heard (t : topo) (act : list agent_id) (i : agent_id) : list agent_id := filter (fun j => memb j act) (t_adj t i).

(** A family of equally likely batches in which every sample is as likely as any
    other: all of one size [b], each sample in [r] of them. *)
Definition balanced (n b r : nat) (F : list (list nat)) : Prop :=
  (0 < b)%nat /\ (0 < r)%nat /\ (forall B, In B F -> length B = b) /\
  (forall s, count_occ Nat.eq_dec (concat F) s = if Nat.ltb s n then r else 0%nat).
(** The expectation of [f] over such a family. *)
Definition expect (F : list (list nat)) (f : list nat -> vec) : vec := fun c => rsum (map (fun B => f B c) F) / INR (length F).

(** [P] lists every permutation of [0..n-1], each once. *)
Definition all_permutations (n : nat) (P : list (list nat)) : Prop := NoDup P /\ forall p, In p P <-> Permutation p (seq 0 n).

(** The table [key] of every agent over a run, cf. [rows_trajectory]. *)
Definition table_trajectory (t : topo) (period : agent_id -> nat) (A : alg vec nat) (w : world vec nat) (m : agent_id -> nat) (key : string) (T : nat -> agent_id -> nat -> vec) : Prop :=
  let r := run t period A 0 w in
  (forall k w', In (CStep k w') (r_calls r) -> forall i, In i (t_nodes t) -> auxmap_is (snd w') i key (table (m i) (T k i))) /\
  (forall k w', In (CCallback k w') (r_calls r) -> forall i, In i (t_nodes t) -> auxmap_is (snd w') i key (table (m i) (T (S k) i))) /\
  (forall i, In i (t_nodes t) -> auxmap_is (snd (r_world r)) i key (table (m i) (T (al_iters A) i))).
(** [n] local steps of LT-ADMM-VR, from point [x] and table [T] to [z] and [T']:
    a SAGA step with the correction [corr], then the rows of the batch are
    refreshed at the new point. *)
Inductive vr_steps (m : agent_id -> nat) (sg : agent_id -> nat -> vec -> vec) (batch : nat -> agent_id -> list nat) (i : agent_id) (ga : R) (corr : vec) :
  nat -> vec -> (nat -> vec) -> vec -> (nat -> vec) -> Prop :=
| vs_nil x T : vr_steps m sg batch i ga corr 0 x T x T
| vs_cons n x T B x1 z T' : drawn batch i B -> x1 = vsub x (vadd (vscal ga (saga_est m sg i B T x)) corr) ->
    vr_steps m sg batch i ga corr n x1 (refresh B (fun s => sg i s x1) T) z T' ->
    vr_steps m sg batch i ga corr (S n) x T z T'.
