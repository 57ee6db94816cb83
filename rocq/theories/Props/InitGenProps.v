(** C99: generated initial states. *)
From Coq Require Import Reals List Bool Arith Lia Lra.
From Verif.Model Require Import PyDict Messages Network Vec InitStates InitGen.
From Verif.Spec Require Import NetworkSpec InitSpec InitGenSpec.
From Verif.Props Require Import InitProps.
Import ListNotations.
Local Open Scope R_scope.

Lemma sample_all_spec cs z f : forall l p, NoDup l ->
  map fst (fst (sample_all cs z f l p)) = l /\ snd (sample_all cs z f l p) = (p + needed cs l)%nat /\
  forall a v, In (a, v) (fst (sample_all cs z f l p)) -> own_stretch cs z f l p a v.
Proof.
  intro l. induction l as [|b l IH]; intros p ND.
  - cbn. split; [reflexivity|]. split; [unfold needed; cbn; lia|intros a v []].
  - inversion ND as [|? ? NI ND']. subst. cbn [sample_all sample]. specialize (IH (p + size (cs b))%nat ND').
    destruct (sample_all cs z f l (p + size (cs b))) as [r p2]. cbn [fst snd map] in *. destruct IH as (E1 & E2 & E3).
    split; [now rewrite E1|]. split; [rewrite E2; unfold needed, list_sum; cbn [map fold_right]; lia|].
    intros a v [[= <- <-]|I].
    + split; [reflexivity|]. intros i L. cbn [before ar_data]. rewrite Nat.eqb_refl. apply Nat.ltb_lt in L. rewrite L. f_equal. f_equal. lia.
    + destruct (E3 a v I) as [S D]. split; [exact S|]. intros i L. rewrite (D i L). cbn [before].
      assert (NE : Nat.eqb b a = false).
      { apply Nat.eqb_neq. intros ->. apply NI. rewrite <- E1. change a with (fst (a, v)). now apply in_map. }
      rewrite NE. f_equal. f_equal. lia.
Qed.

(** Normal: every node (the server included), in order, gets an array of its
    cost's shape made of its own variates scaled by [std] and shifted by [mean];
    no variate is used twice; the mapping is what [initial_states] starts from. *)
Theorem C99_normal : forall t cs z mean std p, wf_topo t ->
  let r := fst (normal_initialization t cs z mean std p) in
  map fst r = t_nodes t /\
  (forall a v, In (a, v) r -> own_stretch cs z (fun u => mean + std * u) (t_nodes t) p a v) /\
  snd (normal_initialization t cs z mean std p) = (p + needed cs (t_nodes t))%nat /\
  initial_states t cs (as_x0 cs r) = Some (IOk r).
Proof.
  intros t cs z mean std p WF r. unfold r, normal_initialization.
  destruct (sample_all_spec cs z (fun u => mean + std * u) (t_nodes t) p (proj1 WF)) as (E1 & E2 & E3).
  split; [exact E1|]. split; [exact E3|]. split; [exact E2|].
  apply C67_idempotent; [exact WF|exact E1|]. intros a v I. now apply E3.
Qed.

(** Uniform: the same with entries in [low, high); refused, without touching
    the generator, exactly when [high <= low]. *)
Theorem C99_uniform : forall t cs z low high p, wf_topo t -> (forall i, 0 <= z i < 1) ->
  (low < high -> exists r, uniform_initialization t cs z low high p = (GOk r, (p + needed cs (t_nodes t))%nat) /\
     map fst r = t_nodes t /\
     (forall a v, In (a, v) r -> own_stretch cs z (fun u => low + (high - low) * u) (t_nodes t) p a v /\
                                 forall i, (i < size (cs a))%nat -> low <= ar_data v i < high) /\
     initial_states t cs (as_x0 cs r) = Some (IOk r)) /\
  (high <= low -> uniform_initialization t cs z low high p = (GValueError, p)).
Proof.
  intros t cs z low high p WF Z. unfold uniform_initialization. split; intro L; destruct (Rle_dec high low) as [H|H]; try lra; [|reflexivity].
  destruct (sample_all_spec cs z (fun u => low + (high - low) * u) (t_nodes t) p (proj1 WF)) as (E1 & E2 & E3).
  destruct (sample_all cs z (fun u => low + (high - low) * u) (t_nodes t) p) as [r p']. cbn [fst snd] in *. subst p'.
  exists r. split; [reflexivity|]. split; [exact E1|]. split.
  - intros a v I. split; [now apply E3|]. intros i Li. destruct (E3 a v I) as [_ D]. rewrite (D i Li).
    pose proof (Z (p + before cs (t_nodes t) a + i)%nat) as B. split; nra.
  - apply C67_idempotent; [exact WF|exact E1|]. intros a v I. now apply E3.
Qed.

(** Different entries of different nodes never share a variate. *)
Theorem C99_independent : forall cs l a b i j, NoDup l -> In a l -> In b l -> (i < size (cs a))%nat -> (j < size (cs b))%nat ->
  (before cs l a + i = before cs l b + j)%nat -> a = b /\ i = j.
Proof.
  intros cs l. induction l as [|c l IH]; intros a b i j ND Ia Ib Li Lj E; [destruct Ia|].
  inversion ND as [|? ? NI ND']. subst. cbn [before] in E.
  destruct (Nat.eqb c a) eqn:Ea; destruct (Nat.eqb c b) eqn:Eb.
  - apply Nat.eqb_eq in Ea, Eb. subst. split; [reflexivity|lia].
  - apply Nat.eqb_eq in Ea. subst. lia.
  - apply Nat.eqb_eq in Eb. subst. lia.
  - apply Nat.eqb_neq in Ea, Eb. destruct Ia as [|Ia]; [congruence|]. destruct Ib as [|Ib]; [congruence|].
    apply IH; auto. lia.
Qed.

Lemma torch_loop_spec par : forall l,
  ((forall a, In a l -> par a <> None) -> exists r, torch_loop par l = GOk r /\ map fst r = l /\ forall a v, In (a, v) r -> par a = Some v) /\
  ((exists a, In a l /\ par a = None) -> torch_loop par l = GTypeError).
Proof.
  induction l as [|b l [IH1 IH2]]; cbn [torch_loop]; split.
  - intros _. exists []. split; [reflexivity|]. split; [reflexivity|intros a v []].
  - intros (a & [] & _).
  - intro H. destruct (par b) as [v|] eqn:E; [|exfalso; apply (H b); [now left|exact E]].
    destruct IH1 as (r & -> & M & V); [intros a I; apply H; now right|]. exists ((b, v) :: r). split; [reflexivity|]. split; [cbn; now rewrite M|].
    intros a w [[= <- <-]|I]; [exact E|auto].
  - intros (a & [->|I] & E); [now rewrite E|]. destruct (par b); [|reflexivity]. rewrite IH2; eauto.
Qed.

(** PyTorch, per agent: if every node has a [PyTorchCost] whose parameters have
    the cost's shape, every node starts from the parameters of its own model;
    otherwise TypeError. Missing from the full property: see the refutations. *)
Theorem C99_pytorch_partial : forall t cs par, wf_topo t ->
  ((forall a, In a (t_nodes t) -> exists v, par a = Some v /\ ar_shape v = cs a) ->
     exists r, pytorch_initialization t cs par false = GOk (as_x0 cs r) /\ map fst r = t_nodes t /\
       (forall a v, In (a, v) r -> par a = Some v) /\ initial_states t cs (as_x0 cs r) = Some (IOk r)) /\
  ((exists a, In a (t_nodes t) /\ par a = None) -> pytorch_initialization t cs par false = GTypeError).
Proof.
  intros t cs par WF. unfold pytorch_initialization. destruct (torch_loop_spec par (t_nodes t)) as [T1 T2]. split.
  - intro H. destruct T1 as (r & -> & M & V); [intros a I; destruct (H a I) as (v & -> & _); discriminate|].
    exists r. split; [reflexivity|]. split; [exact M|]. split; [exact V|].
    apply C67_idempotent; [exact WF|exact M|]. intros a v I.
    assert (In a (t_nodes t)) as IN by (rewrite <- M; change a with (fst (a, v)); now apply in_map).
    destruct (H a IN) as (w & Ew & Sw). rewrite (V a v I) in Ew. now injection Ew as ->.
  - intro E. now rewrite (T2 E).
Qed.

(** All the same: every node starts from the first agent's parameters. *)
Theorem C99_pytorch_same : forall t cs par a l v, wf_topo t -> agents t = a :: l -> par a = Some v -> (forall b, In b (t_nodes t) -> ar_shape v = cs b) ->
  exists r, pytorch_initialization t cs par true = GOk (X0Array v) /\ initial_states t cs (X0Array v) = Some (IOk r) /\ assigns t (fun _ u => u = v) r.
Proof.
  intros t cs par a l v WF A P S. unfold pytorch_initialization. rewrite A, P.
  destruct (proj1 (C67_array t cs v) S) as (r & E & As). exists r. auto.
Qed.

(** Refuted: a federated network whose clients all train PyTorch models cannot be
    initialised per agent, because the server (by default with a zero cost)
    is asked for model parameters too. *)
Theorem C99_pytorch_federated_refuted : forall t cs par sv, wf_topo t -> t_server t = Some sv -> par sv = None ->
  pytorch_initialization t cs par false = GTypeError.
Proof.
  intros t cs par sv WF S P. apply (proj2 (C99_pytorch_partial t cs par WF)). exists sv. split; [|exact P].
  destruct WF as (_ & _ & _ & W). rewrite S in W. apply W.
Qed.

(** Refuted: with [all_same] only the first agent is checked, although the
    documentation promises a TypeError if any agent's cost is no [PyTorchCost]. *)
Theorem C99_pytorch_same_refuted : forall t cs par a l v, agents t = a :: l -> par a = Some v ->
  (exists b, In b l /\ par b = None) -> pytorch_initialization t cs par true = GOk (X0Array v).
Proof. intros t cs par a l v A P _. unfold pytorch_initialization. now rewrite A, P. Qed.

(** ---- concrete cases: two clients with states of 2 and 3 entries, server 2 with one ---- *)
Definition gs (a : agent_id) : shape := match a with 0%nat => [2%nat] | 1%nat => [3%nat] | _ => [1%nat] end.
Example C99_case_normal : wf_topo star2 /\
  let r := fst (normal_initialization star2 gs (fun i => INR i) 1 2 4) in
  map fst r = [0; 1; 2]%nat /\ snd (normal_initialization star2 gs (fun i => INR i) 1 2 4) = 10%nat /\
  (forall v, In (1%nat, v) r -> ar_data v 2%nat = 17).
Proof.
  split; [exact star2_wf|]. cbv zeta. split; [reflexivity|]. split; [reflexivity|].
  intros v I. cbn in I. destruct I as [I|[I|[I|[]]]]; try discriminate. injection I as <-. cbn [ar_data]. simpl. lra.
Qed.
Example C99_case_uniform : (forall i : nat, 0 <= (fun _ : nat => / 2) i < 1) /\ (1 < 3) /\
  (before gs (t_nodes star2) 1 + 2 <> before gs (t_nodes star2) 2)%nat.
Proof. split; [intros; lra|]. split; [lra|]. discriminate. Qed.
Example C99_case_pytorch : pytorch_initialization star2 (fun _ => [1%nat]) (fun a => if Nat.leb a 1 then Some (at1 (INR a)) else None) false = GTypeError /\
  pytorch_initialization star2 (fun _ => [1%nat]) (fun a => if Nat.eqb a 0 then Some (at1 5) else None) true = GOk (X0Array (at1 5)) /\
  pytorch_initialization star2 (fun _ => [1%nat]) (fun a => Some (at1 (INR a))) false =
    GOk (as_x0 (fun _ => [1%nat]) [(0%nat, at1 0); (1%nat, at1 1); (2%nat, at1 (1 + 1))]).
Proof. repeat split. Qed.

Print Assumptions C99_normal.
Print Assumptions C99_uniform.
Print Assumptions C99_independent.
Print Assumptions C99_pytorch_partial.
Print Assumptions C99_pytorch_same.
Print Assumptions C99_pytorch_federated_refuted.
Print Assumptions C99_pytorch_same_refuted.
