(** C102 for the federated algorithms: the reported metrics of FedAvg, FedProx and
    Scaffold with one local step. *)
From Coq Require Import Reals String List Lra Lia Arith ZArith Psatz FunctionalExtensionality.
From Verif.Model Require Import PyDict History Messages Network Counting Runner Vec P2P Fed Metrics.
From Verif.Spec Require Import RunnerSpec CostSpec NetworkSpec P2PSpec FedSpec AlgSpec MetricsSpec ConvSpec EndSpec.
From Verif.Proofs Require Import CostProofs VecProofs EmpiricalProofs CountX FedRuns FedRuns2 FedDerived ConvStack ConvSolve ConvFed ConvFed2 MetricsProofs.
From Verif.Props Require Import P2PProps RunnerProps AlgProps FedProps ConvProps ConvFedProps EndProps.
Import ListNotations.
Open Scope R_scope.

Theorem C102_federated_snapshots t e period grad prox sv sch N A w X k i : fed_net t e sv -> fed_class t e grad prox sv sch N A ->
  throughout t period A w (fun k st => forall i, In i (t_nodes t) -> state_is st i (X k i)) ->
  In i (t_nodes t) -> (1 <= k)%nat -> due (period i) (al_iters A) k -> h_get (a_hist (n_agents (snd (r_world (run t period A 0 w))) i)) (Z.of_nat k) = Ok (X k i).
Proof.
  intros (WF & SV & _) CL (FI & _ & CB & _) I K D.
  destruct (C04_federated t e period grad prox sv sch N A w i WF SV CL I FI) as (_ & _ & S).
  destruct D as (B & D). destruct (S (k - 1)%nat ltac:(lia)) as (w' & v & C & E & H).
  replace (k - 1 + 1)%nat with k in H by lia. rewrite H by (split; auto).
  specialize (CB _ _ C i I). replace (Datatypes.S (k - 1)) with k in CB by lia. unfold state_is in CB. congruence.
Qed.
Lemma client_node t i : In i (agents t) -> In i (t_nodes t).
Proof. intros I. unfold agents in I. apply filter_In in I. tauto. Qed.

Section V.
  Variables (t : topo) (sv : agent_id) (n : nat) (F : agent_id -> vec -> R) (G : agent_id -> vec -> vec) (m L : R) (xs : vec) (grad : nat -> agent_id -> vec -> vec) (A : env vec -> nat -> alg vec nat).
  Hypothesis NE : agents t <> [].
  Hypothesis SC : forall i, In i (agents t) -> smooth_strongly_convex n (F i) (G i) m L.
  Hypothesis MP : 0 < m.
  Hypothesis LP : 0 < L.
  Hypothesis MIN : ConvSpec.minimises (agents t) F xs.
  Hypothesis CL : forall e N, fed_class t e grad (fun _ _ x _ => x) sv None N (A e N).
  Hypothesis IT : forall e N, al_iters (A e N) = N.
  Lemma due_within (period : agent_id -> nat) N k : (forall i, In i (agents t) -> due (period i) N k) -> (1 <= k)%nat -> (1 <= k <= N)%nat.
  Proof. intros D K. assert (E : exists i, In i (agents t)) by (destruct (agents t) as [|i l]; [congruence|exists i; now left]). destruct E as (i & I). pose proof (proj1 (D i I)). lia. Qed.

  Lemma fed_vanish :
    (forall eps, 0 < eps -> exists K, forall e period N w, fed_net t e sv -> synchronous e -> exists X,
       throughout t period (A e N) w (fun k st => forall i, In i (t_nodes t) -> state_is st i (X k i)) /\
       forall k, (K <= k)%nat -> (1 <= k <= N)%nat -> sq_error (agents t) n (X k) xs <= eps) ->
    fed_curves_vanish t sv n F G xs A.
  Proof using All.
    intros H eps EP. destruct (small_d L eps LP EP) as (d & D0 & D1 & D2 & D3).
    destruct (H (d * d) ltac:(nra)) as (K & HK). exists K. intros e N period w cost NET SY CA r.
    destruct (HK e period N w NET SY) as (X & TR & B). split; [exact (proj1 TR)|]. intros k K1 KK DU.
    specialize (B k KK (due_within period N k DU K1)).
    apply (small_states t n cost F G m L xs (snd (r_world r)) (Z.of_nat k) (X k) eps d); auto.
    intros i I. apply (C102_federated_snapshots t e period grad (fun _ _ x _ => x) sv None N (A e N) w X k i NET (CL e N) TR (client_node t i I) K1). rewrite IT. now apply DU.
  Qed.
  Lemma mean_vanish :
    (forall eps, 0 < eps -> exists K, forall e period N w, fed_net t e sv -> synchronous e -> exists X,
       throughout t period (A e N) w (fun k st => forall i, In i (t_nodes t) -> state_is st i (X k i)) /\
       forall k, (K <= k)%nat -> (1 <= k <= N)%nat -> nrm2 n (vsub (mean_over (agents t) (X k)) xs) <= eps) ->
    mean_curves_vanish t sv n F G xs A.
  Proof using All.
    intros H eps EP. destruct (small_d L eps LP EP) as (d & D0 & D1 & D2 & D3).
    destruct (H (d * d) ltac:(nra)) as (K & HK). exists K. intros e N period w cost NET SY CA r.
    destruct (HK e period N w NET SY) as (X & TR & B). split; [exact (proj1 TR)|]. intros k K1 KK DU.
    specialize (B k KK (due_within period N k DU K1)).
    destruct (C102_metrics_of_agents t n cost F G m L xs (snd (r_world r)) (Z.of_nat k) (X k) NE CA SC ltac:(lra) LP MIN) as (rg & xe & gn & ces & RP & XE & _ & _ & RG & GN & X0 & _).
    { intros i I. apply (C102_federated_snapshots t e period grad (fun _ _ x _ => x) sv None N (A e N) w X k i NET (CL e N) TR (client_node t i I) K1). rewrite IT. now apply DU. }
    exists rg, xe, gn, ces. split; [exact RP|]. apply (small_mean m L eps d); auto. rewrite XE, norm_sq. exact B.
  Qed.
End V.

Section C102.
  Variables (t : topo) (sv : agent_id) (n : nat).
  Hypothesis NE : agents t <> [].
  Hypothesis NP : (0 < n)%nat.
  Variables (F : agent_id -> vec -> R) (G : agent_id -> vec -> vec) (grad : nat -> agent_id -> vec -> vec) (m L : R) (xs : vec).
  Hypothesis SC : forall i, In i (agents t) -> smooth_strongly_convex n (F i) (G i) m L.
  Hypothesis MP : 0 < m.
  Hypothesis LP : 0 < L.
  Hypothesis EG : exact_gradients grad G.
  Hypothesis MIN : ConvSpec.minimises (agents t) F xs.

  Lemma rate a : 0 < a -> a * L < 2 -> 0 <= 1 - a * m * (2 - a * L) < 1.
  Proof.
    intros AP AL. assert (I : exists i, In i (agents t)) by (destruct (agents t) as [|i l]; [congruence|exists i; now left]). destruct I as (i & I).
    exact (rate_below n _ _ m L a NP (SC i I) MP LP AP AL).
  Qed.
  (** Regret, XError and GradientNorm of FedAvg. *)
  Theorem C102_fedavg a x0 : 0 < a -> a * L < 2 -> mean_curves_vanish t sv n F G xs (fun e N => fed N (fedavg_init t sv x0) (fed_round t e sv (fedavg_alg grad 1 a) None)).
  Proof using All.
    intros AP AL. apply (mean_vanish t sv n F G m L xs grad); auto; [intros; constructor|]. intros eps EP.
    destruct (geometric (nrm2 n (vsub (x0 sv) xs)) _ eps (rate a AP AL) EP) as (K & HK). exists K. intros e period N w NET SY.
    destruct (fedavg_states t e sv NET NE period N w n F G grad m L a xs SC ltac:(lra) LP EG ltac:(lra) x0 ltac:(lra) MIN SY) as (X & T & B & S1).
    exists X. split; [exact T|]. intros k KK [K1 KN]. destruct k as [|k]; [lia|]. rewrite <- (proj1 (S1 k ltac:(lia))).
    eapply Rle_trans; [apply (B _ KN)|]. rewrite Rmult_comm. now apply HK.
  Qed.
  Theorem C102_fedprox a mu x0 : 0 < a -> a * L < 2 -> mean_curves_vanish t sv n F G xs (fun e N => fed N (fedavg_init t sv x0) (fed_round t e sv (fedprox_alg grad 1 a mu) None)).
  Proof using All. rewrite fedprox_one. apply C102_fedavg. Qed.
  (** All metrics of Scaffold: its control variates make also the clients agree. *)
  Theorem C102_scaffold a eta x0 c0 : 0 < a -> 0 < eta -> eta * a * L < 2 -> c0 sv = mean_over (agents t) c0 ->
    fed_curves_vanish t sv n F G xs (fun e N => fed N (scaffold_init t sv x0 c0) (fed_round t e sv (scaffold_alg t grad 1 a eta) None)).
  Proof using All.
    intros AP EP AL CM. apply (fed_vanish t sv n F G m L xs grad); auto; [intros; constructor|]. intros eps E0.
    assert (Q : 0 <= 1 - eta * a * m * (2 - eta * a * L) < 1) by (apply rate; [now apply Rmult_lt_0_compat|lra]).
    set (l := INR (List.length (agents t))). assert (LN : 0 < l) by now apply len_pos.
    set (q := a * a * (L * L)). assert (Q0 : 0 <= q) by (unfold q; apply Rmult_le_pos; nra).
    set (d := eps / (l * (3 * (1 + 5 * q)))). assert (DP : 0 < d) by (unfold d; apply Rdiv_lt_0_compat; auto; apply Rmult_lt_0_compat; lra).
    destruct (geometric (nrm2 n (vsub (x0 sv) xs)) _ d Q DP) as (K & HK). exists (Datatypes.S (Datatypes.S K)). intros e period N w NET SY.
    destruct (scaffold_states t e sv NET NE period N w n F G grad m L a xs SC ltac:(lra) LP EG ltac:(lra) eta x0 c0 AP ltac:(lra) ltac:(lra) CM MIN SY) as (X & D & T & DE & B & CB).
    exists X. split; [exact T|]. intros k KK [K1 KN]. destruct k as [|[|k]]; try lia.
    assert (BD : forall j, (K <= j)%nat -> (j <= N)%nat -> D j <= d) by (intros j J1 J2; eapply Rle_trans; [apply B, J2|]; rewrite Rmult_comm; now apply HK).
    assert (D1 := BD (Datatypes.S k) ltac:(lia) ltac:(lia)). assert (D2 := BD k ltac:(lia) ltac:(lia)).
    unfold sq_error. apply Rle_trans with (rsum (map (fun _ => eps / l) (agents t))).
    - apply rs_le. intros i I. eapply Rle_trans; [apply (CB k ltac:(lia) i I)|]. fold q.
      assert (q * D (Datatypes.S k) <= q * d) by (apply Rmult_le_compat_l; lra). assert (q * D k <= q * d) by (apply Rmult_le_compat_l; lra).
      replace (eps / l) with (3 * (1 + 5 * q) * d) by (unfold d; field; lra). lra.
    - rewrite rs_const. fold l. right. field. lra.
  Qed.
End C102.

(** Two clients with the costs 1/2 |x - 3|^2 and 1/2 |x|^2. *)
Example C102_fedavg_case : mean_curves_vanish star3 2%nat 1 qcost qg (fun _ => 3/2) (fun e N => fed N (fedavg_init star3 2%nat start) (fed_round star3 e 2%nat (fedavg_alg qgrad 1 (1/2)) None)).
Proof. apply (C102_fedavg star3 2%nat 1) with (m := 1) (L := 1); try lra; auto using star3_ne, qgrad_ok, middle_minimises. intros; apply qcost_ok. Qed.
Example C102_fedprox_case : mean_curves_vanish star3 2%nat 1 qcost qg (fun _ => 3/2) (fun e N => fed N (fedavg_init star3 2%nat start) (fed_round star3 e 2%nat (fedprox_alg qgrad 1 (1/2) 7) None)).
Proof. apply (C102_fedprox star3 2%nat 1) with (m := 1) (L := 1); try lra; auto using star3_ne, qgrad_ok, middle_minimises. intros; apply qcost_ok. Qed.
Example C102_scaffold_case (c0 := fun i => if Nat.eqb i 2 then inferred_server star3 start else start i) :
  fed_curves_vanish star3 2%nat 1 qcost qg (fun _ => 3/2) (fun e N => fed N (scaffold_init star3 2%nat start c0) (fed_round star3 e 2%nat (scaffold_alg star3 qgrad 1 (1/2) 2) None)).
Proof. apply (C102_scaffold star3 2%nat 1) with (m := 1) (L := 1); try lra; auto using star3_ne, qgrad_ok, middle_minimises. intros; apply qcost_ok. Qed.

(** FedAvg's clients do not come to agree: its ConsensusError does not vanish. *)
Theorem C102_fedavg_consensus_refuted : ~ (forall t sv n F G grad m L a xs x0, agents t <> [] -> (0 < n)%nat ->
  (forall i, In i (agents t) -> smooth_strongly_convex n (F i) (G i) m L) -> 0 < m -> 0 < L -> exact_gradients grad G -> ConvSpec.minimises (agents t) F xs -> 0 < a -> a * L < 2 ->
  fed_curves_vanish t sv n F G xs (fun e N => fed N (fedavg_init t sv x0) (fed_round t e sv (fedavg_alg grad 1 a) None))).
Proof.
  intros H. specialize (H star3 2%nat 1%nat qcost qg qgrad 1 1 (1/2) (fun _ => 3/2) start star3_ne ltac:(lia) ltac:(intros; apply qcost_ok) ltac:(lra) ltac:(lra) qgrad_ok middle_minimises ltac:(lra) ltac:(lra) (1/4) ltac:(lra)).
  destruct H as (K & H). set (N := Datatypes.S K). set (cost := fun i => mkCost (qcost i) (qg i) 1).
  assert (CA : costs_are (agents star3) cost qcost qg) by (intros i _; split; reflexivity).
  destruct (H sync_env N (fun _ => 1%nat) blank cost star3_sync sync_ok CA) as (_ & R).
  assert (DU : forall i, In i (agents star3) -> due 1 N N) by (intros i _; split; [unfold N; lia|now right]).
  destruct (R N ltac:(unfold N; lia) ltac:(unfold N; lia) DU) as (rg & xe & gn & ces & RP & LE & FO).
  destruct (fedavg_states star3 sync_env 2%nat star3_sync star3_ne (fun _ => 1%nat) N blank 1 qcost qg qgrad 1 1 (1/2) (fun _ => 3/2) ltac:(intros; apply qcost_ok) ltac:(lra) ltac:(lra) qgrad_ok ltac:(lra) start ltac:(lra) middle_minimises sync_ok) as (X & T & _ & S1).
  destruct (S1 K ltac:(unfold N; lia)) as (_ & S2). fold N in S2.
  destruct (C102_metrics_of_agents star3 1 cost qcost qg 1 1 (fun _ => 3/2) (snd (r_world (run star3 (fun _ => 1%nat) (fed N (fedavg_init star3 2%nat start) (fed_round star3 sync_env 2%nat (fedavg_alg qgrad 1 (1/2)) None)) 0 blank))) (Z.of_nat N) (X N) star3_ne CA ltac:(intros; apply qcost_ok) ltac:(lra) ltac:(lra) middle_minimises)
    as (rg' & xe' & gn' & ces' & RP' & _ & CE & _).
  { intros i I. apply (C102_federated_snapshots star3 sync_env (fun _ => 1%nat) qgrad (fun _ _ x _ => x) 2%nat None N); auto using star3_sync, client_node; [constructor|unfold N; lia|now apply (DU i)]. }
  assert (E : ces = ces').
  { destruct (RP c_init 0%nat) as (_ & _ & _ & C1). destruct (RP' c_init 0%nat) as (_ & _ & _ & C2). rewrite C1 in C2. injection C2 as E. clear - E.
    revert ces' E. induction ces as [|c l IH]; intros [|c' l'] E; try discriminate; [reflexivity|]. cbn in E. injection E as -> E. f_equal. now apply IH. }
  subst ces. rewrite CE, star3_clients in FO. set (mu := mean_over (agents star3) (X N)) in *.
  assert (M1 : norm 1 (vsub mu (X N 0%nat)) <= 1/4). { apply (Forall_forall (fun v => 0 <= v <= 1/4)) with (x := norm 1 (vsub mu (X N 0%nat))) in FO; [lra|]. cbn. tauto. }
  assert (P : 0 <= norm 1 (vsub mu (X N 0%nat))) by apply norm_nonneg.
  assert (M2 : nrm2 1 (vsub mu (X N 0%nat)) <= 1/16) by (rewrite <- norm_sq; nra). clear - M2 S2. rewrite star3_clients in *.
  assert (E0 := f_equal (fun f : vec => f 0%nat) (S2 0%nat ltac:(cbn; auto))). assert (E1 := f_equal (fun f : vec => f 0%nat) (S2 1%nat ltac:(cbn; auto))).
  unfold mu in M2. rewrite star3_clients in M2. unfold nrm2, dot, sumn, mean_over, vsub in M2. cbn [seq map] in M2. unfold rsum in M2. cbn in M2.
  unfold vsub, vscal, qg, centre in E0, E1. cbn -[N] in E0, E1. rewrite E0, E1 in M2. set (z := X K 2%nat 0%nat) in *. clearbody z. clear - M2. unfold vsub in M2. cbn in M2. nra.
Qed.

Print Assumptions C102_federated_snapshots.
Print Assumptions C102_fedavg.
Print Assumptions C102_fedprox.
Print Assumptions C102_scaffold.
Print Assumptions C102_fedavg_consensus_refuted.
