(** C91: synchronous FedAvg and Scaffold with one local step converge linearly to
    the minimiser of the clients' summed costs; FedAvg with any number of local
    steps and any losses contracts when the clients' costs share a minimiser. *)
From Coq Require Import Reals String List Lra Lia Arith.
From Verif.Model Require Import PyDict History Messages Network Runner Vec P2P Fed.
From Verif.Spec Require Import CostSpec NetworkSpec P2PSpec FedSpec ConvSpec.
From Verif.Proofs Require Import CostProofs VecProofs EmpiricalProofs P2PRuns FedRuns ConvStack ConvFed ConvFed2.
From Verif.Props Require Import P2PProps FedProps ConvProps.
Import ListNotations.
Open Scope R_scope.

(** [X k] is the state of the server when it is observed after [k] rounds. *)
Theorem C91_fedavg_linear t e sv period N w n F G grad m L a xs x0 : fed_net t e sv -> agents t <> [] ->
  (forall i, In i (agents t) -> smooth_strongly_convex n (F i) (G i) m L) -> 0 <= m -> 0 < L -> exact_gradients grad G ->
  0 <= a -> a * L <= 2 -> minimises (agents t) F xs -> synchronous e ->
  exists X, throughout t period (fed N (fedavg_init t sv x0) (fed_round t e sv (fedavg_alg grad 1 a) None)) w
      (fun k st => state_is st sv (X k)) /\ X 0%nat = x0 sv /\
    forall k, (k <= N)%nat -> nrm2 n (vsub (X k) xs) <= (1 - a * m * (2 - a * L)) ^ k * nrm2 n (vsub (x0 sv) xs).
Proof. intros. eapply fedavg_linear; eauto. Qed.

Theorem C91_scaffold_linear t e sv period N w n F G grad m L a eta xs x0 c0 : fed_net t e sv -> agents t <> [] ->
  (forall i, In i (agents t) -> smooth_strongly_convex n (F i) (G i) m L) -> 0 <= m -> 0 < L -> exact_gradients grad G ->
  0 < a -> 0 <= eta -> eta * a * L <= 2 -> c0 sv = mean_over (agents t) c0 -> minimises (agents t) F xs -> synchronous e ->
  exists X, throughout t period (fed N (scaffold_init t sv x0 c0) (fed_round t e sv (scaffold_alg t grad 1 a eta) None)) w
      (fun k st => state_is st sv (X k)) /\ X 0%nat = x0 sv /\
    forall k, (k <= N)%nat -> nrm2 n (vsub (X k) xs) <= (1 - eta * a * m * (2 - eta * a * L)) ^ k * nrm2 n (vsub (x0 sv) xs).
Proof. intros. eapply scaffold_linear; eauto; lra. Qed.

(** Clients may be inactive, unselected, and their messages lost; they make [K]
    local steps. *)
Theorem C91_fedavg_common_minimiser t e sv period N w n F G grad m L a xs sch K x0 : fed_net t e sv ->
  (forall i, In i (agents t) -> smooth_strongly_convex n (F i) (G i) m L) -> 0 <= m -> 0 < L -> exact_gradients grad G ->
  0 <= a -> a * L <= 2 -> (forall i, In i (agents t) -> forall z, F i xs <= F i z) -> proper sch -> faithful e ->
  exists X, throughout t period (fed N (fedavg_init t sv x0) (fed_round t e sv (fedavg_alg grad K a) sch)) w
      (fun k st => state_is st sv (X k)) /\ X 0%nat = x0 sv /\
    forall k, (k < N)%nat -> exists P R, participation t e sch P R /\ (R = [] -> X (S k) = X k) /\
      (R <> [] -> nrm2 n (vsub (X (S k)) xs) <= (1 - a * m * (2 - a * L)) ^ K * nrm2 n (vsub (X k) xs)).
Proof. intros. eapply fedavg_common; eauto. Qed.

(** C39: with one local step the penalty does not matter: the same run as
    FedAvg, whatever the network does. *)
Theorem C39_fedprox_one_step t e sv period N w grad sch a mu x0 :
  run t period (fed N (fedavg_init t sv x0) (fed_round t e sv (fedprox_alg grad 1 a mu) sch)) 0 w =
  run t period (fed N (fedavg_init t sv x0) (fed_round t e sv (fedavg_alg grad 1 a) sch)) 0 w.
Proof. now rewrite fedprox_one. Qed.
Example C39_fedprox_one_step_case :
  run star3 (fun _ => 1%nat) (fed 10%nat (fedavg_init star3 2%nat start) (fed_round star3 lossy_fed 2%nat (fedprox_alg qgrad 1 (1/2) 7) first_only)) 0 blank =
  run star3 (fun _ => 1%nat) (fed 10%nat (fedavg_init star3 2%nat start) (fed_round star3 lossy_fed 2%nat (fedavg_alg qgrad 1 (1/2)) first_only)) 0 blank.
Proof. apply C39_fedprox_one_step. Qed.

(** FedProx with one local step, whatever its penalty. *)
Theorem C91_fedprox_linear t e sv period N w n F G grad m L a mu xs x0 : fed_net t e sv -> agents t <> [] ->
  (forall i, In i (agents t) -> smooth_strongly_convex n (F i) (G i) m L) -> 0 <= m -> 0 < L -> exact_gradients grad G ->
  0 <= a -> a * L <= 2 -> minimises (agents t) F xs -> synchronous e ->
  exists X, throughout t period (fed N (fedavg_init t sv x0) (fed_round t e sv (fedprox_alg grad 1 a mu) None)) w
      (fun k st => state_is st sv (X k)) /\ X 0%nat = x0 sv /\
    forall k, (k <= N)%nat -> nrm2 n (vsub (X k) xs) <= (1 - a * m * (2 - a * L)) ^ k * nrm2 n (vsub (x0 sv) xs).
Proof. rewrite fedprox_one. apply C91_fedavg_linear. Qed.
(** FedNova with one local step: the minimiser of the costs weighted with the
    clients' sample counts. *)
Theorem C91_fednova_linear t e sv period N w n F G grad m L a count xs x0 : fed_net t e sv -> agents t <> [] ->
  (forall i, In i (agents t) -> smooth_strongly_convex n (F i) (G i) m L) -> 0 <= m -> 0 < L -> exact_gradients grad G ->
  0 <= a -> a * L <= 2 -> (forall i, In i (agents t) -> 0 < count i) -> minimises (agents t) (fun i x => count i * F i x) xs -> synchronous e ->
  exists X, throughout t period (fed N (fedavg_init t sv x0) (fed_round t e sv (fednova_alg grad (fun _ => 1%nat) count a None None None) None)) w
      (fun k st => state_is st sv (X k)) /\ X 0%nat = x0 sv /\
    forall k, (k <= N)%nat -> nrm2 n (vsub (X k) xs) <= (1 - a * m * (2 - a * L)) ^ k * nrm2 n (vsub (x0 sv) xs).
Proof. intros. eapply fednova_linear; eauto. Qed.

(** From some number of rounds on the server ends within any given distance. *)
Lemma rate_below n F G m L a : (0 < n)%nat -> smooth_strongly_convex n F G m L -> 0 < m -> 0 < L -> 0 < a -> a * L < 2 ->
  0 <= 1 - a * m * (2 - a * L) < 1.
Proof.
  intros NP SC MP LP AP AL. split; [eapply rate_pos; eauto; lra|].
  assert (0 < a * m * (2 - a * L)) by (repeat apply Rmult_lt_0_compat; lra). lra.
Qed.
Theorem C91_fedavg_reaches t sv n F G grad m L a xs x0 eps : agents t <> [] -> (0 < n)%nat ->
  (forall i, In i (agents t) -> smooth_strongly_convex n (F i) (G i) m L) -> 0 < m -> 0 < L -> exact_gradients grad G ->
  0 < a -> a * L < 2 -> minimises (agents t) F xs -> 0 < eps ->
  exists K, forall N e period w, (K <= N)%nat -> fed_net t e sv -> synchronous e ->
    let r := run t period (fed N (fedavg_init t sv x0) (fed_round t e sv (fedavg_alg grad 1 a) None)) 0 w in
    r_out r = Finished /\ exists x, state_is (snd (r_world r)) sv x /\ nrm2 n (vsub x xs) <= eps.
Proof.
  intros NE NP SC MP LP EG AP AL MIN EP.
  assert (I : exists i, In i (agents t)) by (destruct (agents t) as [|i l]; [congruence|exists i; now left]). destruct I as (i & I).
  pose proof (rate_below n _ _ m L a NP (SC i I) MP LP AP AL) as Q.
  destruct (geometric (nrm2 n (vsub (x0 sv) xs)) _ eps Q EP) as (K & HK). exists K. intros N e period w KN NET SY.
  destruct (C91_fedavg_linear t e sv period N w n F G grad m L a xs x0 NET NE SC ltac:(lra) LP EG ltac:(lra) ltac:(lra) MIN SY) as (X & (FI & _ & _ & LAST) & _ & B).
  split; [exact FI|]. exists (X N). split; [exact LAST|]. eapply Rle_trans; [apply (B N (le_n N))|]. rewrite Rmult_comm. now apply HK.
Qed.
Theorem C91_scaffold_reaches t sv n F G grad m L a eta xs x0 c0 eps : agents t <> [] -> (0 < n)%nat ->
  (forall i, In i (agents t) -> smooth_strongly_convex n (F i) (G i) m L) -> 0 < m -> 0 < L -> exact_gradients grad G ->
  0 < a -> 0 < eta -> eta * a * L < 2 -> c0 sv = mean_over (agents t) c0 -> minimises (agents t) F xs -> 0 < eps ->
  exists K, forall N e period w, (K <= N)%nat -> fed_net t e sv -> synchronous e ->
    let r := run t period (fed N (scaffold_init t sv x0 c0) (fed_round t e sv (scaffold_alg t grad 1 a eta) None)) 0 w in
    r_out r = Finished /\ exists x, state_is (snd (r_world r)) sv x /\ nrm2 n (vsub x xs) <= eps.
Proof.
  intros NE NP SC MP LP EG AP EA AL CM MIN EP.
  assert (I : exists i, In i (agents t)) by (destruct (agents t) as [|i l]; [congruence|exists i; now left]). destruct I as (i & I).
  pose proof (rate_below n _ _ m L (eta * a) NP (SC i I) MP LP ltac:(now apply Rmult_lt_0_compat) AL) as Q.
  destruct (geometric (nrm2 n (vsub (x0 sv) xs)) _ eps Q EP) as (K & HK). exists K. intros N e period w KN NET SY.
  destruct (C91_scaffold_linear t e sv period N w n F G grad m L a eta xs x0 c0 NET NE SC ltac:(lra) LP EG AP ltac:(lra) ltac:(lra) CM MIN SY) as (X & (FI & _ & _ & LAST) & _ & B).
  split; [exact FI|]. exists (X N). split; [exact LAST|]. eapply Rle_trans; [apply (B N (le_n N))|]. rewrite Rmult_comm. now apply HK.
Qed.

Theorem C91_fednova_reaches t sv n F G grad m L a count xs x0 eps : agents t <> [] -> (0 < n)%nat ->
  (forall i, In i (agents t) -> smooth_strongly_convex n (F i) (G i) m L) -> 0 < m -> 0 < L -> exact_gradients grad G ->
  0 < a -> a * L < 2 -> (forall i, In i (agents t) -> 0 < count i) -> minimises (agents t) (fun i x => count i * F i x) xs -> 0 < eps ->
  exists K, forall N e period w, (K <= N)%nat -> fed_net t e sv -> synchronous e ->
    let r := run t period (fed N (fedavg_init t sv x0) (fed_round t e sv (fednova_alg grad (fun _ => 1%nat) count a None None None) None)) 0 w in
    r_out r = Finished /\ exists x, state_is (snd (r_world r)) sv x /\ nrm2 n (vsub x xs) <= eps.
Proof.
  intros NE NP SC MP LP EG AP AL C0 MIN EP.
  assert (I : exists i, In i (agents t)) by (destruct (agents t) as [|i l]; [congruence|exists i; now left]). destruct I as (i & I).
  pose proof (rate_below n _ _ m L a NP (SC i I) MP LP AP AL) as Q.
  destruct (geometric (nrm2 n (vsub (x0 sv) xs)) _ eps Q EP) as (K & HK). exists K. intros N e period w KN NET SY.
  destruct (C91_fednova_linear t e sv period N w n F G grad m L a count xs x0 NET NE SC ltac:(lra) LP EG ltac:(lra) ltac:(lra) C0 MIN SY) as (X & (FI & _ & _ & LAST) & _ & B).
  split; [exact FI|]. exists (X N). split; [exact LAST|]. eapply Rle_trans; [apply (B N (le_n N))|]. rewrite Rmult_comm. now apply HK.
Qed.
(** Two clients with the costs 1/2 |x - 3|^2 and 1/2 |x|^2. *)
Lemma middle_minimises : minimises (agents star3) qcost (fun _ => 3 / 2).
Proof.
  intro z. rewrite star3_clients. unfold qcost. cbn [map]. rewrite !rsum_cons. unfold rsum, nrm2, dot, sumn, vsub, centre. cbn.
  pose proof (Rle_0_sqr (z 0%nat - 3/2)) as Q. unfold Rsqr in Q. nra.
Qed.
Example C91_fedavg_case : exists K, forall N e period w, (K <= N)%nat -> fed_net star3 e 2%nat -> synchronous e ->
  let r := run star3 period (fed N (fedavg_init star3 2%nat start) (fed_round star3 e 2%nat (fedavg_alg qgrad 1 (1/2)) None)) 0 w in
  r_out r = Finished /\ exists x, state_is (snd (r_world r)) 2%nat x /\ nrm2 1 (vsub x (fun _ => 3/2)) <= / 1000.
Proof.
  apply (C91_fedavg_reaches star3 2%nat 1 qcost qg qgrad 1 1 (1/2)); try lra; auto using star3_ne, qgrad_ok, middle_minimises. intros; apply qcost_ok.
Qed.
Example C91_scaffold_case (c0 := fun i => if Nat.eqb i 2 then inferred_server star3 start else start i) :
  exists K, forall N e period w, (K <= N)%nat -> fed_net star3 e 2%nat -> synchronous e ->
  let r := run star3 period (fed N (scaffold_init star3 2%nat start c0) (fed_round star3 e 2%nat (scaffold_alg star3 qgrad 1 (1/2) 2) None)) 0 w in
  r_out r = Finished /\ exists x, state_is (snd (r_world r)) 2%nat x /\ nrm2 1 (vsub x (fun _ => 3/2)) <= / 1000.
Proof.
  apply (C91_scaffold_reaches star3 2%nat 1 qcost qg qgrad 1 1 (1/2) 2); try lra; auto using star3_ne, qgrad_ok, middle_minimises.
  - intros; apply qcost_ok.
Qed.
(** Client 0 has one sample, client 1 has three: FedNova goes to 3/4. *)
Definition one_three (i : agent_id) : R := if Nat.eqb i 0 then 1 else 3.
Lemma one_three_minimises : minimises (agents star3) (fun i x => one_three i * qcost i x) (fun _ => 3 / 4).
Proof.
  intro z. rewrite star3_clients. unfold qcost, one_three. cbn [map Nat.eqb]. rewrite !rsum_cons. unfold rsum, nrm2, dot, sumn, vsub, centre. cbn.
  pose proof (Rle_0_sqr (z 0%nat - 3/4)) as Q. unfold Rsqr in Q. nra.
Qed.
Example C91_fednova_case : exists K, forall N e period w, (K <= N)%nat -> fed_net star3 e 2%nat -> synchronous e ->
  let r := run star3 period (fed N (fedavg_init star3 2%nat start) (fed_round star3 e 2%nat (fednova_alg qgrad (fun _ => 1%nat) one_three (1/2) None None None) None)) 0 w in
  r_out r = Finished /\ exists x, state_is (snd (r_world r)) 2%nat x /\ nrm2 1 (vsub x (fun _ => 3/4)) <= / 100.
Proof.
  apply (C91_fednova_reaches star3 2%nat 1 qcost qg qgrad 1 1 (1/2)); try lra; auto using star3_ne, qgrad_ok, one_three_minimises; [intros; apply qcost_ok|].
  intros i _. unfold one_three. destruct (Nat.eqb i 0); lra.
Qed.
(** So with unequal sample counts it does not go to the minimiser of the summed
    costs, which is what the metrics compare with. *)
Theorem C91_fednova_optimum_refuted : ~ (forall t sv n F G grad m L a count xs x0 eps, agents t <> [] -> (0 < n)%nat ->
  (forall i, In i (agents t) -> smooth_strongly_convex n (F i) (G i) m L) -> 0 < m -> 0 < L -> exact_gradients grad G ->
  0 < a -> a * L < 2 -> (forall i, In i (agents t) -> 0 < count i) -> minimises (agents t) F xs -> 0 < eps ->
  exists K, forall N e period w, (K <= N)%nat -> fed_net t e sv -> synchronous e ->
    let r := run t period (fed N (fedavg_init t sv x0) (fed_round t e sv (fednova_alg grad (fun _ => 1%nat) count a None None None) None)) 0 w in
    r_out r = Finished /\ exists x, state_is (snd (r_world r)) sv x /\ nrm2 n (vsub x xs) <= eps).
Proof.
  intros H. destruct (H star3 2%nat 1%nat qcost qg qgrad 1 1 (1/2) one_three (fun _ => 3/2) start (/ 100)) as (K1 & H1); try lra; auto using star3_ne, qgrad_ok, middle_minimises.
  { intros; apply qcost_ok. } { intros i _. unfold one_three. destruct (Nat.eqb i 0); lra. }
  destruct C91_fednova_case as (K2 & H2).
  assert (NET : fed_net star3 sync_env 2%nat) by (split; [apply star3_wf|split; reflexivity]).
  destruct (H1 (Nat.max K1 K2) sync_env (fun _ => 1%nat) blank ltac:(lia) NET sync_ok) as (_ & x & S1 & B1).
  destruct (H2 (Nat.max K1 K2) sync_env (fun _ => 1%nat) blank ltac:(lia) NET sync_ok) as (_ & y & S2 & B2).
  assert (E : x = y) by (unfold state_is in S1, S2; congruence). subst y. clear - B1 B2. unfold nrm2, dot, sumn, vsub in B1, B2. cbn in B1, B2. pose proof (Rle_0_sqr (x 0%nat - 9/8)) as Q. unfold Rsqr in Q. nra.
Qed.
(** Both clients with the cost 1/2 |x|^2, one of them inactive, uploads lost. *)
Example C91_common_case : exists X,
  throughout star3 (fun _ => 1%nat) (fed 10 (fedavg_init star3 2%nat start) (fed_round star3 lossy_fed 2%nat (fedavg_alg (fun _ _ x => x) 3 (1/2)) first_only)) blank
    (fun k st => state_is st 2%nat (X k)) /\ X 0%nat = start 2%nat /\
  forall k, (k < 10)%nat -> exists P R, participation star3 lossy_fed first_only P R /\ (R = [] -> X (S k) = X k) /\
    (R <> [] -> nrm2 1 (vsub (X (S k)) vzero) <= (1 - 1/2 * 1 * (2 - 1/2 * 1)) ^ 3 * nrm2 1 (vsub (X k) vzero)).
Proof.
  apply (C91_fedavg_common_minimiser star3 lossy_fed 2%nat (fun _ => 1%nat) 10 blank 1 (fun _ x => nrm2 1 x / 2) (fun _ x => x)); try lra; auto using star3_lossy, first_proper.
  - intros i _ x h. rewrite nrm2_add. pose proof (nrm2_nonneg 1 h). lra.
  - now intros k i x.
  - intros i _ z. pose proof (nrm2_nonneg 1 z). assert (E0 : nrm2 1 vzero = 0) by (unfold nrm2, dot, sumn, vzero; cbn; lra). lra.
  - split; reflexivity.
Qed.
Print Assumptions C91_fedavg_linear.
Print Assumptions C91_scaffold_linear.
Print Assumptions C91_fedavg_common_minimiser.
Print Assumptions C91_fedavg_reaches.
Print Assumptions C91_scaffold_reaches.
Print Assumptions C39_fedprox_one_step.
Print Assumptions C91_fedprox_linear.
Print Assumptions C91_fednova_linear.
Print Assumptions C91_fednova_reaches.
Print Assumptions C91_fednova_optimum_refuted.
