(** C50 and C62: the metrics that report counters. *)
From Coq Require Import List Bool Arith ZArith QArith Qcanon Qreals Lia Lra Reals.
From Verif.Model Require Import PyDict History Messages Network Runner Counting Schemes Vec P2P Metrics.
From Verif.Model Require Fed.
From Verif.Spec Require Import HistorySpec NetworkSpec RunnerSpec P2PSpec AlgSpec FedSpec MetricsSpec.
From Verif.Proofs Require Import PyDictProofs HistoryProofs NetworkProofs MetricsProofs.
From Verif.Props Require Import RunnerProps MetricsProps FedProps.
Import ListNotations.
Local Open Scope R_scope.

Lemma nv_agents_eq t cost tr : nv_agents (from_network t cost tr) = map (from_agent cost tr) (agents t).
Proof.
  unfold nv_agents, from_network, agents, is_server. cbn [nv_server nv_nodes]. destruct (t_server t) as [s|].
  - induction (t_nodes t) as [|a l IH]; cbn [map filter]; auto. cbn [v_id from_agent]. destruct (negb (a =? s)%nat); cbn [map]; rewrite IH; reflexivity.
  - induction (t_nodes t) as [|a l IH]; cbn [map filter negb]; auto. now rewrite IH.
Qed.

(** On the view of a finished trial each counting metric reports, at any
    iteration, the counters its agents ended with: the message counters of every
    node (the server too), x updates and oracle calls of every agent but the
    server, in the order of the graph. *)
Theorem C62_counters_reported : forall t cost tr id it,
  let nv := from_network t cost tr in
  let st := tr_net tr in
  m_compute (SentMessages id) nv it = Ok (map (fun a => Fin (Q2R (a_sent (n_agents st a)))) (t_nodes t)) /\
  m_compute (ReceivedMessages id) nv it = Ok (map (fun a => Fin (Q2R (a_recv (n_agents st a)))) (t_nodes t)) /\
  m_compute (SentMessagesDropped id) nv it = Ok (map (fun a => Fin (Q2R (a_drop (n_agents st a)))) (t_nodes t)) /\
  m_compute (XUpdates id) nv it = Ok (map (fun a => Fin (INR (a_nx (n_agents st a)))) (filter (fun a => negb (is_server t a)) (t_nodes t))) /\
  forall k, m_compute (Calls id k) nv it = Ok (map (fun a => Fin (INR (c_count (tr_count tr) a k))) (filter (fun a => negb (is_server t a)) (t_nodes t))).
Proof.
  intros t cost tr id it nv st. unfold nv. cbn [m_compute SentMessages ReceivedMessages SentMessagesDropped XUpdates Calls].
  rewrite nv_agents_eq. cbn [from_network nv_nodes]. rewrite !map_map.
  repeat split; try reflexivity. intro k. rewrite map_map. reflexivity.
Qed.

Lemma fold_max_spec l : forall m, let r := fold_left Z.max l m in (r = m \/ In r l) /\ (m <= r)%Z /\ forall k, In k l -> (k <= r)%Z.
Proof.
  induction l as [|x l IH]; intro m; cbn [fold_left]; cbn zeta.
  - split; [now left|]. split; [lia|]. intros k [].
  - destruct (IH (Z.max m x)) as (A & B & C). cbn zeta in *. split; [|split; [lia|]].
    + destruct A as [A|A]; [|right; now right]. rewrite A. destruct (Z.max_spec m x) as [(_ & ->)|(_ & ->)]; [right; left; auto|now left].
    + intros k [->|I]; [lia|now apply C].
Qed.
Lemma max_has a m : recorded a -> h_max (v_hist a) = Ok m <-> has_iteration a m /\ forall k, has_iteration a k -> (k <= m)%Z.
Proof.
  intros (log & E). destruct (h_max_spec vec log (h_run log) (hinv_run _ log)) as (A & _ & _). rewrite E, A.
  assert (W : forall log', v_hist a = h_run log' -> forall k, written log' k <-> written log k).
  { intros log' E' k. assert (H : h_run log' = h_run log) by congruence. destruct (hinv_run _ log) as (_ & _ & _ & _ & W1 & _). destruct (hinv_run _ log') as (_ & _ & _ & _ & W2 & _).
    rewrite <- W1, <- W2, H. reflexivity. }
  split.
  - intros (H1 & H2). split; [now exists log|]. intros k (log' & E' & H). apply H2. now apply (W log').
  - intros ((log' & E' & H1) & H2). split; [now apply (W log')|]. intros k Hk. apply H2. now exists log.
Qed.
Lemma rounds_spec l r : Forall recorded l -> l <> [] -> observed_rounds l = Ok r ->
  (exists a, In a l /\ has_iteration a r) /\ forall a k, In a l -> has_iteration a k -> (k <= r)%Z.
Proof.
  intros RC NE H. destruct l as [|a0 l0]; [congruence|]. unfold observed_rounds in H. apply rbind_ok in H. destruct H as (ms & M & H). injection H as H.
  apply mapR_ok in M. inversion M as [|? m0 ? ms0 M0 MS]; subst. cbn [hd tl]. destruct (fold_max_spec ms0 m0) as (A & B & C). cbn zeta in *. set (r := fold_left Z.max ms0 m0) in *. clearbody r.
  inversion RC as [|? ? R0 RS]; subst. apply (max_has _ _ R0) in M0. clear M RC NE.
  assert (G : (r = m0 \/ exists a, In a l0 /\ has_iteration a r) /\ forall a k, In a l0 -> has_iteration a k -> (k <= r)%Z).
  { split.
    - destruct A as [A|A]; [now left|]. right. clear - A RS MS. induction MS as [|a m l ms H MS IH]; [destruct A|]. inversion RS; subst. destruct A as [->|A].
      + exists a. split; [now left|]. now apply (max_has a r).
      + destruct (IH A H3) as (b & I & J). exists b. split; [now right|auto].
    - clear - C RS MS. induction MS as [|a m l ms H MS IH]; [intros ? ? []|]. inversion RS; subst. intros b k [<-|I] J.
      + apply (max_has a m) in H; auto. pose proof (proj2 H k J). pose proof (C m (or_introl eq_refl)). lia.
      + apply (IH (fun k I => C k (or_intror I)) H3 b k I J). }
  destruct G as (G1 & G2). split.
  - destruct G1 as [->|(a & I & J)]; [exists a0; split; [now left|apply M0]|exists a; split; [now right|auto]].
  - intros a k [<-|I] J; [|eauto]. pose proof (proj2 M0 k J). lia.
Qed.
Lemma fold_nsel l : forall acc, fold_left (fun s a => s + v_nsel a)%nat l acc = (acc + list_sum (map v_nsel l))%nat.
Proof. induction l as [|a l IH]; intro acc; cbn; [lia|]. rewrite IH. unfold list_sum. cbn. lia. Qed.

(** The fraction of selected clients is the number of selections divided by
    (rounds * clients), rounds being the last iteration any client recorded; it
    lies in [0, 1] if no client counts more selections than there were rounds. It
    is nan if nothing happened, and an error without a server. *)
Theorem C50_fraction_selected : forall id nv it vals, let l := nv_agents nv in
  Forall recorded l -> l <> [] -> m_compute (FractionSelected id) nv it = Ok vals ->
  nv_server nv <> None /\
  exists rounds, (exists a, In a l /\ has_iteration a rounds) /\ (forall a k, In a l -> has_iteration a k -> (k <= rounds)%Z) /\
    (rounds = 0%Z -> vals = [NaN]) /\
    (rounds <> 0%Z -> exists q, vals = [Fin q] /\ q * (IZR rounds * INR (length l)) = INR (list_sum (map v_nsel l)) /\
      ((0 < rounds)%Z -> (forall a, In a l -> (Z.of_nat (v_nsel a) <= rounds)%Z) -> 0 <= q <= 1)).
Proof.
  intros id nv it vals l RC NE H. cbn [FractionSelected m_compute] in H. destruct (nv_server nv) as [s|]; [|discriminate]. split; [discriminate|].
  apply rbind_ok in H. destruct H as (v & H & E). injection E as <-. fold l in H. unfold fraction_selected in H. apply rbind_ok in H. destruct H as (r & HR & H).
  destruct (rounds_spec l r RC NE HR) as (A & B). exists r. split; [exact A|]. split; [exact B|].
  assert (LN : (length l =? 0)%nat = false) by (destruct l; [congruence|reflexivity]). rewrite LN, orb_false_r in H.
  pose proof (INR_pos l NE) as LP.
  destruct (Z.eqb_spec r 0) as [Z0|NZ]; injection H as <-; (split; [intro; try congruence; auto|]); [intro; congruence|].
  intros _. eexists. split; [reflexivity|]. rewrite fold_nsel. cbn [Nat.add].
  assert (RZ : IZR r <> 0) by (apply not_0_IZR; auto). split; [field; lra|].
  intros P C. apply IZR_lt in P. assert (D : 0 < IZR r * INR (length l)) by (apply Rmult_lt_0_compat; auto). split.
  - apply Rmult_le_pos; [apply pos_INR|]. left. now apply Rinv_0_lt_compat.
  - apply (Rmult_le_reg_r _ _ _ D). unfold Rdiv. rewrite Rmult_assoc, Rinv_l, Rmult_1_r, Rmult_1_l by lra.
    clear - C. induction l as [|a l IH]; [cbn; lra|]. cbn [map length]. rewrite S_INR. change (list_sum (v_nsel a :: map v_nsel l)) with (v_nsel a + list_sum (map v_nsel l))%nat.
    rewrite plus_INR. pose proof (C a (or_introl eq_refl)) as Q. apply IZR_le in Q. rewrite <- INR_IZR_INZ in Q.
    assert (W := IH (fun a I => C a (or_intror I))). lra.
Qed.
Theorem C50_fraction_without_server : forall id nv it, nv_server nv = None -> m_compute (FractionSelected id) nv it = ValueError.
Proof. intros id nv it H. cbn. now rewrite H. Qed.

Lemma fed_rounds (st : net vec) l : forall n, Fed.observed_rounds st l = Ok n ->
  exists ms, Forall2 (fun a m => h_max (a_hist (n_agents st a)) = Ok m) l ms /\ n = fold_right Z.max 0%Z ms.
Proof.
  induction l as [|a l IH]; intros n H; cbn [Fed.observed_rounds] in H.
  - injection H as <-. now exists [].
  - destruct (h_max (a_hist (n_agents st a))) as [m| |] eqn:E; try discriminate. destruct (Fed.observed_rounds st l) as [r| |]; try discriminate. injection H as <-.
    destruct (IH r eq_refl) as (ms & F & ->). exists (m :: ms). split; [now constructor|reflexivity].
Qed.
Lemma fold_max_both l : forall m, Z.max m (fold_right Z.max 0 l)%Z <> 0%Z -> fold_left Z.max l m = Z.max m (fold_right Z.max 0 l)%Z.
Proof.
  enough (G : forall m, Z.max 0 (fold_left Z.max l m) = Z.max m (Z.max 0 (fold_right Z.max 0%Z l)) \/ False).
  { intros m NZ. destruct (G m) as [H|[]]. assert (Q : (0 <= fold_right Z.max 0 l)%Z) by (clear; induction l; cbn; lia). lia. }
  induction l as [|x l IH]; intro m; left; cbn [fold_left fold_right]; [|destruct (IH (Z.max m x)) as [->|[]]]; lia.
Qed.

(** After a whole run of a federated algorithm the metric reports the fraction of
    C40. *)
Theorem C50_fraction_of_run : forall t e sv period grad prox sch N A w cost cnt id it, wf_topo t -> t_server t = Some sv -> proper sch -> fed_class t e grad prox sv sch N A ->
  (1 <= N)%nat -> agents t <> [] ->
  let r := run t period A 0 w in r_out r = Finished ->
  exists q, m_compute (FractionSelected id) (from_network t cost (mkTrial (snd (r_world r)) cnt)) it = Ok [Fin q] /\ 0 <= q <= 1 /\
    q * (INR N * INR (length (agents t))) = INR (fold_left Nat.add (map (fun i => a_nsel (n_agents (snd (r_world r)) i)) (agents t)) O).
Proof.
  intros t e sv period grad prox sch N A w cost cnt id it WF SV PR FC N1 NE r O.
  destruct (C40_fraction t e sv period grad prox sch N A w WF PR FC N1 NE O) as (q & F & B & E). fold r in F, E. exists q. split; [|split; [exact B|exact E]].
  cbn [FractionSelected m_compute]. change (nv_server (from_network t cost (mkTrial (snd (r_world r)) cnt))) with (t_server t). rewrite SV, nv_agents_eq.
  set (st := snd (r_world r)) in *. clearbody st.
  unfold Fed.fraction_selected in F. destruct (Fed.observed_rounds st (agents t)) as [n| |] eqn:OB; try discriminate.
  destruct ((n =? 0)%Z || match agents t with [] => true | _ => false end) eqn:Z0; [discriminate|]. apply orb_false_iff in Z0. destruct Z0 as (Z0 & _).
  assert (OK : observed_rounds (map (from_agent cost (mkTrial st cnt)) (agents t)) = Ok n).
  { destruct (fed_rounds st (agents t) n OB) as (ms & M & EN). apply Z.eqb_neq in Z0. destruct (agents t) as [|a l]; [congruence|]. inversion M as [|? m0 ? ms0 M0 MS]; subst ms.
    unfold observed_rounds. rewrite (proj2 (mapR_ok _ _ (m0 :: ms0))); [cbn [map rbind hd tl]|clear - M; induction M; cbn [map]; constructor; auto].
    f_equal. rewrite EN. cbn [fold_right] in EN |- *. apply fold_max_both. intro. apply Z0. congruence. }
  unfold fraction_selected. rewrite OK. cbn [rbind]. rewrite map_length, Z0. replace (length (agents t) =? 0)%nat with false by (destruct (agents t); [congruence|reflexivity]).
  cbn [orb rbind]. injection F as <-. do 5 f_equal. clear. generalize 0%nat. induction (agents t) as [|a l IH]; intro k; cbn [map fold_left]; [reflexivity|]. apply IH.
Qed.

(** ---- cases ---- *)
(** star of a server and two clients; client 0 was selected twice in 3 rounds,
    client 1 once, and the counters differ *)
Definition cnt_agent (a : agent_id) : agent vec :=
  mkAgent (Some (cst 0)) (h_run (if Nat.eqb a 1 then log2 else log1)) [] s_empty (a + 1) (Q2Qc (inject_Z (Z.of_nat (a + 2)))) (Q2Qc (inject_Z (Z.of_nat (a + 5)))) (Q2Qc (inject_Z (Z.of_nat (a + 9)))) (2 - a).
Definition cnt_trial : trial := mkTrial (mkNet cnt_agent 3 None [] 0 []) c_init.
Example C62_counters_case : m_compute (XUpdates 0) (from_network star3 duo_cost cnt_trial) 2 = Ok [Fin 1; Fin 2] /\
  m_compute (SentMessages 0) (from_network star3 duo_cost cnt_trial) 2 = Ok [Fin 4; Fin 2; Fin 3].
Proof.
  destruct (C62_counters_reported star3 duo_cost cnt_trial 0 2) as (S & _ & _ & X & _). rewrite S, X. split; f_equal.
  cbn - [Q2R]. unfold Q2R. cbn. repeat (f_equal; try lra).
Qed.
Example C50_fraction_case : m_compute (FractionSelected 0) (from_network star3 duo_cost cnt_trial) 2 = Ok [Fin (INR 3 / (3 * INR 2))] /\
  Forall recorded (nv_agents (from_network star3 duo_cost cnt_trial)).
Proof. split; [reflexivity|]. repeat constructor; [exists log1|exists log2]; reflexivity. Qed.
Example C50_fraction_half : exists q, m_compute (FractionSelected 0) (from_network star3 duo_cost cnt_trial) 2 = Ok [Fin q] /\ q = (1 / 2)%R.
Proof. eexists. split; [apply C50_fraction_case|]. cbn. lra. Qed.

Print Assumptions C62_counters_reported.
Print Assumptions C50_fraction_selected.
Print Assumptions C50_fraction_without_server.
Print Assumptions C50_fraction_of_run.
