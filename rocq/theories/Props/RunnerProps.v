(** C04, C31, C32: [Algorithm.run]. *)
From Coq Require Import String List Bool Arith ZArith Lia.
From Verif.Model Require Import PyDict History Messages Network Runner.
From Verif.Spec Require Import HistorySpec NetworkSpec RunnerSpec.
From Verif.Proofs Require Import PyDictProofs HistoryProofs MessagesProofs NetworkProofs NetworkInv RunnerProofs.
Import ListNotations.
Open Scope nat_scope.

Lemma callback_index {V S} (l : list (call V S)) k : In k (callback_indices l) <-> exists w, In (CCallback k w) l.
Proof.
  unfold callback_indices. rewrite in_flat_map. split.
  - intros ([w|j w|j w] & I & H); simpl in H; try tauto. destruct H as [<-|[]]. eauto.
  - intros (w & I). exists (CCallback k w). simpl. auto.
Qed.
Lemma callback_unique {V S} (l : list (call V S)) k w w' : NoDup (callback_indices l) ->
  In (CCallback k w) l -> In (CCallback k w') l -> w = w'.
Proof.
  induction l as [|c l IH]; simpl; [tauto|]. intros ND I I'.
  assert (ND' : NoDup (callback_indices l)).
  { destruct c; simpl in ND; auto. now inversion ND. }
  destruct I as [->|I], I' as [E|I'].
  - congruence.
  - exfalso. simpl in ND. inversion ND; subst. apply H1. apply callback_index. eauto.
  - subst c. exfalso. simpl in ND. inversion ND; subst. apply H1. apply callback_index. eauto.
  - auto.
Qed.

(** C04. History keys are 0 and the due iterations; the value at [n+1] is the
    agent's x as the callback of iteration [n] sees it. *)
Theorem C04_snapshot_schedule : forall (V S : Type) t (e : env V) period (A : alg V S) w a x0,
  NoDup (t_nodes t) -> In a (t_nodes t) -> client_code t e A ->
  initialised (snd (al_init A w)) a x0 ->
  let r := run t period A 0 w in
  r_out r = Finished ->
  let h := a_hist (n_agents (snd (r_world r)) a) in
  (forall k, In k (h_keylist h) <-> k = 0%Z \/ exists n, k = Z.of_nat n /\ due (period a) (al_iters A) n) /\
  h_get h 0 = Ok x0 /\
  (forall n, n < al_iters A -> exists w' v, In (CCallback n w') (r_calls r) /\
     a_x (n_agents (snd w') a) = Some v /\
     (due (period a) (al_iters A) (n + 1) -> h_get h (Z.of_nat (n + 1)) = Ok v)).
Proof.
  intros V S t e period A w a x0 ND Ha CC (X0 & H0) r O h.
  set (w0 := al_init A w) in *.
  set (L := loop t period A (al_iters A) 0 w0) in *.
  assert (RE : r = mkRes (r_out L) (CInit w :: r_calls L) (r_world L)).
  { unfold r, run. replace (Z.of_nat (al_iters A) <? 0)%Z with false by (symmetry; apply Z.ltb_ge; lia).
    cbn [Z.ltb Z.eqb orb Z.compare Z.to_nat]. rewrite Nat.sub_0_r. reflexivity. }
  clearbody r. subst r. cbn [r_out r_calls r_world] in *.
  assert (OL : r_out L = Finished) by exact O.
  destruct (loop_hist V S t e period A ND CC a Ha (al_iters A) 0 w0 [(0%Z, x0)]) as (HI & XS); auto.
  { rewrite H0. apply hinv_run. } { congruence. }
  fold L in HI, XS. fold h in HI.
  pose proof (loop_indices V S t period A (al_iters A) 0 w0) as (LI & _). fold L in LI. rewrite OL in LI. destruct LI as (_ & CI).
  assert (UNI : NoDup (callback_indices (r_calls L))) by (rewrite CI; apply seq_NoDup).
  (* every n < N has a callback with a value *)
  assert (CB : forall n, n < al_iters A -> exists w' v, In (CCallback n w') (r_calls L) /\ a_x (n_agents (snd w') a) = Some v).
  { intros n Hn. assert (I : In n (callback_indices (r_calls L))) by (rewrite CI; apply in_seq; lia).
    apply callback_index in I. destruct I as (w' & I). specialize (XS n w' I).
    destruct (a_x (n_agents (snd w') a)) as [v|] eqn:E; [|congruence]. eauto. }
  set (ws := [(0%Z, x0)] ++ writes V S period A a (r_calls L)) in *.
  assert (WR : forall k v, In (k, v) (writes V S period A a (r_calls L)) <->
     exists n w', k = Z.of_nat (n + 1) /\ In (CCallback n w') (r_calls L) /\ a_x (n_agents (snd w') a) = Some v /\
        duebk V S A (period a) (n + 1) = true).
  { intros k v. unfold writes. rewrite in_flat_map. split.
    - intros ([?|j w'|j w'] & I & H); simpl in H; try tauto.
      destruct (a_x (n_agents (snd w') a)) as [u|] eqn:E; [|destruct H].
      destruct (duebk V S A (period a) (j + 1)) eqn:D; [|destruct H]. destruct H as [[= <- <-]|[]]. exists j, w'. auto.
    - intros (n & w' & -> & I & E & D). exists (CCallback n w'). split; auto. simpl. rewrite E, D. left; auto. }
  assert (DUE : forall n, duebk V S A (period a) (n + 1) = true /\ n < al_iters A <-> due (period a) (al_iters A) (n + 1)).
  { intro n. unfold duebk, due. rewrite orb_true_iff, !Nat.eqb_eq. intuition lia. }
  assert (BND : forall n w', In (CCallback n w') (r_calls L) -> n < al_iters A).
  { intros n w' I. assert (J : In n (callback_indices (r_calls L))) by (apply callback_index; eauto).
    rewrite CI in J. apply in_seq in J. lia. }
  assert (WRK : forall k, written ws k <-> k = 0%Z \/ exists n, k = Z.of_nat n /\ due (period a) (al_iters A) n).
  { intro k. unfold written, ws. split.
    - intros (P & v & I). simpl in I. destruct I as [[= <- <-]|I]; [auto|].
      apply WR in I. destruct I as (n & w' & -> & I & E & D). right. exists (n + 1). split; auto. apply DUE. eauto.
    - intros [->|(n & -> & D)].
      + split; [lia|]. exists x0. left; auto.
      + split; [lia|]. pose proof D as ((D1 & D2) & _). destruct n as [|n]; [lia|].
        destruct (CB n) as (w' & v & I & E); [lia|]. exists v. right. apply WR. exists n, w'.
        replace (Datatypes.S n) with (n + 1) in * by lia. repeat split; auto. apply DUE; auto. }
  (* exact hits *)
  assert (GET : forall k v, last_write ws k v -> h_get h k = Ok v).
  { intros k v LW. assert (P : (0 <= k)%Z) by apply LW. apply (h_get_spec V ws h k HI P). exists k. split; auto.
    split; [|split; [lia|auto]]. destruct LW as (_ & l1 & l2 & E & _). split; auto. exists v. rewrite E. apply in_app_iff; simpl; auto. }
  (* writes have unique keys *)
  assert (LWU : forall k v, In (k, v) ws -> (0 <= k)%Z -> (forall v', In (k, v') ws -> v' = v) -> last_write ws k v).
  { clear. intros k v I P U. split; auto. revert I U. induction ws as [|[k0 v0] l IH] using rev_ind; intros I U; [destruct I|].
    destruct (Z.eq_dec k0 k) as [->|NE].
    - exists l, []. split; [|intros v' []]. f_equal. f_equal. f_equal. apply U. apply in_app_iff; simpl; auto.
    - assert (I' : In (k, v) l). { apply in_app_iff in I. destruct I as [I|[[= -> _]|[]]]; auto. congruence. }
      destruct IH as (l1 & l2 & -> & Hn); auto.
      { intros v' J. apply U. apply in_app_iff; auto. }
      exists l1, (l2 ++ [(k0, v0)]). split; [now rewrite <- app_assoc|].
      intros v' J. apply in_app_iff in J. destruct J as [J|[[= -> _]|[]]]; [now apply (Hn v')|congruence]. }
  split; [|split].
  - intro k. pose proof HI as (_ & _ & _ & _ & W & _). unfold h_keylist. rewrite W. apply WRK.
  - apply GET. apply LWU; [left; auto|lia|]. intros v' [[= ->]|I]; auto. apply WR in I. destruct I as (n & w' & E & _). lia.
  - intros n Hn. destruct (CB n Hn) as (w' & v & I & E). exists w', v.
    split; [right; exact I|]. split; auto.
    intro D. apply GET. apply LWU; [|lia|].
    + right. apply WR. exists n, w'. repeat split; auto. now apply DUE.
    + intros v' [[= J _]|J]; [lia|]. apply WR in J. destruct J as (n' & w'' & EK & I' & E' & _).
      assert (n' = n) by lia. subst n'. assert (w'' = w') by (eapply callback_unique; eauto). subst. congruence.
Qed.

(** C31 *)
Theorem C31_rejects_bad_start : forall (V S : Type) t period (A : alg V S) start w,
  (r_out (run t period A start w) = Rejected <-> (start < 0 \/ start > Z.of_nat (al_iters A))%Z) /\
  (r_out (run t period A start w) = Rejected -> r_world (run t period A start w) = w /\ r_calls (run t period A start w) = []).
Proof.
  intros V S t period A start w. unfold run.
  destruct (Z.ltb_spec start 0); simpl; [split; [split; auto|auto]|].
  destruct (Z.ltb_spec (Z.of_nat (al_iters A)) start); simpl; [split; [split; auto; intros; right; lia|auto]|].
  assert (X : r_out (if (start =? 0)%Z then
     let r := loop t period A (al_iters A - Z.to_nat start) (Z.to_nat start) (al_init A w) in mkRes (r_out r) (CInit w :: r_calls r) (r_world r)
     else loop t period A (al_iters A - Z.to_nat start) (Z.to_nat start) w) <> Rejected).
  { destruct (start =? 0)%Z; cbn zeta; cbn [r_out];
    match goal with |- context [loop t period A ?n ?k ?u] => destruct (loop_indices V S t period A n k u) as (X & _) end;
    destruct (r_out _); congruence || contradiction. }
  split; [split; [intro Y; contradiction|lia]|intro; contradiction].
Qed.

(** Accepted runs: initialise iff starting at 0, and first; then every
    iteration once, in order, each announced once; a raising step ends the run
    without being announced. *)
Theorem C31_iterations_once_in_order : forall (V S : Type) t period (A : alg V S) (start : nat) w,
  start <= al_iters A ->
  let r := run t period A (Z.of_nat start) w in
  (init_calls (r_calls r) = if start =? 0 then [w] else []) /\
  (start = 0 -> exists rest, r_calls r = CInit w :: rest) /\
  match r_out r with
  | Finished => step_indices (r_calls r) = seq start (al_iters A - start) /\
                callback_indices (r_calls r) = seq start (al_iters A - start)
  | Raised j => start <= j < al_iters A /\ step_indices (r_calls r) = seq start (j - start + 1) /\
                callback_indices (r_calls r) = seq start (j - start)
  | Rejected => False
  end.
Proof.
  intros V S t period A start w H r. unfold r, run.
  replace (Z.of_nat start <? 0)%Z with false by (symmetry; apply Z.ltb_ge; lia).
  replace (Z.of_nat (al_iters A) <? Z.of_nat start)%Z with false by (symmetry; apply Z.ltb_ge; lia).
  cbn [orb]. rewrite Nat2Z.id.
  replace (Z.of_nat start =? 0)%Z with (start =? 0) by (destruct (Nat.eqb_spec start 0); symmetry; [apply Z.eqb_eq|apply Z.eqb_neq]; lia).
  destruct (Nat.eqb_spec start 0); cbn zeta; cbn [r_out r_calls].
  - destruct (loop_indices V S t period A (al_iters A - start) start (al_init A w)) as (X & Y).
    split; [cbn [init_calls flat_map]; fold (init_calls (r_calls (loop t period A (al_iters A - start) start (al_init A w)))); now rewrite Y|].
    split; [eauto|]. destruct (r_out _); auto. destruct X as (X1 & X2). split; [lia|auto].
  - destruct (loop_indices V S t period A (al_iters A - start) start w) as (X & Y).
    split; [auto|]. split; [tauto|]. destruct (r_out _); auto. destruct X as (X1 & X2). split; [lia|auto].
Qed.

(** Every step starts with empty mailboxes and an undecided active set. *)
Theorem C31_steps_start_fresh : forall (V S : Type) t period (A : alg V S) start w k w',
  In (CStep k w') (r_calls (run t period A start w)) ->
  n_iter (snd w') = k /\ n_cache (snd w') = None /\
  forall r s c, In r (t_nodes t) -> sees_nothing (snd w') r s c.
Proof.
  intros V S t period A start w k w' I.
  assert (J : exists w0, w' = (fst w0, step t k (snd w0))).
  { unfold run in I. destruct (_ || _)%bool; [destruct I|]. destruct (start =? 0)%Z; cbn zeta in I; cbn [r_calls] in I.
    - destruct I as [I|I]; [discriminate|]. eapply loop_fresh; eauto.
    - eapply loop_fresh; eauto. }
  destruct J as (w0 & ->). cbn [snd]. destruct (step_spec V t k (snd w0)) as (A1 & A2 & _ & _ & _ & D).
  split; auto. split; auto. intros r s c Hr. unfold sees_nothing. rewrite D. apply memb_In in Hr. rewrite Hr. reflexivity.
Qed.

(** C32: a run resumed from what any callback saw ends like the original run:
    same outcome, same world (network, histories, counters, messages, algorithm
    state), same remaining calls. *)
Theorem C32_resume_equals_uninterrupted : forall (V S : Type) t period (A : alg V S) start w k w',
  In (CCallback k w') (r_calls (run t period A start w)) ->
  let r := run t period A start w in
  let r' := run t period A (Z.of_nat (k + 1)) w' in
  r_out r' = r_out r /\ r_world r' = r_world r /\
  exists done, r_calls r = done ++ CCallback k w' :: r_calls r'.
Proof.
  intros V S t period A start w k w' I r r'.
  assert (J : exists w0 pre, let L := loop t period A (al_iters A - Z.to_nat start) (Z.to_nat start) w0 in
     Z.to_nat start <= al_iters A /\ r_out r = r_out L /\ r_world r = r_world L /\ r_calls r = pre ++ r_calls L /\ In (CCallback k w') (r_calls L)).
  { unfold r. unfold run in I |- *. destruct (_ || _)%bool eqn:E; [destruct I|].
    apply orb_false_iff in E. destruct E as (_ & E). apply Z.ltb_ge in E.
    destruct (start =? 0)%Z; cbn zeta in *; cbn [r_calls r_out r_world] in *.
    - destruct I as [I|I]; [discriminate|]. exists (al_init A w), [CInit w]. repeat split; auto. lia.
    - exists w, []. repeat split; auto. lia. }
  destruct J as (w0 & pre & SN & A1 & A2 & A3 & A4). cbn zeta in *.
  destruct (loop_resume V S t period A _ _ _ _ _ A4) as (B & C). cbn zeta in C.
  assert (R' : r' = loop t period A (al_iters A - (k + 1)) (k + 1) w').
  { unfold r', run.
    replace (Z.of_nat (k + 1) <? 0)%Z with false by (symmetry; apply Z.ltb_ge; lia).
    replace (Z.of_nat (al_iters A) <? Z.of_nat (k + 1))%Z with false by (symmetry; apply Z.ltb_ge; lia).
    cbn [orb]. rewrite Nat2Z.id. replace (Z.of_nat (k + 1) =? 0)%Z with false by (symmetry; apply Z.eqb_neq; lia). reflexivity. }
  replace (Z.to_nat start + (al_iters A - Z.to_nat start) - (k + 1)) with (al_iters A - (k + 1)) in C by lia.
  rewrite <- R' in C. destruct C as (C1 & C2 & p2 & C3).
  split; [congruence|]. split; [congruence|]. exists (pre ++ p2). now rewrite A3, C3, <- app_assoc.
Qed.

(** C32/C46: a finished run of N >= 1 iterations extended to N' ends, up to
    histories, like a run of N' iterations from the start; histories agree at
    every iteration except the extra snapshot forced at N. *)
Theorem C32_extending_equals_longer_run : forall (V S : Type) t (e : env V) period (A A' : alg V S) w,
  NoDup (t_nodes t) -> client_code t e A -> hist_agnostic A ->
  (forall u, al_init A' u = al_init A u) -> (forall k u, al_step A' k u = al_step A k u) ->
  1 <= al_iters A <= al_iters A' ->
  let N := Z.of_nat (al_iters A) in
  let first := run t period A 0 w in
  r_out first = Finished ->
  let ext := run t period A' N (r_world first) in
  let straight := run t period A' 0 w in
  r_out ext = r_out straight /\ world_upto_hist (r_world ext) (r_world straight) /\
  forall a k, k <> N ->
    let h := a_hist (n_agents (snd (r_world ext)) a) in
    let h' := a_hist (n_agents (snd (r_world straight)) a) in
    h_contains h k = h_contains h' k /\ h_at h k = h_at h' k.
Proof.
  intros V S t e period A A' w ND CC AG EI ES B N first O ext straight.
  assert (KEEP : forall k w a, a_hist (n_agents (snd (fst (al_step A k w))) a) = a_hist (n_agents (snd w) a)).
  { intros k u a. destruct (CC k u) as (ops & F & ->). now apply client_ops_hist. }
  set (w0 := al_init A w).
  set (L := loop t period A (al_iters A) 0 w0).
  assert (RE : first = mkRes (r_out L) (CInit w :: r_calls L) (r_world L)).
  { unfold first, run. replace (Z.of_nat (al_iters A) <? 0)%Z with false by (symmetry; apply Z.ltb_ge; lia).
    cbn [Z.ltb Z.eqb orb Z.compare Z.to_nat]. rewrite Nat.sub_0_r. reflexivity. }
  rewrite RE in O. cbn [r_out] in O.
  assert (EE : ext = loop t period A' (al_iters A' - al_iters A) (al_iters A) (r_world L)).
  { unfold ext. rewrite RE. cbn [r_world]. unfold run, N.
    replace (Z.of_nat (al_iters A) <? 0)%Z with false by (symmetry; apply Z.ltb_ge; lia).
    replace (Z.of_nat (al_iters A') <? Z.of_nat (al_iters A))%Z with false by (symmetry; apply Z.ltb_ge; lia).
    cbn [orb]. replace (Z.of_nat (al_iters A) =? 0)%Z with false by (symmetry; apply Z.eqb_neq; lia).
    now rewrite Nat2Z.id. }
  set (L' := loop t period A' (al_iters A') 0 w0).
  assert (SE : straight = mkRes (r_out L') (CInit w :: r_calls L') (r_world L')).
  { unfold straight, run. replace (Z.of_nat (al_iters A') <? 0)%Z with false by (symmetry; apply Z.ltb_ge; lia).
    cbn [Z.ltb Z.eqb orb Z.compare Z.to_nat]. rewrite Nat.sub_0_r, EI. reflexivity. }
  destruct (loop_rel V S t period [al_iters A] A A' (fun k u => eq_sym (ES k u)) AG KEEP ND (al_iters A) 0 w0 w0) as (O1 & R1).
  { intros it H1 H2. cbn in H2. destruct (Nat.eqb_spec it (al_iters A)), (Nat.eqb_spec it (al_iters A')); auto; lia. }
  { apply wrel_refl. }
  fold L in O1, R1. rewrite O in O1. symmetry in O1.
  destruct (loop_app V S t period A' (al_iters A) (al_iters A' - al_iters A) 0 w0 O1) as (P1 & P2).
  replace (al_iters A + (al_iters A' - al_iters A)) with (al_iters A') in P1, P2 by lia. fold L' in P1, P2. simpl plus in P1, P2.
  assert (AG' : hist_agnostic A'). { intros k u u' H. rewrite !ES. now apply AG. }
  assert (KEEP' : forall k w a, a_hist (n_agents (snd (fst (al_step A' k w))) a) = a_hist (n_agents (snd w) a)).
  { intros. rewrite ES. apply KEEP. }
  destruct (loop_rel V S t period [al_iters A] A' A' (fun k u => eq_refl) AG' KEEP' ND (al_iters A' - al_iters A) (al_iters A)
     (r_world L) (r_world (loop t period A' (al_iters A) 0 w0))) as (O2 & R2); auto.
  rewrite EE, SE. cbn [r_out r_world]. rewrite P1, P2. split; auto. destruct R2 as (U & H). split; auto.
  intros a k Hk. cbn zeta. unfold h_contains, h_at, dmem. rewrite (H a k); auto. intros [E|[]]. apply Hk. now symmetry.
Qed.

(** ---- non-vacuity: a two-agent averaging algorithm run for 3 iterations ---- *)
Definition ex_topo : topo := mkTopo [0;1] (fun a => match a with 0 => [1] | 1 => [0] | _ => [] end) None 1.
Definition ex_env : env nat := mkEnv (fun _ _ _ => true) (fun _ _ => false) (fun _ _ v => v) (fun _ _ => 1%Z) (fun _ _ => None) Nat.add.
Definition ex_init (w : world nat unit) : world nat unit :=
  (fst w, upd_agent 1 (initialize (Some 20) []) (upd_agent 0 (initialize (Some 10) []) (snd w))).
Definition ex_ops (k : nat) (st : net nat) : list (nop nat) :=
  [NSend 0 RNone (a_x (n_agents st 0)) "x"%string; NSend 1 RNone (a_x (n_agents st 1)) "x"%string;
   NSetX 0 (match a_x (n_agents st 0) with Some v => v + k | None => 0 end); NSetX 1 7].
Definition ex_alg (n : nat) : alg nat unit :=
  mkAlg n ex_init (fun k w => ((tt, nrun ex_topo ex_env (snd w) (ex_ops k (snd w))), false)).
Definition ex_w : world nat unit := (tt, mkNet (fun _ => new_agent) 0 None [] 0 []).
Definition ex_period (a : agent_id) : nat := 2.

Example ex_client n : client_code ex_topo ex_env (ex_alg n).
Proof. intros k w. exists (ex_ops k (snd w)). split; [|reflexivity]. repeat constructor. Qed.
Example ex_initialised : initialised (snd (al_init (ex_alg 3) ex_w)) 0 10.
Proof. split; reflexivity. Qed.
Example C04_nonvacuous :
  let r := run ex_topo ex_period (ex_alg 3) 0 ex_w in
  r_out r = Finished /\
  h_items (a_hist (n_agents (snd (r_world r)) 0)) = [(0%Z, Some 10); (2%Z, Some 11); (3%Z, Some 13)].
Proof. vm_compute. auto. Qed.
Example C31_nonvacuous : r_out (run ex_topo ex_period (ex_alg 3) 4 ex_w) = Rejected /\
  step_indices (r_calls (run ex_topo ex_period (ex_alg 3) 1 (ex_init ex_w))) = [1;2].
Proof. vm_compute. auto. Qed.
Example C32_nonvacuous : exists w', In (CCallback 1 w') (r_calls (run ex_topo ex_period (ex_alg 3) 0 ex_w)).
Proof. apply callback_index. vm_compute. auto. Qed.
Example C32_ext_nonvacuous : hist_agnostic (ex_alg 3).
Proof.
  intros k w w' (F & U). cbn [al_step ex_alg fst snd]. split; [|auto]. split; auto. cbn [snd].
  replace (ex_ops k (snd w')) with (ex_ops k (snd w)).
  - apply upto_ops; auto. repeat constructor.
  - unfold ex_ops. destruct U as (U & _). destruct (U 0) as (-> & _). destruct (U 1) as (-> & _). reflexivity.
Qed.

Print Assumptions C04_snapshot_schedule.
Print Assumptions C31_iterations_once_in_order.
Print Assumptions C32_resume_equals_uninterrupted.
Print Assumptions C32_extending_equals_longer_run.
