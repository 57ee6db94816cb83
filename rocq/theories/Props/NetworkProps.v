(** C06-C11: communication. Every theorem quantifies over every well-formed
    topology, every behaviour of the schemes (the oracles in [env]) and every
    sequence of client operations. *)
From Coq Require Import String List Bool Arith ZArith QArith Qcanon Lia.
From Verif.Model Require Import PyDict History Messages Network.
From Verif.Spec Require Import NetworkSpec.
From Verif.Proofs Require Import PyDictProofs MessagesProofs NetworkProofs NetworkInv NetworkMore NetworkActive.
Import ListNotations.
Open Scope nat_scope.

(** C06 *)
Theorem C06_conservation : forall (V : Type) (t : topo) (e : env V) st ops,
  wf_topo t -> fresh st ->
  (total t a_sent (nrun t e st ops) = total t a_drop (nrun t e st ops) + total t a_recv (nrun t e st ops))%Qc.
Proof. intros. now apply conserved_run. Qed.

(** Per agent: received = volume of the deliveries to it; sent = dropped +
    volume of the deliveries from it. *)
Theorem C06_counters_account_for_deliveries : forall (V : Type) (t : topo) (e : env V) st ops a,
  fresh st -> let st' := nrun t e st ops in
  a_recv (n_agents st' a) = volume t e (fun _ r => Nat.eqb r a) (n_log st') /\
  a_sent (n_agents st' a) = (a_drop (n_agents st' a) + volume t e (fun s _ => Nat.eqb s a) (n_log st'))%Qc.
Proof. intros. now apply accounted_run. Qed.

(** C07 *)
Theorem C07_visible_messages_are_fresh_and_legitimate :
  forall (V : Type) (t : topo) (e : env V) st ops r s c v,
  wf_topo t -> fresh st -> In r (t_nodes t) ->
  sees (nrun t e st ops) r s c v ->
  exists ops1 rc m ops2, ops = ops1 ++ NSend s rc (Some m) c :: ops2 /\
    (* no step since that send: it belongs to the current iteration *)
    (forall o, In o ops2 -> ~ is_nstep o) /\
    (* the send was accepted *)
    (exists st', send t e (nrun t e st ops1) s rc (Some m) c = SOk st') /\
    (* r is a neighbour, and is in the active set of this iteration or is the server *)
    In r (t_adj t s) /\
    (In r (fst (active_agents t e (nrun t e st ops))) \/ t_server t = Some r) /\
    (* the value is the compressed payload plus noise drawn for this send *)
    (exists d1 d2 i, v = noisy e (e_comp e d1 s m) (e_noise e d2 s) i) /\
    (* it was visible at every moment since the send *)
    (forall pre post, ops2 = pre ++ post -> sees (nrun t e st (ops1 ++ NSend s rc (Some m) c :: pre)) r s c v).
Proof.
  intros V t e st ops r s c v W F Hr L. apply sees_vlook in L.
  destruct (visible_origin V t e W ops st F r s c v Hr L) as (ops1 & rc & m & ops2 & E & A & B & C & D & G & K).
  exists ops1, rc, m, ops2. repeat (split; auto).
  - destruct D as [(act & D1 & D2)|D]; auto. left. now rewrite (active_of_cache V t e _ act D1).
  - intros pre post X. apply sees_vlook. eapply K; eauto.
Qed.

(** One send draws one compression and one noise batch; the i-th surviving
    receiver gets the i-th row of the noise, so no two receivers share a row,
    and receivers that are not among the survivors keep what they had. *)
Theorem C07_each_delivery_has_its_own_noise : forall (V : Type) (t : topo) (e : env V) st ops s rc m c st',
  wf_topo t -> fresh st -> send t e (nrun t e st ops) s rc (Some m) c = SOk st' ->
  exists conf d1 d2,
    (forall r, In r conf -> exists i, nth_error conf i = Some r /\ sees st' r s c (noisy e (e_comp e d1 s m) (e_noise e d2 s) i)) /\
    (forall r, ~ In r conf -> a_msgs (n_agents st' r) = a_msgs (n_agents (nrun t e st ops) r)) /\
    (forall r s' c', s' <> s \/ c' <> c -> s_get (a_msgs (n_agents st' r)) s' c' = s_get (a_msgs (n_agents (nrun t e st ops) r)) s' c').
Proof.
  intros V t e st ops s rc m c st' W F E.
  pose proof (ninv_run V t e W ops st (fresh_ninv V t st F)) as (C & _).
  destruct (send_inv V t e (nrun t e st ops) s rc (Some m) c C W)
    as [(x & X & _)|(st2 & rs & m0 & [= <-] & Hs & C2 & SA & _ & _ & _ & _ & _ & _ & _ & X)]; [congruence|].
  rewrite X in E. injection E as <-.
  assert (LI : forall r l i j, last_idx r l i = Some j -> i <= j /\ nth_error l (j - i) = Some r).
  { clear. intros r l. induction l as [|a l IH]; intros i j H; simpl in H; [discriminate|].
    destruct (last_idx r l (S i)) eqn:Q.
    - injection H as <-. destruct (IH _ _ Q) as (A & B). split; [lia|]. replace (n - i) with (S (n - S i)) by lia. exact B.
    - destruct (Nat.eqb_spec r a); [|discriminate]. injection H as <-. split; auto. rewrite Nat.sub_diag. simpl. congruence. }
  exists (fst (drop_filter e s rs (n_draws st2))), (snd (drop_filter e s rs (n_draws st2))), (S (snd (drop_filter e s rs (n_draws st2)))).
  split; [|split].
  - intros r I. destruct (last_idx r (fst (drop_filter e s rs (n_draws st2))) 0) as [j|] eqn:Q.
    + destruct (LI _ _ _ _ Q) as (_ & B). rewrite Nat.sub_0_r in B. exists j. split; auto.
      apply sees_vlook. unfold vlook. rewrite transmit_look, Q, String.eqb_refl, Nat.eqb_refl. reflexivity.
    + apply last_idx_None in Q. contradiction.
  - intros r N. rewrite <- SA. unfold transmit. change (n_draws (upd_agent s (add_sent _) st2)) with (n_draws st2).
    destruct (drop_filter e s rs (n_draws st2)) as [conf d] eqn:D. simpl in N.
    match goal with |- context [deliver e s c m ?M ?NZ ?INC 0 conf ?S'] =>
      enough (G : forall l i st0, ~ In r l -> a_msgs (n_agents (deliver e s c m M NZ INC i l st0) r) = a_msgs (n_agents st0 r)) end.
    + rewrite G by exact N. simpl. unfold upd. destruct (Nat.eqb r s); reflexivity.
    + clear. induction l as [|a l IH]; intros i st0 N; simpl; auto. rewrite IH by (simpl in N; tauto). simpl. unfold upd.
      destruct (Nat.eqb_spec r a); [subst; exfalso; apply N; left; auto|reflexivity].
  - intros r s' c' H. rewrite !s_get_look, transmit_look.
    replace (String.eqb c' c && Nat.eqb s' s) with false.
    + rewrite <- SA. destruct (last_idx _ _ _); reflexivity.
    + destruct (String.eqb_spec c' c); simpl; auto. destruct (Nat.eqb_spec s' s); auto. destruct H; contradiction.
Qed.

(** Nothing survives the start of an iteration. *)
Theorem C07_step_empties_mailboxes : forall (V : Type) (t : topo) (e : env V) st k r s c,
  In r (t_nodes t) -> sees_nothing (nstep t e st (NStep k)) r s c.
Proof.
  intros V t e st k r s c Hr. apply sees_nothing_vlook. unfold vlook. cbn [nstep].
  destruct (step_spec V t k st) as (_ & _ & _ & _ & _ & D). rewrite D. apply memb_In in Hr. rewrite Hr. reflexivity.
Qed.

(** C08: exact delivery; frame condition on everything else *)
Theorem C08_reliable_delivery : forall (V : Type) (t : topo) (e : env V) st ops s rc m c st',
  wf_topo t -> fresh st -> reliable e ->
  send t e (nrun t e st ops) s rc (Some m) c = SOk st' ->
  let act := fst (active_agents t e st') in
  (forall r, intended t act s rc r -> sees st' r s c m) /\
  (forall r s' c', ~ intended t act s rc r \/ s' <> s \/ c' <> c ->
     s_get (a_msgs (n_agents st' r)) s' c' = s_get (a_msgs (n_agents (nrun t e st ops) r)) s' c') /\
  (forall r, same_private (n_agents (nrun t e st ops) r) (n_agents st' r)).
Proof.
  intros V t e st ops s rc m c st' W F R E act.
  pose proof (ninv_run V t e W ops st (fresh_ninv V t st F)) as (C & _).
  destruct (send_inv V t e (nrun t e st ops) s rc (Some m) c C W)
    as [(x & X & _)|(st2 & rs & m0 & [= <-] & Hs & C2 & SA & _ & _ & R1 & R2 & R3 & R4 & R5 & X)]; [congruence|].
  rewrite X in E. injection E as <-.
  destruct (transmit_caches V t e st2 s rs m c) as (_ & TC & _).
  assert (INT : forall r, In r rs <-> intended t act s rc r).
  { intro r. unfold intended. destruct rc as [|a|l].
    - destruct (t_server t) as [sv|] eqn:SV.
      + destruct (Nat.eqb_spec s sv).
        * destruct (R2 eq_refl) as (al & A1 & ->); [right; congruence|].
          assert (act = al) as -> by (unfold act; apply active_of_cache; congruence).
          rewrite filter_In, memb_In. tauto.
        * rewrite (R3 eq_refl sv eq_refl) by congruence. simpl. split; [intros [<-|[]]; auto|auto].
      + destruct (R2 eq_refl) as (al & A1 & ->); [auto|].
        assert (act = al) as -> by (unfold act; apply active_of_cache; congruence).
        rewrite filter_In, memb_In. tauto.
    - rewrite (R4 a eq_refl). simpl. split; [intros [<-|[]]; auto|auto].
    - rewrite (R5 l eq_refl). tauto. }
  split; [|split].
  - intros r I. apply sees_vlook. unfold vlook. rewrite transmit_reliable by auto.
    apply INT, memb_In in I. rewrite I, String.eqb_refl, Nat.eqb_refl. reflexivity.
  - intros r s' c' H. rewrite !s_get_look, transmit_reliable by auto.
    replace (memb r rs && String.eqb c' c && Nat.eqb s' s) with false; [now rewrite SA|].
    destruct (memb r rs) eqn:M; simpl; auto. destruct (String.eqb_spec c' c); simpl; auto.
    destruct (Nat.eqb_spec s' s); simpl; auto. exfalso. apply memb_In, INT in M. destruct H as [H|[H|H]]; contradiction.
  - intro r. rewrite <- SA. apply transmit_private.
Qed.

(** When a peer-to-peer send is accepted. *)
Theorem C08_p2p_acceptance : forall (V : Type) (t : topo) (e : env V) st ops s m c,
  wf_topo t -> fresh st -> t_server t = None -> In s (t_nodes t) ->
  let cur := nrun t e st ops in
  let act := fst (active_agents t e cur) in
  (exists st', send t e cur s RNone (Some m) c = SOk st') /\
  (forall a, (exists st', send t e cur s (ROne a) (Some m) c = SOk st') <-> In a (t_adj t s) /\ In a act) /\
  (forall l, (exists st', send t e cur s (RMany l) (Some m) c = SOk st') <-> forall a, In a l -> In a (t_adj t s) /\ In a act).
Proof.
  intros V t e st ops s m c W F SV Hs cur act.
  pose proof (ninv_run V t e W ops st (fresh_ninv V t st F)) as (C & _).
  split; [now apply p2p_broadcast|]. split; intro.
  - now apply p2p_send_one.
  - now apply p2p_send_many.
Qed.

(** C09: between steps, one active set; every derived query is its filter *)
Theorem C09_active_set_stable : forall (V : Type) (t : topo) (e : env V) st ops1 ops2,
  wf_topo t -> fresh st -> (forall o, In o ops2 -> ~ is_nstep o) ->
  let act := fst (active_agents t e (nrun t e st ops1)) in
  let later := nrun t e (nrun t e st (ops1 ++ [NQuery])) ops2 in
  fst (active_agents t e later) = act /\
  (forall a, fst (active_connected t e later a) = filter (fun b => memb b act) (t_adj t a)) /\
  (forall s rc m c st',
     send t e later s rc m c = SOk st' -> fst (active_agents t e st') = act).
Proof.
  intros V t e st ops1 ops2 W F N act later.
  pose proof (ninv_run V t e W (ops1 ++ [NQuery]) st (fresh_ninv V t st F)) as I1.
  assert (Q : n_cache (nrun t e st (ops1 ++ [NQuery])) = Some act).
  { rewrite nrun_app. cbn [nrun fold_left nstep]. apply (active_agents_frame V t e). }
  pose proof (cache_run_mono V t e W ops2 _ act I1 N Q) as L. fold later in L.
  pose proof (ninv_run V t e W ops2 _ I1) as (C & _). fold later in C.
  split; [now apply active_of_cache|]. split.
  - intro a. rewrite active_connected_val by auto. now rewrite (active_of_cache V t e later act L).
  - intros s rc m c st' E. apply active_of_cache.
    assert (X : n_cache (nstep t e later (NSend s rc m c)) = Some act).
    { apply cache_step_mono; auto. exact (ninv_run V t e W ops2 _ I1). }
    cbn [nstep] in X. rewrite E in X. exact X.
Qed.

(** The set is the one the activation schemes answer for the iteration the
    network has reached, each agent having its own consultation. *)
Theorem C09_active_set_follows_schemes : forall (V : Type) (t : topo) (e : env V) st ops,
  wf_topo t -> fresh st ->
  exists draw : agent_id -> nat,
    (forall a b, In a (t_nodes t) -> In b (t_nodes t) -> t_server t <> Some a -> t_server t <> Some b -> draw a = draw b -> a = b) /\
    forall a, In a (fst (active_agents t e (nrun t e st ops))) <->
      In a (t_nodes t) /\ t_server t <> Some a /\ e_act e (draw a) a (reached (n_iter st) ops) = true.
Proof.
  intros V t e st ops W F. set (S0 := nrun t e st (ops ++ [NQuery])).
  assert (A : ainv V t e S0 /\ n_iter S0 = reached (n_iter st) ops).
  { destruct (ainv_run V t e (ops ++ [NQuery]) st) as (A & B); [unfold ainv; destruct F as (-> & _); auto|]. split; auto. unfold S0. rewrite B, fold_left_app. simpl.
    clear. generalize (n_iter st). induction ops as [|o l IH]; intro k; simpl; auto. rewrite IH. destruct o; reflexivity. }
  destruct A as (A & B).
  assert (C : n_cache S0 = Some (fst (active_agents t e (nrun t e st ops)))).
  { unfold S0. rewrite nrun_app. cbn [nrun fold_left nstep]. apply (active_agents_frame V t e). }
  unfold ainv in A. rewrite C in A. destruct A as (d & A). rewrite B in A. rewrite A.
  set (idx := fun a => match find (fun p => Nat.eqb (fst p) a) (combine (agents t) (seq 0 (length (agents t)))) with Some p => snd p | None => 0 end).
  assert (ND : NoDup (agents t)) by (apply agents_NoDup; auto).
  assert (MEM : forall a, In a (agents t) <-> In a (t_nodes t) /\ t_server t <> Some a).
  { intro a. unfold agents. rewrite filter_In. unfold is_server. destruct (t_server t) as [sv|].
    - destruct (Nat.eqb_spec a sv); simpl; split; intros (X & Y); split; auto; try congruence.
    - simpl. split; intros (X & Y); split; auto; discriminate. }
  assert (IX : forall a, In a (agents t) -> nth_error (agents t) (idx a) = Some a).
  { intros a I. unfold idx. assert (G : forall l k, In a l -> exists i, find (fun p => Nat.eqb (fst p) a) (combine l (seq k (length l))) = Some (a, k + i) /\ nth_error l i = Some a).
    { clear. induction l as [|b l IH]; intros k I; [destruct I|]. simpl. destruct (Nat.eqb_spec b a).
      - subst. exists 0. rewrite Nat.add_0_r. auto.
      - destruct I as [I|I]; [contradiction|]. destruct (IH (S k) I) as (i & E1 & E2). exists (S i). rewrite E1. split; auto. f_equal. f_equal. lia. }
    destruct (G (agents t) 0 I) as (i & -> & E). exact E. }
  exists (fun a => d + idx a). split.
  - intros a b Ia Ib Sa Sb E. assert (idx a = idx b) by lia.
    pose proof (IX a (proj2 (MEM a) (conj Ia Sa))) as X. pose proof (IX b (proj2 (MEM b) (conj Ib Sb))) as Y. congruence.
  - intro a. split.
    + intro I. assert (Ia : In a (agents t)) by (eapply act_filter_incl; eauto).
      pose proof (proj1 (MEM a) Ia) as (X & Y). split; auto. split; auto. apply (act_filter_mem V e _ _ d ND _ _ (IX a Ia)); auto.
    + intros (X & Y & Z). assert (Ia : In a (agents t)) by now apply MEM.
      apply (act_filter_mem V e _ _ d ND _ _ (IX a Ia)); auto.
Qed.
Theorem C09_consulted_at_most_once : forall (V : Type) (t : topo) (e : env V) st ops a,
  wf_topo t -> fresh st -> consults a (n_log (nrun t e st ops)) <= 1.
Proof. intros. now apply consults_le1. Qed.

(** C10 *)
Theorem C10_rejected_send_has_no_effect : forall (V : Type) (t : topo) (e : env V) st ops s rc m c st',
  wf_topo t -> fresh st ->
  send t e (nrun t e st ops) s rc m c = SErr st' -> same_agents (nrun t e st ops) st'.
Proof.
  intros V t e st ops s rc m c st' W F E.
  pose proof (ninv_run V t e W ops st (fresh_ninv V t st F)) as (C & _).
  destruct (send_inv V t e (nrun t e st ops) s rc m c C W)
    as [(x & X & S & _)|(st2 & rs & m0 & _ & _ & _ & _ & _ & _ & _ & _ & _ & _ & _ & X)]; [|congruence].
  congruence.
Qed.

(** C11 *)
Theorem C11_star_endpoints : forall (V : Type) (t : topo) (e : env V) st ops sv r s c v,
  wf_topo t -> fresh st -> t_server t = Some sv -> In r (t_nodes t) ->
  sees (nrun t e st ops) r s c v ->
  (s = sv /\ r <> sv /\ In r (fst (active_agents t e (nrun t e st ops)))) \/ (s <> sv /\ r = sv).
Proof.
  intros V t e st ops sv r s c v W F SV Hr L.
  destruct (C07_visible_messages_are_fresh_and_legitimate V t e st ops r s c v W F Hr L) as (? & ? & ? & ? & _ & _ & _ & A & B & _).
  destruct W as (_ & _ & _ & FED). rewrite SV in FED. apply FED in A. destruct A as (_ & _ & [(-> & N)|(N & ->)]); [left|right; auto].
  repeat split; auto. destruct B as [B|B]; auto. congruence.
Qed.

Theorem C11_rejections : forall (V : Type) (t : topo) (e : env V) st sv s m c,
  t_server t = Some sv ->
  (forall a, s <> sv -> a <> sv -> send t e st s (ROne a) m c = SErr st) /\
  (send t e st sv (ROne sv) m c = SErr st) /\
  (forall l, s <> sv -> send t e st s (RMany l) m c = SErr st) /\
  (forall l, In sv l -> send t e st s (RMany l) m c = SErr st).
Proof.
  intros V t e st sv s m c SV. unfold send. rewrite SV. unfold send_fed. repeat split.
  - intros a H1 H2. apply Nat.eqb_neq in H1, H2. rewrite H1, H2. reflexivity.
  - rewrite Nat.eqb_refl. reflexivity.
  - intros l H. apply Nat.eqb_neq in H. rewrite H. reflexivity.
  - intros l H. destruct (negb (Nat.eqb s sv)); auto.
    replace (existsb (fun a => Nat.eqb a sv) l) with true; auto. symmetry. apply existsb_exists.
    exists sv. split; auto. apply Nat.eqb_refl.
Qed.

(** A client's send without receiver is a send to the server. *)
Theorem C11_client_default_receiver : forall (V : Type) (t : topo) (e : env V) st sv s m c,
  t_server t = Some sv -> s <> sv -> send t e st s RNone m c = send t e st s (ROne sv) m c.
Proof.
  intros V t e st sv s m c SV H. unfold send. rewrite SV. unfold send_fed. apply Nat.eqb_neq in H. rewrite H.
  simpl. rewrite Nat.eqb_refl. reflexivity.
Qed.

(** ---- non-vacuity: a path 0-1-2 with a lossy, noisy, stateful environment ---- *)
Definition ex_t : topo := mkTopo [0;1;2] (fun a => match a with 0 => [1] | 1 => [0;2] | 2 => [1] | _ => [] end) None 4.
Definition ex_e : env nat :=
  mkEnv (fun d a it => negb (Nat.eqb a 2) || Nat.even it) (fun d _ => Nat.eqb (d mod 5) 4) (fun _ _ v => v - 1)
        (fun _ _ => 3%Z) (fun d _ => Some (fun i => d + i)) Nat.add.
Definition ex_ops : list (nop nat) :=
  [NStep 0; NSend 1 RNone (Some 100) "x"; NSend 0 (ROne 1) (Some 50) "x"; NSend 0 (ROne 2) (Some 51) "x";
   NStep 1; NSend 1 RNone (Some 200) "x"; NSend 1 (ROne 2) (Some 201) "x"; NSend 0 RNone (Some 60) "y"]%string.
Definition ex_st : net nat := init_net (fun a => Some a).

Example ex_wf : wf_topo ex_t.
Proof.
  repeat split; simpl; auto.
  - repeat constructor; simpl; lia.
  - destruct a as [|[|[|a]]]; simpl in H; intuition lia.
  - destruct a as [|[|[|a]]]; simpl in H; intuition lia.
  - destruct a as [|[|[|a]]]; simpl in H; intuition (subst; simpl; auto).
  - intros [|[|[|a]]]; repeat constructor; simpl; intuition lia.
Qed.
Example ex_fresh : fresh ex_st. Proof. repeat split. Qed.
Example C06_nonvacuous : this (total ex_t a_sent (nrun ex_t ex_e ex_st ex_ops)) = (15 # 4)%Q /\
  this (total ex_t a_drop (nrun ex_t ex_e ex_st ex_ops)) = (3 # 4)%Q /\ this (total ex_t a_recv (nrun ex_t ex_e ex_st ex_ops)) = (3 # 1)%Q.
Proof. vm_compute. auto. Qed.
Example C07_nonvacuous : sees (nrun ex_t ex_e ex_st ex_ops) 0 1 "x"%string 214.
Proof. vm_compute. reflexivity. Qed.
Example C10_nonvacuous : match send ex_t ex_e (nrun ex_t ex_e ex_st ex_ops) 1 (ROne 2) (Some 1) "x"%string with SErr _ => true | SOk _ => false end = true.
Proof. vm_compute. reflexivity. Qed.
Definition ex_r : env nat := mkEnv (fun d a it => negb (Nat.eqb a 2) || Nat.even it) (fun _ _ => false) (fun _ _ v => v) (fun _ _ => 4%Z) (fun _ _ => None) Nat.add.
Example C08_nonvacuous : reliable ex_r /\ sees (sstate (send ex_t ex_r (nrun ex_t ex_r ex_st ex_ops) 1 RNone (Some 7) "z"%string)) 0 1 "z"%string 7 /\
  sees_nothing (sstate (send ex_t ex_r (nrun ex_t ex_r ex_st ex_ops) 1 RNone (Some 7) "z"%string)) 2 1 "z"%string.
Proof. split; [repeat split|]. vm_compute. auto. Qed.
Example C09_nonvacuous : consults 2 (n_log (nrun ex_t ex_e ex_st ex_ops)) = 1 /\
  fst (active_agents ex_t ex_e (nrun ex_t ex_e ex_st ex_ops)) = [0;1].
Proof. vm_compute. auto. Qed.
Definition ex_f : topo := mkTopo [0;1;2] (fun a => match a with 0 => [2] | 1 => [2] | 2 => [0;1] | _ => [] end) (Some 2) 4.
Example ex_f_wf : wf_topo ex_f.
Proof.
  split; [repeat constructor; simpl; lia|]. split; [|split; [|split]].
  - intros [|[|[|a]]] b H; simpl in H; intuition (subst; simpl; auto).
  - intros [|[|[|a]]]; repeat constructor; simpl; intuition lia.
  - simpl; auto.
  - intros [|[|[|a]]] b; simpl; intuition (try lia; try congruence).
Qed.
Example C11_nonvacuous :
  let ops := [NStep 2; NSend 2 RNone (Some 100) "x"; NSend 0 RNone (Some 50) "x"]%string in
  sees (nrun ex_f ex_r ex_st ops) 0 2 "x"%string 100 /\ sees (nrun ex_f ex_r ex_st ops) 2 0 "x"%string 50.
Proof. vm_compute. auto. Qed.

Print Assumptions C06_conservation.
Print Assumptions C06_counters_account_for_deliveries.
Print Assumptions C07_visible_messages_are_fresh_and_legitimate.
Print Assumptions C08_reliable_delivery.
Print Assumptions C08_p2p_acceptance.
Print Assumptions C09_active_set_stable.
Print Assumptions C09_consulted_at_most_once.
Print Assumptions C10_rejected_send_has_no_effect.
Print Assumptions C11_star_endpoints.
