From Coq Require Import String List Bool Arith ZArith QArith Qcanon Lia.
From Verif.Spec Require Import NetworkSpec.
From Verif.Model Require Import PyDict History Messages Network.
From Verif.Proofs Require Import PyDictProofs MessagesProofs.
Import ListNotations.
Open Scope nat_scope.

Lemma memb_In a l : memb a l = true <-> In a l.
Proof.
  unfold memb. rewrite existsb_exists. split.
  - intros (b & I & E). apply Nat.eqb_eq in E. now subst.
  - intro I. exists a. split; auto. apply Nat.eqb_refl.
Qed.

Section P.
  Variable V : Type.
  Variables (t : topo) (e : env V).
  Notation net := (net V).
  Implicit Types (st : net).

  Notation wf_topo := (NetworkSpec.wf_topo t).

  Lemma active_agents_frame st : same_agents st (snd (active_agents t e st)) /\
    n_iter (snd (active_agents t e st)) = n_iter st /\
    n_conn (snd (active_agents t e st)) = n_conn st /\
    n_cache (snd (active_agents t e st)) = Some (fst (active_agents t e st)).
  Proof.
    unfold active_agents, same_agents. destruct (n_cache st) eqn:E; simpl; auto.
    destruct (act_filter e (n_iter st) (agents t) (n_draws st)); simpl; auto.
  Qed.

  Lemma active_connected_frame st a : same_agents st (snd (active_connected t e st a)) /\
    n_iter (snd (active_connected t e st a)) = n_iter st.
  Proof.
    unfold active_connected. destruct (dget Nat.eqb (n_conn st) a); simpl; [split; [intro|]; auto|].
    destruct (active_agents_frame st) as (A & B & _).
    destruct (active_agents t e st) as [act st1]; simpl in *. split; auto.
  Qed.

  Lemma allowed_frame st s : same_agents st (snd (allowed t e st s)) /\
    n_iter (snd (allowed t e st s)) = n_iter st.
  Proof.
    unfold allowed. destruct (t_server t) as [sv|]; [|apply active_connected_frame].
    destruct (Nat.eqb s sv); [apply active_connected_frame|]. simpl. split; [intro|]; auto.
  Qed.

  (** Cache invariant. *)
  Definition cinv st : Prop :=
    (forall act, n_cache st = Some act -> incl act (agents t)) /\
    (forall a l, dget Nat.eqb (n_conn st) a = Some l ->
       exists act, n_cache st = Some act /\ l = filter (fun b => memb b act) (t_adj t a)).

  Lemma act_filter_incl it l : forall d, incl (fst (act_filter e it l d)) l.
  Proof.
    induction l as [|a l IH]; intro d; simpl; [apply incl_nil_l|].
    specialize (IH (S d)). destruct (act_filter e it l (S d)) as [r d']; simpl in *.
    destruct (e_act e d a it).
    - apply incl_cons; [left; auto|]. apply incl_tl; auto.
    - apply incl_tl; auto.
  Qed.

  Lemma cinv_active st : cinv st -> cinv (snd (active_agents t e st)).
  Proof.
    intro I. pose proof I as (A & B). unfold active_agents. destruct (n_cache st) as [act|] eqn:E; simpl.
    - exact I.
    - pose proof (act_filter_incl (n_iter st) (agents t) (n_draws st)) as I'.
      destruct (act_filter e (n_iter st) (agents t) (n_draws st)) as [l d]; simpl in *.
      split; simpl.
      + intros act [= <-]. auto.
      + intros a l' D. destruct (B _ _ D) as (act & C & _). congruence.
  Qed.

  Lemma cinv_conn st a : cinv st -> cinv (snd (active_connected t e st a)).
  Proof.
    intro I. pose proof I as (A & B). unfold active_connected.
    destruct (dget Nat.eqb (n_conn st) a) eqn:E; [exact I|].
    pose proof (cinv_active st I) as (A1 & B1). pose proof (active_agents_frame st) as (_ & _ & _ & C).
    destruct (active_agents t e st) as [act st1]; simpl in *. split; simpl; auto.
    intros b l. rewrite (dget_dset _ _ _ Nat.eqb_spec). destruct (Nat.eqb_spec b a).
    - intros [= <-]. subst. exists act. split; auto.
    - apply B1.
  Qed.

  Lemma cinv_allowed st s : cinv st -> cinv (snd (allowed t e st s)).
  Proof.
    intro I. unfold allowed. destruct (t_server t) as [sv|]; [|now apply cinv_conn].
    destruct (Nat.eqb s sv); [now apply cinv_conn|]. exact I.
  Qed.

  (** what active_connected returns *)
  Lemma active_connected_val st a : cinv st ->
    fst (active_connected t e st a) = filter (fun b => memb b (fst (active_agents t e st))) (t_adj t a).
  Proof.
    intros (A & B). unfold active_connected. destruct (dget Nat.eqb (n_conn st) a) as [l|] eqn:E.
    - destruct (B _ _ E) as (act & C & ->). simpl. unfold active_agents. rewrite C. reflexivity.
    - destruct (active_agents t e st) as [act st1]; simpl. reflexivity.
  Qed.

  Lemma active_after_active st : fst (active_agents t e (snd (active_agents t e st))) = fst (active_agents t e st).
  Proof.
    pose proof (active_agents_frame st) as (_ & _ & _ & C).
    unfold active_agents at 1. rewrite C. reflexivity.
  Qed.

  Lemma active_after_conn st a : fst (active_agents t e (snd (active_connected t e st a))) = fst (active_agents t e st) \/
    (exists l, dget Nat.eqb (n_conn st) a = Some l).
  Proof.
    unfold active_connected. destruct (dget Nat.eqb (n_conn st) a) eqn:E; [right; eauto|left].
    pose proof (active_agents_frame st) as (_ & _ & _ & C).
    destruct (active_agents t e st) as [act st1] eqn:F; simpl in *.
    unfold active_agents. simpl. rewrite C. reflexivity.
  Qed.

  Lemma active_after_conn' st a : cinv st ->
    fst (active_agents t e (snd (active_connected t e st a))) = fst (active_agents t e st).
  Proof.
    intro I. destruct (active_after_conn st a) as [H|(l & H)]; auto.
    unfold active_connected. rewrite H. reflexivity.
  Qed.

  Lemma conn_cache st a : cinv st -> exists act, n_cache (snd (active_connected t e st a)) = Some act /\
    fst (active_connected t e st a) = filter (fun b => memb b act) (t_adj t a) /\
    dget Nat.eqb (n_conn (snd (active_connected t e st a))) a = Some (fst (active_connected t e st a)).
  Proof.
    intros (A & B). unfold active_connected. destruct (dget Nat.eqb (n_conn st) a) as [l|] eqn:E.
    - destruct (B _ _ E) as (act & C & ->). exists act. auto.
    - pose proof (active_agents_frame st) as (_ & _ & _ & C).
      destruct (active_agents t e st) as [act st1]; simpl in *. exists act. split; auto. split; auto.
      apply (dget_dset_eq _ _ _ Nat.eqb_spec).
  Qed.

  Lemma active_mono st act : n_cache st = Some act -> active_agents t e st = (act, st).
  Proof. intro H. unfold active_agents. now rewrite H. Qed.

  Lemma conn_mono st a act : n_cache st = Some act -> n_cache (snd (active_connected t e st a)) = Some act.
  Proof.
    intro H. unfold active_connected. destruct (dget Nat.eqb (n_conn st) a); simpl; auto.
    rewrite (active_mono _ _ H). simpl. auto.
  Qed.
  Lemma allowed_mono st a act : n_cache st = Some act -> n_cache (snd (allowed t e st a)) = Some act.
  Proof.
    intro H. unfold allowed. destruct (t_server t) as [sv|]; [|now apply conn_mono].
    destruct (Nat.eqb a sv); [now apply conn_mono|]. exact H.
  Qed.

  (** every admitted receiver is connected and active (or the server) *)
  Lemma allowed_val st s r : cinv st -> wf_topo -> In s (t_nodes t) -> In r (fst (allowed t e st s)) ->
    In r (t_adj t s) /\ ((exists act, n_cache (snd (allowed t e st s)) = Some act /\ In r act) \/ t_server t = Some r).
  Proof.
    intros I (ND & AD & NA & FED) Hs. unfold allowed.
    assert (G : In r (fst (active_connected t e st s)) -> In r (t_adj t s) /\
        ((exists act, n_cache (snd (active_connected t e st s)) = Some act /\ In r act) \/ t_server t = Some r)).
    { destruct (conn_cache st s I) as (act & C & F & _). rewrite F, filter_In, memb_In. intros (X & Y).
      split; auto. left. exists act. auto. }
    destruct (t_server t) as [sv|]; auto.
    destruct (Nat.eqb_spec s sv); auto. simpl.
    destruct (e_act e (n_draws st) sv (n_iter st)); simpl; [|tauto].
    intros [<-|[]]. split; auto. apply FED. destruct FED as (F1 & _). auto.
  Qed.

  (** ---- transmit ---- *)
  Lemma drop_filter_incl s l : forall d, incl (fst (drop_filter e s l d)) l.
  Proof.
    induction l as [|a l IH]; intro d; simpl; [apply incl_nil_l|].
    specialize (IH (S d)). destruct (drop_filter e s l (S d)) as [r d']; simpl in *.
    destruct (e_dropd e d s); [apply incl_tl; auto|].
    apply incl_cons; [left; auto|]. apply incl_tl; auto.
  Qed.
  Lemma drop_filter_length s l d : length (fst (drop_filter e s l d)) <= length l.
  Proof.
    revert d. induction l as [|a l IH]; intro d; simpl; auto.
    specialize (IH (S d)). destruct (drop_filter e s l (S d)) as [r d']; simpl in *.
    destruct (e_dropd e d s); simpl; lia.
  Qed.

  Lemma deliver_caches s c p m nz inc l : forall i st,
    n_iter (deliver e s c p m nz inc i l st) = n_iter st /\ n_cache (deliver e s c p m nz inc i l st) = n_cache st /\
    n_conn (deliver e s c p m nz inc i l st) = n_conn st /\ n_draws (deliver e s c p m nz inc i l st) = n_draws st.
  Proof. induction l as [|r l IH]; intros i st; simpl; auto. destruct (IH (S i) (logev (EvDeliver s r c p (noisy e m nz i)) (upd_agent r (fun a => add_recv inc (set_msgs (s_put (a_msgs a) s (noisy e m nz i) c) a)) st))) as (A & B & C & D). rewrite A, B, C, D. auto. Qed.

  Lemma transmit_caches st s rs m c :
    n_iter (transmit t e st s rs m c) = n_iter st /\ n_cache (transmit t e st s rs m c) = n_cache st /\
    n_conn (transmit t e st s rs m c) = n_conn st.
  Proof.
    unfold transmit. destruct (drop_filter e s rs _) as [conf d] eqn:E.
    destruct (deliver_caches s c m (e_comp e d s m) (e_noise e (S d) s) (counter_increment t e s m) conf 0
      (set_draws (S (S d)) (upd_agent s (add_drop (counter_increment t e s m * Q2Qc (inject_Z (Z.of_nat (length rs - length conf))))%Qc) (upd_agent s (add_sent (counter_increment t e s m * Q2Qc (inject_Z (Z.of_nat (length rs))))%Qc) st)))) as (A & B & C & D).
    rewrite A, B, C. auto.
  Qed.

  (** index of the last occurrence of r *)
  Fixpoint last_idx (r : agent_id) (l : list agent_id) (i : nat) : option nat :=
    match l with
    | [] => None
    | a :: l' => match last_idx r l' (S i) with Some j => Some j | None => if Nat.eqb r a then Some i else None end
    end.

  Lemma last_idx_None r l : forall i, last_idx r l i = None <-> ~ In r l.
  Proof.
    induction l as [|a l IH]; intro i; simpl; [tauto|].
    specialize (IH (S i)). destruct (last_idx r l (S i)) eqn:E.
    - split; [discriminate|]. intro H. exfalso. assert (X : ~ In r l) by tauto. apply IH in X. discriminate.
    - destruct (Nat.eqb_spec r a).
      + split; [discriminate|]. intro H. exfalso. apply H. auto.
      + split; auto. intros _ [X|X]; [congruence|]. now apply IH.
  Qed.

  Lemma deliver_look s c p m nz inc l : forall i st r c' s',
    look V (a_msgs (n_agents (deliver e s c p m nz inc i l st) r)) c' s' =
    match last_idx r l i with
    | Some j => if String.eqb c' c && Nat.eqb s' s then Some (noisy e m nz j) else look V (a_msgs (n_agents st r)) c' s'
    | None => look V (a_msgs (n_agents st r)) c' s'
    end.
  Proof.
    induction l as [|a l IH]; intros i st r c' s'; simpl; auto.
    rewrite IH. destruct (last_idx r l (S i)); simpl; unfold upd; destruct (Nat.eqb_spec r a); simpl; auto.
    - rewrite put_look. destruct (String.eqb c' c && Nat.eqb s' s); auto.
    - apply put_look.
  Qed.

  Lemma deliver_sinv s c p m nz inc l : forall i st,
    (forall r, sinv V (a_msgs (n_agents st r))) ->
    forall r, sinv V (a_msgs (n_agents (deliver e s c p m nz inc i l st) r)).
  Proof.
    induction l as [|a l IH]; intros i st H r; simpl; auto.
    apply IH. intro r'. simpl. unfold upd. destruct (Nat.eqb r' a); simpl; auto. now apply put_inv.
  Qed.

  (** deliver leaves x, history, aux, counters sent/dropped etc. alone *)
  Lemma deliver_private s c p m nz inc l : forall i st r,
    same_private (n_agents st r) (n_agents (deliver e s c p m nz inc i l st) r) /\
    a_sent (n_agents (deliver e s c p m nz inc i l st) r) = a_sent (n_agents st r) /\
    a_drop (n_agents (deliver e s c p m nz inc i l st) r) = a_drop (n_agents st r).
  Proof.
    induction l as [|a l IH]; intros i st r; simpl.
    - unfold same_private; auto 10.
    - match goal with |- context [deliver e s c p m nz inc (S i) l ?S'] => destruct (IH (S i) S' r) as ((A & B & C & D & E) & F & G) end.
      unfold same_private. rewrite A, B, C, D, E, F, G. simpl. unfold upd. destruct (Nat.eqb r a); simpl; auto 10.
  Qed.

  Lemma transmit_private st s rs m c r :
    same_private (n_agents st r) (n_agents (transmit t e st s rs m c) r).
  Proof.
    unfold transmit. destruct (drop_filter e s rs _) as [conf d] eqn:E.
    match goal with |- context [deliver e s c m ?M ?NZ ?INC 0 conf ?S'] =>
      destruct (deliver_private s c m M NZ INC conf 0 S' r) as ((A & B & C & D & F) & _) end.
    unfold same_private. rewrite A, B, C, D, F. simpl. unfold upd. destruct (Nat.eqb r s); simpl; auto 10.
  Qed.

  Lemma transmit_look st s rs m c r c' s' :
    let conf := fst (drop_filter e s rs (n_draws st)) in
    let d := snd (drop_filter e s rs (n_draws st)) in
    look V (a_msgs (n_agents (transmit t e st s rs m c) r)) c' s' =
    match last_idx r conf 0 with
    | Some j => if String.eqb c' c && Nat.eqb s' s then Some (noisy e (e_comp e d s m) (e_noise e (S d) s) j)
                else look V (a_msgs (n_agents st r)) c' s'
    | None => look V (a_msgs (n_agents st r)) c' s'
    end.
  Proof.
    unfold transmit. simpl. destruct (drop_filter e s rs (n_draws st)) as [conf d] eqn:E. simpl.
    rewrite deliver_look. simpl.
    assert (X : a_msgs (upd (upd (n_agents st) s (add_sent (counter_increment t e s m * Q2Qc (inject_Z (Z.of_nat (length rs))))%Qc)) s
                  (add_drop (counter_increment t e s m * Q2Qc (inject_Z (Z.of_nat (length rs - length conf))))%Qc) r) = a_msgs (n_agents st r)).
    { unfold upd. destruct (Nat.eqb r s); simpl; auto. }
    rewrite X. reflexivity.
  Qed.

  Lemma transmit_sinv st s rs m c : (forall r, sinv V (a_msgs (n_agents st r))) ->
    forall r, sinv V (a_msgs (n_agents (transmit t e st s rs m c) r)).
  Proof.
    intros H r. unfold transmit. destruct (drop_filter e s rs _) as [conf d].
    apply deliver_sinv. intro r'. simpl. unfold upd. destruct (Nat.eqb r' s); simpl; auto.
  Qed.

  (** ---- send ---- *)
  (** Generic inversion of send: either rejected without touching any agent,
      or a transmission to admitted receivers. *)
  Lemma send_base_inv st s r msg c : cinv st -> wf_topo ->
    (exists st', send_base t e st s r msg c = SErr st' /\ same_agents st st' /\ cinv st' /\ n_iter st' = n_iter st /\
       (forall act, n_cache st = Some act -> n_cache st' = Some act)) \/
    (exists st2 rs m, msg = Some m /\ In s (t_nodes t) /\ cinv st2 /\ same_agents st st2 /\
       n_iter st2 = n_iter st /\
       (forall act, n_cache st = Some act -> n_cache st2 = Some act) /\
       (forall a, In a rs -> In a (t_adj t s) /\
           ((exists act, n_cache st2 = Some act /\ In a act) \/ t_server t = Some a)) /\
       (r = RNone -> exists act, n_cache st2 = Some act /\ rs = filter (fun b => memb b act) (t_adj t s)) /\
       (forall a, r = ROne a -> rs = [a]) /\ (forall l, r = RMany l -> rs = l) /\
       send_base t e st s r msg c = SOk (transmit t e st2 s rs m c)).
  Proof.
    intros I W. unfold send_base. destruct msg as [m|]; [|left; exists st; repeat split; auto; apply I].
    destruct (memb s (t_nodes t)) eqn:Ms; simpl; [|left; exists st; repeat split; auto; apply I].
    apply memb_In in Ms.
    (* common tail *)
    assert (T : forall st1 rs, cinv st1 -> same_agents st st1 -> n_iter st1 = n_iter st ->
       (forall act, n_cache st = Some act -> n_cache st1 = Some act) ->
       (r = RNone -> exists act, n_cache st1 = Some act /\ rs = filter (fun b => memb b act) (t_adj t s)) ->
       (forall a, r = ROne a -> rs = [a]) -> (forall l, r = RMany l -> rs = l) ->
       let R := (let '(al, st2) := allowed t e st1 s in
                 if forallb (fun a => memb a al) rs then SOk (transmit t e st2 s rs m c) else SErr st2) in
       (exists st', R = SErr st' /\ same_agents st st' /\ cinv st' /\ n_iter st' = n_iter st /\
          (forall act, n_cache st = Some act -> n_cache st' = Some act)) \/
       (exists st2 rs m0, Some m = Some m0 /\ In s (t_nodes t) /\ cinv st2 /\ same_agents st st2 /\
       n_iter st2 = n_iter st /\
       (forall act, n_cache st = Some act -> n_cache st2 = Some act) /\
       (forall a, In a rs -> In a (t_adj t s) /\
           ((exists act, n_cache st2 = Some act /\ In a act) \/ t_server t = Some a)) /\
       (r = RNone -> exists act, n_cache st2 = Some act /\ rs = filter (fun b => memb b act) (t_adj t s)) /\
       (forall a, r = ROne a -> rs = [a]) /\ (forall l, r = RMany l -> rs = l) /\
       R = SOk (transmit t e st2 s rs m0 c))).
    { intros st1 rs I1 S1 N1 C1 R1 R2 R3.
      pose proof (allowed_frame st1 s) as (FA & FN). pose proof (cinv_allowed st1 s I1) as I2.
      pose proof (allowed_mono st1 s) as AM. pose proof (fun r => allowed_val st1 s r I1 W Ms) as AV.
      destruct (allowed t e st1 s) as [al st2]; simpl in *.
      destruct (forallb (fun a => memb a al) rs) eqn:F.
      - right. exists st2, rs, m. split; auto. split; auto. split; auto.
        split; [intro a; rewrite FA; apply S1|]. split; [congruence|].
        split; [auto|]. split.
        { intros a Ha. apply AV. rewrite forallb_forall in F. apply memb_In. auto. }
        split; [|auto]. intro RN. destruct (R1 RN) as (act & X & Y). exists act. split; auto.
      - left. exists st2. split; auto. split; [intro a; rewrite FA; apply S1|]. split; auto. split; [congruence|]. auto. }
    destruct r as [|a|l].
    - pose proof (active_connected_frame st s) as (FA & FN). pose proof (cinv_conn st s I) as I1.
      destruct (conn_cache st s I) as (act & C & F & _). pose proof (conn_mono st s) as CM.
      destruct (active_connected t e st s) as [l st1]; simpl in *.
      apply T; auto; try discriminate. intros _. exists act. auto.
    - destruct (memb a (connected_agents t s)) eqn:Ma.
      + apply T; auto; try discriminate; try congruence; try (intro; reflexivity).
      + left. exists st. repeat split; auto; apply I.
    - apply T; auto; try discriminate; try congruence; try (intro; reflexivity).
  Qed.

  Lemma send_inv st s r msg c : cinv st -> wf_topo ->
    (exists st', send t e st s r msg c = SErr st' /\ same_agents st st' /\ cinv st' /\ n_iter st' = n_iter st /\
       (forall act, n_cache st = Some act -> n_cache st' = Some act)) \/
    (exists st2 rs m, msg = Some m /\ In s (t_nodes t) /\ cinv st2 /\ same_agents st st2 /\
       n_iter st2 = n_iter st /\
       (forall act, n_cache st = Some act -> n_cache st2 = Some act) /\
       (forall a, In a rs -> In a (t_adj t s) /\
           ((exists act, n_cache st2 = Some act /\ In a act) \/ t_server t = Some a)) /\
       (r = RNone -> (t_server t = None \/ t_server t = Some s) ->
           exists act, n_cache st2 = Some act /\ rs = filter (fun b => memb b act) (t_adj t s)) /\
       (r = RNone -> forall sv, t_server t = Some sv -> sv <> s -> rs = [sv]) /\
       (forall a, r = ROne a -> rs = [a]) /\ (forall l, r = RMany l -> rs = l) /\
       send t e st s r msg c = SOk (transmit t e st2 s rs m c)).
  Proof.
    intros I W. assert (ER : exists st', SErr st = SErr st' /\ same_agents st st' /\ cinv st' /\ n_iter st' = n_iter st /\
       (forall act, n_cache st = Some act -> n_cache st' = Some act)).
    { exists st. repeat split; auto; apply I. }
    unfold send. destruct (t_server t) as [sv|] eqn:SV.
    2:{ destruct (send_base_inv st s r msg c I W) as [L|(st2 & rs & m & A1 & A2 & A3 & A4 & A5 & A6 & A7 & A8 & A9 & A10 & A11)]; [left; exact L|].
        right. exists st2, rs, m. rewrite SV in *. repeat (split; auto). discriminate. }
    unfold send_fed.
    assert (G : forall r', (r' = r \/ (r = RNone /\ r' = ROne sv /\ s <> sv)) -> (r' = RNone -> s = sv) ->
      (exists st', send_base t e st s r' msg c = SErr st' /\ same_agents st st' /\ cinv st' /\ n_iter st' = n_iter st /\
       (forall act, n_cache st = Some act -> n_cache st' = Some act)) \/
      (exists st2 rs m, msg = Some m /\ In s (t_nodes t) /\ cinv st2 /\ same_agents st st2 /\
       n_iter st2 = n_iter st /\
       (forall act, n_cache st = Some act -> n_cache st2 = Some act) /\
       (forall a, In a rs -> In a (t_adj t s) /\
           ((exists act, n_cache st2 = Some act /\ In a act) \/ Some sv = Some a)) /\
       (r = RNone -> (Some sv = None \/ Some sv = Some s) ->
           exists act, n_cache st2 = Some act /\ rs = filter (fun b => memb b act) (t_adj t s)) /\
       (r = RNone -> forall sv0, Some sv = Some sv0 -> sv0 <> s -> rs = [sv0]) /\
       (forall a, r = ROne a -> rs = [a]) /\ (forall l, r = RMany l -> rs = l) /\
       send_base t e st s r' msg c = SOk (transmit t e st2 s rs m c))).
    { intros r' E HN. destruct (send_base_inv st s r' msg c I W) as [L|(st2 & rs & m & A1 & A2 & A3 & A4 & A5 & A6 & A7 & A8 & A9 & A10 & A11)]; [left; exact L|].
      right. exists st2, rs, m. rewrite SV in *. split; auto. split; auto. split; auto. split; auto. split; auto. split; auto. split; auto.
      destruct E as [->|(-> & -> & NE)].
      - split; [intros X _; auto|]. split; [|auto]. intros X sv0 [= <-] N. exfalso. apply N. symmetry; auto.
      - split; [intros _ [X|X]; [discriminate|]; congruence|].
        split; [intros _ sv0 [= <-] N; now apply A9|]. split; [discriminate|]. split; [discriminate|auto]. }
    destruct r as [|a|l].
    - destruct (Nat.eqb_spec s sv); simpl.
      + apply G; auto.
      + apply G; [right; auto|discriminate].
    - destruct (Nat.eqb s sv && Nat.eqb a sv); [left; exact ER|].
      destruct (negb (Nat.eqb s sv) && negb (Nat.eqb a sv)); [left; exact ER|].
      apply G; [auto|discriminate].
    - destruct (Nat.eqb_spec s sv); simpl; [|left; exact ER].
      destruct (existsb (fun a => Nat.eqb a sv) l); [left; exact ER|]. apply G; [auto|discriminate].
  Qed.
End P.
