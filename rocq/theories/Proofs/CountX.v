(** Counting of x updates, and initial histories of the library's algorithms. *)
From Coq Require Import Reals String List Bool Arith ZArith QArith.Qcanon Lia.
From Verif.Model Require Import PyDict History Messages Network Runner Vec P2P Fed.
From Verif.Spec Require Import NetworkSpec RunnerSpec P2PSpec FedSpec AlgSpec CountSpec.
From Verif.Proofs Require Import PyDictProofs HistoryProofs MessagesProofs NetworkProofs NetworkInv RunnerProofs P2PLock FedLock FedSelect AlgClient.
Import ListNotations.
Open Scope nat_scope.

Section Count.
  Context {V S : Type}.
  Variables (t : topo) (e : env V) (period : agent_id -> nat).
  (** either the counter has grown or neither it nor x has changed *)
  Definition counted (a b : agent V) : Prop := a_nx a < a_nx b \/ (a_nx b = a_nx a /\ a_x b = a_x a).
  Lemma counted_refl a : counted a a. Proof. right. auto. Qed.
  Lemma counted_same a b : a_x b = a_x a -> a_nx b = a_nx a -> counted a b. Proof. intros E F. right. auto. Qed.
  Lemma counted_trans a b c : counted a b -> counted b c -> counted a c.
  Proof. unfold counted. intros [A|(A & B)] [C|(C & D)]; [left; lia|left; lia|left; lia|right; split; congruence]. Qed.
  Lemma client_op_counted o st a : client_op o -> counted (n_agents st a) (n_agents (nstep t e st o) a).
  Proof.
    destruct o as [|b|s r m c|k|b v|b k v|b p it f|b]; simpl; intro C; try contradiction.
    - destruct (active_agents_frame V t e st) as (F & _). rewrite F. apply counted_refl.
    - destruct (active_connected_frame V t e st b) as (F & _). rewrite F. apply counted_refl.
    - destruct (send_private V t e st s r m c a) as (X & _ & _ & Y & _). now apply counted_same.
    - unfold upd. destruct (Nat.eqb a b); [|apply counted_refl]. left. cbn. lia.
    - unfold upd. destruct (Nat.eqb a b); [|apply counted_refl]. now apply counted_same.
    - unfold upd. destruct (Nat.eqb a b); [|apply counted_refl]. now apply counted_same.
  Qed.
  Lemma client_ops_counted ops : forall st a, Forall client_op ops -> counted (n_agents st a) (n_agents (nrun t e st ops) a).
  Proof.
    unfold nrun. induction ops as [|o ops IH]; intros st a F; cbn [fold_left]; [apply counted_refl|]. inversion F; subst.
    eapply counted_trans; [apply client_op_counted; eassumption|]. now apply IH.
  Qed.
  Lemma step_counted (A : alg V S) k w a : client_code t e A -> counted (n_agents (snd w) a) (n_agents (snd (fst (al_step A k w))) a).
  Proof. intro CC. destruct (CC k w) as (ops & F & ->). now apply client_ops_counted. Qed.
  Lemma netstep_x k (st : net V) a : a_x (n_agents (step t k st) a) = a_x (n_agents st a) /\ a_nx (n_agents (step t k st) a) = a_nx (n_agents st a).
  Proof. destruct (step_spec V t k st) as (_ & _ & _ & _ & _ & D). rewrite D. destruct (memb a (t_nodes t)); auto. Qed.
  Lemma snapall_x (A : alg V S) k (st : net V) a : NoDup (t_nodes t) ->
    a_x (n_agents (snapshot_all t period A k st) a) = a_x (n_agents st a) /\ a_nx (n_agents (snapshot_all t period A k st) a) = a_nx (n_agents st a).
  Proof.
    intro ND. unfold snapshot_all. rewrite snapshot_fold by auto. destruct (memb a (t_nodes t)); auto.
    unfold snapshot. destruct (a_x (n_agents st a)) eqn:E; auto. destruct (_ || _); cbn; auto.
  Qed.
  (** the values and counts seen by the callbacks *)
  Lemma loop_counts (A : alg V S) a : NoDup (t_nodes t) -> client_code t e A -> forall n k w,
    let r := loop t period A n k w in r_out r = Finished ->
    exists X c, X k = a_x (n_agents (snd w) a) /\ c k = a_nx (n_agents (snd w) a) /\
      (forall j w', In (CCallback j w') (r_calls r) -> k <= j < k + n /\ a_x (n_agents (snd w') a) = X (Datatypes.S j) /\ a_nx (n_agents (snd w') a) = c (Datatypes.S j)) /\
      (forall j, k <= j < k + n -> c j < c (Datatypes.S j) \/ (c (Datatypes.S j) = c j /\ X (Datatypes.S j) = X j)) /\
      a_nx (n_agents (snd (r_world r)) a) = c (k + n).
  Proof.
    intros ND CC. induction n as [|n IH]; intros k w; cbn [loop].
    - intros _. exists (fun _ => a_x (n_agents (snd w) a)), (fun _ => a_nx (n_agents (snd w) a)). cbn. repeat split; auto; try tauto; intros; lia.
    - set (w1 := (fst w, step t k (snd w))). pose proof (step_counted A k w1 a CC) as SC. destruct (al_step A k w1) as (w2, raised). cbn [fst] in SC.
      destruct raised; [cbn; discriminate|]. set (w3 := (fst w2, snapshot_all t period A (k + 1) (snd w2))). cbn [r_out r_calls r_world].
      intro O. destruct (IH (k + 1) w3 O) as (X & c & X0 & C0 & CB & ST & FI).
      destruct (snapall_x A (k + 1) (snd w2) a ND) as (S1 & S2). destruct (netstep_x k (snd w) a) as (T1 & T2).
      unfold counted in SC. cbn [w1 snd] in SC. cbn [w3 snd] in X0, C0. rewrite S1 in X0. rewrite S2 in C0. rewrite T1, T2 in SC.
      exists (fun j => if j =? k then a_x (n_agents (snd w) a) else X j), (fun j => if j =? k then a_nx (n_agents (snd w) a) else c j).
      rewrite Nat.eqb_refl. split; [auto|]. split; [auto|]. split; [|split].
      + intros j w' [H|[H|H]].
        * discriminate.
        * injection H as <- <-. replace (Datatypes.S k =? k) with false by (symmetry; apply Nat.eqb_neq; lia). cbn [w3 snd]. rewrite S1, S2.
          replace (Datatypes.S k) with (k + 1) by lia. split; [lia|]. split; congruence.
        * destruct (CB j w' H) as (B & E1 & E2). replace (Datatypes.S j =? k) with false by (symmetry; apply Nat.eqb_neq; lia). split; [lia|]. auto.
      + intros j Hj. replace (Datatypes.S j =? k) with false by (symmetry; apply Nat.eqb_neq; lia). destruct (Nat.eqb_spec j k) as [->|NE].
        * replace (Datatypes.S k) with (k + 1) by lia. rewrite C0, X0. destruct SC as [SC|(SC1 & SC2)]; auto.
        * apply ST. lia.
      + replace (k + Datatypes.S n =? k) with false by (symmetry; apply Nat.eqb_neq; lia). rewrite FI. f_equal. lia.
  Qed.
  Lemma increments (c : nat -> nat) (P : nat -> Prop) n : (forall j, j < n -> c j <= c (Datatypes.S j)) -> (forall j, j < n -> P j -> c j < c (Datatypes.S j)) ->
    forall ks, NoDup ks -> (forall j, In j ks -> j < n /\ P j) -> c 0 + length ks <= c n.
  Proof.
    induction n as [|n IH]; intros M ST ks ND H.
    - destruct ks as [|j ks]; [cbn; lia|]. destruct (H j (or_introl eq_refl)). lia.
    - destruct (in_dec Nat.eq_dec n ks) as [I|I].
      + destruct (in_split _ _ I) as (l1 & l2 & ->). apply NoDup_remove in ND. destruct ND as (ND & NI).
        assert (c 0 + length (l1 ++ l2) <= c n).
        { apply IH; auto. intros j Hj. assert (In j (l1 ++ n :: l2)) by (apply in_app_iff in Hj; apply in_app_iff; cbn; tauto).
          destruct (H j H0). split; auto. assert (j <> n) by (intros ->; auto). lia. }
        destruct (H n I) as (_ & PN). specialize (ST n ltac:(lia) PN). rewrite app_length in *. cbn. lia.
      + assert (c 0 + length ks <= c n). { apply IH; auto. intros j Hj. destruct (H j Hj). split; auto. assert (j <> n) by (intros ->; auto). lia. }
        specialize (M n ltac:(lia)). lia.
  Qed.
End Count.

Lemma run_loop0 {V S} t period (A : alg V S) w : let r := run t period A 0 w in let L := loop t period A (al_iters A) 0 (al_init A w) in
  r = mkRes (r_out L) (CInit w :: r_calls L) (r_world L).
Proof.
  cbn zeta. unfold run. replace (Z.of_nat (al_iters A) <? 0)%Z with false by (symmetry; apply Z.ltb_ge; lia).
  cbn [Z.ltb Z.eqb orb Z.compare Z.to_nat]. rewrite Nat.sub_0_r. reflexivity.
Qed.

Section Init.
  Variables (t : topo) (e : env vec).
  Lemma do_init_out init : forall l (w : pworld) i, ~ In i l ->
    n_agents (snd (fold_left (fun w i => let '((x, aux), d) := init i (fst w) in (d, upd_agent i (initialize (Some x) aux) (snd w))) l w)) i = n_agents (snd w) i.
  Proof.
    induction l as [|q l IH]; intros w i NI; cbn [fold_left]; auto. destruct (init q (fst w)) as ((x, ax), d). rewrite IH by (intro; apply NI; now right).
    cbn. unfold upd. destruct (Nat.eqb_spec i q); auto. subst. exfalso. apply NI. now left.
  Qed.
  Lemma do_init_in init : forall l (w : pworld) i, NoDup l -> In i l -> exists x0,
    initialised (snd (fold_left (fun w i => let '((x, aux), d) := init i (fst w) in (d, upd_agent i (initialize (Some x) aux) (snd w))) l w)) i x0.
  Proof.
    induction l as [|q l IH]; intros w i ND I; [destruct I|]. destruct I as [->|I]; inversion ND; subst; cbn [fold_left].
    - destruct (init i (fst w)) as ((x, ax), d). exists x. unfold initialised. rewrite do_init_out by auto. cbn. unfold upd. rewrite Nat.eqb_refl. split; reflexivity.
    - now apply IH.
  Qed.
  Lemma agents_p2p : t_server t = None -> agents t = t_nodes t.
  Proof. intro H. unfold agents, is_server. rewrite H. clear. induction (t_nodes t) as [|q l IH]; cbn in *; [auto|]. now rewrite IH. Qed.
End Init.
