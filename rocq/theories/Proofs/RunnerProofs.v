From Coq Require Import String List Bool Arith ZArith Lia.
From Verif.Model Require Import PyDict History Messages Network Runner.
From Verif.Spec Require Import HistorySpec NetworkSpec RunnerSpec.
From Verif.Proofs Require Import PyDictProofs HistoryProofs MessagesProofs NetworkProofs NetworkInv.
Import ListNotations.
Open Scope nat_scope.

Section P.
  Variables (V S : Type) (t : topo) (e : env V) (period : agent_id -> nat).
  Implicit Types (st : net V) (w : world V S).

  Lemma same_private_refl (a : agent V) : same_private a a.
  Proof. repeat split. Qed.
  Lemma same_private_trans (a b c : agent V) : same_private a b -> same_private b c -> same_private a c.
  Proof. unfold same_private. intuition congruence. Qed.

  Lemma send_base_private st s r m c a : same_private (n_agents st a) (n_agents (sstate (send_base t e st s r m c)) a).
  Proof.
    unfold send_base. destruct m as [m|]; [|apply same_private_refl].
    destruct (memb s (t_nodes t)); simpl; [|apply same_private_refl].
    assert (T : forall st1 rs, same_private (n_agents st a) (n_agents st1 a) ->
      same_private (n_agents st a) (n_agents (sstate (let '(al, st2) := allowed t e st1 s in
       if forallb (fun a => memb a al) rs then SOk (transmit t e st2 s rs m c) else SErr st2)) a)).
    { intros st1 rs H. pose proof (allowed_frame V t e st1 s) as (F & _). destruct (allowed t e st1 s) as [al st2]. simpl in F.
      destruct (forallb _ rs); simpl; [|now rewrite F].
      eapply same_private_trans; [exact H|]. rewrite <- (F a). apply transmit_private. }
    destruct r as [|b|l].
    - pose proof (active_connected_frame V t e st s) as (F & _). destruct (active_connected t e st s) as [l st1]. simpl in F.
      apply T. rewrite F. apply same_private_refl.
    - destruct (memb b (connected_agents t s)); [apply T|]; apply same_private_refl.
    - apply T; apply same_private_refl.
  Qed.
  Lemma send_private st s r m c a : same_private (n_agents st a) (n_agents (sstate (send t e st s r m c)) a).
  Proof.
    unfold send. destruct (t_server t); [|apply send_base_private]. unfold send_fed.
    destruct r; repeat match goal with |- context [if ?b then _ else _] => destruct b end;
    try apply same_private_refl; apply send_base_private.
  Qed.

  (** client operations never touch a history and never unset x *)
  Lemma client_op_hist o st a : client_op o ->
    a_hist (n_agents (nstep t e st o) a) = a_hist (n_agents st a) /\
    (a_x (n_agents st a) <> None -> a_x (n_agents (nstep t e st o) a) <> None).
  Proof.
    destruct o as [|b|s r m c|k|b v|b k v|b p it f|b]; simpl; intro C; try contradiction.
    - destruct (active_agents_frame V t e st) as (F & _). rewrite F. auto.
    - destruct (active_connected_frame V t e st b) as (F & _). rewrite F. auto.
    - destruct (send_private st s r m c a) as (A & B & _). rewrite A, B. auto.
    - unfold upd. destruct (Nat.eqb a b); simpl; split; auto. discriminate.
    - unfold upd. destruct (Nat.eqb a b); simpl; auto.
    - unfold upd. destruct (Nat.eqb a b); simpl; auto.
  Qed.
  Lemma client_ops_hist ops : forall st a, Forall client_op ops ->
    a_hist (n_agents (nrun t e st ops) a) = a_hist (n_agents st a) /\
    (a_x (n_agents st a) <> None -> a_x (n_agents (nrun t e st ops) a) <> None).
  Proof.
    unfold nrun. induction ops as [|o ops IH]; intros st a F; simpl; auto.
    inversion F; subst. destruct (IH (nstep t e st o) a H2) as (A & B). destruct (client_op_hist o st a H1) as (C & D).
    rewrite A. auto.
  Qed.

  Lemma snapshot_fold N it l : forall st a, NoDup l ->
    n_agents (fold_left (fun st a => upd_agent a (snapshot (period a) it (it =? N)) st) l st) a =
    if memb a l then snapshot (period a) it (it =? N) (n_agents st a) else n_agents st a.
  Proof.
    induction l as [|b l IH]; intros st a ND; simpl; auto. inversion ND; subst.
    rewrite IH by auto. simpl. unfold upd. destruct (Nat.eqb_spec a b); simpl; auto. subst.
    replace (memb b l) with false; auto. destruct (memb b l) eqn:E; auto. apply memb_In in E. contradiction.
  Qed.

  Lemma snapshot_fold_frame N it l : forall st,
    let st' := fold_left (fun st a => upd_agent a (snapshot (period a) it (it =? N)) st) l st in
    n_iter st' = n_iter st /\ n_cache st' = n_cache st /\ n_conn st' = n_conn st /\ n_draws st' = n_draws st /\ n_log st' = n_log st.
  Proof.
    induction l as [|b l IH]; intros st; simpl; auto.
    destruct (IH (upd_agent b (snapshot (period b) it (it =? N)) st)) as (A & B & C & D & E). auto.
  Qed.

  Variable A : alg V S.
  Notation N := (al_iters A).

  Definition duebk (p n : nat) : bool := (n =? N) || (n mod p =? 0).
  (** the writes that a trace of callbacks stands for *)
  Definition writes (a : agent_id) (l : list (call V S)) : list (Z * V) :=
    flat_map (fun c => match c with
      | CCallback k w => match a_x (n_agents (snd w) a) with
                         | Some v => if duebk (period a) (k + 1) then [(Z.of_nat (k + 1), v)] else []
                         | None => [] end
      | _ => [] end) l.

  Lemma step_hist k st a : a_hist (n_agents (step t k st) a) = a_hist (n_agents st a) /\ a_x (n_agents (step t k st) a) = a_x (n_agents st a).
  Proof. destruct (step_spec V t k st) as (_ & _ & _ & _ & _ & D). rewrite D. destruct (memb a (t_nodes t)); auto. Qed.

  Hypothesis ND : NoDup (t_nodes t).

  Lemma loop_hist : client_code t e A -> forall a, In a (t_nodes t) ->
    forall n k w ws, hinv V ws (a_hist (n_agents (snd w) a)) -> a_x (n_agents (snd w) a) <> None ->
    r_out (loop t period A n k w) = Finished ->
    hinv V (ws ++ writes a (r_calls (loop t period A n k w))) (a_hist (n_agents (snd (r_world (loop t period A n k w))) a)) /\
    (forall j w', In (CCallback j w') (r_calls (loop t period A n k w)) -> a_x (n_agents (snd w') a) <> None).
  Proof.
    intros CC a Ha. induction n as [|n IH]; intros k w ws H X O; cbn [loop].
    - simpl. rewrite app_nil_r. split; [exact H|intros j w' []].
    - cbn [loop] in O. set (w1 := (fst w, step t k (snd w))) in *.
      destruct (CC k w1) as (ops & FC & E).
      destruct (al_step A k w1) as [w2 raised]. cbn [fst] in E. destruct raised; [discriminate|].
      cbn [r_out] in O. set (w3 := (fst w2, snapshot_all t period A (k + 1) (snd w2))) in *.
      destruct (client_ops_hist ops (snd w1) a FC) as (H2 & X2). rewrite <- E in H2, X2.
      destruct (step_hist k (snd w) a) as (H1 & X1). change (step t k (snd w)) with (snd w1) in H1, X1.
      assert (X2' : a_x (n_agents (snd w2) a) <> None) by (apply X2; rewrite X1; auto).
      assert (W3 : n_agents (snd w3) a = snapshot (period a) (k + 1) (k + 1 =? N) (n_agents (snd w2) a)).
      { simpl. unfold snapshot_all. rewrite snapshot_fold by auto. apply memb_In in Ha. now rewrite Ha. }
      destruct (a_x (n_agents (snd w2) a)) as [v|] eqn:XV; [|congruence].
      assert (X3 : a_x (n_agents (snd w3) a) = Some v).
      { rewrite W3. destruct (snapshot_frame V (period a) (k+1) (k + 1 =? N) (n_agents (snd w2) a)) as (_ & _ & _ & _ & Y & _). congruence. }
      assert (I3 : hinv V (ws ++ (if duebk (period a) (k + 1) then [(Z.of_nat (k + 1), v)] else [])) (a_hist (n_agents (snd w3) a))).
      { rewrite W3. unfold snapshot, duebk. rewrite XV. destruct ((k + 1 =? N) || ((k + 1) mod period a =? 0)).
        - simpl. apply hinv_write. now rewrite H2, H1.
        - rewrite app_nil_r. now rewrite H2, H1. }
      destruct (IH (k + 1) w3 _ I3) as (I4 & I5); auto; [congruence|].
      cbn [r_calls r_world]. split.
      + cbn [writes flat_map]. fold (writes a (r_calls (loop t period A n (k + 1) w3))).
        rewrite X3. rewrite <- app_assoc in I4. exact I4.
      + intros j w' [?|[[= <- <-]|?]]; [discriminate|congruence|]. eapply I5; eauto.
  Qed.

  (** indices of the calls *)
  Lemma loop_indices n : forall k w,
    match r_out (loop t period A n k w) with
    | Finished => step_indices (r_calls (loop t period A n k w)) = seq k n /\ callback_indices (r_calls (loop t period A n k w)) = seq k n
    | Raised j => k <= j < k + n /\ step_indices (r_calls (loop t period A n k w)) = seq k (j - k + 1) /\
                  callback_indices (r_calls (loop t period A n k w)) = seq k (j - k)
    | Rejected => False
    end /\ init_calls (r_calls (loop t period A n k w)) = [].
  Proof.
    induction n as [|n IH]; intros k w; cbn [loop]; [simpl; auto|].
    destruct (al_step A k (fst w, step t k (snd w))) as [w2 raised]. destruct raised; cbn [r_out r_calls].
    - split; auto. rewrite Nat.sub_diag. simpl. repeat split; auto; lia.
    - set (w3 := (fst w2, snapshot_all t period A (k + 1) (snd w2))). destruct (IH (k + 1) w3) as (H & H').
      split; [|exact H'].
      destruct (r_out (loop t period A n (k + 1) w3)) as [|j|]; auto.
      + destruct H as (H1 & H2). simpl. replace (Datatypes.S k) with (k + 1) by lia. split; f_equal; auto.
      + destruct H as (H0 & H1 & H2). split; [lia|]. simpl.
        replace (j - k + 1) with (Datatypes.S (j - (k + 1) + 1)) by lia.
        replace (j - k) with (Datatypes.S (j - (k + 1))) by lia. simpl.
        replace (Datatypes.S k) with (k + 1) by lia. split; f_equal; auto.
  Qed.

  Lemma loop_fresh n : forall k w j w', In (CStep j w') (r_calls (loop t period A n k w)) ->
    exists w0, w' = (fst w0, step t j (snd w0)).
  Proof.
    induction n as [|n IH]; intros k w j w'; cbn [loop]; [intros []|].
    destruct (al_step A k (fst w, step t k (snd w))) as [w2 raised]. destruct raised; cbn [r_calls].
    - intros [[= <- <-]|[]]. eauto.
    - intros [[= <- <-]|[?|?]]; [eauto|discriminate|]. eapply IH; eauto.
  Qed.

  (** resuming after a callback *)
  Lemma loop_resume n : forall k w j w', In (CCallback j w') (r_calls (loop t period A n k w)) ->
    k <= j < k + n /\
    let r' := loop t period A (k + n - (j + 1)) (j + 1) w' in
    r_out r' = r_out (loop t period A n k w) /\ r_world r' = r_world (loop t period A n k w) /\
    exists pre, r_calls (loop t period A n k w) = pre ++ CCallback j w' :: r_calls r'.
  Proof.
    induction n as [|n IH]; intros k w j w'; cbn [loop]; [intros []|].
    destruct (al_step A k (fst w, step t k (snd w))) as [w2 raised] eqn:E. destruct raised; cbn [r_calls r_out r_world].
    - intros [?|[]]. discriminate.
    - intros [?|[[= <- <-]|I]]; [discriminate| |].
      + split; [lia|]. replace (k + Datatypes.S n - (k + 1)) with n by lia. repeat split; auto.
        exists [CStep k (fst w, step t k (snd w))]. reflexivity.
      + destruct (IH _ _ _ _ I) as (B & C). split; [lia|].
        replace (k + Datatypes.S n - (j + 1)) with (k + 1 + n - (j + 1)) by lia.
        cbn zeta in *. destruct C as (C1 & C2 & pre & C3). repeat split; auto.
        exists (CStep k (fst w, step t k (snd w)) :: CCallback k (fst w2, snapshot_all t period A (k + 1) (snd w2)) :: pre).
        rewrite C3 at 1. reflexivity.
  Qed.
End P.

Section Ext.
  Variables (V S : Type) (t : topo) (period : agent_id -> nat).
  (** iterations at which histories may differ *)
  Variable X : list nat.
  Implicit Types (st : net V) (w : world V S).

  Definition hrel (h h' : history V) : Prop :=
    forall k, ~ In k (map Z.of_nat X) -> dget Z.eqb (h_dict h) k = dget Z.eqb (h_dict h') k.
  Definition wrel w w' : Prop := world_upto_hist w w' /\ forall a, hrel (a_hist (n_agents (snd w) a)) (a_hist (n_agents (snd w') a)).

  Lemma upto_refl st : net_upto_hist st st.
  Proof. unfold net_upto_hist, agent_upto_hist. repeat split; auto. Qed.
  Lemma wrel_refl w : wrel w w.
  Proof. split; [split; [auto|apply upto_refl]|]. intros a k _. auto. Qed.

  Lemma snapshot_rel a it f f' (g g' : agent V) : (~ In it X -> f = f') ->
    agent_upto_hist g g' -> hrel (a_hist g) (a_hist g') ->
    agent_upto_hist (snapshot (period a) it f g) (snapshot (period a) it f' g') /\
    hrel (a_hist (snapshot (period a) it f g)) (a_hist (snapshot (period a) it f' g')).
  Proof.
    intros HF U H. pose proof U as (XX & U2). unfold snapshot. rewrite XX. destruct (a_x g) as [x|] eqn:E; [|auto].
    split.
    - destruct (f || _), (f' || _); unfold agent_upto_hist in *; simpl; intuition congruence.
    - intros k Hk. destruct (in_dec Nat.eq_dec it X) as [IX|IX].
      + assert (D : forall (h : history V), dget Z.eqb (h_dict (h_write h (Z.of_nat it, x))) k = dget Z.eqb (h_dict h) k).
        { intro h. unfold h_write, h_set. simpl. destruct (Z.of_nat it <? 0)%Z; auto. simpl.
          rewrite (dget_dset _ _ _ Z.eqb_spec). destruct (Z.eqb_spec k (Z.of_nat it)); auto. subst k. exfalso. apply Hk. now apply in_map. }
        destruct (f || _), (f' || _); simpl; rewrite ?D; apply H; auto.
      + rewrite <- HF by auto. destruct (f || _); simpl; [|apply H; auto].
        assert (D : forall (h : history V), dget Z.eqb (h_dict (h_write h (Z.of_nat it, x))) k = if Z.eqb k (Z.of_nat it) then Some x else dget Z.eqb (h_dict h) k).
        { intro h. unfold h_write, h_set. simpl. destruct (Z.ltb_spec (Z.of_nat it) 0)%Z; [lia|]. simpl.
          apply (dget_dset _ _ _ Z.eqb_spec). }
        rewrite !D. destruct (Z.eqb k (Z.of_nat it)); auto.
  Qed.

  Lemma step_rel k w w' : wrel w w' -> wrel (fst w, step t k (snd w)) (fst w', step t k (snd w')).
  Proof.
    intros ((F & U & B1 & B2 & B3 & B4 & B5) & H). split; [split; [exact F|]|].
    - destruct (step_spec V t k (snd w)) as (P1 & P2 & P3 & P4 & P5 & P6).
      destruct (step_spec V t k (snd w')) as (Q1 & Q2 & Q3 & Q4 & Q5 & Q6).
      unfold net_upto_hist. cbn [snd]. rewrite P1, P2, P3, P4, P5, Q1, Q2, Q3, Q4, Q5. split; [|rewrite B4, B5; auto].
      intro a. rewrite P6, Q6. destruct (memb a (t_nodes t)); [|apply U]. destruct (U a) as (X1 & X2 & X3 & X4 & X5 & X6 & X7 & X8).
      unfold agent_upto_hist. simpl. auto 10.
    - intro a. cbn [snd]. destruct (step_hist V t k (snd w) a) as (-> & _). destruct (step_hist V t k (snd w') a) as (-> & _). apply H.
  Qed.

  Variables A1 A2 : alg V S.
  Hypothesis STEP : forall k w, al_step A1 k w = al_step A2 k w.
  Hypothesis AGN : hist_agnostic A1.
  (** steps do not change histories, so agnostic steps keep them related *)
  Hypothesis KEEP : forall k w a, a_hist (n_agents (snd (fst (al_step A1 k w))) a) = a_hist (n_agents (snd w) a).
  Hypothesis ND : NoDup (t_nodes t).

  Lemma loop_rel n : forall k w w',
    (forall it, k < it <= k + n -> ~ In it X -> (it =? al_iters A1) = (it =? al_iters A2)) ->
    wrel w w' ->
    r_out (loop t period A1 n k w) = r_out (loop t period A2 n k w') /\
    wrel (r_world (loop t period A1 n k w)) (r_world (loop t period A2 n k w')).
  Proof.
    induction n as [|n IH]; intros k w w' HF R; cbn [loop]; [auto|].
    set (u := (fst w, step t k (snd w))). set (u' := (fst w', step t k (snd w'))).
    assert (RU : wrel u u') by now apply step_rel.
    destruct (AGN k u u' (proj1 RU)) as (RV & RR). pose proof (KEEP k u) as K1. pose proof (KEEP k u') as K2.
    rewrite <- STEP. destruct (al_step A1 k u) as [v b], (al_step A1 k u') as [v' b']. cbn [fst snd] in *. subst b'.
    destruct b; cbn [r_out r_world].
    - split; auto. split; auto. intro a. rewrite K1, K2. apply RU.
    - apply IH; [intros; apply HF; auto; lia|]. split.
      + destruct RV as (F & U & B). split; [exact F|]. cbn [snd]. unfold snapshot_all.
        destruct (snapshot_fold_frame V period (al_iters A1) (k + 1) (t_nodes t) (snd v)) as (P1 & P2 & P3 & P4 & P5).
        destruct (snapshot_fold_frame V period (al_iters A2) (k + 1) (t_nodes t) (snd v')) as (Q1 & Q2 & Q3 & Q4 & Q5).
        split; [|rewrite P1, P2, P3, P4, P5, Q1, Q2, Q3, Q4, Q5; exact B].
        intro a. rewrite !snapshot_fold by auto. destruct (memb a (t_nodes t)); [|apply U].
        apply snapshot_rel; [intro; apply HF; [lia|assumption]|apply U|]. rewrite K1, K2. apply RU.
      + intro a. cbn [snd]. unfold snapshot_all. rewrite !snapshot_fold by auto. destruct (memb a (t_nodes t)).
        * apply snapshot_rel; [intro; apply HF; [lia|assumption]|apply RV|]. rewrite K1, K2. apply RU.
        * rewrite K1, K2. apply RU.
  Qed.

  Lemma loop_app (A : alg V S) n m : forall k w, r_out (loop t period A n k w) = Finished ->
    r_out (loop t period A (n + m) k w) = r_out (loop t period A m (k + n) (r_world (loop t period A n k w))) /\
    r_world (loop t period A (n + m) k w) = r_world (loop t period A m (k + n) (r_world (loop t period A n k w))).
  Proof.
    induction n as [|n IH]; intros k w H; cbn [loop plus] in *; [rewrite Nat.add_0_r; auto|].
    destruct (al_step A k _) as [w2 b]. destruct b; [discriminate|]. cbn [r_out r_world] in *.
    destruct (IH (k + 1) _ H) as (XX & Y). replace (k + Datatypes.S n) with (k + 1 + n) by lia. rewrite XX, Y. auto.
  Qed.

  Lemma loop_written (A : alg V S) a : In a (t_nodes t) -> (forall k w, a_x (n_agents (snd w) a) <> None -> a_x (n_agents (snd (fst (al_step A k w))) a) <> None) ->
    forall n k w, 0 < n -> k + n = al_iters A -> a_x (n_agents (snd w) a) <> None -> r_out (loop t period A n k w) = Finished ->
    dmem Z.eqb (h_dict (a_hist (n_agents (snd (r_world (loop t period A n k w))) a))) (Z.of_nat (al_iters A)) = true.
  Proof.
    intros Ha XS. induction n as [|n IH]; intros k w P E X0 O; [lia|]. cbn [loop] in *.
    set (w1 := (fst w, step t k (snd w))) in *.
    assert (X1 : a_x (n_agents (snd w1) a) <> None) by (unfold w1; cbn [snd]; destruct (step_hist V t k (snd w) a) as (_ & ->); auto).
    specialize (XS k w1 X1) as X2. destruct (al_step A k w1) as [w2 b]. cbn [fst] in X2. destruct b; [discriminate|]. cbn [r_out r_world] in *.
    assert (X3 : n_agents (snapshot_all t period A (k + 1) (snd w2)) a = snapshot (period a) (k + 1) (k + 1 =? al_iters A) (n_agents (snd w2) a)).
    { unfold snapshot_all. rewrite snapshot_fold by auto. apply memb_In in Ha. now rewrite Ha. }
    destruct n as [|n].
    - cbn [loop r_world snd]. rewrite X3. unfold snapshot. destruct (a_x (n_agents (snd w2) a)) as [v|] eqn:XV; [|congruence].
      replace (k + 1 =? al_iters A) with true by (symmetry; apply Nat.eqb_eq; lia). simpl.
      unfold h_write, h_set. simpl. destruct (Z.ltb_spec (Z.of_nat (k + 1)) 0)%Z; [lia|]. simpl.
      unfold dmem. rewrite (dget_dset _ _ _ Z.eqb_spec). replace (k + 1) with (al_iters A) by lia. rewrite Z.eqb_refl. auto.
    - apply (IH (k + 1)); auto; try lia. cbn [snd]. rewrite X3.
      destruct (snapshot_frame V (period a) (k + 1) (k + 1 =? al_iters A) (n_agents (snd w2) a)) as (_ & _ & _ & _ & -> & _). auto.
  Qed.
End Ext.

(** Client operations are history-agnostic. *)
Section Agn.
  Variables (V : Type) (t : topo) (e : env V).
  Implicit Types (st : net V).

  Lemma upto_upd a (f : agent V -> agent V) st st' : (forall g g', agent_upto_hist g g' -> agent_upto_hist (f g) (f g')) ->
    net_upto_hist st st' -> net_upto_hist (upd_agent a f st) (upd_agent a f st').
  Proof.
    intros H (U & B). split; [|exact B]. intro b. simpl. unfold upd. destruct (Nat.eqb b a); auto.
  Qed.
  Lemma upto_active st st' : net_upto_hist st st' ->
    fst (active_agents t e st) = fst (active_agents t e st') /\ net_upto_hist (snd (active_agents t e st)) (snd (active_agents t e st')).
  Proof.
    intros (U & B1 & B2 & B3 & B4 & B5). unfold active_agents. rewrite B2. destruct (n_cache st) eqn:E.
    - simpl. split; auto. repeat split; auto; try apply U; congruence.
    - rewrite B1, B4. destruct (act_filter e (n_iter st) (agents t) (n_draws st)) as [l d]. simpl. split; auto.
      repeat split; simpl; auto; try apply U. congruence.
  Qed.
  Lemma upto_conn st st' a : net_upto_hist st st' ->
    fst (active_connected t e st a) = fst (active_connected t e st' a) /\ net_upto_hist (snd (active_connected t e st a)) (snd (active_connected t e st' a)).
  Proof.
    intros H. pose proof H as (U & B1 & B2 & B3 & B4 & B5). unfold active_connected. rewrite B3.
    destruct (dget Nat.eqb (n_conn st) a); [split; auto|].
    destruct (upto_active st st' H) as (X & (Y & Y1 & Y2 & Y3 & Y4 & Y5)).
    destruct (active_agents t e st) as [l s1], (active_agents t e st') as [l' s1']. simpl in *. subst l'. split; auto.
    repeat split; simpl; auto; try apply Y. congruence.
  Qed.
  Lemma upto_allowed st st' a : net_upto_hist st st' ->
    fst (allowed t e st a) = fst (allowed t e st' a) /\ net_upto_hist (snd (allowed t e st a)) (snd (allowed t e st' a)).
  Proof.
    intros H. unfold allowed. destruct (t_server t) as [sv|]; [|now apply upto_conn].
    destruct (Nat.eqb a sv); [now apply upto_conn|]. destruct H as (U & B1 & B2 & B3 & B4 & B5). simpl. rewrite B1, B4. split; auto.
    repeat split; simpl; auto; apply U.
  Qed.
  Lemma upto_logev ev st st' : net_upto_hist st st' -> net_upto_hist (logev ev st) (logev ev st').
  Proof. intros (U & B1 & B2 & B3 & B4 & B5). repeat split; simpl; auto; try apply U. congruence. Qed.
  Lemma upto_deliver s c p m nz inc l : forall i st st', net_upto_hist st st' ->
    net_upto_hist (deliver e s c p m nz inc i l st) (deliver e s c p m nz inc i l st').
  Proof.
    induction l as [|r l IH]; intros i st st' H; simpl; auto. apply IH. apply upto_logev. apply upto_upd; auto.
    intros g g' G. unfold agent_upto_hist in *. simpl. intuition congruence.
  Qed.
  Lemma upto_transmit s rs m c st st' : net_upto_hist st st' -> net_upto_hist (transmit t e st s rs m c) (transmit t e st' s rs m c).
  Proof.
    intro H. unfold transmit. cbn [upd_agent n_draws]. pose proof H as (_ & _ & _ & _ & B4 & _). rewrite B4.
    destruct (drop_filter e s rs (n_draws st)) as [conf d]. apply upto_deliver.
    assert (X : forall st st', net_upto_hist st st' -> forall d, net_upto_hist (set_draws d st) (set_draws d st')).
    { intros u u' (U & C1 & C2 & C3 & C4 & C5) d'. repeat split; simpl; auto; apply U. }
    apply X. repeat apply upto_upd; auto; intros g g' G; unfold agent_upto_hist in *; simpl; intuition congruence.
  Qed.
  Definition sres_rel (r r' : sres V) : Prop :=
    match r, r' with SOk a, SOk b => net_upto_hist a b | SErr a, SErr b => net_upto_hist a b | _, _ => False end.
  Lemma upto_send_base s r m c st st' : net_upto_hist st st' -> sres_rel (send_base t e st s r m c) (send_base t e st' s r m c).
  Proof.
    intro H. unfold send_base. destruct m as [m|]; [|exact H]. destruct (memb s (t_nodes t)); simpl; [|exact H].
    assert (T : forall st st' rs, net_upto_hist st st' -> sres_rel
       (let '(al, st2) := allowed t e st s in if forallb (fun a => memb a al) rs then SOk (transmit t e st2 s rs m c) else SErr st2)
       (let '(al, st2) := allowed t e st' s in if forallb (fun a => memb a al) rs then SOk (transmit t e st2 s rs m c) else SErr st2)).
    { intros u u' rs Hu. destruct (upto_allowed u u' s Hu) as (X & Y).
      destruct (allowed t e u s) as [al u2], (allowed t e u' s) as [al' u2']. simpl in *. subst al'.
      destruct (forallb _ rs); simpl; auto. now apply upto_transmit. }
    destruct r as [|a|l].
    - destruct (upto_conn st st' s H) as (X & Y). destruct (active_connected t e st s) as [l u], (active_connected t e st' s) as [l' u'].
      simpl in *. subst l'. now apply T.
    - destruct (memb a (connected_agents t s)); [now apply T|exact H].
    - now apply T.
  Qed.
  Lemma upto_send s r m c st st' : net_upto_hist st st' -> sres_rel (send t e st s r m c) (send t e st' s r m c).
  Proof.
    intro H. unfold send. destruct (t_server t); [|now apply upto_send_base]. unfold send_fed.
    destruct r; repeat match goal with |- context [if ?b then _ else _] => destruct b end; try exact H; now apply upto_send_base.
  Qed.
  Lemma upto_op o st st' : client_op o -> net_upto_hist st st' -> net_upto_hist (nstep t e st o) (nstep t e st' o).
  Proof.
    intros C H. destruct o as [|a|s r m c|k|a v|a k v|a p it f|a]; simpl in *; try contradiction.
    - now apply upto_active.
    - now apply upto_conn.
    - pose proof (upto_send s r m c st st' H) as X. destruct (send t e st s r m c), (send t e st' s r m c); simpl in *; tauto.
    - apply upto_upd; auto; intros g g' G; unfold agent_upto_hist in *; simpl; intuition congruence.
    - apply upto_upd; auto; intros g g' G; unfold agent_upto_hist in *; simpl; intuition congruence.
    - apply upto_upd; auto; intros g g' G; unfold agent_upto_hist in *; simpl; intuition congruence.
  Qed.
  Lemma upto_ops ops : forall st st', Forall client_op ops -> net_upto_hist st st' -> net_upto_hist (nrun t e st ops) (nrun t e st' ops).
  Proof.
    unfold nrun. induction ops as [|o ops IH]; intros st st' F H; simpl; auto. inversion F; subst.
    apply IH; auto. now apply upto_op.
  Qed.
End Agn.
