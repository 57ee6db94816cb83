(** Runs of DLM and DiNNO: with shared arrays as without, where sharing is harmless. *)
From Coq Require Import Reals String List Bool Arith ZArith Lia Lra FunctionalExtensionality.
From Verif.Model Require Import PyDict History Messages Network Runner Vec P2P P2PShared.
From Verif.Spec Require Import NetworkSpec P2PSpec P2PSharedSpec.
From Verif.Proofs Require Import PyDictProofs MessagesProofs NetworkProofs NetworkInv NetworkMore RunnerProofs NetMap P2PSharedProofs.
Import ListNotations.
Open Scope nat_scope.

Ltac pcases p := let x := fresh "x" in let ax := fresh "ax" in let nx := fresh "nx" in
  destruct p as [[x|] ax nx]; cbn [fst snd v_x v_aux v_nx]; auto;
  repeat (match goal with |- context [dget String.eqb ?a ?k] => destruct (dget String.eqb a k) as [[]|] end; cbn [fst snd v_x v_aux v_nx]; auto).
Section S.
  Variables (t : topo) (e : env vec).
  Hypothesis WF : wf_topo t.
  Hypothesis SV : t_server t = None.
  Notation E := (shared_env e).
  Notation M := plain_net.
  Notation nodes := (t_nodes t).

  (** ** Phases of DLM and DiNNO *)
  Section Alg.
    Variables (ip : bool) (grad : nat -> agent_id -> vec -> vec).
    Lemma map_vals_len (l : list (agent_id * buf)) : length (map_vals fst l) = length l.
    Proof. apply map_length. Qed.
    Lemma sum_next lo st i l h s h' : inv t e lo st -> clean t st (i :: l) h -> ip = false \/ stars t \/ noisy_sends e ->
      sum_messages ip (sinbox st i) h = Some (s, h') -> s = msg_sum (map_vals fst (sinbox st i)) /\ clean t st l h' /\ sinbox st i <> [].
    Proof.
      intros I CL HC SM. pose proof (clean_sum t e ip lo st i l h I CL) as CS. rewrite SM in CS. destruct CS as ((s0 & b0) & rest & Eb & -> & H).
      split; auto. split; [|rewrite Eb; discriminate]. apply (clean_next t e lo st i l h h' I CL). intro g.
      destruct (H g) as [H'|(Hip & Hr & ->)]; auto. right. exists s0, b0, rest. split; auto. split; auto.
      destruct HC as [HC|[HC|HC]]; [congruence| |auto]. left. eapply (star_first t e WF); eauto. apply (proj1 (proj2 CL)). now left.
    Qed.
    Lemma none_next lo st i l h : inv t e lo st -> clean t st (i :: l) h ->
      sum_messages ip (sinbox st i) h = None -> sinbox st i = [] /\ clean t st l h.
    Proof.
      intros I CL SM. pose proof (clean_sum t e ip lo st i l h I CL) as CS. rewrite SM in CS.
      split; auto. apply (clean_next t e lo st i l h h I CL). auto.
    Qed.
    Lemma sim_gather : ip = false \/ stars t \/ noisy_sends e -> phase_sim t e before after (dlm_gather ip) dlm_plain_gather.
    Proof.
      intro HC. apply (sim_read t e WF SV). intros lo st i l h p d I CL inb Hinb. rewrite Hinb.
      destruct (sum_messages ip (sinbox st i) h) as [[s h']|] eqn:SM.
      - destruct (sum_next lo st i l h s h' I CL HC SM) as (-> & C & NE). unfold lbind, getx, put, lret. cbn [fst snd].
        unfold number. rewrite map_vals_len. destruct (sinbox st i) as [|m r] eqn:Eb; [congruence|]. cbn [map_vals map] in *.
        destruct p as [[x|] ax nx]; cbn [fst snd v_x]; auto.
      - destruct (none_next lo st i l h I CL SM) as (-> & C). cbn [map_vals map]. unfold lret. auto.
    Qed.
    Lemma sim_bcast P : (P = before) -> phase_sim t e P P dlm_send bcast_x.
    Proof. intros ->. apply (sim_send t e WF SV (fun i => getx)). Qed.

    Theorem dlm_sims mu rho k : ip = false \/ stars t \/ noisy_sends e ->
      sims t e before after (dlm ip grad mu rho k) (dlm_plain grad mu rho k).
    Proof.
      intro HC. destruct k as [|k]; cbn [dlm dlm_plain].
      - eapply sims_cons; [now apply sim_bcast|]. eapply sims_cons; [now apply sim_gather|constructor].
      - eapply sims_cons; [|eapply sims_cons; [now apply sim_bcast|eapply sims_cons; [now apply sim_gather|eapply sims_cons; [|constructor]]]].
        + apply (sim_own t e WF SV); [apply mono_before|]. intros i msgs h [p d] inb. unfold lbind, getx, setx, aux, put, lret, gradient. cbn [fst snd].
          pcases p.
        + apply (sim_own t e WF SV); [apply mono_after|]. intros i msgs h [p d] inb. unfold lbind, getx, setx, aux, put, lret, gradient. cbn [fst snd].
          pcases p.
    Qed.

    (** DiNNO reads the messages twice *)
    Lemma sum_one h (m : agent_id * buf) : sum_messages ip [m] h = Some (content h (snd m), h).
    Proof. destruct m. reflexivity. Qed.
    Lemma sum_keep msgs h : ip = false -> match sum_messages ip msgs h with Some (_, h') => h' = h | None => True end.
    Proof.
      intros ->. destruct msgs as [|[s0 b0] rest]; cbn [sum_messages]; auto. generalize (content h b0).
      induction rest as [|m rest IH]; intro v; cbn [fold_left fst snd]; auto. apply IH.
    Qed.
    Definition quiet st (l : list agent_id) h := clean t st l h.
    Lemma pair_next lo st i l h s h' : inv t e lo st -> clean t st (i :: l) h -> ip = false \/ pairs t ->
      sum_messages ip (sinbox st i) h = Some (s, h') ->
      s = msg_sum (map_vals fst (sinbox st i)) /\ h' = h /\ clean t st l h /\ sinbox st i <> [] /\
      clean t st l (snd (halve ip (sinbox st i) (s, h'))).
    Proof.
      intros I CL HC SM. pose proof (clean_sum t e ip lo st i l h I CL) as CS. rewrite SM in CS. destruct CS as ((s0 & b0) & rest & Eb & -> & H).
      assert (Hi : In i nodes) by (apply (proj1 (proj2 CL)); now left).
      assert (Hh : h' = h).
      { destruct HC as [HC|HC].
        - pose proof (sum_keep (sinbox st i) h HC) as K. rewrite SM in K. exact K.
        - destruct (pair_first t e WF lo st i s0 b0 rest I Hi HC Eb) as (-> & _). rewrite Eb, sum_one in SM. now injection SM as _ <-. }
      subst h'. split; auto. split; auto. split; [apply (clean_next t e lo st i l h h I CL); auto|].
      split; [rewrite Eb; discriminate|]. apply (clean_next t e lo st i l h _ I CL). intro g. unfold halve. rewrite Eb. cbn [fst snd].
      destruct HC as [->|HC]; [auto|]. destruct ip; auto. unfold hwrite. destruct (tag_eqb_spec g (snd b0)); auto. right.
      exists s0, b0, rest. split; auto. split; auto. left. exact (proj2 (pair_first t e WF lo st i s0 b0 rest I Hi HC Eb)).
    Qed.
    Theorem dinno_sims a rho B k : ip = false \/ pairs t ->
      sims t e before after (dinno ip grad a rho B k) (dinno_plain grad a rho B k).
    Proof.
      intro HC. unfold dinno, dinno_plain. eapply sims_cons; [now apply sim_bcast|]. eapply sims_cons with (Q := before); [|eapply sims_cons; [|constructor]].
      - intros lo d h st I HP.
        match goal with |- context [SUpd ?f] => match goal with |- context [PUpd ?g] =>
          destruct (upd_phase_sim t e WF SV f g (fun st1 l h' => h' = h /\ clean t st1 l h) lo d h st I) as (A & Bb & C) end end.
        + intros st1 I1 i l h0 p d0 (-> & CL) inb Hinb. rewrite Hinb.
          destruct (sum_messages ip (sinbox st1 i) h) as [[s h']|] eqn:SM.
          * destruct (pair_next lo st1 i l h s h' I1 CL HC SM) as (-> & -> & C' & NE & _). unfold lbind, getx, aux, put, lret. cbn [fst snd].
            unfold number. rewrite map_vals_len. destruct (sinbox st1 i) as [|m r] eqn:Eb; [congruence|]. cbn [map_vals map] in *.
            pcases p.
          * destruct (none_next lo st1 i l h I1 CL SM) as (-> & C'). cbn [map_vals map]. unfold lret. auto.
        + intros st1 act I1 N IN _. split; auto. apply (low_clean t e lo); auto.
        + split; [exact A|]. intro F. split; [exact Bb|]. destruct (C F) as (st1 & D1 & -> & _). exact HP.
      - apply (sim_read t e WF SV). intros lo st i l h p d I CL inb Hinb. rewrite Hinb.
        destruct (sum_messages ip (sinbox st i) h) as [[s h']|] eqn:SM.
        + destruct (pair_next lo st i l h s h' I CL HC SM) as (-> & -> & C' & NE & C2). cbn [option_map].
          destruct (halve ip (sinbox st i) (msg_sum (map_vals fst (sinbox st i)), h)) as [s2 h2] eqn:HV.
          assert (Es2 : s2 = vscal (/ 2) (msg_sum (map_vals fst (sinbox st i)))) by (unfold halve in HV; now injection HV as <- _).
          subst s2. cbn [fst snd] in *. unfold number. rewrite map_vals_len.
          destruct (sinbox st i) as [|m r] eqn:Eb; [congruence|]. cbn [map_vals map] in *.
          unfold lbind, getx, aux, setx, lret. destruct p as [[x|] ax nx]; cbn [fst snd v_x v_aux v_nx]; auto.
          destruct (dget String.eqb ax "p"%string) as [[pv|]|]; cbn [fst snd v_x v_aux v_nx]; auto.
          match goal with |- context [ltimes ?b ?f ?x ?s] => destruct (ltimes b f x s) as [[psi [p2 d2]]|] end; cbn [fst snd]; auto.
        + destruct (none_next lo st i l h I CL SM) as (-> & C'). cbn [map_vals map option_map].
          unfold lbind, getx, aux, setx, lret. destruct p as [[x|] ax nx]; cbn [fst snd v_x v_aux v_nx]; auto.
          destruct (dget String.eqb ax "p"%string) as [[pv|]|]; cbn [fst snd v_x v_aux v_nx]; auto.
          match goal with |- context [ltimes ?b ?f ?x ?s] => destruct (ltimes b f x s) as [[psi [p2 d2]]|] end; cbn [fst snd]; auto.
    Qed.
  End Alg.

  (** ** Whole runs *)
  Variables (period : agent_id -> nat) (N : nat) (init : agent_id -> vec * list (string * auxv vec)).
  Variables (phs : nat -> list sphase) (phs' : nat -> list phase).
  Hypothesis SIMS : forall k, sims t e before after (phs k) (phs' k).
  Notation A := (shared t e N init phs).
  Notation A' := (p2p t e N (plain_init init) phs').

  Lemma inv_step k st : inv t e (n_draws st) (step t k st).
  Proof.
    destruct (step_spec buf t k st) as (_ & C & CC & _ & D & AG).
    assert (X : forall r, In r nodes -> a_msgs (n_agents (step t k st) r) = []).
    { intros r Hr. rewrite AG. apply memb_In in Hr. rewrite Hr. reflexivity. }
    split; [split; [rewrite C; discriminate|rewrite CC; discriminate]|]. split; [rewrite C; discriminate|].
    split; [intros r Hr; rewrite X by auto; split; [constructor|discriminate]|].
    split; [intros r c s b Hr H; unfold lookb in H; rewrite X in H by auto; discriminate|].
    split; [|rewrite D; auto]. intros _ r r' c c' s s' b b' Hr Hr' Ne H. unfold lookb in H. rewrite X in H by auto. discriminate.
  Qed.
  Lemma loop_sim n : forall k d h st, low (n_draws st) h ->
    plain_res (loop t period A n k ((d, h), st)) = loop t period A' n k (d, M st).
  Proof.
    induction n as [|n IH]; intros k d h st LW; cbn [loop fst snd]; [reflexivity|].
    rewrite p_step. pose proof (inv_step k st) as I.
    assert (EQ : forall x, al_step A k x = do_sphases t e (phs k) x) by reflexivity. rewrite EQ.
    assert (EQ' : forall x, al_step A' k x = do_phases t e (phs' k) x) by reflexivity. rewrite EQ'.
    destruct (sims_ok t e _ _ _ _ (SIMS k) (n_draws st) d h (step t k st) I LW) as (S1 & S2). cbn zeta in S1, S2. rewrite S1. clear S1 EQ EQ'.
    destruct (do_sphases t e (phs k) (d, h, step t k st)) as [[[d2 h2] st2] b]. cbn [fst snd pr pw] in *.
    destruct b.
    - unfold plain_res, plain_call, plain_world, pr, pw. cbn [r_out r_calls r_world map fst snd]. reflexivity.
    - destruct (S2 eq_refl) as (_ & AF). change (pw (d2, h2, st2)) with (d2, M st2). cbn [fst snd].
      assert (MS : snapshot_all t period A' (k + 1) (M st2) = M (snapshot_all t period A (k + 1) st2)) by (apply m_snapshots; reflexivity).
      rewrite MS.
      rewrite <- (IH (k + 1) d2 h2 (snapshot_all t period A (k + 1) st2)).
      + unfold plain_res at 1. cbn [r_out r_calls r_world map plain_call]. reflexivity.
      + unfold snapshot_all. destruct (snapshot_fold_frame buf period (al_iters A) (k + 1) nodes st2) as (_ & _ & _ & -> & _). exact AF.
  Qed.
  Lemma init_sim d h st : do_init t (plain_init init) (d, M st) = plain_world (do_sinit t init ((d, h), st)).
  Proof.
    unfold do_init, do_sinit, plain_init. cbn [fst snd plain_world]. revert st. unfold plain_world. cbn [fst snd].
    induction (agents t) as [|i l IH]; intro st; cbn [fold_left fst snd]; auto.
    destruct (init i) as [x aux] eqn:Ei. cbn [fst snd]. rewrite <- IH. f_equal. f_equal.
    apply m_upd. intro a. rewrite <- m_initialize. f_equal.
    unfold map_aux. rewrite map_map. rewrite <- (map_id aux) at 1. apply map_ext. intros [k v]. cbn. f_equal.
    destruct v as [v|m]; cbn; auto. f_equal. unfold map_vals. rewrite map_map. rewrite <- (map_id m) at 1. apply map_ext. intros [j y]. reflexivity.
  Qed.
  Theorem run_sim w : plain_res (run t period A 0 w) = run t period A' 0 (plain_world w).
  Proof.
    destruct w as [[d h] st]. unfold run. cbn [al_iters shared p2p Z.ltb Z.compare orb].
    replace (Z.of_nat N <? 0)%Z with false by (symmetry; apply Z.ltb_ge; lia). cbn [Z.eqb Z.to_nat]. rewrite !Nat.sub_0_r.
    assert (Ei : al_init A' (plain_world (d, h, st)) = plain_world (al_init A (d, h, st))) by apply init_sim.
    rewrite Ei. destruct (al_init A (d, h, st)) as [[d1 h1] st1] eqn:Ea.
    assert (LW : low (n_draws st1) h1). { assert (h1 = no_writes) as -> by (cbn in Ea; unfold do_sinit in Ea; cbn in Ea; congruence). intros g Hg. now elim Hg. }
    change (plain_world (d1, h1, st1)) with (d1, M st1). rewrite <- (loop_sim N 0 d1 h1 st1 LW).
    unfold plain_res at 1. cbn [r_out r_calls r_world map plain_call]. reflexivity.
  Qed.
End S.
