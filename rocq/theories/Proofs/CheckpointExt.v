(** Raising the number of iterations of a trial. *)
From Coq Require Import List Bool Arith ZArith Lia.
From Verif.Model Require Import PyDict History Messages Network Runner Checkpoint.
From Verif.Spec Require Import RunnerSpec CheckpointSpec.
From Verif.Proofs Require Import PyDictProofs NetworkInv RunnerProofs CheckpointProofs CheckpointRun.
From Verif.Props Require Import RunnerProps.
Import ListNotations.
Open Scope nat_scope.

Section E.
  Context {V S : Type}.
  Variables (t : topo) (period : agent_id -> nat).
  Notation world := (world V S).
  Notation wrel := (wrel V S).
  Lemma upto_trans (a b c : net V) : net_upto_hist a b -> net_upto_hist b c -> net_upto_hist a c.
  Proof.
    intros (U & X1 & X2 & X3 & X4 & X5) (U' & Y1 & Y2 & Y3 & Y4 & Y5). split; [|repeat split; congruence].
    intro i. destruct (U i) as (A1 & A2 & A3 & A4 & A5 & A6 & A7 & A8). destruct (U' i) as (B1 & B2 & B3 & B4 & B5 & B6 & B7 & B8). unfold agent_upto_hist. repeat split; congruence.
  Qed.
  Lemma wrel_trans X Y (a b c : world) : wrel X a b -> wrel Y b c -> wrel (X ++ Y) a c.
  Proof.
    intros ((F & U) & H) ((F' & U') & H'). split; [split; [congruence|eapply upto_trans; eauto]|].
    intros i k Hk. rewrite map_app, in_app_iff in Hk. transitivity (dget Z.eqb (h_dict (a_hist (n_agents (snd b) i))) k); [apply H|apply H']; tauto.
  Qed.
  Lemma wrel_incl X Y (a b : world) : incl X Y -> wrel X a b -> wrel Y a b.
  Proof. intros I (U & H). split; [exact U|]. intros i k Hk. apply H. intro J. apply Hk. apply in_map_iff in J. destruct J as (n & <- & J). apply in_map. auto. Qed.
  Lemma wrel_same X (a b : world) : wrel X a b -> same_but X a b.
  Proof. intros (U & H). split; [exact U|]. intros i k Hk. unfold h_contains, h_at, dmem. rewrite (H i k Hk). auto. Qed.
  Definition cbrel (X : list nat) (p q : nat * world) : Prop := fst p = fst q /\ wrel X (snd p) (snd q).
  Lemma F2_len {P Q} (R : P -> Q -> Prop) l l' : Forall2 R l l' -> length l = length l'. Proof. induction 1; cbn; auto. Qed.
  Lemma F2_In {P Q} (R : P -> Q -> Prop) l l' x : Forall2 R l l' -> In x l -> exists y, In y l' /\ R x y.
  Proof. induction 1 as [|a b l l' r F IH]; intros []; [subst; exists b; cbn; auto|]. destruct IH as (y & I & K); auto. exists y. cbn; auto. Qed.
  Lemma F2_refl X l : Forall2 (cbrel X) l l.
  Proof. induction l; constructor; auto. split; [auto|apply wrel_refl]. Qed.
  Lemma F2_trans X Y a : forall b c, Forall2 (cbrel X) a b -> Forall2 (cbrel Y) b c -> Forall2 (cbrel (X ++ Y)) a c.
  Proof. induction a as [|p a IH]; intros b c H1 H2; inversion H1; subst; inversion H2; subst; constructor; eauto. destruct H3, H4. split; [congruence|eapply wrel_trans; eauto]. Qed.
  Lemma F2_incl X Y a b : incl X Y -> Forall2 (cbrel X) a b -> Forall2 (cbrel Y) a b.
  Proof. intros I. induction 1 as [|p q a b (E & R) F IH]; constructor; auto. split; [auto|eapply wrel_incl; eauto]. Qed.
  Lemma F2_firstn {P Q} (R : P -> Q -> Prop) n : forall l l', Forall2 R l l' -> Forall2 R (firstn n l) (firstn n l').
  Proof. induction n as [|n IH]; intros l l' H; [constructor|]. inversion H; subst; cbn; constructor; auto. Qed.

  Lemma loop_rel_cb X (A1 A2 : alg V S) (STEP : forall k w, al_step A1 k w = al_step A2 k w) (AGN : hist_agnostic A1)
    (KEEP : forall k w a, a_hist (n_agents (snd (fst (al_step A1 k w))) a) = a_hist (n_agents (snd w) a)) (ND : NoDup (t_nodes t)) n : forall k w w',
    (forall it, k < it <= k + n -> ~ In it X -> (it =? al_iters A1) = (it =? al_iters A2)) ->
    wrel X w w' -> Forall2 (cbrel X) (callbacks (r_calls (loop t period A1 n k w))) (callbacks (r_calls (loop t period A2 n k w'))).
  Proof.
    induction n as [|n IH]; intros k w w' HF R; [constructor|].
    destruct (loop_rel V S t period X A1 A2 STEP AGN KEEP ND 1 k w w') as (O1 & R1); [intros; apply HF; auto; lia|exact R|].
    cbn [loop] in *. rewrite <- STEP in *.
    destruct (al_step A1 k (fst w, step t k (snd w))) as [v b] eqn:E1, (al_step A1 k (fst w', step t k (snd w'))) as [v' b'] eqn:E2. cbn [fst snd] in *.
    destruct b, b'; cbn [r_out r_world r_calls] in *; try discriminate; [constructor|].
    change (Forall2 (cbrel X) ((k, (fst v, snapshot_all t period A1 (k + 1) (snd v))) :: callbacks (r_calls (loop t period A1 n (k + 1) (fst v, snapshot_all t period A1 (k + 1) (snd v)))))
      ((k, (fst v', snapshot_all t period A2 (k + 1) (snd v'))) :: callbacks (r_calls (loop t period A2 n (k + 1) (fst v', snapshot_all t period A2 (k + 1) (snd v')))))).
    constructor; [split; [reflexivity|exact R1]|]. apply IH; [|exact R1]. intros it L. apply HF. lia.
  Qed.
  Lemma loop_prefix (A : alg V S) n m : forall k w, exists rest, callbacks (r_calls (loop t period A (n + m) k w)) = callbacks (r_calls (loop t period A n k w)) ++ rest.
  Proof.
    induction n as [|n IH]; intros k w; cbn [plus loop]; [eexists; reflexivity|]. destruct (al_step A k _) as [v b]. destruct b; cbn [r_calls]; [exists []; reflexivity|].
    destruct (IH (k + 1) (fst v, snapshot_all t period A (k + 1) (snd v))) as (rest & E). exists rest.
    change (callbacks (CStep k (fst w, step t k (snd w)) :: CCallback k (fst v, snapshot_all t period A (k + 1) (snd v)) :: ?l)) with ((k, (fst v, snapshot_all t period A (k + 1) (snd v))) :: callbacks l).
    cbn [app]. rewrite <- E. reflexivity.
  Qed.

  Variables (A : alg V S) (w0 : world) (step : option nat).
  Notation AN N := (with_iters N A).
  Hypothesis AGN : hist_agnostic A.
  Hypothesis KEEP : forall k w a, a_hist (n_agents (snd (fst (al_step A k w))) a) = a_hist (n_agents (snd w) a).
  Hypothesis ND : NoDup (t_nodes t).
  Definition straight (N : nat) := run t period (AN N) 0 w0.
  Lemma run_calls (B : alg V S) k w : k <= al_iters B -> let r := run t period B (Z.of_nat k) w in
    exists u, r_out r = r_out (loop t period B (al_iters B - k) k u) /\ r_world r = r_world (loop t period B (al_iters B - k) k u) /\
      callbacks (r_calls r) = callbacks (r_calls (loop t period B (al_iters B - k) k u)) /\ (u = if k =? 0 then al_init B w else w).
  Proof.
    intros H r. unfold r, run. replace ((Z.of_nat k <? 0)%Z || (Z.of_nat (al_iters B) <? Z.of_nat k)%Z) with false in * by (symmetry; apply orb_false_iff; split; apply Z.ltb_ge; lia).
    rewrite Nat2Z.id. destruct k as [|k]; cbn [Nat.eqb]; [change (Z.of_nat 0 =? 0)%Z with true|replace (Z.of_nat (Datatypes.S k) =? 0)%Z with false by (symmetry; apply Z.eqb_neq; lia)]; eexists; cbn [r_out r_calls r_world]; auto.
  Qed.
  Lemma straight_loop N : let L := loop t period (AN N) N 0 (al_init A w0) in
    r_out (straight N) = r_out L /\ r_world (straight N) = r_world L /\ callbacks (r_calls (straight N)) = callbacks (r_calls L).
  Proof. destruct (run_calls (AN N) 0 w0 ltac:(cbn; lia)) as (u & O & W & C & ->). cbn [al_iters with_iters Nat.eqb al_init] in *. rewrite Nat.sub_0_r in *. auto. Qed.
  Lemma straight_ext N N' : N < N' -> exists l rest, callbacks (r_calls (straight N')) = l ++ rest /\ Forall2 (cbrel [N]) (callbacks (r_calls (straight N))) l.
  Proof.
    intro H. destruct (straight_loop N) as (_ & _ & ->). destruct (straight_loop N') as (_ & _ & ->).
    destruct (loop_prefix (AN N') N (N' - N) 0 (al_init A w0)) as (rest & E). replace (N + (N' - N)) with N' in E by lia. rewrite E. eexists _, rest. split; [reflexivity|].
    apply (loop_rel_cb [N] (AN N) (AN N')); auto.
    - intros it L NI. cbn [al_iters with_iters]. cbn in NI. destruct (Nat.eqb_spec it N), (Nat.eqb_spec it N'); auto; lia.
    - apply wrel_refl.
  Qed.

  Definition J (N : nat) (Ns : list nat) (s : dir world) : Prop :=
    exists m C out wf, 1 <= N /\ map fst C = seq 0 (length C) /\ length C <= N /\
      (finished out = true -> length C = N /\ In (N - 1, wf) C) /\
      (m = 0 -> let r := straight N in r_out r = out /\ r_world r = wf /\ callbacks (r_calls r) = C) /\
      (forall p w, In (p, w) C -> m <= Datatypes.S p -> let r := run t period (AN N) (Z.of_nat (p + 1)) w in r_out r = out /\ r_world r = wf /\ callbacks (r_calls r) = skipn (p + 1) C) /\
      (out = r_out (straight N) /\ wrel Ns wf (r_world (straight N)) /\ Forall2 (cbrel Ns) C (callbacks (r_calls (straight N)))) /\
      Inv step m N C (finished out) wf s.
  Lemma straight_J N Ns s : 1 <= N -> Inv step 0 N (callbacks (r_calls (straight N))) (finished (r_out (straight N))) (r_world (straight N)) s -> J N Ns s.
  Proof.
    intros POS IV. exists 0, (callbacks (r_calls (straight N))), (r_out (straight N)), (r_world (straight N)).
    destruct (run_indices t period (AN N) 0 w0 ltac:(cbn; lia)) as (X1 & X2). fold (straight N) in X1, X2.
    split; [exact POS|]. split; [exact X1|]. split; [exact X2|]. split; [|split; [auto|split; [|split; [|exact IV]]]].
    - intro F. assert (O : r_out (straight N) = Finished) by (destruct (r_out (straight N)); auto; discriminate). destruct (run_finished t period (AN N) 0 w0 ltac:(cbn; lia) O) as (Y1 & Y2). auto.
    - intros p w I _. destruct (run_resume t period (AN N) 0 w0 p w ltac:(cbn; lia) I) as (Y1 & Y2 & Y3). rewrite Nat.sub_0_r in Y3. auto.
    - split; [auto|]. split; [apply wrel_refl|apply F2_refl].
  Qed.
  Lemma raise_J N N' Ns s : J N Ns s -> d_comp s = None -> N < N' -> J N' (N :: Ns) s.
  Proof.
    intros (m & C & out & wf & POS & IDX & LEN & FIN & T2 & T3 & (T4 & T5 & T6) & IV) CN L.
    pose proof IV as (ND0 & PR & KN & BD & _).
    assert (BD' : forall j q, In j (keys s) -> point step N' q -> after s q -> j <= q).
    { intros j q Hj Pq Aq. specialize (KN j Hj) as KJ. destruct (le_lt_dec N q); [lia|]. destruct Pq as [(SQ & _)| ->]; [|lia]. apply BD; auto. now left. }
    assert (KN' : forall j, In j (keys s) -> j < N') by (intros j Hj; specialize (KN j Hj); lia).
    destruct PR as [(Z & PR)|(p & w & PR & I & G & M)].
    { apply straight_J; [lia|]. split; [exact ND0|]. split; [now left|]. split; [exact KN'|]. split; [exact BD'|now left]. }
    assert (PL : p < length C) by (eapply In_lt; [exact IDX|exact I]).
    destruct (F2_In _ _ _ _ T6 I) as ((p1, w1) & I1 & E1 & R1). cbn [fst snd] in E1, R1. subst p1.
    destruct (straight_ext N N' L) as (l & rest & EC & F). destruct (F2_In _ _ _ _ F I1) as ((p2, w2) & I2 & E2 & R2). cbn [fst snd] in E2, R2. subst p2.
    assert (I3 : In (p, w2) (callbacks (r_calls (straight N')))) by (rewrite EC; apply in_app_iff; auto).
    destruct (run_resume t period (AN N') 0 w0 p w2 ltac:(cbn; lia) I3) as (Y1 & Y2 & Y3). change (Z.of_nat 0) with 0%Z in Y1, Y2, Y3. fold (straight N') in Y1, Y2, Y3. rewrite Nat.sub_0_r in Y3.
    assert (R3 : wrel (N :: Ns) w w2) by (eapply wrel_incl; [|eapply wrel_trans; [exact R1|exact R2]]; intros x Hx; apply in_app_iff in Hx; cbn in *; tauto).
    set (r := run t period (AN N') (Z.of_nat (p + 1)) w). set (r2 := run t period (AN N') (Z.of_nat (p + 1)) w2) in *.
    assert (RR : r_out r = r_out r2 /\ wrel (N :: Ns) (r_world r) (r_world r2) /\ Forall2 (cbrel (N :: Ns)) (callbacks (r_calls r)) (callbacks (r_calls r2))).
    { destruct (run_calls (AN N') (p + 1) w ltac:(cbn; lia)) as (u & O & W & CC & EU). destruct (run_calls (AN N') (p + 1) w2 ltac:(cbn; lia)) as (u2 & O2 & W2 & CC2 & EU2).
      fold r in O, W, CC. fold r2 in O2, W2, CC2. rewrite O, O2, W, W2, CC, CC2. replace (p + 1 =? 0) with false in EU, EU2 by (symmetry; apply Nat.eqb_neq; lia). subst u u2.
      destruct (loop_rel V S t period (N :: Ns) (AN N') (AN N') (fun _ _ => eq_refl) AGN KEEP ND (al_iters (AN N') - (p + 1)) (p + 1) w w2) as (Z1 & Z2); auto.
      split; [auto|]. split; [auto|]. apply (loop_rel_cb (N :: Ns) (AN N') (AN N')); auto. }
    destruct RR as (RO & RW & RC).
    destruct (run_indices t period (AN N') (p + 1) w ltac:(cbn; lia)) as (X1 & X2). fold r in X1, X2. cbn [al_iters with_iters] in X2.
    assert (LF : length (firstn (p + 1) C) = p + 1) by (rewrite firstn_length; lia).
    assert (IF : In (p, w) (firstn (p + 1) C)).
    { pose proof I as I0. rewrite <- (firstn_skipn (p + 1) C) in I0. apply in_app_iff in I0. destruct I0 as [I0|I0]; [exact I0|]. exfalso.
      apply (in_map fst) in I0. rewrite <- skipn_map, IDX, skipn_seq in I0. apply in_seq in I0. cbn in I0. lia. }
    exists (Datatypes.S p), (firstn (p + 1) C ++ callbacks (r_calls r)), (r_out r), (r_world r).
    split; [lia|]. split.
    { rewrite map_app, X1, app_length, LF, seq_app. f_equal. rewrite <- firstn_map, IDX. replace (length C) with (p + 1 + (length C - (p + 1))) by lia. rewrite seq_app, firstn_app, seq_length, Nat.sub_diag. cbn [firstn].
      rewrite app_nil_r. apply firstn_all2. rewrite seq_length. lia. }
    split; [rewrite app_length, LF; lia|]. split.
    { intro Fi. assert (O : r_out r = Finished) by (destruct (r_out r); auto; discriminate).
      destruct (run_finished t period (AN N') (p + 1) w ltac:(cbn; lia) O) as (Q1 & Q2). cbn [al_iters with_iters] in Q1, Q2. fold r in Q1, Q2. rewrite app_length, LF, in_app_iff. auto. }
    split; [discriminate|]. split.
    { intros i v Iv Mv. apply in_app_iff in Iv. destruct (Nat.eq_dec i p) as [->|NE].
      - assert (v = w).
        { apply (NoDup_fst_fun C p); [rewrite IDX; apply seq_NoDup| |exact I]. destruct Iv as [Iv|Iv].
          - rewrite <- (firstn_skipn (p + 1) C). apply in_app_iff. now left.
          - exfalso. apply (in_map fst) in Iv. rewrite X1 in Iv. apply in_seq in Iv. cbn in Iv. lia. }
        subst v. fold r. split; [auto|]. split; [auto|]. rewrite skipn_app, LF, Nat.sub_diag, skipn_all2 by lia. reflexivity.
      - destruct Iv as [Iv|Iv].
        { exfalso. apply (in_map fst) in Iv. rewrite <- firstn_map, IDX in Iv. cbn [fst] in Iv.
          replace (length C) with (p + 1 + (length C - (p + 1))) in Iv by lia. rewrite seq_app, firstn_app, seq_length, Nat.sub_diag in Iv. cbn [firstn] in Iv.
          rewrite app_nil_r, firstn_all2 in Iv by (rewrite seq_length; lia). apply in_seq in Iv. lia. }
        destruct (run_resume t period (AN N') (p + 1) w i v ltac:(cbn; lia) Iv) as (Q1 & Q2 & Q3). fold r in Q1, Q2, Q3. split; [auto|]. split; [auto|].
        rewrite Q3, skipn_app, LF. rewrite (skipn_all2 (firstn (p + 1) C)) by lia. reflexivity. }
    split.
    { split; [congruence|]. split; [rewrite <- Y2; exact RW|].
      rewrite <- (firstn_skipn (p + 1) (callbacks (r_calls (straight N')))), <- Y3. apply Forall2_app; [|exact RC].
      rewrite EC, firstn_app. assert (LL : p + 1 <= length l). { rewrite <- (F2_len _ _ _ F), <- (F2_len _ _ _ T6). lia. }
      replace (p + 1 - length l) with 0 by lia. cbn [firstn]. rewrite app_nil_r.
      eapply F2_incl; [|eapply F2_trans; [apply (F2_firstn _ (p + 1)); exact T6|apply (F2_firstn _ (p + 1)); exact F]].
      intros x Hx. apply in_app_iff in Hx. cbn in *. tauto. }
    split; [exact ND0|]. split; [right; exists p, w; split; [exact PR|]; split; [apply in_app_iff; now left|]; split; [exact G|lia]|].
    split; [exact KN'|]. split; [exact BD'|now left].
  Qed.
  Lemma J_visit N Ns s keep : J N Ns s -> 1 <= keep -> let v := visit t period (AN N) w0 step keep s in
    (forall n, let s' := apply_all (firstn n (at_effects v)) s in json_ok s' -> J N Ns s') /\
    exists wf, wrel Ns wf (r_world (straight N)) /\ returns t (at_answer v) (finished (r_out (straight N))) wf /\
      let s' := apply_all (at_effects v) s in J N Ns s' /\ is_complete s' = finished (r_out (straight N)) /\ (finished (r_out (straight N)) = true -> load_result s' = Some wf).
  Proof.
    intros (m & C & out & wf & POS & IDX & LEN & FIN & T2 & T3 & T4 & IV) KP v.
    destruct (visit_ok t period (AN N) w0 step m C out wf POS IDX LEN FIN T2 T3 keep s KP IV) as (R & PRE & IX & CX & LX). fold v in R, PRE, IX, CX, LX.
    split.
    - intros n s' Js. exists m, C, out, wf. repeat (split; [assumption|]). now apply PRE.
    - pose proof T4 as (O & W & _). rewrite <- O. exists wf. split; [auto|]. split; [auto|]. split; [|auto]. exists m, C, out, wf. repeat (split; [assumption|]). exact IX.
  Qed.
  Lemma Inv_unmark m N C fin wf (s : dir world) : Inv step m N C fin wf s -> Inv step m N C fin wf (unmark s).
  Proof. intros (H1 & H2 & H3 & H4 & _). unfold unmark. destruct (d_comp s) eqn:E; cbn [apply]; (split; [exact H1|]; split; [exact H2|]; split; [exact H3|]; split; [exact H4|]; left; auto). Qed.
  Lemma reach_J Ns s : reach t period A w0 step Ns s -> match Ns with [] => False | N :: Ns' => J N Ns' s end.
  Proof.
    induction 1 as [N P|N Ns keep s n R IH KP s' Js|Ns s R IH|N N' Ns s R IH C L].
    - apply straight_J; [exact P|]. now apply Inv_empty.
    - destruct (J_visit N Ns s keep IH KP) as (PRE & _). apply PRE. exact Js.
    - destruct Ns as [|N Ns]; [exact IH|]. destruct IH as (m & C & out & wf & H1 & H2 & H3 & H4 & H5 & H6 & H7 & H8). exists m, C, out, wf. repeat (split; [assumption|]). now apply Inv_unmark.
    - apply raise_J; auto. unfold is_complete in C. destruct (d_comp s); auto; discriminate.
  Qed.
End E.
