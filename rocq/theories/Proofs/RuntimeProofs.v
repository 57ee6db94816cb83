From Coq Require Import Reals List Bool Arith ZArith Lia Lra FunctionalExtensionality.
From Verif.Model Require Import PyDict History Messages Network Counting Vec Metrics Runner Runtime.
From Verif.Spec Require Import AggregateSpec RuntimeSpec.
From Verif.Proofs Require Import EmpiricalProofs.
Import ListNotations.
Local Open Scope R_scope.

Section Exec.
  Context {Q : Type}.
  Variable cost : agent_id -> rcost Q.
  Variable ags : list agent_id.

  Lemma do_call_muted a k n (c : cstate) : (0 < c_depth c a)%Z -> fst (do_call a k n true c) = c.
  Proof. intro H. unfold do_call. cbn [negb]. apply Z.ltb_lt in H. now rewrite H. Qed.
  Lemma counted_call_count {A} a k (r : option A * Q) o : (0 < c_depth (o_count o) a)%Z ->
    o_count (snd (counted_call cost a k r o)) = o_count o /\
    fst (counted_call cost a k r o) = fst r /\
    forall b, o_state (snd (counted_call cost a k r o)) b = if Nat.eqb b a then snd r else o_state o b.
  Proof.
    intro H. unfold counted_call. destruct r as ([v|] & q); cbn [fst snd].
    - cbn [o_count set_state]. rewrite do_call_muted by exact H. auto.
    - auto.
  Qed.

  Variable E : Q -> Q -> Prop.
  Hypothesis EQ : equivalence E.
  Hypothesis HC : forall a x q, In a ags -> E q (snd (rc_fun (cost a) x q)) /\ E q (snd (rc_grad (cost a) x q)).

  (** muted calls change nothing but private states *)
  Lemma oexec_quiet {A} (p : oprog A) : forall o, (forall a, In a ags -> (0 < c_depth (o_count o) a)%Z) ->
    o_count (snd (oexec cost ags p o)) = o_count o /\ forall b, E (o_state o b) (o_state (snd (oexec cost ags p o)) b).
  Proof.
    destruct EQ as (RE & SY & TR). induction p as [a| |i x k IH|i x k IH]; intros o H; cbn [oexec]; [split; [reflexivity|intro b; apply RE]..| |].
    - destruct (nth_error ags i) as [a|] eqn:N; [|split; [reflexivity|intro b; apply RE]]. apply nth_error_In in N.
      destruct (counted_call_count a KFunction (rc_fun (cost a) x (o_state o a)) o (H a N)) as (C1 & C2 & C3).
      assert (ST : forall b, E (o_state o b) (o_state (snd (counted_call cost a KFunction (rc_fun (cost a) x (o_state o a)) o)) b)).
      { intro b. rewrite C3. destruct (Nat.eqb_spec b a) as [->|NE]; [apply (HC a x _ N)|apply RE]. }
      destruct (counted_call _ _ _ _ _) as ([v|] & o'); cbn [fst snd] in *; [|auto].
      destruct (IH v o') as (I1 & I2). { intros a' I'. rewrite C1. auto. }
      split; [congruence|]. intro b. eapply TR; [apply ST|apply I2].
    - destruct (nth_error ags i) as [a|] eqn:N; [|split; [reflexivity|intro b; apply RE]]. apply nth_error_In in N.
      destruct (counted_call_count a KGradient (rc_grad (cost a) x (o_state o a)) o (H a N)) as (C1 & C2 & C3).
      assert (ST : forall b, E (o_state o b) (o_state (snd (counted_call cost a KGradient (rc_grad (cost a) x (o_state o a)) o)) b)).
      { intro b. rewrite C3. destruct (Nat.eqb_spec b a) as [->|NE]; [apply (HC a x _ N)|apply RE]. }
      destruct (counted_call _ _ _ _ _) as ([v|] & o'); cbn [fst snd] in *; [|auto].
      destruct (IH v o') as (I1 & I2). { intros a' I'. rewrite C1. auto. }
      split; [congruence|]. intro b. eapply TR; [apply ST|apply I2].
  Qed.
End Exec.

(** enter and leave *)
Lemma enter_count l : forall c a k, c_count (enter l c) a k = c_count c a k.
Proof. unfold enter. induction l as [|b l IH]; intros; cbn [fold_left]; [reflexivity|]. rewrite IH. reflexivity. Qed.
Lemma leave_count l : forall c a k, c_count (leave l c) a k = c_count c a k.
Proof. unfold leave. induction l as [|b l IH]; intros; cbn [fold_left]; [reflexivity|]. rewrite IH. reflexivity. Qed.
Lemma enter_depth l : forall c a, c_depth (enter l c) a = (c_depth c a + Z.of_nat (count_occ Nat.eq_dec l a))%Z.
Proof.
  unfold enter. induction l as [|b l IH]; intros; cbn [fold_left count_occ]; [lia|]. rewrite IH. cbn [shift c_depth].
  destruct (Nat.eqb_spec a b) as [->|NE].
  - destruct (Nat.eq_dec b b); [lia|congruence].
  - destruct (Nat.eq_dec b a); [congruence|lia].
Qed.
Lemma leave_depth l : forall c a, c_depth (leave l c) a = (c_depth c a - Z.of_nat (count_occ Nat.eq_dec l a))%Z.
Proof.
  unfold leave. induction l as [|b l IH]; intros; cbn [fold_left count_occ]; [lia|]. rewrite IH. cbn [shift c_depth].
  destruct (Nat.eqb_spec a b) as [->|NE].
  - destruct (Nat.eq_dec b b); [lia|congruence].
  - destruct (Nat.eq_dec b a); [congruence|lia].
Qed.

Section Callback.
  Context {Q P : Type}.
  Variables (t : topo) (cost : agent_id -> rcost Q) (xopt : option vec).
  Variable E : Q -> Q -> Prop.
  Hypothesis EQ : equivalence E.
  Hypothesis HC : forall a x q, In a (agents t) -> E q (snd (rc_fun (cost a) x q)) /\ E q (snd (rc_grad (cost a) x q)).
  Notation wrld := (world vec (@ostate Q P)).

  Lemma same_refl (w : wrld) : same_up_to E w w.
  Proof. destruct EQ as (RE & _). repeat split; auto. Qed.
  Lemma same_trans (u v w : wrld) : same_up_to E u v -> same_up_to E v w -> same_up_to E u w.
  Proof.
    destruct EQ as (_ & _ & TR). intros (A1 & A2 & (A3 & A4) & A5) (B1 & B2 & (B3 & B4) & B5).
    split; [congruence|]. split; [intro a; eapply TR; [apply A2|apply B2]|]. split; [|congruence].
    split; [intro a; rewrite A3; apply B3|intros a k; rewrite A4; apply B4].
  Qed.
  Lemma same_balanced (w w' : wrld) : same_up_to E w w' -> balanced w -> balanced w'.
  Proof. intros (_ & _ & (D & _) & _) B a. rewrite <- D. apply B. Qed.

  Lemma update_plot_same m k (w : wrld) : balanced w -> same_up_to E w (snd (update_plot t cost xopt m k w)).
  Proof.
    intro B. unfold update_plot. set (xs := map _ _). destruct w as ((p & o) & n). cbn [fst snd] in *.
    assert (H : forall a, In a (agents t) -> (0 < c_depth (o_count (mkO (o_state o) (enter (agents t) (o_count o)))) a)%Z).
    { intros a I. cbn [o_count]. rewrite enter_depth. specialize (B a). cbn [fst snd] in B. apply (count_occ_In Nat.eq_dec) in I. lia. }
    destruct (oexec_quiet cost (agents t) E EQ HC (rm_compute m (rm_cache m) xopt xs k) _ H) as (C1 & C2). cbn [o_count o_state] in C1, C2.
    destruct (oexec _ _ _ _) as (r & o'). cbn [fst snd] in *.
    assert (X : same_up_to E ((p, o), n) ((p, mkO (o_state o') (leave (agents t) (o_count o'))), n)).
    { repeat split; cbn [fst snd o_state o_count]; auto.
      - intro a. rewrite leave_depth, C1, enter_depth. lia.
      - intros a j. now rewrite leave_count, C1, enter_count. }
    destruct r as [(v & c)|]; cbn [snd]; exact X.
  Qed.
  Lemma update_plot_interval m k (w : wrld) : rm_interval (snd (fst (update_plot t cost xopt m k w))) = rm_interval m.
  Proof.
    unfold update_plot. destruct (oexec _ _ _ _) as (r & o'). destruct r as [(v & c)|]; reflexivity.
  Qed.

  Lemma update_all_same iters k ms : forall i (w : wrld), balanced w -> Forall (fun m => rm_interval m <> 0%Z) ms ->
    let r := update_all t cost xopt iters i ms k w in
    same_up_to E w (snd (fst r)) /\ snd r = false /\ Forall (fun m => rm_interval m <> 0%Z) (snd (fst (fst r))).
  Proof.
    induction ms as [|m ms IH]; intros i w B F; cbn [update_all]; cbn zeta; [cbn [fst snd]; auto using same_refl|].
    inversion F as [|? ? F1 F2]. subst. unfold should_update. apply Z.eqb_neq in F1 as F1'. rewrite F1'.
    destruct (_ || Nat.eqb (k + 1) iters)%bool.
    - pose proof (update_plot_same m k w B) as S. pose proof (update_plot_interval m k w) as SI. destruct (update_plot _ _ _ _ _ _) as ((v & m') & w1). cbn [fst snd] in *.
      specialize (IH (Datatypes.S i) w1 (same_balanced _ _ S B) F2). cbn zeta in IH.
      destruct (update_all _ _ _ _ _ _ _ _) as (((ps & ms1) & w2) & raised). cbn [fst snd] in *. destruct IH as (I1 & I2 & I3).
      split; [eapply same_trans; eauto|]. split; [auto|]. constructor; auto. congruence.
    - specialize (IH (Datatypes.S i) w B F2). cbn zeta in IH.
      destruct (update_all _ _ _ _ _ _ _ _) as (((ps & ms1) & w2) & raised). cbn [fst snd] in *. destruct IH as (I1 & I2 & I3).
      split; [exact I1|]. split; [auto|]. constructor; auto.
  Qed.

  Variable period : agent_id -> nat.
  Variable A : alg vec (@ostate Q P).
  Hypothesis KB : keeps_balance A.
  Hypothesis RS : respects E A.

  Lemma snapshot_same it (w w' : wrld) : same_up_to E w w' ->
    same_up_to E (fst w, snapshot_all t period A it (snd w)) (fst w', snapshot_all t period A it (snd w')).
  Proof. intros (A1 & A2 & A3 & A4). repeat split; cbn [fst snd]; try apply A3; auto. now rewrite A4. Qed.
  Lemma step_same k (w w' : wrld) : same_up_to E w w' -> same_up_to E (fst w, step t k (snd w)) (fst w', step t k (snd w')).
  Proof. intros (A1 & A2 & A3 & A4). repeat split; cbn [fst snd]; try apply A3; auto. now rewrite A4. Qed.

  Lemma loop_same n : forall k ms (w w' : wrld), same_up_to E w w' -> balanced w -> Forall (fun m => rm_interval m <> 0%Z) ms ->
    let r := loop t period A n k w in let r' := fst (loop_obs t cost xopt period A n k ms w') in
    r_out r = r_out r' /\ Forall2 (same_call E) (r_calls r) (r_calls r') /\ same_up_to E (r_world r) (r_world r').
  Proof.
    destruct RS as (_ & RT). destruct KB as (_ & KT).
    induction n as [|n IH]; intros k ms w w' S B F; cbn [loop loop_obs]; cbn zeta; [cbn [fst r_out r_calls r_world]; auto|].
    pose proof (step_same k _ _ S) as S1. set (u := (fst w, step t k (snd w))) in *. set (u' := (fst w', step t k (snd w'))) in *.
    assert (BU : balanced u) by exact B.
    destruct (RT k u u' S1) as (S2 & RR). pose proof (KT k u BU) as B2.
    destruct (al_step A k u) as (v & b), (al_step A k u') as (v' & b'). cbn [fst snd] in *. subst b'.
    destruct b; cbn [fst r_out r_calls r_world].
    { split; [auto|]. split; [|auto]. constructor; [|constructor]. cbn. auto. }
    pose proof (snapshot_same (k + 1) _ _ S2) as S3. set (x := (fst v, _)) in *. set (x' := (fst v', _)) in *.
    assert (BX : balanced x) by exact B2.
    destruct (update_all_same (al_iters A) k ms 0 x' (same_balanced _ _ S3 BX) F) as (S4 & NR & F').
    destruct (update_all _ _ _ _ _ _ _ _) as (((ps & ms1) & w4) & raised). cbn [fst snd] in *. subst raised.
    specialize (IH (k + 1)%nat ms1 x w4 (same_trans _ _ _ S3 S4) BX F'). cbn zeta in IH.
    destruct (loop_obs _ _ _ _ _ _ _ _ _) as (r' & ps'). cbn [fst r_out r_calls r_world] in *. destruct IH as (I1 & I2 & I3).
    split; [auto|]. split; [|auto]. constructor; [cbn; auto|]. constructor; [cbn; auto|auto].
  Qed.
  Lemma run_same ms start (w : wrld) : balanced w -> Forall (fun m => rm_interval m <> 0%Z) ms ->
    let r := run t period A start w in let r' := fst (run_obs t cost xopt period A ms start w) in
    r_out r = r_out r' /\ Forall2 (same_call E) (r_calls r) (r_calls r') /\ same_up_to E (r_world r) (r_world r').
  Proof.
    intros B F. cbn zeta. unfold run, run_obs. destruct (_ || _)%bool; [cbn [fst r_out r_calls r_world]; auto using same_refl|].
    destruct (start =? 0)%Z.
    - destruct (loop_same (al_iters A - Z.to_nat start) (Z.to_nat start) ms (al_init A w) (al_init A w) (same_refl _)) as (I1 & I2 & I3); [apply KB, B|exact F|].
      destruct (loop_obs _ _ _ _ _ _ _ _ _) as (r' & ps'). cbn [fst r_out r_calls r_world] in *. repeat split; auto; try apply I3.
      constructor; [cbn; apply same_refl|auto].
    - apply loop_same; auto using same_refl.
  Qed.
End Callback.

Lemma same_eq {Q P} (w w' : world vec (@ostate Q P)) : same_up_to eq w w' -> w = w'.
Proof.
  destruct w as ((p & (s & (d & c))) & n), w' as ((p' & (s' & (d' & c'))) & n'). unfold same_up_to, same_count. cbn [fst snd o_state o_count c_depth c_count].
  intros (-> & S & (D & C) & ->). assert (s = s') by (apply functional_extensionality; auto). assert (d = d') by (apply functional_extensionality; auto).
  assert (c = c') by (apply functional_extensionality; intro a; apply functional_extensionality; auto). now subst.
Qed.
Lemma eq_equivalence Q : equivalence (@eq Q).
Proof. repeat split; congruence. Qed.

(** ** Points *)
Section Points.
  Context {Q P : Type}.
  Variables (t : topo) (cost : agent_id -> rcost Q) (xopt : option vec).
  Notation wrld := (world vec (@ostate Q P)).

  Lemma update_plot_net m k (w : wrld) : snd (snd (update_plot t cost xopt m k w)) = snd w.
  Proof. unfold update_plot. destruct (oexec _ _ _ _) as ([(v & c)|] & o'); reflexivity. Qed.
  Lemma should_due m k iters : rm_interval m <> 0%Z -> exists b, should_update m k = Some b /\
    ((b || Nat.eqb (k + 1) iters)%bool = true <-> due (rm_interval m) iters k).
  Proof.
    intro N. unfold should_update. apply Z.eqb_neq in N as N'. rewrite N'. eexists. split; [reflexivity|]. unfold due.
    rewrite <- Z.mod_divide by exact N. rewrite !orb_true_iff, Z.eqb_eq, !Nat.eqb_eq. split.
    - intros [[H|H]|H]; auto. left. subst. apply Z.mod_0_l, N.
    - tauto.
  Qed.
  Lemma update_all_index iters k ms : forall i (w : wrld) p, In p (fst (fst (fst (update_all t cost xopt iters i ms k w)))) -> (i <= fst (fst p))%nat.
  Proof.
    induction ms as [|m ms IH]; intros i w p; cbn [update_all]; [intros []|]. destruct (should_update m k) as [b|]; [|intros []].
    destruct (b || Nat.eqb (k + 1) iters)%bool.
    - destruct (update_plot _ _ _ _ _ _) as ((v & m') & w1). specialize (IH (Datatypes.S i) w1 p).
      destruct (update_all _ _ _ _ _ _ _ _) as (((ps & ms1) & w2) & raised). cbn [fst snd] in *.
      destruct v as [v|]; [intros [<-|I]; [cbn; lia|]|intros I]; apply IH in I; lia.
    - specialize (IH (Datatypes.S i) w p). destruct (update_all _ _ _ _ _ _ _ _) as (((ps & ms1) & w2) & raised). cbn [fst snd] in *. intro I. apply IH in I. lia.
  Qed.
  Lemma sent_none i ps : (forall p, In p ps -> fst (fst p) <> i) -> sent i ps = [].
  Proof.
    unfold sent. induction ps as [|p ps IH]; intro H; cbn [filter]; [reflexivity|].
    destruct (Nat.eqb_spec (fst (fst p)) i) as [E|NE]; [exfalso; apply (H p); [now left|exact E]|]. apply IH. intros; apply H. now right.
  Qed.
  Lemma sent_app i ps qs : sent i (ps ++ qs) = sent i ps ++ sent i qs.
  Proof. unfold sent. now rewrite filter_app, map_app. Qed.

  Definition value_at (F : value_fn) (interval : Z) (iters k : nat) (w : wrld) : list (nat * fval) :=
    if due_dec interval iters k then match F (variables (agents t) (snd w)) k with Some v => [(k, v)] | None => [] end else [].

  Lemma update_all_sent iters k I F ms : forall i j m (w : wrld), Forall (fun m => rm_interval m <> 0%Z) ms ->
    nth_error ms j = Some m -> reports_with (agents t) cost xopt I m F ->
    let r := update_all t cost xopt iters i ms k w in
    sent (i + j) (fst (fst (fst r))) = value_at F (rm_interval m) iters k w /\
    exists m', nth_error (snd (fst (fst r))) j = Some m' /\ reports_with (agents t) cost xopt I m' F /\ rm_interval m' = rm_interval m.
  Proof.
    induction ms as [|m0 ms IH]; intros i j m w FI N HR; [destruct j; discriminate|].
    inversion FI as [|? ? FI1 FI2]. subst. cbn [update_all]. cbn zeta. destruct (should_due m0 k iters FI1) as (b & -> & HB).
    destruct (b || Nat.eqb (k + 1) iters)%bool eqn:BB.
    - pose proof (update_plot_net m0 k w) as NN.
      assert (UV : forall v m' w1, update_plot t cost xopt m0 k w = (v, m', w1) -> m = m0 ->
        v = F (variables (agents t) (snd w)) k /\ reports_with (agents t) cost xopt I m' F /\ rm_interval m' = rm_interval m).
      { intros v m' w1 E ->. destruct HR as (HI & HR0). unfold update_plot in E.
        change (map (fun a => a_x (n_agents (snd w) a)) (agents t)) with (variables (agents t) (snd w)) in E.
        pose proof (HR0 (rm_cache m0) (variables (agents t) (snd w)) k
          (mkO (o_state (snd (fst w))) (enter (agents t) (o_count (snd (fst w)))))) as HR. unfold variables at 1 in HR. rewrite map_length in HR. specialize (HR eq_refl HI).
        destruct (oexec _ _ _ _) as ([(v' & c)|] & o'); cbn [fst] in HR; injection E as <- <- <-; cbn [rm_interval].
        - destruct HR as (HF & HI'). split; [auto|]. split; [|reflexivity]. split; [exact HI'|]. exact HR0.
        - split; [auto|]. split; [|reflexivity]. split; auto. }
      destruct (update_plot t cost xopt m0 k w) as ((v & m') & w1). cbn [fst snd] in *.
      pose proof (update_all_index iters k ms (Datatypes.S i) w1) as IX.
      destruct j as [|j]; cbn [nth_error] in N.
      + injection N as ->. destruct (UV v m' w1 eq_refl eq_refl) as (-> & HR' & EI).
        destruct (update_all _ _ _ _ _ _ _ _) as (((ps & ms1) & w2) & raised). cbn [fst snd nth_error] in *.
        split; [|eauto]. rewrite Nat.add_0_r. unfold value_at. destruct (due_dec _ _ _) as [D|D]; [|exfalso; apply D, HB; reflexivity].
        assert (Z : sent i ps = []) by (apply sent_none; intros p I'; apply IX in I'; lia).
        destruct (F _ k) as [v|]; [|exact Z]. unfold sent in *. cbn [filter fst]. rewrite Nat.eqb_refl. cbn [map fst snd]. now rewrite Z.
      + clear UV. specialize (IH (Datatypes.S i) j m w1 FI2 N HR). cbn zeta in IH.
        destruct (update_all _ _ _ _ _ _ _ _) as (((ps & ms1) & w2) & raised). cbn [fst snd nth_error] in *. destruct IH as (I1 & I2).
        split; [|exact I2]. replace (i + Datatypes.S j)%nat with (Datatypes.S i + j)%nat by lia.
        assert (X : value_at F (rm_interval m) iters k w1 = value_at F (rm_interval m) iters k w) by (unfold value_at; now rewrite NN).
        rewrite <- X, <- I1. destruct v as [v|]; [|reflexivity]. unfold sent. cbn [filter fst]. destruct (Nat.eqb_spec i (Datatypes.S i + j)); [lia|reflexivity].
    - pose proof (update_all_index iters k ms (Datatypes.S i) w) as IX.
      destruct j as [|j]; cbn [nth_error] in N.
      + injection N as ->. destruct (update_all _ _ _ _ _ _ _ _) as (((ps & ms1) & w2) & raised). cbn [fst snd nth_error] in *.
        split; [|eauto]. rewrite Nat.add_0_r. unfold value_at. destruct (due_dec _ _ _) as [D|D]; [apply HB in D; discriminate|].
        apply sent_none. intros p I'. apply IX in I'. lia.
      + specialize (IH (Datatypes.S i) j m w FI2 N HR). cbn zeta in IH.
        destruct (update_all _ _ _ _ _ _ _ _) as (((ps & ms1) & w2) & raised). cbn [fst snd nth_error] in *.
        replace (i + Datatypes.S j)%nat with (Datatypes.S i + j)%nat by lia. exact IH.
  Qed.

  Lemma update_all_quiet iters k ms : forall i (w : wrld), Forall (fun m => rm_interval m <> 0%Z) ms ->
    let r := update_all t cost xopt iters i ms k w in
    snd r = false /\ Forall (fun m => rm_interval m <> 0%Z) (snd (fst (fst r))).
  Proof.
    induction ms as [|m ms IH]; intros i w F; cbn [update_all]; cbn zeta; [cbn [fst snd]; auto|].
    inversion F as [|? ? F1 F2]. subst. destruct (should_due m k iters F1) as (b & -> & _).
    destruct (b || Nat.eqb (k + 1) iters)%bool.
    - pose proof (update_plot_interval t cost xopt m k w) as SI. destruct (update_plot _ _ _ _ _ _) as ((v & m') & w1). cbn [fst snd] in *.
      specialize (IH (Datatypes.S i) w1 F2). cbn zeta in IH.
      destruct (update_all _ _ _ _ _ _ _ _) as (((ps & ms1) & w2) & raised). cbn [fst snd] in *. destruct IH as (I2 & I3).
      split; [auto|]. constructor; auto. congruence.
    - specialize (IH (Datatypes.S i) w F2). cbn zeta in IH.
      destruct (update_all _ _ _ _ _ _ _ _) as (((ps & ms1) & w2) & raised). cbn [fst snd] in *. destruct IH as (I2 & I3).
      split; [auto|]. constructor; auto.
  Qed.

  Variable period : agent_id -> nat.
  Variable A : alg vec (@ostate Q P).
  Lemma loop_sent I F n : forall k ms j m (w : wrld), Forall (fun m => rm_interval m <> 0%Z) ms ->
    nth_error ms j = Some m -> reports_with (agents t) cost xopt I m F ->
    let r := loop_obs t cost xopt period A n k ms w in
    sent j (snd r) = flat_map (point_at (agents t) (rm_interval m) (al_iters A) F) (r_calls (fst r)).
  Proof.
    induction n as [|n IH]; intros k ms j m w FI N HR; cbn [loop_obs]; cbn zeta; [reflexivity|].
    destruct (al_step A k _) as (v & b). destruct b; [reflexivity|].
    set (x := (fst v, _)).
    destruct (update_all_sent (al_iters A) k I F ms 0 j m x FI N HR) as (S1 & m' & N' & HR' & EI).
    destruct (update_all_quiet (al_iters A) k ms 0 x FI) as (NR & FI').
    destruct (update_all _ _ _ _ _ _ _ _) as (((ps & ms1) & w4) & raised). cbn [fst snd] in *. subst raised.
    specialize (IH (k + 1)%nat ms1 j m' w4 FI' N' HR'). cbn zeta in IH.
    destruct (loop_obs _ _ _ _ _ _ _ _ _) as (r' & ps'). cbn [fst snd r_calls flat_map] in *.
    rewrite sent_app, IH, <- EI. cbn [point_at app]. rewrite EI. f_equal. exact S1.
  Qed.
  Lemma run_sent F ms j m start (w : wrld) : Forall (fun m => rm_interval m <> 0%Z) ms ->
    nth_error ms j = Some m -> reports (agents t) cost xopt m F ->
    let r := run_obs t cost xopt period A ms start w in
    sent j (snd r) = flat_map (point_at (agents t) (rm_interval m) (al_iters A) F) (r_calls (fst r)).
  Proof.
    intros FI N (I & HR). cbn zeta. unfold run_obs. destruct (_ || _)%bool; [reflexivity|]. destruct (start =? 0)%Z; [|now apply (loop_sent I)].
    pose proof (loop_sent I F (al_iters A - Z.to_nat start) (Z.to_nat start) ms j m (al_init A w) FI N HR) as X. cbn zeta in X.
    destruct (loop_obs _ _ _ _ _ _ _ _ _) as (r' & ps'). cbn [fst snd r_calls flat_map point_at app] in *. exact X.
  Qed.
End Points.

(** ** Values of the library metrics *)
Section Values.
  Context {Q : Type}.
  Variables (ags : list agent_id) (cost : agent_id -> rcost Q) (f : agent_id -> vec -> option R) (g : agent_id -> vec -> option vec).
  Hypothesis PF : forall a x q, In a ags -> fst (rc_fun (cost a) x q) = f a x.
  Hypothesis PG : forall a x q, In a ags -> fst (rc_grad (cost a) x q) = g a x.

  Lemma oexec_bind {A B} (p : oprog A) (h : A -> oprog B) : forall o, oexec cost ags (obind p h) o =
    match oexec cost ags p o with (Some a, o') => oexec cost ags (h a) o' | (None, o') => (None, o') end.
  Proof.
    induction p as [a| |i x k IH|i x k IH]; intro o; cbn [obind oexec]; [reflexivity..| |];
    (destruct (nth_error ags i) as [a|]; [|reflexivity]; destruct (counted_call _ _ _ _ _) as ([v|] & o'); [apply IH|reflexivity]).
  Qed.
  Lemma counted_fst {A} a k (r : option A * Q) o : fst (counted_call cost a k r o) = fst r.
  Proof. unfold counted_call. destruct r as ([v|] & q); reflexivity. Qed.

  Definition entries (h : nat -> vec -> option R) (i : nat) (xs : list (option vec)) : list (option R) :=
    map (fun p => match snd p with Some x => h (fst p) x | None => None end) (combine (seq i (length xs)) xs).

  Lemma osum_spec (call : nat -> vec -> (R -> oprog R) -> oprog R) (h : nat -> vec -> option R) :
    (forall i x k o, exists o', oexec cost ags (call i x k) o = match h i x with Some v => oexec cost ags (k v) o' | None => (None, o') end) ->
    forall xs i acc o, fst (oexec cost ags (osum call i xs acc) o) = match all_some (entries h i xs) with Some l => Some (acc + rsum l) | None => None end.
  Proof.
    intros HC xs. induction xs as [|[x|] xs IH]; intros i acc o; cbn [osum oexec].
    - cbn. f_equal. change (rsum []) with 0. ring.
    - destruct (HC i x (fun v => osum call (S i) xs (acc + v)) o) as (o' & ->). unfold entries. cbn [length seq combine map all_some fst snd].
      destruct (h i x) as [v|]; [|reflexivity]. rewrite IH. unfold entries. destruct (all_some _) as [l|]; [|reflexivity]. rewrite rsum_cons. f_equal. ring.
    - reflexivity.
  Qed.
  Lemma mean_spec (call : nat -> vec -> (R -> oprog R) -> oprog R) (h : nat -> vec -> option R) :
    (forall i x k o, exists o', oexec cost ags (call i x k) o = match h i x with Some v => oexec cost ags (k v) o' | None => (None, o') end) ->
    forall xs o, fst (oexec cost ags (obind (osum call 0 xs 0) (divlen xs)) o) = agent_mean h xs.
  Proof.
    intros HC xs o. rewrite oexec_bind. pose proof (osum_spec call h HC xs 0 0 o) as S. unfold agent_mean. fold (entries h 0 xs).
    assert (L : forall l, all_some (entries h 0 xs) = Some l -> length l = length xs).
    { intro l. assert (LE : length (entries h 0 xs) = length xs) by (unfold entries; rewrite map_length, combine_length, seq_length; lia). rewrite <- LE.
      generalize (entries h 0 xs). clear. intro es. revert l. induction es as [|[e|] es IH]; intros l; cbn [all_some]; try discriminate; [intros [= <-]; reflexivity|].
      destruct (all_some es) as [r|]; [|discriminate]. intros [= <-]. cbn. f_equal. now apply IH. }
    destruct (oexec _ _ (osum _ _ _ _) o) as (r & o'). cbn [fst] in S. subst r.
    destruct (all_some (entries h 0 xs)) as [l|]; [|reflexivity]. specialize (L l eq_refl). unfold divlen.
    destruct l as [|v l]; cbn [length] in L.
    - rewrite <- L. reflexivity.
    - rewrite <- L. cbn [Nat.eqb oexec fst]. unfold mean. f_equal. cbn [length]. f_equal. ring.
  Qed.

  Lemma callF_spec i x (k : R -> oprog R) o : exists o', oexec cost ags (callF i x k) o = match at_agent ags f i x with Some v => oexec cost ags (k v) o' | None => (None, o') end.
  Proof.
    unfold callF, at_agent. cbn [oexec]. destruct (nth_error ags i) as [a|] eqn:N; [|eexists; reflexivity]. apply nth_error_In in N.
    pose proof (counted_fst a KFunction (rc_fun (cost a) x (o_state o a)) o) as E. rewrite (PF a x _ N) in E.
    destruct (counted_call _ _ _ _ _) as (r & o'). cbn [fst] in E. subst r. exists o'. reflexivity.
  Qed.
  Lemma callG_spec d i x (k : R -> oprog R) o : exists o', oexec cost ags (CallG i x (fun v => k (l2norm d v))) o =
    match at_agent ags (fun a x => option_map (l2norm d) (g a x)) i x with Some v => oexec cost ags (k v) o' | None => (None, o') end.
  Proof.
    unfold at_agent. cbn [oexec]. destruct (nth_error ags i) as [a|] eqn:N; [|eexists; reflexivity]. apply nth_error_In in N.
    pose proof (counted_fst a KGradient (rc_grad (cost a) x (o_state o a)) o) as E. rewrite (PG a x _ N) in E.
    destruct (counted_call _ _ _ _ _) as (r & o'). cbn [fst] in E. subst r. exists o'. destruct (g a x); reflexivity.
  Qed.
  Lemma loss_spec xs o : fst (oexec cost ags (loss_prog xs) o) = agent_mean (at_agent ags f) xs.
  Proof. apply (mean_spec callF (at_agent ags f)). intros. apply callF_spec. Qed.
  Lemma gradnorm_spec d xs o : fst (oexec cost ags (obind (osum (fun i x k => CallG i x (fun g => k (l2norm d g))) 0 xs 0) (divlen xs)) o) =
    agent_mean (at_agent ags (fun a x => option_map (l2norm d) (g a x))) xs.
  Proof. apply mean_spec. intros. apply callG_spec. Qed.
End Values.
