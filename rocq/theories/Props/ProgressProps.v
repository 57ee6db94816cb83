(** C85: progress bars. *)
From Coq Require Import List Arith Bool Lia Permutation.
From Verif.Model Require Import Progress.
From Verif.Spec Require Import QueueSpec ProgressSpec.
From Verif.Proofs Require Import ProgressProofs.
Import ListNotations.

Section Bars.
  (** algorithms by the number of their bar, their iterations, the number of
      trials and how far every trial has come *)
  Variables (ids : list nat) (iters : nat -> nat) (n_trials : nat) (step : option nat) (st : nat -> nat -> stage).
  Hypothesis Hstep : forall s, step = Some s -> 0 < s.
  Hypothesis Hids : NoDup ids.
  Hypothesis Hst : forall i t, In i ids -> t < n_trials -> proper (iters i) (st i t).
  Hypothesis Hit : forall i, In i ids -> 0 < iters i.

  Lemma sent_other : forall i j s, i <> j -> sum_for i (sent step j (iters j) s) = 0.
  Proof using Type.
    clear. intros i j s H. assert (N : (i =? j) = false) by (now apply Nat.eqb_neq). destruct s as [| |start k]; cbn [sent]; [reflexivity|cbn; now rewrite N|].
    unfold trial_records. cbn [sum_for fold_right p_bar start_record]. rewrite N. fold (sum_for i (concat (map (advance step j (iters j)) (seq start (k - start))))). cbn [Nat.add].
    induction (seq start (k - start)) as [|a l IH]; [reflexivity|]. cbn [map concat]. rewrite sum_for_app, IH. unfold advance. destruct step as [s|]; [destruct (negb _ && _)|destruct (_ <? _)]; cbn; rewrite ?N; reflexivity.
  Qed.
  Lemma sent_own : forall i s, proper (iters i) s -> 0 < iters i -> sum_for i (sent step i (iters i) s) <= steps_per_trial step (iters i) /\
    (sum_for i (sent step i (iters i) s) = steps_per_trial step (iters i) <-> ended (iters i) s).
  Proof using Hstep.
    clear Hst Hit Hids. intros i s P Hi. assert (Pos : 0 < steps_per_trial step (iters i)) by (unfold steps_per_trial; destruct step; lia). destruct s as [| |start k]; cbn [sent ended].
    - cbn. split; [lia|]. split; [lia|contradiction].
    - cbn. rewrite Nat.eqb_refl. split; [lia|]. split; [auto|intros; lia].
    - destruct P as [P1 P2]. rewrite trial_sum by assumption. apply contribution_bound; auto; lia.
  Qed.
  Lemma trials_sum : forall i, 0 < iters i -> forall ts, (forall t, In t ts -> proper (iters i) (st i t)) ->
    let s := fold_right (fun l a => sum_for i l + a) 0 (map (fun t => sent step i (iters i) (st i t)) ts) in
    s <= length ts * steps_per_trial step (iters i) /\ (s = length ts * steps_per_trial step (iters i) <-> forall t, In t ts -> ended (iters i) (st i t)).
  Proof using Hstep.
    clear Hst Hit Hids. intros i Hi. induction ts as [|t ts IH]; intros P; [cbn; split; [lia|split; [intros _ t []|lia]]|].
    destruct (IH (fun t' I => P t' (or_intror I))) as [I1 I2]. destruct (sent_own i (st i t) (P t (or_introl eq_refl)) Hi) as [O1 O2]. cbn [map fold_right length Nat.mul] in *. split; [lia|].
    split.
    - intros E t' [<-|I]; [apply O2; lia|apply I2; [lia|exact I]].
    - intros H. assert (sum_for i (sent step i (iters i) (st i t)) = steps_per_trial step (iters i)) by (apply O2, H; now left). assert (H' : forall t', In t' ts -> ended (iters i) (st i t')) by (intros; apply H; now right). apply I2 in H'. lia.
  Qed.
  Lemma others_sum : forall i j a, i <> j -> forall ts, fold_right (fun l0 a => sum_for i l0 + a) a (map (fun t => sent step j (iters j) (st j t)) ts) = a.
  Proof using Type.
    clear. intros i j a H ts. induction ts as [|t ts IHt]; [reflexivity|]. cbn [map fold_right]. rewrite IHt, sent_other by exact H. reflexivity.
  Qed.
  Lemma all_others : forall i a l, ~ In i l -> fold_right (fun l0 a => sum_for i l0 + a) a (concat (map (fun i0 => map (fun t => sent step i0 (iters i0) (st i0 t)) (seq 0 n_trials)) l)) = a.
  Proof using Type.
    clear. intros i a l. induction l as [|j' l IH]; intros Nl; [reflexivity|]. cbn [map concat]. rewrite fold_right_app, IH by (intros H; apply Nl; now right). apply others_sum. intros ->; apply Nl; now left.
  Qed.
  Lemma bar_sum : forall i, In i ids -> sum_for i (concat (concat (map (fun i => map (fun t => sent step i (iters i) (st i t)) (seq 0 n_trials)) ids))) = fold_right (fun l a => sum_for i l + a) 0 (map (fun t => sent step i (iters i) (st i t)) (seq 0 n_trials)).
  Proof using Hids.
    intros i Hi. rewrite sum_for_concat. clear Hst Hit Hstep. induction ids as [|j l IH]; [contradiction|]. cbn [map concat]. rewrite fold_right_app.
    inversion Hids as [|? ? N1 N2]; subst. destruct (Nat.eq_dec i j) as [->|Hne].
    - now rewrite all_others.
    - destruct Hi as [<-|Hi]; [congruence|]. rewrite IH by assumption. now apply others_sum.
  Qed.
  Let total i := bar_total step n_trials (iters i).
  Let senders := concat (map (fun i => map (fun t => sent step i (iters i) (st i t)) (seq 0 n_trials)) ids).
  (** However the messages of the trials arrive, a bar never overshoots, and it is
      full exactly when all trials of its algorithm have ended. *)
  Theorem C85_bars : forall q i, merge senders q -> In i ids ->
    let shown := listener ids total q (fun _ => 0) i in
    shown <= total i /\ (shown = total i <-> forall t, t < n_trials -> ended (iters i) (st i t)).
  Proof using Hstep Hids Hst Hit.
    intros q i M Hi. cbv zeta.
    assert (Q : forall j, In j ids -> sum_for j q <= total j /\ (sum_for j q = total j <-> forall t, t < n_trials -> ended (iters j) (st j t))).
    { intros j Hj. rewrite <- (sum_for_perm j _ _ (merge_perm _ _ M)), bar_sum by exact Hj. destruct (trials_sum j (Hit j Hj) (seq 0 n_trials)) as [T1 T2]; [intros t I; apply Hst; [exact Hj|apply in_seq in I; lia]|].
      rewrite seq_length in *. split; [exact T1|]. unfold total, bar_total. rewrite T2. split; intros H t I; apply H; [apply in_seq; lia|apply in_seq in I; lia]. }
    assert (S : listener ids total q (fun _ => 0) i = sum_for i q); [|rewrite S; now apply Q].
    destruct (listener_prefix ids total q (fun _ => 0)) as (p & q' & E & H1 & H2). rewrite H1. cbn [Nat.add]. destruct H2 as [->|H2]; [rewrite app_nil_r in E; now subst|].
    unfold finished in H2. rewrite forallb_forall in H2. specialize (H2 i Hi). apply Nat.leb_le in H2. rewrite H1 in H2. cbn [Nat.add] in H2. pose proof (proj1 (Q i Hi)) as L. rewrite E, sum_for_app in L |- *. lia.
  Qed.
End Bars.

(** One algorithm with 250 iterations, one resumed at iteration 120 and one half
    done, steps of 100: the two trials have 6 units, 5 are shown. *)
Example C85_case : let st := fun _ t => match t with 0 => Running 120 250 | _ => Running 0 201 end in
  (forall t, t < 2 -> proper 250 (st 0 t)) /\ bar_total (Some 100) 2 250 = 6 /\
  exists q, merge [sent (Some 100) 0 250 (st 0 0); sent (Some 100) 0 250 (st 0 1)] q /\ listener [0] (fun _ => 6) q (fun _ => 0) 0 = 5.
Proof.
  intros st. split; [intros [|[|t]] H; cbn; lia|]. split; [reflexivity|]. exists [mkPR 0 0; mkPR 0 1; mkPR 0 1; mkPR 0 1; mkPR 0 1; mkPR 0 1]. split; [|reflexivity].
  assert (E1 : sent (Some 100) 0 250 (st 0 0) = [mkPR 0 1; mkPR 0 1; mkPR 0 1]) by reflexivity. assert (E2 : sent (Some 100) 0 250 (st 0 1) = [mkPR 0 0; mkPR 0 1; mkPR 0 1]) by reflexivity. rewrite E1, E2.
  apply (merge_take [_] _ _ []). apply (merge_take [] _ _ [_]). apply (merge_take [_] _ _ []). apply (merge_take [] _ _ [_]). apply (merge_take [_] _ _ []). apply (merge_take [] _ _ [_]). constructor. intros l [<-|[<-|[]]]; reflexivity.
Qed.
(** A trial resumed from a checkpoint of its last iteration (interrupted before it
    was marked as complete) has nothing left to do, but its bar does not fill. *)
Theorem C85_resumed_at_the_end_refuted : forall iters s, 0 < s -> iters mod s <> 0 ->
  sum_for 0 (trial_records (Some s) 0 iters iters iters) < steps_per_trial (Some s) iters /\ sum_for 0 (trial_records None 0 iters iters iters) < steps_per_trial None iters.
Proof.
  intros iters s Hs Hm. unfold trial_records, steps_per_trial. rewrite Nat.sub_diag. cbn [seq map concat sum_for fold_right start_record p_bar p_inc Nat.eqb]. split; [|lia]. rewrite Nat.add_0_r. destruct s as [|s]; [lia|]. rewrite ceil_eq by lia. destruct (Nat.eqb_spec (iters mod S s) 0); [congruence|]. lia.
Qed.
Print Assumptions C85_bars.
Print Assumptions C85_resumed_at_the_end_refuted.
