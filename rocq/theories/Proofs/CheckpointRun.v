(** Crash and resume of a trial. *)
From Coq Require Import List Bool Arith ZArith Lia.
From Verif.Model Require Import PyDict History Messages Network Runner Checkpoint.
From Verif.Spec Require Import RunnerSpec CheckpointSpec.
From Verif.Proofs Require Import PyDictProofs RunnerProofs CheckpointProofs.
From Verif.Props Require Import RunnerProps.
Import ListNotations.
Open Scope nat_scope.

Section R.
  Context {V S : Type}.
  Notation world := (world V S).
  Definition callbacks (l : list (call V S)) : list (nat * world) :=
    flat_map (fun c => match c with CCallback k w => [(k, w)] | _ => [] end) l.
  Lemma callbacks_app a b : callbacks (a ++ b) = callbacks a ++ callbacks b.
  Proof. apply flat_map_app. Qed.
  Lemma callbacks_In l k w : In (k, w) (callbacks l) <-> In (CCallback k w) l.
  Proof.
    unfold callbacks. rewrite in_flat_map. split.
    - intros ([?|? ?|j v] & I & J); cbn in J; try tauto. destruct J as [[= -> ->]|[]]. exact I.
    - intro I. exists (CCallback k w). cbn. auto.
  Qed.
  Lemma wanted_callbacks step l : wanted step l = wants step (callbacks l).
  Proof.
    induction l as [|c l IH]; [reflexivity|]. unfold wanted, callbacks in *. cbn [flat_map]. rewrite IH. destruct c as [?|? ?|k w]; cbn [app]; auto.
    cbn [wants filter fst]. destruct (should step k); reflexivity.
  Qed.
  Lemma callbacks_indices l : map fst (callbacks l) = callback_indices l.
  Proof. induction l as [|[?|? ?|k w] l IH]; unfold callbacks, callback_indices in *; cbn in *; congruence. Qed.
  Variables (t : topo) (period : agent_id -> nat).
  Lemma loop_last (A : alg V S) n : forall k w, r_out (loop t period A n k w) = Finished -> 1 <= n ->
    In (CCallback (k + n - 1) (r_world (loop t period A n k w))) (r_calls (loop t period A n k w)).
  Proof.
    induction n as [|n IH]; intros k w F H; [lia|]. cbn [loop] in *. destruct (al_step A k _) as (w2, raised). destruct raised; [discriminate|].
    cbn [r_out r_calls r_world] in *. destruct n as [|n].
    - right; left. cbn [loop r_world]. f_equal. lia.
    - right; right. specialize (IH (k + 1) _ F ltac:(lia)). replace (k + Datatypes.S (Datatypes.S n) - 1) with (k + 1 + Datatypes.S n - 1) by lia. exact IH.
  Qed.

  (** any trajectory, resumable after iterations [p] with [m <= p + 1] *)
  Section Traj.
  Variables (A : alg V S) (w0 : world) (step : option nat) (m : nat) (C0 : list (nat * world)) (out : outcome) (wf : world).
  Let N := al_iters A.
  Let fin := finished out.
  Hypothesis POS : 1 <= N.
  Hypothesis IDX : map fst C0 = seq 0 (length C0).
  Hypothesis LEN : length C0 <= N.
  Hypothesis FIN : fin = true -> length C0 = N /\ In (N - 1, wf) C0.
  Hypothesis T2 : m = 0 -> let r := run t period A 0 w0 in r_out r = out /\ r_world r = wf /\ callbacks (r_calls r) = C0.
  Hypothesis T3 : forall p w, In (p, w) C0 -> m <= Datatypes.S p ->
    let r := run t period A (Z.of_nat (p + 1)) w in r_out r = out /\ r_world r = wf /\ callbacks (r_calls r) = skipn (p + 1) C0.
  Notation Inv := (Inv step m N C0 fin wf).
  Lemma attempt_form keep s : Inv s -> d_comp s = None -> exists k, k <= length C0 /\ prog_lt s k /\ nopoint step s k /\ attempt t period A w0 step keep s = trial_end t step N fin wf keep (skipn k C0) s.
  Proof.
    intros (_ & PR & _ & _) _.
    assert (GO : forall r, r_out r = out -> r_world r = wf -> forall k, callbacks (r_calls r) = skipn k C0 ->
      (let '(x, failed) := save_all keep (wanted step (r_calls r)) s in
      match failed with
      | Some w' => mkAtt x (Returned false w')
      | None =>
        match r_out r with
        | Finished =>
            match mark_complete keep (al_iters A - 1) (r_world r) (apply_all x s) with
            | Some y => mkAtt (x ++ y) (Returned true (fst (r_world r), clear_aux t (snd (r_world r))))
            | None => mkAtt x (Returned false (r_world r))
            end
        | _ => mkAtt x (Returned false (r_world r))
        end
      end) = trial_end t step N fin wf keep (skipn k C0) s).
    { intros r O W k C. rewrite wanted_callbacks, C, O, W. unfold trial_end, fin. destruct (save_all _ _ _) as (x, [w'|]); auto. destruct out; reflexivity. }
    unfold attempt, load. destruct PR as [(Z & P)|(p & w & P & I & G & M)].
    - rewrite P. exists 0. split; [lia|]. split; [unfold prog_lt; now rewrite P|split].
      + intros q _ _. lia.
      + destruct (T2 Z) as (O & W & C). apply GO; auto.
    - rewrite P, G. exists (p + 1). assert (IL : p < length C0) by (eapply In_lt; [exact IDX|exact I]). split; [lia|]. split; [unfold prog_lt; rewrite P; lia|split].
      + intros q _ AF. unfold after in AF. rewrite P in AF. lia.
      + destruct (T3 p w I M) as (O & W & C). now apply GO.
  Qed.
  Lemma visit_ok keep s : 1 <= keep -> Inv s ->
    let r := visit t period A w0 step keep s in
    returns t (at_answer r) fin wf /\
    (forall n, let s' := apply_all (firstn n (at_effects r)) s in json_ok s' -> Inv s') /\
    let s' := apply_all (at_effects r) s in Inv s' /\ is_complete s' = fin /\ (fin = true -> load_result s' = Some wf).
  Proof.
    intros KP IV. pose proof IV as (_ & _ & _ & _ & CO). unfold visit. destruct CO as [CN|(EF & CN & P & G)]; [replace (is_complete s) with false by (unfold is_complete; now rewrite CN)|replace (is_complete s) with true by (unfold is_complete; now rewrite CN)].
    - destruct (attempt_form keep s IV CN) as (k & KL & PL & NP & ->). destruct (trial_end_ok t step m N C0 fin wf IDX LEN POS FIN keep k s KP KL IV CN PL NP) as (AN & PRE & IX & CX).
      cbn zeta in *. split; [|split; [exact PRE|split; [exact IX|]]].
      + rewrite AN. unfold returns. destruct fin; [|auto]. right. split; [reflexivity|]. eexists. split; [apply clear_aux_dropped|reflexivity].
      + unfold is_complete, load_result. rewrite CX. destruct fin; [|split; [auto|discriminate]]. split; [auto|]. intros _. destruct IX as (_ & _ & _ & _ & [CC|(_ & _ & _ & G)]); [congruence|]. now rewrite G.
    - assert (LR : load_result s = Some wf) by (unfold load_result; now rewrite CN, G). cbn zeta. cbn [at_answer at_effects]. rewrite LR. split; [rewrite EF; left; auto|].
      split; [intros n _; rewrite firstn_nil; exact IV|]. cbn [apply_all fold_left]. split; [exact IV|]. unfold is_complete. rewrite CN. auto.
  Qed.
  End Traj.

  (** the trajectory of a run from [w] at iteration [k] *)
  Lemma run_indices (A : alg V S) k w : k <= al_iters A -> let r := run t period A (Z.of_nat k) w in
    map fst (callbacks (r_calls r)) = seq k (length (callbacks (r_calls r))) /\ k + length (callbacks (r_calls r)) <= al_iters A.
  Proof.
    intros H r. destruct (C31_iterations_once_in_order V S t period A k w H) as (_ & _ & X). fold r in X.
    rewrite <- (map_length fst (callbacks (r_calls r))), callbacks_indices.
    destruct (r_out r) as [|j|]; [destruct X as (_ & ->)|destruct X as (J & _ & ->)|destruct X]; rewrite seq_length; split; auto; lia.
  Qed.
  Lemma run_finished (A : alg V S) k w : k < al_iters A -> let r := run t period A (Z.of_nat k) w in r_out r = Finished ->
    k + length (callbacks (r_calls r)) = al_iters A /\ In (al_iters A - 1, r_world r) (callbacks (r_calls r)).
  Proof.
    intros H r O. split.
    - rewrite <- (map_length fst), callbacks_indices. destruct (C31_iterations_once_in_order V S t period A k w ltac:(lia)) as (_ & _ & X). fold r in X.
      rewrite O in X. destruct X as (_ & ->). rewrite seq_length. lia.
    - apply callbacks_In. unfold r, run in *. replace ((Z.of_nat k <? 0)%Z || (Z.of_nat (al_iters A) <? Z.of_nat k)%Z) with false in * by (symmetry; apply orb_false_iff; split; apply Z.ltb_ge; lia).
      rewrite Nat2Z.id in *. destruct (Z.of_nat k =? 0)%Z; cbn [r_calls r_world r_out] in *; [right|];
      match goal with |- In (CCallback _ (r_world (loop t period A ?n k ?u))) _ => pose proof (loop_last A n k u O ltac:(lia)) as L end;
      replace (k + (al_iters A - k) - 1) with (al_iters A - 1) in L by lia; exact L.
  Qed.
  Lemma run_resume (A : alg V S) k w p u : k <= al_iters A -> let r0 := run t period A (Z.of_nat k) w in In (p, u) (callbacks (r_calls r0)) ->
    let r := run t period A (Z.of_nat (p + 1)) u in r_out r = r_out r0 /\ r_world r = r_world r0 /\ callbacks (r_calls r) = skipn (p + 1 - k) (callbacks (r_calls r0)).
  Proof.
    intros H r0 I r. apply callbacks_In in I. destruct (C32_resume_equals_uninterrupted V S t period A (Z.of_nat k) w p u I) as (O & W & done & E). fold r0 r in O, W, E.
    split; [exact O|]. split; [exact W|]. assert (EC : callbacks (r_calls r0) = callbacks done ++ (p, u) :: callbacks (r_calls r)). { rewrite E, callbacks_app. reflexivity. }
    assert (L : k + length (callbacks done) = p).
    { destruct (run_indices A k w H) as (X & _). fold r0 in X. rewrite EC, map_app in X. cbn [map fst] in X. set (n := length (callbacks done ++ (p, u) :: callbacks (r_calls r))) in X.
      assert (nth (length (callbacks done)) (seq k n) 0 = p). { rewrite <- X. rewrite app_nth2; rewrite map_length; [|lia]. now rewrite Nat.sub_diag. }
      rewrite seq_nth in H0; [exact H0|]. unfold n. rewrite app_length. cbn. lia. }
    rewrite EC. rewrite skipn_app, skipn_all2 by lia. replace (p + 1 - k - length (callbacks done)) with 1 by lia. reflexivity.
  Qed.

  Lemma killed_Inv (A : alg V S) w0 step keeps s : 1 <= al_iters A -> killed t period A w0 step keeps s ->
    let r := run t period A 0 w0 in Inv step 0 (al_iters A) (callbacks (r_calls r)) (finished (r_out r)) (r_world r) s /\
    forall keep, 1 <= keep -> let v := visit t period A w0 step keep s in
      returns t (at_answer v) (finished (r_out r)) (r_world r) /\
      let s' := apply_all (at_effects v) s in is_complete s' = finished (r_out r) /\ (finished (r_out r) = true -> load_result s' = Some (r_world r)).
  Proof.
    intros POS K r.
    assert (VO : forall s keep, 1 <= keep -> Inv step 0 (al_iters A) (callbacks (r_calls r)) (finished (r_out r)) (r_world r) s -> _) by
      (intros s1 keep KP IV; refine (visit_ok A w0 step 0 (callbacks (r_calls r)) (r_out r) (r_world r) POS _ _ _ _ _ keep s1 KP IV);
       [apply (run_indices A 0 w0); lia|apply (run_indices A 0 w0); lia| |intros _; auto|];
       [intro F; assert (O : r_out r = Finished) by (destruct (r_out r); auto; discriminate); destruct (run_finished A 0 w0 ltac:(lia) O); auto|
        intros p w I _; destruct (run_resume A 0 w0 p w ltac:(lia) I) as (X1 & X2 & X3); fold r in X1, X2, X3; rewrite Nat.sub_0_r in X3; auto]).
    assert (IV : Inv step 0 (al_iters A) (callbacks (r_calls r)) (finished (r_out r)) (r_world r) s).
    { induction K as [|keeps keep s n K IH KP s' J]; [now apply Inv_empty|]. destruct (VO s keep KP IH) as (_ & PRE & _). apply PRE. exact J. }
    split; [exact IV|]. intros keep KP. destruct (VO s keep KP IV) as (A1 & _ & _ & A2 & A3). auto.
  Qed.
End R.

(** ** When checkpoints are written *)
Section Schedule.
  Context {V S : Type}.
  Notation world := (world V S).
  Lemma no_write_cleanup keep (s : dir world) k v : ~ In (WriteCk k v) (cleanup keep s).
  Proof. unfold cleanup. intro H. apply in_map_iff in H. destruct H as (j & H & _). discriminate. Qed.
  Lemma save_prog' keep k (d : world) s x : already_saved k s = Some false -> save keep k d s = Some x -> d_prog (apply_all x s) = Some (Full k).
  Proof.
    unfold save. intros -> [= <-]. change (d_prog (apply_all (cleanup keep (apply_all [TruncCk k; WriteCk k d; TruncProg; WriteProg k] s)) (apply_all [TruncCk k; WriteCk k d; TruncProg; WriteProg k] s)) = Some (Full k)).
    unfold cleanup. set (l := skipn _ _). set (s1 := apply_all _ s). assert (E : d_prog s1 = Some (Full k)) by reflexivity. clearbody l s1. revert s1 E.
    induction l as [|j l IH]; intros s1 E; [exact E|]. cbn [map apply_all fold_left]. apply IH. exact E.
  Qed.
  Lemma unsaved k (s : dir world) : (forall p, d_prog s = Some p -> exists j, p = Full j /\ j < k) -> already_saved k s = Some false.
  Proof.
    intro H. unfold already_saved. destruct (dmem _ _ _); [|reflexivity]. destruct (d_prog s) as [p|]; [|reflexivity].
    destruct (H p eq_refl) as (j & -> & L). f_equal. apply Nat.eqb_neq. lia.
  Qed.
  Lemma saves_ok keep : forall (l : list (nat * world)) b s, (forall p, d_prog s = Some p -> exists j, p = Full j /\ j < b) ->
    (forall k, In k (map fst l) -> b <= k) -> Sorted.StronglySorted lt (map fst l) ->
    exists x, save_all keep l s = (x, None) /\ (forall k v, In (WriteCk k v) x <-> In (k, v) l) /\
      ((l = [] /\ x = []) \/ exists p, d_prog (apply_all x s) = Some (Full p) /\ In p (map fst l)).
  Proof.
    induction l as [|(k, w) l IH]; intros b s P B SS; cbn [save_all].
    { exists []. split; [reflexivity|]. split; [intros; cbn; tauto|auto]. }
    cbn [map fst] in *. inversion SS as [|? ? SS' F]; subst. rewrite Forall_forall in F.
    assert (AS : already_saved k s = Some false). { apply unsaved. intros p E. destruct (P p E) as (j & -> & L). exists j. split; [reflexivity|]. specialize (B k (or_introl eq_refl)). lia. }
    destruct (save keep k w s) as [x|] eqn:SV; [|unfold save in SV; rewrite AS in SV; discriminate].
    pose proof (save_prog' keep k w s x AS SV) as PX.
    destruct (IH (k + 1) (apply_all x s)) as (y & -> & W & L).
    { intros p E. rewrite PX in E. injection E as <-. exists k. split; [reflexivity|lia]. }
    { intros j J. specialize (F j J). lia. }
    { exact SS'. }
    exists (x ++ y). split; [reflexivity|]. split.
    - intros j v. rewrite in_app_iff, W. cbn [In]. rewrite (save_eq keep k w s x AS SV). rewrite in_app_iff. cbn [In].
      split.
      + intros [[H|H]|H]; [|apply in_map_iff in H; destruct H as (? & ? & _); discriminate|auto]. destruct H as [H|[H|[H|[H|[]]]]]; try discriminate. injection H as -> ->. auto.
      + intros [[= -> ->]|H]; auto.
    - right. unfold apply_all. rewrite fold_left_app. fold (apply_all x s). fold (apply_all y (apply_all x s)). destruct L as [(-> & ->)|(p & E & I)]; [exists k|exists p]; cbn; auto.
  Qed.
  Lemma sorted_filter (f : nat -> bool) n : forall a, Sorted.StronglySorted lt (filter f (seq a n)).
  Proof.
    induction n as [|n IH]; intro a; cbn [seq filter]; [constructor|]. destruct (f a); [|apply IH]. constructor; [apply IH|].
    apply Forall_forall. intros x H. apply filter_In in H. destruct H as (H & _). apply in_seq in H. lia.
  Qed.
  Lemma map_filter {X Y} (f : X -> Y) (g : Y -> bool) l : map f (filter (fun x => g (f x)) l) = filter g (map f l).
  Proof. induction l as [|x l IH]; cbn; [reflexivity|]. destruct (g (f x)); cbn; congruence. Qed.
  Lemma should_divides step k : should step k = true <-> exists n, step = Some n /\ 1 <= n /\ Nat.divide n (k + 1).
  Proof.
    unfold should. destruct step as [n|]; [|split; [discriminate|intros (n & H & _); discriminate]]. rewrite Nat.eqb_eq. split.
    - intro H. exists n. split; [reflexivity|]. destruct n as [|n]; [cbn in H; lia|]. split; [lia|]. apply Nat.mod_divide; [lia|exact H].
    - intros (m & [= <-] & L & D). apply Nat.mod_divide; [lia|exact D].
  Qed.
  Lemma schedule t period (A : alg V S) w0 step keep s start w : 1 <= al_iters A -> is_complete s = false ->
    (load s = LNone /\ start = 0 /\ w = w0 \/ exists k, load s = LSome k w /\ start = k + 1) ->
    let r := run t period A (Z.of_nat start) w in
    forall k v, In (WriteCk k v) (at_effects (visit t period A w0 step keep s)) <->
      In (CCallback k v) (r_calls r) /\ ((exists n, step = Some n /\ 1 <= n /\ Nat.divide n (k + 1)) \/ (r_out r = Finished /\ k = al_iters A - 1)).
  Proof.
    intros POS NC ST r k v.
    assert (PR : forall p, d_prog s = Some p -> exists j, p = Full j /\ j < start).
    { intros p E. unfold load in ST. rewrite E in ST. destruct ST as [(L & _)|(j & L & ->)].
      - destruct p as [|j]; [discriminate|]. destruct (dget _ _ _) as [[|]|]; discriminate.
      - destruct p as [|j']; [discriminate|]. destruct (dget _ _ _) as [[|]|]; try discriminate. injection L as -> _. exists j. split; [reflexivity|lia]. }
    assert (VE : at_effects (visit t period A w0 step keep s) =
      let '(x, failed) := save_all keep (wanted step (r_calls r)) s in
      match failed with Some _ => x | None => match r_out r with Finished => match mark_complete keep (al_iters A - 1) (r_world r) (apply_all x s) with Some y => x ++ y | None => x end | _ => x end end).
    { unfold visit. rewrite NC. unfold attempt. destruct ST as [(L & -> & ->)|(j & L & ->)]; rewrite L; change (Z.of_nat 0) with 0%Z in *; fold r;
      destruct (save_all _ _ _) as (x, [w'|]); try reflexivity; destruct (r_out r); try reflexivity; destruct (mark_complete _ _ _ _); reflexivity. }
    rewrite VE. clear VE. rewrite wanted_callbacks, <- callbacks_In, <- should_divides.
    destruct (le_lt_dec start (al_iters A)) as [SL|SL].
    2: { assert (E : r = mkRes Rejected [] w). { unfold r, run. replace (_ || _) with true; [reflexivity|]. symmetry. apply orb_true_iff. right. apply Z.ltb_lt. lia. }
      rewrite E. cbn. tauto. }
    destruct (run_indices t period A start w SL) as (IX & LN). fold r in IX, LN. set (C := callbacks (r_calls r)) in *.
    destruct (saves_ok keep (wants step C) start s) as (x & E & W & L).
    { exact PR. }
    { intros j J. unfold wants in J. rewrite (map_filter fst (should step)), IX in J. apply filter_In in J. destruct J as (J & _). apply in_seq in J. lia. }
    { unfold wants. rewrite (map_filter fst (should step)), IX. apply sorted_filter. }
    rewrite E.
    assert (WI : forall k v, In (WriteCk k v) x <-> In (k, v) C /\ should step k = true).
    { intros j u. rewrite W. unfold wants. rewrite filter_In. reflexivity. }
    destruct (r_out r) eqn:O; [|rewrite WI; intuition discriminate|rewrite WI; intuition discriminate].
    assert (PX : forall p, d_prog (apply_all x s) = Some p -> exists j, p = Full j /\ ((x = [] /\ j < start) \/ In j (map fst (wants step C)))).
    { intros p EP. destruct L as [(_ & X0)|(q & EQ & I)]; [rewrite X0 in EP; cbn in EP; destruct (PR p EP) as (j & -> & J); exists j; auto|]. rewrite EQ in EP. injection EP as <-. eauto. }
    unfold mark_complete. destruct (save keep (al_iters A - 1) (r_world r) (apply_all x s)) as [y|] eqn:SV.
    2: { exfalso. unfold save, already_saved in SV. destruct (dmem _ _ _); [|discriminate]. destruct (d_prog (apply_all x s)) as [p|]; [|discriminate]. destruct (PX p eq_refl) as (j & -> & _). destruct (j =? _); discriminate. }
    assert (LST : start < al_iters A -> In (al_iters A - 1, r_world r) C) by (intro H; apply (run_finished t period A start w H O)).
    assert (UN : forall u, In (al_iters A - 1, u) C -> u = r_world r /\ start < al_iters A).
    { intros u I. assert (H : start < al_iters A). { pose proof (in_map fst _ _ I) as J. cbn in J. rewrite IX in J. apply in_seq in J. lia. }
      split; [|exact H]. apply (NoDup_fst_fun C (al_iters A - 1)); auto. rewrite IX. apply seq_NoDup. }
    assert (SPLIT : In (k, v) C /\ (should step k = true \/ Finished = Finished /\ k = al_iters A - 1) <-> In (WriteCk k v) x \/ (k = al_iters A - 1 /\ v = r_world r /\ start < al_iters A)).
    { rewrite WI. split.
      - intros (I & [H|(_ & ->)]); [auto|]. right. destruct (UN v I). auto.
      - intros [(I & H)|(-> & -> & H)]; auto. }
    rewrite SPLIT. rewrite !in_app_iff. cbn [In].
    destruct (already_saved (al_iters A - 1) (apply_all x s)) as [[|]|] eqn:AS; unfold save in SV; rewrite AS in SV; [injection SV as <-|injection SV as <-|discriminate].
    - split; [intros [H|[[]|[H|[H|[]]]]]; auto; discriminate|]. intros [H|(-> & -> & H)]; [auto|].
      left. apply WI. split; [now apply LST|]. unfold already_saved in AS. destruct (dmem _ _ _); [|discriminate].
      destruct (d_prog (apply_all x s)) as [p|]; [|discriminate]. destruct (PX p eq_refl) as (j & -> & J). injection AS as AS. apply Nat.eqb_eq in AS. subst j.
      destruct J as [(_ & J)|J]; [lia|]. unfold wants in J. rewrite (map_filter fst (should step)) in J. apply filter_In in J. apply J.
    - cbn [app In]. split.
      + intros [H|[[H|[H|[H|[H|H]]]]|[H|[H|[]]]]]; try discriminate; auto; [|exfalso; revert H; apply no_write_cleanup].
        injection H as <- <-. right. split; [reflexivity|]. split; [reflexivity|]. destruct (Nat.eq_dec start (al_iters A)) as [SE|]; [|lia].
        exfalso. assert (C0 : C = []) by (destruct C as [|c C']; [reflexivity|cbn [length] in LN; lia]).
        destruct L as [(_ & ->)|(p & _ & I)]; [|rewrite C0 in I; destruct I]. cbn [apply_all fold_left] in AS.
        destruct ST as [(_ & S0 & _)|(j & LO & SJ)]; [lia|]. unfold load in LO. unfold already_saved in AS. destruct (d_prog s) as [[|q]|]; try discriminate.
        destruct (dget Nat.eqb (d_ck s) q) as [[|u]|] eqn:G; try discriminate. injection LO as -> ->.
        replace (al_iters A - 1) with j in AS by lia. assert (M : dmem Nat.eqb (d_ck s) j = true) by (unfold dmem; now rewrite G). rewrite M, Nat.eqb_refl in AS. discriminate.
      + intros [H|(-> & -> & H)]; auto 10.
  Qed.
End Schedule.
