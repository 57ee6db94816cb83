(** C104: log messages and displayed tables. *)
From Coq Require Import List Arith Bool Lia String.
From Verif.Model Require Import Logging.
From Verif.Spec Require Import LoggingSpec.
From Verif.Proofs Require Import LoggingProofs.
Import ListNotations.

Definition msg (p l : nat) (s : string) : record := mkRec p l s.

(** ** Several processes *)
(** Whatever has been called before, however the processes' messages and the
    listener are interleaved: when the benchmark returns, exactly the messages of
    the wanted level have been displayed, each once, in the order in which they
    were logged, on top of what the ones logged before the listener was started
    have led to. *)
Theorem C104_multiprocess : forall before level early steps,
  let w := session interpreter before in
  w_screen (session interpreter (before ++ [CMulti level early steps true])) = w_screen (log_all w early) ++ wanted level (logged steps) /\
  w_stderr (session interpreter (before ++ [CMulti level early steps true])) = w_stderr (log_all w early) /\
  w_own (session interpreter (before ++ [CMulti level early steps true])) = w_own (log_all w early).
Proof.
  intros before level early steps w. rewrite session_app. fold w. unfold session at 1 2 3. cbn [fold_left].
  destruct (multi_ok level early steps true w) as (_ & _ & E3 & E4 & _ & E6). auto.
Qed.
Print Assumptions C104_multiprocess.
(** every process's messages in its own order, none lost and none twice *)
Theorem C104_per_process : forall before level steps p,
  let w := session interpreter before in
  exists shown, w_screen (session interpreter (before ++ [CMulti level [] steps true])) = w_screen w ++ shown /\
    filter (fun r => r_proc r =? p) shown = wanted level (filter (fun r => r_proc r =? p) (logged steps)).
Proof.
  intros before level steps p w. exists (wanted level (logged steps)). split; [apply C104_multiprocess|].
  unfold wanted. generalize (logged steps). intros rs. induction rs as [|r rs IH]; [reflexivity|]. cbn [filter].
  destruct (level <=? r_level r) eqn:A, (r_proc r =? p) eqn:B; cbn [filter]; rewrite ?A, ?B, IH; reflexivity.
Qed.
Print Assumptions C104_per_process.
Example two_workers : let r1 := msg 1 20 "a" in let r2 := msg 2 10 "b" in let r3 := msg 2 30 "c" in let r4 := msg 0 20 "d" in
  w_screen (session interpreter [CMulti 20 [] [BLog r1; BListen; BLog r2; BLog r3; BListen; BLog r4] true]) = [r1; r3; r4].
Proof. reflexivity. Qed.

(** If the benchmark raises, the listener goes on; once it has emptied its queue the
    same has been displayed. *)
Theorem C104_raised : forall before level early steps,
  let w := session interpreter before in
  let w' := session interpreter (before ++ [CMulti level early steps false]) in
  exists waiting, w_screen w' ++ wanted level waiting = w_screen (log_all w early) ++ wanted level (logged steps) /\
    w_screen (session w' (map (fun _ => CListen (w_next (log_all w early))) waiting)) = w_screen (log_all w early) ++ wanted level (logged steps).
Proof.
  intros before level early steps w w'. exists (w_queue w' (w_next (log_all w early))).
  assert (E : w' = do_call w (CMulti level early steps false)) by (unfold w'; rewrite session_app; reflexivity).
  destruct (multi_ok level early steps false w) as (_ & _ & _ & _ & L & E6). rewrite <- E in L, E6. split; [exact E6|]. rewrite <- E6.
  set (q := w_next (log_all w early)) in *. assert (Lq : w_listener w' q = Some level) by (rewrite L; apply put_same).
  clear E6 L E. clearbody w'. remember (w_queue w' q) as l eqn:Q. revert w' Lq Q. induction l as [|r l IH]; intros v Lq Q.
  - cbn. now rewrite app_nil_r.
  - cbn [map session fold_left do_call]. fold (session (listen q v) (map (fun _ => CListen q) l)). 
    set (v1 := listen q v). assert (V : w_listener v1 q = Some level /\ w_queue v1 q = l /\ w_screen v1 = w_screen v ++ wanted level [r]).
    { unfold v1, listen. rewrite Lq, <- Q. cbn [wanted filter]. destruct (level <=? r_level r); unfold display; cbn [w_listener w_queue w_screen]; rewrite put_same, ?app_nil_r; auto. }
    destruct V as (V1 & V2 & V3). rewrite (IH v1 V1 (eq_sym V2)), V3. rewrite <- app_assoc. f_equal. unfold wanted. cbn [filter]. destruct (level <=? r_level r); reflexivity.
Qed.
Print Assumptions C104_raised.
Example raised_meets : let r1 := msg 1 20 "a" in
  let w := session interpreter [CMulti 20 [] [BLog r1] false] in w_screen w = [] /\ w_screen (session w [CListen 0]) = [r1].
Proof. split; reflexivity. Qed.

(** ** One process *)
(** In a new interpreter, the first call's level counts for it and for every later
    call made in the main process. *)
Theorem C104_single_process_partial : forall level rs later, Forall single later ->
  w_screen (session interpreter (CSingle level rs :: later)) = wanted level (rs ++ all_logged later).
Proof.
  intros level rs later F. cbn [session fold_left do_call]. unfold start_logger. cbn [interpreter w_main lg_handlers].
  rewrite (log_all_rich level) by reflexivity. match goal with |- context [fold_left do_call later ?v] => destruct (shown_forever later level v) as [_ G]; [reflexivity|assumption|] end.
  unfold session in G. rewrite G. cbn [w_screen set_main app]. unfold wanted. now rewrite filter_app.
Qed.
Print Assumptions C104_single_process_partial.
Example single_meets : let r1 := msg 0 20 "table" in let r2 := msg 0 10 "detail" in
  w_screen (session interpreter [CSingle 20 []; CSingle 20 [r1; r2]]) = [r1].
Proof. reflexivity. Qed.

(** A call does not get the level it asks for: after a problem has been created
    (INFO), [log_level=DEBUG] shows no DEBUG message, as in the example of the user
    guide (docs/source/user.rst:414-442). *)
Theorem C104_level_refuted : ~ (forall before level rs, Forall single before ->
  w_screen (session interpreter (before ++ [CSingle level rs])) = w_screen (session interpreter before) ++ wanted level rs).
Proof. intros H. specialize (H [CSingle 20 []] 10 [msg 0 10 "detail"] ltac:(repeat constructor)). discriminate H. Qed.
Print Assumptions C104_level_refuted.
(** and a quieter call is not quieter *)
Example quieter : let r := msg 0 20 "message" in w_screen (session interpreter [CSingle 20 []; CSingle 40 [r]]) = [r].
Proof. reflexivity. Qed.

(** ** After a benchmark with several processes *)
(** Once a benchmark with several processes has returned, nothing logged by later
    calls in the main process is seen anywhere: not the tables of
    [display_metrics], not warnings, not errors of failing trials. *)
Theorem C104_lost_after_multiprocess : forall before level early steps later,
  let w := session interpreter (before ++ [CMulti level early steps true]) in
  Forall single later -> w_screen (session w later) = w_screen w /\ w_stderr (session w later) = w_stderr w /\ w_own (session w later) = w_own w.
Proof.
  intros before level early steps later w F.
  assert (L : lost_w w).
  { unfold w. rewrite session_app. cbn [session fold_left]. fold (session interpreter before). destruct (multi_ok level early steps true (session interpreter before)) as (E1 & _ & _ & _ & E5 & _).
    exists (w_next (log_all (session interpreter before) early)). split; [exact E1|]. rewrite E5. apply put_same. }
  destruct (lost_forever later w L F) as (_ & A & B & C). auto.
Qed.
Print Assumptions C104_lost_after_multiprocess.
Theorem C104_table_lost_refuted : ~ (forall before level rs, Forall plain before -> 20 <= level ->
  forall r, In r rs -> level <= r_level r -> In r (w_screen (session interpreter (before ++ [CSingle level rs])))).
Proof.
  intros H. specialize (H [CSingle 20 []; CMulti 20 [] [BLog (msg 1 20 "trial")] true] 20 [msg 0 20 "table"] ltac:(repeat constructor) (le_n 20) (msg 0 20 "table") (or_introl eq_refl) (le_n 20)).
  cbn in H. destruct H as [H|[]]. discriminate H.
Qed.
Print Assumptions C104_table_lost_refuted.
Example lost_meets : let r := msg 1 20 "trial" in let t := msg 0 20 "table" in
  w_screen (session interpreter [CSingle 20 []; CMulti 20 [] [BLog r] true; CSingle 20 [t]]) = [r].
Proof. reflexivity. Qed.
(** Only the next benchmark with several processes (or the user) brings the log
    back, and the warning that precedes its listener is lost as well. *)
Theorem C104_back_again : forall before level early steps level' early' steps',
  let w := session interpreter (before ++ [CMulti level early steps true]) in
  let w' := session w [CMulti level' early' steps' true] in
  w_screen w' = w_screen w ++ wanted level' (logged steps') /\ w_stderr w' = w_stderr w.
Proof.
  intros before level early steps level' early' steps' w w'.
  assert (M : exists q, w_main w = queue_logger q).
  { unfold w. rewrite session_app. cbn [session fold_left]. fold (session interpreter before). destruct (multi_ok level early steps true (session interpreter before)) as (E1 & _). eauto. }
  destruct M as [q M]. destruct (log_all_queue q early' w M) as (_ & _ & _ & E4 & E5 & _).
  destruct (multi_ok level' early' steps' true w) as (_ & _ & F3 & _ & _ & F6). unfold w'. cbn [session fold_left]. rewrite F6, F3, E4, E5. auto.
Qed.
Print Assumptions C104_back_again.
Example back_meets : let r := msg 1 20 "trial" in let t := msg 0 20 "table" in let u := msg 0 30 "use one process" in
  w_screen (session interpreter [CMulti 20 [] [BLog r] true; CSingle 20 [t]; CMulti 20 [u] [BLog r] true]) = [r; r].
Proof. reflexivity. Qed.

(** ** The user's own configuration *)
(** A root logger the user has configured (with handlers) is left as it is: calls in
    the main process give its handlers what the user's levels let through, and
    display nothing themselves. *)
Theorem C104_own_handlers : forall l h before cs, Forall single cs ->
  let w := session interpreter (before ++ [CConfigure (mkLog [Own h] l)]) in
  w_screen (session w cs) = w_screen w /\ w_own (session w cs) = w_own w ++ wanted (Nat.max l h) (all_logged cs).
Proof.
  intros l h before cs F w. assert (M : w_main w = mkLog [Own h] l) by (unfold w; rewrite session_app; reflexivity). clearbody w. revert w M.
  induction cs as [|c cs IH]; intros w M; [cbn; rewrite app_nil_r; auto|]. inversion F as [|? ? S F']; subst. destruct c as [level rs| | |]; try contradiction.
  cbn [session fold_left do_call]. assert (SL : start_logger level w = w) by (unfold start_logger; rewrite M; reflexivity). rewrite SL.
  assert (G : w_main (log_all w rs) = mkLog [Own h] l /\ w_screen (log_all w rs) = w_screen w /\ w_own (log_all w rs) = w_own w ++ wanted (Nat.max l h) rs).
  { unfold log_all. rewrite M. clear - M. assert (G : forall rs v, let v' := fold_left (log (mkLog [Own h] l)) rs v in w_main v' = w_main v /\ w_screen v' = w_screen v /\ w_own v' = w_own v ++ wanted (Nat.max l h) rs).
    { induction rs0 as [|r rs0 IH]; intros v; cbv zeta; [cbn; rewrite app_nil_r; auto|]. cbn [fold_left]. destruct (IH (log (mkLog [Own h] l) v r)) as (A & B & C). rewrite A, B, C.
      unfold log. cbn [lg_level lg_handlers fold_left emit]. unfold wanted. cbn [filter].
      destruct (Nat.leb_spec l (r_level r)), (Nat.leb_spec h (r_level r)), (Nat.leb_spec (Nat.max l h) (r_level r)); try lia; cbn [w_main w_screen w_own]; rewrite <- ?app_assoc; auto. }
    destruct (G rs w) as (A & B & C). rewrite A, B, C. auto. }
  destruct G as (G1 & G2 & G3). destruct (IH F' (log_all w rs) G1) as [H1 H2]. fold (session (log_all w rs) cs). rewrite H1, H2, G2, G3. split; [reflexivity|].
  cbn [all_logged flat_map]. unfold wanted. now rewrite filter_app, <- app_assoc.
Qed.
Print Assumptions C104_own_handlers.
Example own_meets : let r := msg 0 20 "a" in let s := msg 0 10 "b" in
  w_own (session interpreter [CConfigure (mkLog [Own 0] 20); CSingle 10 [s; r]]) = [r].
Proof. reflexivity. Qed.
