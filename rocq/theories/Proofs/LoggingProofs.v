(** Proofs for C104. *)
From Coq Require Import List Arith Bool Lia String.
From Verif.Model Require Import Logging.
From Verif.Spec Require Import LoggingSpec.
Import ListNotations.
Local Arguments Nat.leb : simpl never.

Lemma put_same {A} : forall (f : nat -> A) i a, put f i a i = a.
Proof. intros. unfold put. now rewrite Nat.eqb_refl. Qed.
Lemma put_other {A} : forall (f : nat -> A) i a j, j <> i -> put f i a j = f j.
Proof. intros f i a j H. unfold put. apply Nat.eqb_neq in H. now rewrite H. Qed.

(** the three situations of the main process *)
Definition fresh_w (w : world) : Prop := lg_handlers (w_main w) = [] /\ lg_level (w_main w) = 30.
Definition shown_w (l : nat) (w : world) : Prop := w_main w = mkLog [Rich 0] l.
Definition lost_w (w : world) : Prop := exists q, w_main w = queue_logger q /\ w_listener w q = None.
(** queues not handed out yet have no listener; no listener runs *)
Definition quiet (w : world) : Prop := forall q, w_listener w q = None.

Lemma log_all_rich : forall l rs w, w_main w = mkLog [Rich 0] l -> log_all w rs = mkW (w_main w) (w_queue w) (w_listener w) (w_next w) (w_screen w ++ wanted l rs) (w_stderr w) (w_own w).
Proof.
  intros l rs w H. unfold log_all. rewrite H at 1. clear H. revert w. induction rs as [|r rs IH]; intros w; cbn [fold_left].
  - unfold wanted. cbn [filter]. rewrite app_nil_r. now destruct w.
  - rewrite IH. unfold log, wanted. cbn [lg_level lg_handlers filter]. destruct (l <=? r_level r); [|reflexivity].
    cbn [fold_left emit]. change (0 <=? r_level r) with true. cbn iota. unfold display. cbn [w_main w_queue w_listener w_next w_screen w_stderr w_own]. now rewrite <- app_assoc.
Qed.
Lemma log_all_queue : forall q rs w, w_main w = queue_logger q ->
  w_main (log_all w rs) = queue_logger q /\ w_listener (log_all w rs) = w_listener w /\ w_next (log_all w rs) = w_next w /\
  w_screen (log_all w rs) = w_screen w /\ w_stderr (log_all w rs) = w_stderr w /\ w_own (log_all w rs) = w_own w /\
  w_queue (log_all w rs) q = w_queue w q ++ rs.
Proof.
  intros q rs w H. unfold log_all. rewrite H.
  assert (G : forall rs w, let w' := fold_left (log (queue_logger q)) rs w in w_main w' = w_main w /\ w_listener w' = w_listener w /\ w_next w' = w_next w /\
    w_screen w' = w_screen w /\ w_stderr w' = w_stderr w /\ w_own w' = w_own w /\ w_queue w' q = w_queue w q ++ rs).
  { clear. induction rs as [|r rs IH]; intros w; cbn [fold_left]; [cbv zeta; rewrite app_nil_r; tauto|].
    specialize (IH (log (queue_logger q) w r)). cbv zeta in *. destruct IH as (E1 & E2 & E3 & E4 & E5 & E6 & E7).
    rewrite E1, E2, E3, E4, E5, E6, E7. unfold log. change (lg_level (queue_logger q) <=? r_level r) with true. cbn. rewrite put_same, <- app_assoc. tauto. }
  specialize (G rs w). cbv zeta in G. rewrite H in G. exact G.
Qed.
Lemma log_all_none : forall rs w, lg_handlers (w_main w) = [] -> 
  w_main (log_all w rs) = w_main w /\ w_listener (log_all w rs) = w_listener w /\ w_next (log_all w rs) = w_next w /\ w_screen (log_all w rs) = w_screen w /\ w_queue (log_all w rs) = w_queue w /\
  w_own (log_all w rs) = w_own w.
Proof.
  intros rs w H. unfold log_all.
  assert (G : forall lg rs v, lg_handlers lg = [] -> let w' := fold_left (log lg) rs v in
    w_main w' = w_main v /\ w_listener w' = w_listener v /\ w_next w' = w_next v /\ w_screen w' = w_screen v /\ w_queue w' = w_queue v /\ w_own w' = w_own v).
  { clear. intros lg rs v H. cbv zeta. revert v. induction rs as [|r rs IH]; intros v; cbn [fold_left]; [tauto|].
    destruct (IH (log lg v r)) as (E1 & E2 & E3 & E4 & E5 & E6). rewrite E1, E2, E3, E4, E5, E6. unfold log. rewrite H.
    destruct (_ <=? _); [destruct (_ <=? _)|]; cbn; tauto. }
  exact (G _ rs w H).
Qed.

Lemma do_step_ok : forall q l steps w, w_listener w q = Some l ->
  let w' := fold_left (do_step q) steps w in
  w_main w' = w_main w /\ w_next w' = w_next w /\ w_listener w' = w_listener w /\ w_stderr w' = w_stderr w /\ w_own w' = w_own w /\
  (forall p, p <> q -> w_queue w' p = w_queue w p) /\
  w_screen w' ++ wanted l (w_queue w' q) = w_screen w ++ wanted l (w_queue w q ++ logged steps).
Proof.
  intros q l steps. induction steps as [|s steps IH]; intros w H; cbn [fold_left]; cbv zeta.
  - cbn [logged flat_map]. rewrite app_nil_r. tauto.
  - assert (E : let w1 := do_step q w s in w_main w1 = w_main w /\ w_next w1 = w_next w /\ w_listener w1 = w_listener w /\ w_stderr w1 = w_stderr w /\ w_own w1 = w_own w /\
      (forall p, p <> q -> w_queue w1 p = w_queue w p) /\
      w_screen w1 ++ wanted l (w_queue w1 q) = w_screen w ++ wanted l (w_queue w q ++ logged [s])).
    { destruct s as [r|]; cbn [do_step].
      - unfold log. change (lg_level (queue_logger q) <=? r_level r) with true. cbn. rewrite put_same. repeat split; try reflexivity. intros p Hp. now apply put_other.
      - unfold listen. rewrite H. destruct (w_queue w q) as [|r rest] eqn:Q; cbv zeta.
        + rewrite Q. cbn. tauto.
        + cbn [logged flat_map]. unfold wanted. cbn [filter app]. rewrite app_nil_r. destruct (l <=? r_level r); unfold display; cbn [w_main w_next w_listener w_stderr w_own w_queue w_screen]; rewrite put_same; repeat split; try reflexivity; try (intros p Hp; now apply put_other).
          now rewrite <- app_assoc. }
    cbv zeta in E. destruct E as (E1 & E2 & E3 & E4 & E5 & E6 & E7).
    assert (H1 : w_listener (do_step q w s) q = Some l) by (rewrite E3; exact H).
    specialize (IH _ H1). cbv zeta in IH. destruct IH as (F1 & F2 & F3 & F4 & F5 & F6 & F7).
    rewrite F1, F2, F3, F4, F5. repeat split; try congruence.
    + intros p Hp. rewrite F6, E6; auto.
    + rewrite F7. unfold wanted in *. rewrite filter_app. rewrite app_assoc. rewrite E7. rewrite !filter_app, <- !app_assoc. f_equal. f_equal.
      change (logged (s :: steps)) with ((match s with BLog r => [r] | BListen => [] end) ++ logged steps). rewrite filter_app. unfold logged at 1. cbn [flat_map]. now rewrite app_nil_r.
Qed.

(** a benchmark with several processes *)
Lemma multi_ok : forall level early steps returned w,
  let w0 := log_all w early in let w' := do_call w (CMulti level early steps returned) in
  w_main w' = queue_logger (w_next w0) /\ w_next w' = S (w_next w0) /\ w_stderr w' = w_stderr w0 /\ w_own w' = w_own w0 /\
  w_listener w' = (if returned then put (put (w_listener w0) (w_next w0) (Some level)) (w_next w0) None else put (w_listener w0) (w_next w0) (Some level)) /\
  (if returned then w_screen w' = w_screen w0 ++ wanted level (logged steps)
   else w_screen w' ++ wanted level (w_queue w' (w_next w0)) = w_screen w0 ++ wanted level (logged steps)).
Proof.
  intros level early steps returned w. cbv zeta. set (w0 := log_all w early). cbn [do_call]. fold w0. set (q := w_next w0).
  set (w1 := start_log_listener level w0).
  assert (H : w_listener w1 q = Some level) by (unfold w1, start_log_listener; fold q; cbn; apply put_same).
  destruct (do_step_ok q level steps w1 H) as (E1 & E2 & E3 & E4 & E5 & E6 & E7).
  assert (Q : w_queue w1 q = []) by (unfold w1, start_log_listener; fold q; cbn; apply put_same). rewrite Q in E7. cbn [app] in E7.
  destruct returned.
  - unfold stop. rewrite E3, H. cbn [w_main w_next w_stderr w_own w_listener w_screen]. rewrite E1, E2, E4, E5. repeat split; try reflexivity. exact E7.
  - rewrite E1, E2, E3, E4, E5. repeat split; try reflexivity. exact E7.
Qed.

Lemma quiet_call : forall c w, plain c -> quiet w -> quiet (do_call w c).
Proof.
  intros [level rs|level early steps returned|q|lg] w P Q; cbn [plain] in P.
  - cbn [do_call]. assert (E : w_listener (log_all (start_logger level w) rs) = w_listener w).
    { assert (A : w_listener (start_logger level w) = w_listener w) by (unfold start_logger; destruct (lg_handlers (w_main w)); reflexivity).
      rewrite <- A. generalize (start_logger level w). intros v. unfold log_all. generalize (w_main v). intros lg. revert v. induction rs as [|r rs IH]; intros v; [reflexivity|].
      cbn [fold_left]. rewrite IH. unfold log. destruct (_ <=? _); [|reflexivity].
      destruct (lg_handlers lg) as [|h hs]; [destruct (_ <=? _); reflexivity|]. generalize (h :: hs). intros l. revert v. induction l as [|x l IHl]; intros v; [reflexivity|].
      cbn [fold_left]. rewrite IHl. destruct x; cbn; try destruct (_ <=? _); reflexivity. }
    intros q. rewrite E. apply Q.
  - subst returned. destruct (multi_ok level early steps true w) as (_ & _ & _ & _ & E & _). intros q. rewrite E.
    destruct (Nat.eq_dec q (w_next (log_all w early))) as [-> |N]; [apply put_same|]. rewrite !put_other by assumption.
    assert (A : w_listener (log_all w early) = w_listener w).
    { unfold log_all. generalize (w_main w). intros lg. clear. revert w. induction early as [|r rs IH]; intros v; [reflexivity|].
      cbn [fold_left]. rewrite IH. unfold log. destruct (_ <=? _); [|reflexivity].
      destruct (lg_handlers lg) as [|h hs]; [destruct (_ <=? _); reflexivity|]. generalize (h :: hs). intros l. revert v. induction l as [|x l IHl]; intros v; [reflexivity|].
      cbn [fold_left]. rewrite IHl. destruct x; cbn; try destruct (_ <=? _); reflexivity. }
    rewrite A. apply Q.
  - cbn [do_call]. unfold listen. rewrite Q. exact Q.
  - contradiction.
Qed.
Lemma quiet_session : forall cs w, Forall plain cs -> quiet w -> quiet (session w cs).
Proof. induction cs as [|c cs IH]; intros w F Q; [exact Q|]. inversion F; subst. cbn. apply IH; auto. now apply quiet_call. Qed.
Lemma session_app : forall a b w, session w (a ++ b) = session (session w a) b.
Proof. intros. unfold session. apply fold_left_app. Qed.

(** every plain session is in one of the three situations *)
Lemma situations : forall cs, Forall plain cs -> let w := session interpreter cs in fresh_w w \/ (exists l, shown_w l w) \/ lost_w w.
Proof.
  intros cs. induction cs as [|c cs IH] using rev_ind; intros F; cbv zeta; [left; split; reflexivity|].
  apply Forall_app in F. destruct F as [F1 F2]. inversion F2 as [|? ? P _]; subst. rewrite session_app. specialize (IH F1). cbv zeta in IH.
  assert (Q : quiet (session interpreter cs)) by (apply quiet_session; [assumption|intros q; reflexivity]).
  set (w := session interpreter cs) in *. cbn [session fold_left].
  destruct c as [level rs|level early steps returned|q|lg]; cbn [plain] in P.
  - cbn [do_call]. destruct IH as [[H1 H2]|[[l H]|[q [H1 H2]]]].
    + right; left. exists level. unfold shown_w. unfold start_logger. rewrite H1. rewrite (log_all_rich level) by reflexivity. reflexivity.
    + right; left. exists l. unfold shown_w in *. unfold start_logger. rewrite H. cbn [lg_handlers]. rewrite (log_all_rich l) by assumption. exact H.
    + right; right. exists q. unfold start_logger. rewrite H1. cbn [lg_handlers queue_logger]. destruct (log_all_queue q rs w H1) as (E1 & E2 & _). rewrite E2. tauto.
  - subst returned. right; right. destruct (multi_ok level early steps true w) as (E1 & _ & _ & _ & E5 & _). exists (w_next (log_all w early)). split; [exact E1|]. rewrite E5. apply put_same.
  - cbn [do_call]. unfold listen. rewrite Q. exact IH.
  - contradiction.
Qed.

Lemma lost_forever : forall cs w, lost_w w -> Forall single cs ->
  lost_w (session w cs) /\ w_screen (session w cs) = w_screen w /\ w_stderr (session w cs) = w_stderr w /\ w_own (session w cs) = w_own w.
Proof.
  induction cs as [|c cs IH]; intros w H F; [auto|]. inversion F as [|? ? S F']; subst. destruct c as [level rs| | |]; try contradiction.
  destruct H as [q [H1 H2]]. cbn [session fold_left do_call].
  assert (SL : start_logger level w = w) by (unfold start_logger; rewrite H1; reflexivity).
  destruct (log_all_queue q rs w H1) as (E1 & E2 & E3 & E4 & E5 & E6 & _).
  destruct (IH (log_all (start_logger level w) rs)) as (G1 & G2 & G3 & G4); auto; [exists q; rewrite SL, E2; auto|].
  fold (session (log_all (start_logger level w) rs) cs). rewrite G2, G3, G4. rewrite SL in *. auto.
Qed.
Lemma shown_forever : forall cs l w, shown_w l w -> Forall single cs ->
  shown_w l (session w cs) /\ w_screen (session w cs) = w_screen w ++ wanted l (all_logged cs).
Proof.
  induction cs as [|c cs IH]; intros l w H F; [cbn; rewrite app_nil_r; auto|]. inversion F as [|? ? S F']; subst. destruct c as [level rs| | |]; try contradiction.
  cbn [session fold_left do_call]. assert (SL : start_logger level w = w) by (unfold start_logger; rewrite H; reflexivity). rewrite SL, (log_all_rich l) by assumption.
  match goal with |- context [fold_left do_call cs ?v] => destruct (IH l v) as [G1 G2]; [exact H|assumption|] end. fold (session (mkW (w_main w) (w_queue w) (w_listener w) (w_next w) (w_screen w ++ wanted l rs) (w_stderr w) (w_own w)) cs).
  split; [exact G1|]. rewrite G2. cbn [w_screen all_logged flat_map]. unfold wanted. rewrite filter_app, <- app_assoc. reflexivity.
Qed.
