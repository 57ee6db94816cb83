(** C69: prediction metrics; C70: which metrics are computed. *)
From Coq Require Import List Bool Arith ZArith Reals String Lia Lra Permutation.
From Verif.Model Require Import Vec Costs EmpiricalRisk PyDict History Messages Network Counting Metrics Predict.
From Verif.Spec Require Import HistorySpec MetricsSpec PredictSpec.
From Verif.Proofs Require Import EmpiricalProofs MetricsProofs PredictProofs.
From Verif.Props Require Import MetricsProps.
Import ListNotations.
Local Open Scope R_scope.

Lemma frac_range k m : (k <= m)%nat -> (0 < m)%nat -> 0 <= INR k / INR m <= 1 /\ (INR k / INR m = 1 <-> k = m).
Proof.
  intros L P. assert (Pm : 0 < INR m) by (apply lt_0_INR; lia). assert (Lk := le_INR _ _ L). assert (Z := pos_INR k).
  split; [split|].
  - apply Rmult_le_pos; [auto|]. left. now apply Rinv_0_lt_compat.
  - apply (Rmult_le_reg_r (INR m)); auto. unfold Rdiv. rewrite Rmult_assoc, Rinv_l by lra. lra.
  - split; [intro E; apply INR_eq; apply (f_equal (fun z => z * INR m)) in E; unfold Rdiv in E; rewrite Rmult_assoc, Rinv_l in E by lra; lra|].
    intros ->. unfold Rdiv. apply Rinv_r. lra.
Qed.

Section Scores.
  Context {F : Type}.
  Variables (pred : agent_id -> predictor F) (p : problem F) (d : tdata F) (nv : nview) (it : Z).
  Let y := map snd (td_rows d).
  Let xs := map fst (td_rows d).
  Lemma scored_eq id score : pb_test p = Some d -> m_compute (scored pred id p score) nv it = per_agent pred score (nv_agents nv) d it.
  Proof. intro T. cbn [scored m_compute]. unfold on_test. now rewrite T. Qed.
  Lemma per_agent_finite score ps rs : td_rows d <> [] -> (0 <= it)%Z -> Forall recorded (nv_agents nv) ->
    Forall2 (predicts pred xs it) (nv_agents nv) (map (map Fin) ps) -> Forall2 (fun q r => score y q = Ok r) ps rs ->
    per_agent pred score (nv_agents nv) d it = Ok (map Fin rs).
  Proof.
    intros NE P R H S. unfold per_agent. rewrite (split_ok d NE). cbn [rbind snd].
    apply (loop_finite pred d it NE P score (nv_agents nv) (nv_agents nv) ps [] rs R H S).
  Qed.
End Scores.
Lemma F2_choose {A B} (P : A -> B -> Prop) (l : list A) : (forall a, In a l -> exists b, P a b) -> exists bs, Forall2 P l bs.
Proof.
  induction l as [|a l IH]; intro H; [exists []; constructor|]. destruct (H a (or_introl eq_refl)) as (b & Pb).
  destruct IH as (bs & Pbs); [intros; apply H; right; auto|]. exists (b :: bs). constructor; auto.
Qed.
Lemma y_len {F} (d : tdata F) : List.length (map snd (td_rows d)) = List.length (td_rows d).
Proof. apply map_length. Qed.
Lemma rows_pos {F} (d : tdata F) : td_rows d <> [] -> (0 < List.length (td_rows d))%nat.
Proof. destruct (td_rows d); [congruence|cbn; lia]. Qed.
Lemma y_ne {F} (d : tdata F) : td_rows d <> [] -> map snd (td_rows d) <> [].
Proof. destruct (td_rows d); [congruence|discriminate]. Qed.

(** Accuracy: agent by agent the proportion of test samples whose prediction,
    made from the agent's state at that iteration, equals the target.  It lies
    in [0, 1] and is 1 exactly if every prediction is correct. *)
Theorem C69_accuracy {F} (pred : agent_id -> predictor F) (p : problem F) d nv it id ps :
  pb_test p = Some d -> td_rows d <> [] -> (0 <= it)%Z -> Forall recorded (nv_agents nv) ->
  Forall2 (predicts pred (map fst (td_rows d)) it) (nv_agents nv) (map (map Fin) ps) ->
  Forall whole (map snd (td_rows d)) ->
  (forall q, In q ps -> Forall whole q /\ List.length q = List.length (td_rows d)) ->
  exists rs, m_compute (d_metric (Accuracy pred id p)) nv it = Ok (map Fin rs) /\
    Forall2 (fun q r => accuracy_is (map snd (td_rows d)) q r /\ 0 <= r <= 1 /\ (r = 1 <-> q = map snd (td_rows d))) ps rs.
Proof.
  intros T NE P R H W Q.
  destruct (F2_choose (fun q r => accuracy_score (map snd (td_rows d)) q = Ok r) ps) as (rs & S).
  { intros q I. destruct (Q q I) as (Wq & Lq). eexists. apply accuracy_ok. rewrite y_len. repeat split; auto. eexists. split; [apply matches_count; rewrite y_len; auto|reflexivity]. }
  exists rs. split.
  - cbn [Accuracy d_metric]. rewrite (scored_eq pred p d nv it id _ T). now apply (per_agent_finite pred d nv it _ ps rs).
  - clear H. induction S as [|q r ps rs E S IH]; constructor; [|apply IH; intros; apply Q; right; auto].
    apply accuracy_ok in E. destruct E as (L & _ & _ & A). split; auto. destruct A as (k & M & ->).
    assert (K := matches_le _ _ _ M). rewrite y_len in *. destruct (frac_range k (List.length (td_rows d)) K (rows_pos d NE)) as (B & C).
    split; auto. rewrite C. rewrite <- (matches_all _ _ _ M). now rewrite y_len.
Qed.

(** Precision and recall are computed with micro averaging: on single-label
    data both are always the accuracy -- also when they are NaN or raise. *)
Theorem C69_precision_and_recall_are_accuracy {F} (pred : agent_id -> predictor F) (p : problem F) nv it i j k :
  m_compute (d_metric (Precision pred i p)) nv it = m_compute (d_metric (Accuracy pred j p)) nv it /\
  m_compute (d_metric (Recall pred k p)) nv it = m_compute (d_metric (Accuracy pred j p)) nv it.
Proof.
  cbn [Precision Recall Accuracy d_metric scored m_compute]. unfold on_test. destruct (pb_test p) as [d|]; [|auto]. unfold per_agent.
  destruct (td_rows d) eqn:E; [unfold split_dataset; rewrite E; auto|].
  assert (NE : td_rows d <> []) by (rewrite E; discriminate). rewrite (split_ok d NE). cbn [rbind snd].
  assert (X : forall s, (forall q, s (map snd (td_rows d)) q = accuracy_score (map snd (td_rows d)) q) -> forall all l ret,
     score_loop pred s (map snd (td_rows d)) all d it l ret = score_loop pred accuracy_score (map snd (td_rows d)) all d it l ret).
  { intros s Hs all l'. induction l' as [|a l' IH]; intro ret; cbn [score_loop]; auto. destruct (predict_agent pred a it d) as [q| |]; cbn [rbind]; auto.
    destruct (all_finite q) as [q'|]; auto. rewrite Hs. destruct (accuracy_score _ q'); cbn [rbind]; auto. }
  split; apply X; intro q; [apply micro_precision|apply micro_recall]; now apply y_ne.
Qed.

(** MSE: agent by agent the mean of the squared differences; never negative,
    and 0 exactly if the predictions are the targets. *)
Theorem C69_mse {F} (pred : agent_id -> predictor F) (p : problem F) d nv it id ps :
  pb_test p = Some d -> td_rows d <> [] -> (0 <= it)%Z -> Forall recorded (nv_agents nv) ->
  Forall2 (predicts pred (map fst (td_rows d)) it) (nv_agents nv) (map (map Fin) ps) ->
  (forall q, In q ps -> List.length q = List.length (td_rows d)) ->
  exists rs, m_compute (d_metric (MSE pred id p)) nv it = Ok (map Fin rs) /\
    Forall2 (fun q r => mse_is (map snd (td_rows d)) q r /\ 0 <= r /\ (r = 0 <-> q = map snd (td_rows d))) ps rs.
Proof.
  intros T NE P R H Q.
  destruct (F2_choose (fun q r => mean_squared_error (map snd (td_rows d)) q = Ok r) ps) as (rs & S).
  { intros q I. eexists. apply mse_ok. rewrite y_len. split; [symmetry; now apply Q|]. eexists. split; [apply square_sum_eq; rewrite y_len; symmetry; now apply Q|reflexivity]. }
  exists rs. split.
  - cbn [MSE d_metric]. rewrite (scored_eq pred p d nv it id _ T). now apply (per_agent_finite pred d nv it _ ps rs).
  - clear H. induction S as [|q r ps rs E S IH]; constructor; [|apply IH; intros; apply Q; right; auto].
    apply mse_ok in E. destruct E as (L & s & M & ->). split; [exists s; auto|].
    destruct (square_sum_pos _ _ _ M) as (B & C). rewrite y_len. assert (PP := rows_pos d NE). assert (I : 0 < INR (List.length (td_rows d))) by (apply lt_0_INR; lia).
    split; [apply Rmult_le_pos; [auto|left; now apply Rinv_0_lt_compat]|]. rewrite <- C. split; [|intros ->; unfold Rdiv; ring].
    intro Z. apply (f_equal (fun z => z * INR (List.length (td_rows d)))) in Z. unfold Rdiv in Z. rewrite Rmult_assoc, Rinv_l in Z by lra. lra.
Qed.

(** the four per-agent metrics *)
Definition four {F} pred (p : problem F) : list (described F) := [Accuracy pred 0 p; MSE pred 0 p; Precision pred 0 p; Recall pred 0 p].
Lemma four_scored {F} pred (p : problem F) m : In m (four pred p) -> exists score, d_metric m = scored pred 0 p score /\
  forall d q, td_rows d <> [] -> Forall whole (map snd (td_rows d)) -> Forall whole q -> List.length q = List.length (td_rows d) ->
    exists r, score (map (@snd F R) (td_rows d)) q = Ok r.
Proof.
  assert (A : forall d q, td_rows d <> [] -> Forall whole (map snd (td_rows d)) -> Forall whole q -> List.length q = List.length (td_rows d) ->
    exists r, accuracy_score (map (@snd F R) (td_rows d)) q = Ok r).
  { intros d q NE W Wq Lq. eexists. apply accuracy_ok. rewrite y_len. repeat split; auto. eexists. split; [apply matches_count; rewrite y_len; auto|reflexivity]. }
  intros [<-|[<-|[<-|[<-|[]]]]]; eexists; (split; [reflexivity|]); intros d q NE W Wq Lq.
  - apply A; auto.
  - eexists. apply mse_ok. rewrite y_len. split; [auto|]. eexists. split; [apply square_sum_eq; rewrite y_len; auto|reflexivity].
  - rewrite micro_precision by now apply y_ne. apply A; auto.
  - rewrite micro_recall by now apply y_ne. apply A; auto.
Qed.

(** One agent with a prediction that is not finite makes the metric NaN for
    every agent; without one no agent's value is NaN. *)
Theorem C69_diverged {F} (pred : agent_id -> predictor F) (p : problem F) d nv it m :
  In m (four pred p) -> pb_test p = Some d -> td_rows d <> [] -> (0 <= it)%Z -> Forall recorded (nv_agents nv) ->
  (forall vals, m_compute (d_metric m) nv it = Ok vals -> In NaN vals ->
     exists a q, In a (nv_agents nv) /\ predicts pred (map fst (td_rows d)) it a q /\ broken q) /\
  (forall qs, Forall2 (predicts pred (map fst (td_rows d)) it) (nv_agents nv) qs -> (exists q, In q qs /\ broken q) ->
     Forall whole (map snd (td_rows d)) -> (forall q, In (map Fin q) qs -> Forall whole q /\ List.length q = List.length (td_rows d)) ->
     m_compute (d_metric m) nv it = Ok (map (fun _ => NaN) (nv_agents nv))).
Proof.
  intros I T NE P R. destruct (four_scored pred p m I) as (score & -> & S). rewrite (scored_eq pred p d nv it 0 _ T).
  unfold per_agent. rewrite (split_ok d NE). cbn [rbind snd]. split.
  - intros vals E N. apply (loop_inv pred d it NE P) in E; auto. destruct E as [(ps & rs & _ & _ & ->)|(a & q & Ia & Q & B & _)]; [|eauto].
    cbn [app] in N. apply in_map_iff in N. destruct N as (r & E & _). discriminate.
  - intros qs H B W Q. apply (loop_broken pred d it NE P) with (qs := qs); auto. intros q Iq. destruct (Q q Iq). now apply S.
Qed.

(** An available metric can be computed, provided the costs predict labels
    (or values that are not finite): one value per agent. *)
Theorem C69_available_computes {F} (pred : agent_id -> predictor F) (p : problem F) d nv it m :
  In m (four pred p) -> d_available m p = Ok true -> pb_test p = Some d -> td_rows d <> [] -> Forall whole (map snd (td_rows d)) ->
  (forall a, In a (nv_agents nv) -> In (v_id a) (pb_agents p) /\ exists x, state_at it a x) -> (0 <= it)%Z ->
  (forall i f x, pred i = Some f -> let q := f x (map fst (td_rows d)) in
     broken q \/ exists c, q = map Fin c /\ Forall whole c /\ List.length c = List.length (td_rows d)) ->
  exists vals, m_compute (d_metric m) nv it = Ok vals /\ List.length vals = List.length (nv_agents nv).
Proof.
  intros I A T NE W V P C. destruct (four_scored pred p m I) as (score & -> & S). rewrite (scored_eq pred p d nv it 0 _ T).
  assert (EM : empirical pred p = true).
  { clear S. destruct I as [<-|[<-|[<-|[<-|[]]]]]; cbn [d_available Accuracy MSE Precision Recall] in A; unfold labels_available, mse_available in A; rewrite T in A;
      destruct (empirical pred p); auto; discriminate. }
  unfold empirical in EM. rewrite forallb_forall in EM.
  assert (R : Forall recorded (nv_agents nv)). { apply Forall_forall. intros a Ia. destruct (V a Ia) as (_ & x & log & k & E & _). exists log. auto. }
  unfold per_agent. rewrite (split_ok d NE). cbn [rbind snd].
  enough (X : forall all l ret, Forall recorded l -> (forall a, In a l -> In (v_id a) (pb_agents p) /\ exists x, state_at it a x) ->
    (List.length ret + List.length l = List.length all)%nat ->
    exists vals, score_loop pred score (map snd (td_rows d)) all d it l ret = Ok vals /\ List.length vals = List.length all) by (apply X; auto).
  intros all l. induction l as [|a l IH]; intros ret Rl Vl L; cbn [score_loop].
  - exists ret. split; auto. cbn [List.length] in L. lia.
  - inversion Rl; subst. destruct (Vl a (or_introl eq_refl)) as (Ia & x & Sx). specialize (EM _ Ia). destruct (pred (v_id a)) as [f|] eqn:Pf; [|discriminate].
    assert (Q : predict_agent pred a it d = Ok (f x (map fst (td_rows d)))) by (apply (predict_ok pred d it NE P); auto; exists x, f; auto).
    rewrite Q. cbn [rbind]. destruct (C _ f x Pf) as [B|(c & E & Wc & Lc)].
    + apply all_finite_none in B. rewrite B. eexists. split; [reflexivity|]. now rewrite map_length.
    + rewrite E. rewrite (proj2 (all_finite_some (map Fin c) c) eq_refl). destruct (S d c NE W Wc Lc) as (r & ->). cbn [rbind].
      apply IH; auto. { intros; apply Vl; right; auto. } rewrite app_length. cbn [List.length] in *. lia.
Qed.

(** The server metrics: the predictions of the first client's cost at the
    server's state. *)
Theorem C69_server {F} (pred : agent_id -> predictor F) (p : problem F) d nv it id s x a l f q :
  pb_test p = Some d -> td_rows d <> [] -> (0 <= it)%Z -> nv_server_view nv = Ok s -> recorded s -> state_at it s x ->
  nv_agents nv = a :: l -> pred (v_id a) = Some f -> f x (map fst (td_rows d)) = map Fin q -> List.length q = List.length (td_rows d) ->
  (exists r, m_compute (d_metric (ServerMSE pred id p)) nv it = Ok [Fin r] /\ mse_is (map snd (td_rows d)) q r) /\
  (Forall whole (map snd (td_rows d)) -> Forall whole q ->
   exists r, m_compute (d_metric (ServerAccuracy pred id p)) nv it = Ok [Fin r] /\ accuracy_is (map snd (td_rows d)) q r).
Proof.
  intros T NE P Sv R Sx A Pf Q L. cbn [ServerMSE ServerAccuracy d_metric server_scored m_compute]. unfold on_test. rewrite T.
  assert (X : forall score r, score (map snd (td_rows d)) q = Ok r -> server_score pred score nv d it = Ok [Fin r]).
  { intros score r E. unfold server_score, server_metric_cost. rewrite A. cbn [rbind]. rewrite Sv. cbn [rbind].
    rewrite (proj2 (state_at_get it s x P R) Sx). cbn [rbind]. unfold at_x, predict_at. rewrite Pf, (split_ok d NE). cbn [rbind fst snd].
    rewrite Q, (proj2 (all_finite_some (map Fin q) q) eq_refl), E. reflexivity. }
  split.
  - destruct (mean_squared_error (map snd (td_rows d)) q) as [r| |] eqn:E.
    + exists r. split; [now apply X|]. now apply mse_ok in E.
    + exfalso. unfold mean_squared_error, sk_values in E. rewrite y_len, L, Nat.eqb_refl in E. discriminate.
    + exfalso. unfold mean_squared_error, sk_values in E. rewrite y_len, L, Nat.eqb_refl in E. discriminate.
  - intros Wy Wq. eexists. split; [apply X, accuracy_ok|]; [rewrite y_len; repeat split; auto|]; eexists; (split; [apply matches_count; now rewrite y_len|reflexivity]).
Qed.

(** ** The order of the test samples does not matter *)
Definition fin (v : fval) : R := match v with Fin r => r | _ => 0 end.
Definition finb (v : fval) : bool := match v with Fin _ => true | _ => false end.
Lemma all_finite_map {A} (g : A -> fval) l : all_finite (map g l) = if forallb (fun a => finb (g a)) l then Some (map (fun a => fin (g a)) l) else None.
Proof.
  induction l as [|a l IH]; cbn [map all_finite forallb]; auto. destruct (g a); cbn [finb andb fin]; auto. rewrite IH. destruct (forallb _ l); auto.
Qed.
Lemma forallb_perm {A} (g : A -> bool) l l' : Permutation l l' -> forallb g l = forallb g l'.
Proof. intro H. destruct (forallb g l) eqn:E, (forallb g l') eqn:E'; auto; rewrite forallb_forall in *.
  - assert (X : forallb g l' = true) by (apply forallb_forall; intros x I; apply E; eapply Permutation_in; [symmetry; exact H|auto]). congruence.
  - assert (X : forallb g l = true) by (apply forallb_forall; intros x I; apply E'; eapply Permutation_in; [exact H|auto]). congruence.
Qed.
Lemma combine_map {A} (g h : A -> R) l : combine (map g l) (map h l) = map (fun a => (g a, h a)) l.
Proof. induction l; cbn; congruence. Qed.
Lemma filter_perm {A} (g : A -> bool) l l' : Permutation l l' -> Permutation (filter g l) (filter g l').
Proof.
  induction 1; cbn [filter]; auto.
  - destruct (g x); auto.
  - destruct (g x), (g y); auto using perm_swap.
  - etransitivity; eauto.
Qed.
Lemma forallb_map' {A B} (g : B -> bool) (f : A -> B) l : forallb g (map f l) = forallb (fun a => g (f a)) l.
Proof. induction l; cbn; congruence. Qed.
Lemma accuracy_perm {A} (g h : A -> R) l l' : Permutation l l' -> accuracy_score (map g l) (map h l) = accuracy_score (map g l') (map h l').
Proof.
  intro H. unfold accuracy_score, sk_labels. rewrite !map_length, !Nat.eqb_refl, !combine_map, !forallb_map'. cbn [andb].
  rewrite (forallb_perm (fun a => is_int (g a)) l l' H), (forallb_perm (fun a => is_int (h a)) l l' H). destruct (_ && _)%bool; cbn [rbind]; auto.
  rewrite !map_length. unfold count. rewrite (Permutation_length H).
  rewrite (Permutation_length (filter_perm _ _ _ (Permutation_map (fun a => (g a, h a)) H))). reflexivity.
Qed.
Lemma mse_perm {A} (g h : A -> R) l l' : Permutation l l' -> mean_squared_error (map g l) (map h l) = mean_squared_error (map g l') (map h l').
Proof.
  intro H. unfold mean_squared_error, sk_values. rewrite !map_length, !Nat.eqb_refl, !combine_map. cbn [rbind]. rewrite !map_length, (Permutation_length H).
  do 2 f_equal. apply rsum_perm. now apply Permutation_map, Permutation_map.
Qed.
Theorem C69_sample_order {F} (pred : agent_id -> predictor F) (p p' : problem F) d d' nv it m m' :
  pb_test p = Some d -> pb_test p' = Some d' -> Permutation (td_rows d) (td_rows d') -> td_rows d <> [] ->
  (forall i f, pred i = Some f -> exists g, forall x l, f x l = map (g x) l) -> In (m, m') (combine (four pred p) (four pred p')) ->
  m_compute (d_metric m) nv it = m_compute (d_metric m') nv it.
Proof.
  intros T T' H NE PW I.
  assert (NE' : td_rows d' <> []). { intro E. rewrite E in H. apply Permutation_sym, Permutation_nil in H. auto. }
  assert (X : exists score, d_metric m = scored pred 0 p score /\ d_metric m' = scored pred 0 p' score /\
     forall (h : F * R -> R), score (map snd (td_rows d)) (map h (td_rows d)) = score (map snd (td_rows d')) (map h (td_rows d'))).
  { destruct I as [E|[E|[E|[E|[]]]]]; injection E as <- <-; eexists; (split; [reflexivity|split; [reflexivity|]]); intro h.
    - now apply accuracy_perm. - now apply mse_perm.
    - rewrite !micro_precision by now apply y_ne. now apply accuracy_perm.
    - rewrite !micro_recall by now apply y_ne. now apply accuracy_perm. }
  destruct X as (score & -> & -> & S). rewrite (scored_eq pred p d nv it 0 _ T), (scored_eq pred p' d' nv it 0 _ T').
  unfold per_agent. rewrite (split_ok d NE), (split_ok d' NE'). cbn [rbind snd]. generalize (nv_agents nv) at 1 3 as all.
  generalize (nv_agents nv) as l. intros l all. generalize (@nil fval) as ret. induction l as [|a l IH]; intro ret; cbn [score_loop]; auto.
  unfold predict_agent. rewrite (split_ok d NE), (split_ok d' NE'). cbn [rbind fst]. destruct (h_get (v_hist a) it) as [x| |]; cbn [rbind]; auto.
  destruct (pred (v_id a)) as [f|] eqn:Pf; cbn [rbind]; auto. destruct (PW _ f Pf) as (g & G). rewrite !G, !map_map, !all_finite_map.
  rewrite (forallb_perm _ _ _ H). destruct (forallb _ (td_rows d')); auto. rewrite (S (fun r => fin (g x (fst r)))).
  destruct (score _ _); cbn [rbind]; auto.
Qed.

(** ** The built-in costs *)
(** [LogisticRegressionCost] with whole labels always predicts labels, so its
    accuracy is the proportion of samples on the right side of the plane
    [dot a x = 0]; wrapping a cost does not change its predictions. *)
Theorem C69_logistic : forall n l0 l1 x rows, whole l0 -> whole l1 ->
  exists c, logistic_predict n l0 l1 x rows = map Fin c /\ Forall whole c /\ List.length c = List.length rows /\
    Forall2 (fun a v => v = if Rle_dec 0 (dot n a x) then l1 else l0) rows c.
Proof.
  intros n l0 l1 x rows W0 W1. exists (map (lg_predict n l0 l1 x) rows). unfold logistic_predict. rewrite map_map, map_length.
  assert (E : forall a, lg_predict n l0 l1 x a = if Rle_dec 0 (dot n a x) then l1 else l0).
  { intro a. unfold lg_predict, expit. set (z := dot n a x). assert (X := exp_pos (- z)).
    destruct (Rle_dec (1 / 2) (/ (1 + exp (- z)))) as [A|A], (Rle_dec 0 z) as [B|B]; auto; exfalso.
    - assert (exp 0 < exp (- z)) by (apply exp_increasing; lra). rewrite exp_0 in *.
      apply (Rmult_le_compat_r (1 + exp (- z))) in A; [|lra]. rewrite Rinv_l in A by lra. lra.
    - apply A. assert (exp (- z) <= 1). { rewrite <- exp_0. destruct (Req_dec z 0) as [->|]; [rewrite Ropp_0; lra|]. left. apply exp_increasing. lra. }
      apply (Rmult_le_reg_r (1 + exp (- z))); [lra|]. rewrite Rinv_l by lra. lra. }
  repeat split; auto.
  - apply Forall_forall. intros v I. apply in_map_iff in I. destruct I as (a & <- & _). rewrite E. destruct (Rle_dec 0 (dot n a x)); auto.
  - clear -E. induction rows; cbn; constructor; auto.
Qed.
Inductive wrapped {K St} (e : emp K St) : emp K St -> Prop :=
| wr_same : wrapped e e
| wr_scale e' c : wrapped e e' -> wrapped e (EScaled e' c)
| wr_reg e' r : wrapped e e' -> wrapped e (EReg e' r).
Theorem C69_wrapped_costs {K St F} (lp : leaf K St -> vec -> list F -> list fval) (costs costs' : agent_id -> emp K St) (p : problem F) nv it m m' :
  (forall a, wrapped (costs a) (costs' a)) ->
  In (m, m') (combine (four (fun a => Some (emp_predict lp (costs a))) p) (four (fun a => Some (emp_predict lp (costs' a))) p)) ->
  m_compute (d_metric m) nv it = m_compute (d_metric m') nv it.
Proof.
  intros W I. assert (E : forall a, emp_predict lp (costs' a) = emp_predict lp (costs a)). { intro a. induction (W a); auto. }
  assert (X : exists score, d_metric m = scored (fun a => Some (emp_predict lp (costs a))) 0 p score /\ d_metric m' = scored (fun a => Some (emp_predict lp (costs' a))) 0 p score).
  { destruct I as [Q|[Q|[Q|[Q|[]]]]]; injection Q as <- <-; eexists; split; reflexivity. }
  destruct X as (score & -> & ->). cbn [scored m_compute]. unfold on_test. destruct (pb_test p) as [d|]; auto. unfold per_agent.
  destruct (split_dataset d) as [(xs & y)| |]; cbn [rbind snd]; auto. generalize (nv_agents nv) at 1 3 as all. generalize (nv_agents nv) as l. intros l all.
  generalize (@nil fval) as ret. induction l as [|a l IH]; intro ret; cbn [score_loop]; auto. unfold predict_agent.
  destruct (split_dataset d) as [s| |]; cbn [rbind]; auto. destruct (h_get (v_hist a) it) as [x| |]; cbn [rbind]; auto. rewrite E.
  destruct (all_finite _); auto. destruct (score y _); cbn [rbind]; auto.
Qed.

(** ** Cases *)
Definition view2 : nview := mkNView two None.
Definition rows3 : list (vec * R) := [(cst 1, 1); (cst (-1), 1); (cst (-1), 0)].
Definition test3 : tdata vec := mkTest rows3 true.
Definition classify (_ : agent_id) : predictor vec := Some (logistic_predict 1 0 1).
Definition prob3 : problem vec := mkProblem [0%nat; 1%nat] false None (Some test3).
Definition guess : list R := [1; 0; 0].
Lemma whole0 : whole 0. Proof. now exists 0%Z. Qed.
Lemma whole1 : whole 1. Proof. now exists 1%Z. Qed.
Lemma classify_at x : 0 < x -> logistic_predict 1 0 1 (cst x) (map fst rows3) = map Fin guess.
Proof.
  intro X. destruct (C69_logistic 1 0 1 (cst x) (map fst rows3) whole0 whole1) as (c & E & _ & _ & S). rewrite E. f_equal.
  inversion S as [|? v1 ? c1 H1 S1]; subst. inversion S1 as [|? v2 ? c2 H2 S2]; subst. inversion S2 as [|? v3 ? c3 H3 S3]; subst. inversion S3. subst.
  assert (D1 : dot 1 (cst 1) (cst x) = x) by (cbv - [Rplus Rmult IZR]; ring).
  assert (D2 : dot 1 (cst (-1)) (cst x) = - x) by (cbv - [Rplus Rmult Ropp IZR]; ring). unfold guess. rewrite D1, D2.
  destruct (Rle_dec 0 x); [|lra]. destruct (Rle_dec 0 (- x)); [lra|]. reflexivity.
Qed.
Lemma two_predict : Forall2 (predicts classify (map fst rows3) 2) (nv_agents view2) (map (map Fin) [guess; guess]).
Proof.
  change (nv_agents view2) with two. assert (S := two_states). inversion S as [|a1 x1 l1 xs1 H1 S1]; subst. inversion S1 as [|a2 x2 l2 xs2 H2 S2]; subst.
  repeat constructor; [exists (cst 4)|exists (cst 1)]; exists (logistic_predict 1 0 1); repeat split; auto; symmetry; apply classify_at; lra.
Qed.
Lemma rows3_whole : Forall whole (map snd rows3). Proof. repeat constructor; auto using whole0, whole1. Qed.
Lemma guess_whole : Forall whole guess. Proof. repeat constructor; auto using whole0, whole1. Qed.
Lemma matches3 : matches (map snd rows3) guess 2.
Proof. apply m_hit, m_miss; [cbn; intro; lra|]. apply m_hit. constructor. Qed.
Example C69_case_accuracy : m_compute (d_metric (Accuracy classify 0 prob3)) view2 2 = Ok [Fin (2/3); Fin (2/3)].
Proof.
  destruct (C69_accuracy classify prob3 test3 view2 2 0 [guess; guess]) as (rs & -> & S); try reflexivity; try discriminate; try lia.
  - apply two_recorded. - apply two_predict. - apply rows3_whole.
  - intros q [<-|[<-|[]]]; split; auto using guess_whole.
  - inversion S as [|? r1 ? l1 (A1 & _) S1]; subst. inversion S1 as [|? r2 ? l2 (A2 & _) S2]; subst. inversion S2; subst.
    assert (X : forall r, accuracy_is (map snd rows3) guess r -> r = 2/3).
    { intros r (k & M & ->). rewrite (matches_fun _ _ _ _ M matches3). cbn. lra. }
    cbn [map]. now rewrite (X r1 A1), (X r2 A2).
Qed.
Example C69_case_mse : m_compute (d_metric (MSE classify 0 prob3)) view2 2 = Ok [Fin (1/3); Fin (1/3)].
Proof.
  destruct (C69_mse classify prob3 test3 view2 2 0 [guess; guess]) as (rs & -> & S); try reflexivity; try discriminate; try lia.
  - apply two_recorded. - apply two_predict. - intros q [<-|[<-|[]]]; auto.
  - inversion S as [|? r1 ? l1 (A1 & _) S1]; subst. inversion S1 as [|? r2 ? l2 (A2 & _) S2]; subst. inversion S2; subst.
    assert (X : forall r, mse_is (map snd rows3) guess r -> r = 1/3).
    { intros r (k & M & ->). rewrite (square_sum_fun _ _ _ _ M (q_cons _ _ _ 1 1 (q_cons _ _ _ 1 0 (q_cons _ _ _ 0 0 q_nil)))). cbn. lra. }
    cbn [map]. now rewrite (X r1 A1), (X r2 A2).
Qed.
Example C69_case_micro : m_compute (d_metric (Precision classify 1 prob3)) view2 2 = Ok [Fin (2/3); Fin (2/3)].
Proof. rewrite (proj1 (C69_precision_and_recall_are_accuracy classify prob3 view2 2 1 0 2)). apply C69_case_accuracy. Qed.
Example C69_case_available : forall m, In m (four classify prob3) -> exists vals, m_compute (d_metric m) view2 2 = Ok vals /\ List.length vals = 2%nat.
Proof.
  intros m I. apply (C69_available_computes classify prob3 test3 view2 2 m); try reflexivity; try discriminate; try lia; auto.
  - destruct I as [<-|[<-|[<-|[<-|[]]]]]; reflexivity.
  - apply rows3_whole.
  - assert (S := two_states). change (nv_agents view2) with two. inversion S as [|a1 x1 l1 xs1 H1 S1]; subst. inversion S1 as [|a2 x2 l2 xs2 H2 S2]; subst.
    intros a [<-|[<-|[]]]; (split; [cbn; auto|eauto]).
  - intros i f x [= <-]. right. destruct (C69_logistic 1 0 1 x (map fst rows3) whole0 whole1) as (c & E & W & L & _). exists c. rewrite map_length in L. auto.
Qed.
(** the same data in another order *)
Definition other3 : problem vec := mkProblem [0%nat; 1%nat] false None (Some (mkTest (rev rows3) true)).
Example C69_case_order : m_compute (d_metric (Accuracy classify 0 other3)) view2 2 = Ok [Fin (2/3); Fin (2/3)].
Proof.
  rewrite <- C69_case_accuracy. symmetry.
  apply (C69_sample_order classify prob3 other3 test3 (mkTest (rev rows3) true) view2 2 (Accuracy classify 0 prob3) (Accuracy classify 0 other3)); auto; try discriminate.
  - apply Permutation_rev.
  - intros i f [= <-]. exists (fun x a => Fin (lg_predict 1 0 1 x a)). reflexivity.
  - left. reflexivity.
Qed.

(** a federated view: the server is node 7, its state at 2 is 4 *)
Definition fed_view : nview := mkNView (vw 7 0 log1 :: two) (Some 7%nat).
Example C69_case_server : exists r, m_compute (d_metric (ServerAccuracy classify 0 prob3)) fed_view 2 = Ok [Fin r] /\ accuracy_is (map snd rows3) guess r.
Proof.
  refine (proj2 (C69_server classify prob3 test3 fed_view 2 0 (vw 7 0 log1) (cst 4) (vw 0 1 log1) [vw 1 (-1) log2] (logistic_predict 1 0 1) guess _ _ _ _ _ _ _ _ _ _) _ _);
    try reflexivity; try discriminate; try lia.
  - exists log1. reflexivity.
  - assert (S := two_states). inversion S as [|a1 x1 l1 xs1 H1 S1]; subst. exact H1.
  - apply classify_at. lra.
  - apply rows3_whole.
  - apply guess_whole.
Qed.
Example C69_case_wrapped {K St} (l : leaf K St) r : wrapped (ELeaf l) (EReg (EScaled (ELeaf l) 3) r).
Proof. repeat constructor. Qed.

(** The documentation defines precision as TP / (TP + FP) and recall as
    TP / (TP + FN) of the positive class; with two classes 0 and 1 that is not
    what is reported: here precision is 1 and recall 1/2, both reported as 2/3. *)
Theorem C69_documented_precision_and_recall_refuted :
  ~ (forall F (pred : agent_id -> predictor F) (p : problem F) d nv it ps rs,
      pb_test p = Some d -> Forall recorded (nv_agents nv) ->
      Forall2 (predicts pred (map fst (td_rows d)) it) (nv_agents nv) (map (map Fin) ps) ->
      Forall (fun v => v = 0 \/ v = 1) (map snd (td_rows d)) -> (forall q, In q ps -> Forall (fun v => v = 0 \/ v = 1) q) ->
      m_compute (d_metric (Precision pred 0 p)) nv it = Ok (map Fin rs) -> Forall2 (documented_precision 1 (map snd (td_rows d))) ps rs) /\
  ~ (forall F (pred : agent_id -> predictor F) (p : problem F) d nv it ps rs,
      pb_test p = Some d -> Forall recorded (nv_agents nv) ->
      Forall2 (predicts pred (map fst (td_rows d)) it) (nv_agents nv) (map (map Fin) ps) ->
      Forall (fun v => v = 0 \/ v = 1) (map snd (td_rows d)) -> (forall q, In q ps -> Forall (fun v => v = 0 \/ v = 1) q) ->
      m_compute (d_metric (Recall pred 0 p)) nv it = Ok (map Fin rs) -> Forall2 (documented_recall 1 (map snd (td_rows d))) ps rs).
Proof.
  assert (CF : forall tp fp fn, confusion 1 (map snd rows3) guess tp fp fn -> tp = 1%nat /\ fp = 0%nat /\ fn = 1%nat).
  { intros tp fp fn C. unfold guess in C. cbn [rows3 map snd] in C.
    inversion C; subst; try lra. match goal with X : confusion _ [1; 0] _ _ _ _ |- _ => inversion X; subst; try lra end.
    match goal with X : confusion _ [0] _ _ _ _ |- _ => inversion X; subst; try lra end.
    match goal with X : confusion _ [] _ _ _ _ |- _ => inversion X; subst end. auto. }
  split; intro H.
  - specialize (H _ classify prob3 test3 view2 2%Z [guess; guess] [2/3; 2/3] eq_refl two_recorded two_predict).
    assert (Y : Forall (fun v => v = 0 \/ v = 1) (map snd (td_rows test3))) by (repeat constructor; auto).
    assert (Q : forall q, In q [guess; guess] -> Forall (fun v => v = 0 \/ v = 1) q) by (intros q [<-|[<-|[]]]; repeat constructor; auto).
    specialize (H Y Q). rewrite (proj1 (C69_precision_and_recall_are_accuracy classify prob3 view2 2 0 0 0)), C69_case_accuracy in H. specialize (H eq_refl).
    inversion H as [|? ? ? ? (tp & fp & fn & C & E) _]; subst. destruct (CF _ _ _ C) as (-> & -> & ->). cbn in E. lra.
  - specialize (H _ classify prob3 test3 view2 2%Z [guess; guess] [2/3; 2/3] eq_refl two_recorded two_predict).
    assert (Y : Forall (fun v => v = 0 \/ v = 1) (map snd (td_rows test3))) by (repeat constructor; auto).
    assert (Q : forall q, In q [guess; guess] -> Forall (fun v => v = 0 \/ v = 1) q) by (intros q [<-|[<-|[]]]; repeat constructor; auto).
    specialize (H Y Q). rewrite (proj2 (C69_precision_and_recall_are_accuracy classify prob3 view2 2 0 0 0)), C69_case_accuracy in H. specialize (H eq_refl).
    inversion H as [|? ? ? ? (tp & fp & fn & C & E) _]; subst. destruct (CF _ _ _ C) as (-> & -> & ->). cbn in E. lra.
Qed.

(** An agent's own accuracy is lost when another agent has diverged. *)
Definition one_diverged (a : agent_id) : predictor vec := if Nat.eqb a 0 then Some (logistic_predict 1 0 1) else Some (fun _ l => map (fun _ => PInf) l).
Lemma diverged_predict : Forall2 (predicts one_diverged (map fst rows3) 2) (nv_agents view2) [map Fin guess; [PInf; PInf; PInf]].
Proof.
  change (nv_agents view2) with two. assert (S := two_states). inversion S as [|a1 x1 l1 xs1 H1 S1]; subst. inversion S1 as [|a2 x2 l2 xs2 H2 S2]; subst.
  constructor; [|constructor; [|constructor]].
  - exists (cst 4), (logistic_predict 1 0 1). repeat split; auto. symmetry. apply classify_at. lra.
  - exists (cst 1), (fun _ l => map (fun _ => PInf) l). auto.
Qed.
Theorem C69_own_accuracy_refuted :
  ~ (forall F (pred : agent_id -> predictor F) (p : problem F) d nv it vals i a q,
      pb_test p = Some d -> Forall recorded (nv_agents nv) -> nth_error (nv_agents nv) i = Some a ->
      predicts pred (map fst (td_rows d)) it a (map Fin q) -> Forall whole q ->
      m_compute (d_metric (Accuracy pred 0 p)) nv it = Ok vals -> exists r, nth_error vals i = Some (Fin r) /\ accuracy_is (map snd (td_rows d)) q r).
Proof.
  intro H. assert (D := diverged_predict).
  assert (E : m_compute (d_metric (Accuracy one_diverged 0 prob3)) view2 2 = Ok [NaN; NaN]).
  { destruct (C69_diverged one_diverged prob3 test3 view2 2 (Accuracy one_diverged 0 prob3)) as (_ & X); try reflexivity; try discriminate; try lia.
    - left; auto. - apply two_recorded.
    - rewrite (X _ D); auto; [|apply rows3_whole|].
      + eexists. split; [right; left; reflexivity|]. exists PInf. split; [left; auto|discriminate].
      + intros q [Q|[Q|[]]].
        * assert (q = guess) as ->. { apply (f_equal all_finite) in Q. rewrite (proj2 (all_finite_some (map Fin guess) guess) eq_refl), (proj2 (all_finite_some (map Fin q) q) eq_refl) in Q. congruence. }
          split; [apply guess_whole|reflexivity].
        * destruct q; discriminate. }
  inversion D as [|? ? ? ? P0 _]; subst. destruct (H _ one_diverged prob3 test3 view2 2%Z [NaN; NaN] 0%nat _ guess eq_refl two_recorded eq_refl P0 guess_whole E) as (r & X & _). discriminate.
Qed.

(** Accuracy is "available" for regression costs with integer targets, and
    then computing it raises (as in the default metrics). *)
Definition regress (_ : agent_id) : predictor vec := Some (linear_predict 1).
Definition half_rows : tdata vec := mkTest [(cst (1/8), 1)] true.
Definition prob_half : problem vec := mkProblem [0%nat; 1%nat] false None (Some half_rows).
Lemma not_whole_half : ~ whole (1/2).
Proof.
  intros (z & E). assert (1 = 2 * IZR z) by lra. replace 1 with (IZR 1) in H by auto. replace 2 with (IZR 2) in H by auto. rewrite <- mult_IZR in H. apply eq_IZR in H. lia.
Qed.
Theorem C69_available_accuracy_refuted :
  ~ (forall n (p : problem vec) d nv it, let pred := fun _ : agent_id => Some (linear_predict n) in
      d_available (Accuracy pred 0 p) p = Ok true -> pb_test p = Some d -> td_rows d <> [] -> Forall whole (map snd (td_rows d)) ->
      (forall a, In a (nv_agents nv) -> In (v_id a) (pb_agents p) /\ exists x, state_at it a x) -> (0 <= it)%Z ->
      m_compute (d_metric (Accuracy pred 0 p)) nv it <> ValueError).
Proof.
  intro H. specialize (H 1%nat prob_half half_rows view2 2%Z). cbv zeta in H. apply H; clear H; try reflexivity; try discriminate; try lia.
  - repeat constructor. exact whole1.
  - assert (S := two_states). change (nv_agents view2) with two. inversion S as [|a1 x1 l1 xs1 H1 S1]; subst. inversion S1 as [|a2 x2 l2 xs2 H2 S2]; subst.
    intros a [<-|[<-|[]]]; (split; [cbn; auto|eauto]).
  - cbn [Accuracy d_metric]. rewrite (scored_eq _ prob_half half_rows view2 2 0 _ eq_refl). unfold per_agent.
    assert (NE : td_rows half_rows <> []) by discriminate. rewrite (split_ok half_rows NE). cbn [rbind snd].
    change (nv_agents view2) with two. unfold two at 2. cbn [score_loop].
    assert (S := two_states). inversion S as [|a1 x1 l1 xs1 H1 S1]; subst.
    change (fun _ : agent_id => Some (linear_predict 1)) with regress. rewrite (proj2 (predict_ok regress half_rows 2 NE ltac:(lia) (vw 0 1 log1) [Fin (dot 1 (cst (1/8)) (cst 4))] ltac:(exists log1; reflexivity))).
    2:{ exists (cst 4), (linear_predict 1). auto. }
    cbn [rbind all_finite]. unfold accuracy_score at 1, sk_labels. cbn [half_rows td_rows map snd List.length Nat.eqb andb forallb].
    replace (dot 1 (cst (1/8)) (cst 4)) with (1/2) by (cbv - [Rplus Rmult Rdiv Rinv IZR]; field).
    destruct (is_int (1/2)) eqn:I; [apply is_int_spec in I; destruct (not_whole_half I)|]. rewrite andb_false_r. reflexivity.
Qed.

(** ** C70: which metrics are computed *)
Section Choice.
  Context {F : Type}.
  Variable p : problem F.
  Lemma remove_ok ms l : remove_unavailable p ms = Ok l <->
    (forall m, In m ms -> exists b, d_available m p = Ok b) /\ kept (fun m => d_available m p = Ok true) ms l.
  Proof.
    revert l. induction ms as [|m ms IH]; intro l; cbn [remove_unavailable].
    - split; [intros [= <-]; split; [intros _ []|constructor]|]. intros (_ & K). inversion K. auto.
    - rewrite rbind_ok. split.
      + intros (b & A & H). apply rbind_ok in H. destruct H as (l' & R & [= <-]). apply IH in R. destruct R as (R1 & R2).
        split; [intros m' [<-|I]; eauto|]. destruct b; constructor; auto. congruence.
      + intros (A & K). destruct (A m (or_introl eq_refl)) as (b & Ab). exists b. split; auto. apply rbind_ok. inversion K as [|? ? l' T K'|? ? ? T K']; subst.
        * exists l'. split; [apply IH; split; auto; intros; apply A; right; auto|]. rewrite T in Ab. injection Ab as <-. reflexivity.
        * exists l. split; [apply IH; split; auto; intros; apply A; right; auto|]. destruct b; [congruence|auto].
  Qed.
End Choice.
Lemma validate_ok {F} (ms : list (described F)) : validate_unique ms = Ok tt <-> NoDup (map d_name ms).
Proof.
  unfold validate_unique. assert (X := dups_inv (map d_name ms) [] []). destruct (find_duplicates [] [] (map d_name ms)) as [|s l].
  - split; auto. intros _. now apply X.
  - split; [discriminate|]. intro N. assert (Y : s :: l = []) by (apply X; repeat split; auto). discriminate.
Qed.
Definition or_default {A} (o : option A) (x : A) : A := match o with Some y => y | None => x end.

(** [compute_metrics] goes on exactly if the descriptions are distinct, in the
    table list and in the plot list, and every availability check returns; it
    computes exactly the available metrics, in the given order. *)
Theorem C70_chosen {F} (pred : agent_id -> predictor F) n p tables plots ts ps :
  choose_metrics pred n p tables plots = Ok (ts, ps) <->
  let tables := or_default tables (default_table pred n p) in
  let plots := or_default plots (default_plot pred n p) in
  NoDup (map d_name tables) /\ NoDup (map d_name plots) /\
  (forall m, In m (tables ++ plots) -> exists b, d_available m p = Ok b) /\
  kept (fun m => d_available m p = Ok true) tables ts /\ kept (fun m => d_available m p = Ok true) plots ps.
Proof.
  unfold choose_metrics. cbv zeta. fold (or_default tables (default_table pred n p)). fold (or_default plots (default_plot pred n p)).
  set (T := or_default tables _). set (P := or_default plots _). rewrite rbind_ok. split.
  - intros ([] & V1 & H). apply rbind_ok in H. destruct H as ([] & V2 & H). apply rbind_ok in H. destruct H as (ts' & R1 & H). apply rbind_ok in H. destruct H as (ps' & R2 & [= <- <-]).
    apply remove_ok in R1, R2. repeat split; try (now apply validate_ok); try tauto. intros m I. apply in_app_iff in I. destruct R1, R2, I; auto.
  - intros (V1 & V2 & A & K1 & K2). exists tt. split; [now apply validate_ok|]. apply rbind_ok. exists tt. split; [now apply validate_ok|].
    apply rbind_ok. exists ts. split; [apply remove_ok; split; auto; intros; apply A, in_app_iff; auto|]. apply rbind_ok. exists ps.
    split; auto. apply remove_ok; split; auto; intros; apply A, in_app_iff; auto.
Qed.
(** so duplicates are always reported *)
Theorem C70_duplicates_rejected {F} (pred : agent_id -> predictor F) n p ms other :
  ~ NoDup (map d_name ms) -> choose_metrics pred n p (Some ms) other = ValueError /\ 
  (forall ts, NoDup (map d_name ts) -> choose_metrics pred n p (Some ts) (Some ms) = ValueError).
Proof.
  intro N. assert (V : validate_unique ms = ValueError).
  { unfold validate_unique. assert (X := dups_inv (map d_name ms) [] []). destruct (find_duplicates [] [] (map d_name ms)); auto. exfalso. apply N, X. auto. }
  split; unfold choose_metrics; cbv zeta; [now rewrite V|]. intros ts H. apply validate_ok in H. rewrite H. cbn [rbind]. now rewrite V.
Qed.

Lemma kept_exists {A} (P : A -> Prop) (D : forall a, P a \/ ~ P a) l : exists l', kept P l l'.
Proof. induction l as [|a l (l' & K)]; [exists []; constructor|]. destruct (D a); [exists (a :: l')|exists l']; constructor; auto. Qed.
Lemma kept_ext {A} (P Q : A -> Prop) l l' : (forall a, In a l -> P a <-> Q a) -> kept P l l' -> kept Q l l'.
Proof. intros H K. induction K; constructor; auto; try (apply IHK; intros; apply H; right; auto); assert (X := H a (or_introl eq_refl)); tauto. Qed.

Section Defaults.
  Context {F : Type}.
  Variables (pred : agent_id -> predictor F) (n : nat) (p : problem F).
  Hypothesis TE : forall d, pb_test p = Some d -> td_rows d <> [].
  Lemma empirical_spec : empirical pred p = true <-> all_empirical pred p.
  Proof.
    unfold empirical, all_empirical. rewrite forallb_forall. split; intros H a I; specialize (H a I).
    - destruct (pred a) as [f|]; [eauto|discriminate]. - destruct H as (f & ->). auto.
  Qed.
  Lemma labels_spec : exists b, labels_available pred p = Ok b /\ (b = true <-> all_empirical pred p /\ has_labels p).
  Proof.
    unfold labels_available, has_labels. assert (E := empirical_spec). destruct (pb_test p) as [d|] eqn:T.
    - destruct (empirical pred p).
      + rewrite (split_ok d (TE d eq_refl)). cbn [rbind]. exists (td_int d). split; auto. split.
        * intro H. split; [now apply E|]. exists d. auto.
        * intros (_ & d' & [= <-] & H). auto.
      + exists false. split; auto. split; [discriminate|]. intros (H & _). apply E in H. discriminate.
    - exists false. split; auto. split; [discriminate|]. intros (_ & d & X & _). discriminate.
  Qed.
  Lemma mse_spec : exists b, mse_available pred p = Ok b /\ (b = true <-> all_empirical pred p /\ has_test p).
  Proof.
    unfold mse_available, has_test. assert (E := empirical_spec). destruct (pb_test p) as [d|]; eexists; (split; [reflexivity|]).
    - rewrite E. split; [intro H; split; eauto|tauto].
    - split; [discriminate|]. intros (_ & d & X). discriminate.
  Qed.
  Lemma xopt_spec : exists b, xopt_available p = Ok b /\ (b = true <-> has_optimum p).
  Proof. unfold xopt_available, has_optimum. eexists. split; [reflexivity|]. destruct (pb_xopt p); [split; eauto|]. split; [discriminate|intros (x & X); discriminate]. Qed.
  Lemma fed_spec : exists b, fed_available p = Ok b /\ (b = true <-> federated p).
  Proof. unfold fed_available, federated. eexists. split; [reflexivity|]. tauto. Qed.
  Lemma always_spec : exists b, always p = Ok b /\ (b = true <-> True).
  Proof. exists true. split; [reflexivity|tauto]. Qed.
  Lemma smse_spec : exists b, server_mse_available pred p = Ok b /\ (b = true <-> federated p /\ all_empirical pred p /\ has_test p).
  Proof.
    unfold server_mse_available, federated. destruct (pb_fed p); [destruct mse_spec as (b & -> & H); exists b; split; auto; rewrite H; tauto|].
    exists false. split; auto. split; [discriminate|]. intros (X & _). discriminate.
  Qed.
  Lemma sacc_spec : exists b, server_accuracy_available pred p = Ok b /\ (b = true <-> federated p /\ all_empirical pred p /\ has_labels p).
  Proof.
    unfold server_accuracy_available, federated. destruct (pb_fed p); [destruct labels_spec as (b & -> & H); exists b; split; auto; rewrite H; tauto|].
    exists false. split; auto. split; [discriminate|]. intros (X & _). discriminate.
  Qed.
  Lemma default_avail m : In m (default_table pred n p ++ default_plot pred n p) ->
    exists b, d_available m p = Ok b /\ (b = true <-> documented_need pred p (d_name m)).
  Proof.
    intro I. cbn [default_table default_plot app In] in I.
    repeat (destruct I as [<-|I]; [cbn [d_available d_name Accuracy MSE Precision Recall ServerMSE ServerAccuracy];
      first [apply labels_spec|apply mse_spec|apply xopt_spec|apply fed_spec|apply smse_spec|apply sacc_spec|apply always_spec]|]). destruct I.
  Qed.
  Lemma default_nodup : NoDup (map d_name (default_table pred n p)) /\ NoDup (map d_name (default_plot pred n p)).
  Proof.
    assert (X : forall l, find_duplicates [] [] l = [] -> NoDup l) by (intros l E; now apply dups_inv in E).
    split; apply X; reflexivity.
  Qed.
End Defaults.
(** Without arguments, on a problem whose test data (if any) is not empty: the
    metrics computed are the default ones that meet the condition their
    documentation states. *)
Theorem C70_defaults {F} (pred : agent_id -> predictor F) n p :
  (forall d, pb_test p = Some d -> td_rows d <> []) ->
  exists ts ps, choose_metrics pred n p None None = Ok (ts, ps) /\
    kept (fun m => documented_need pred p (d_name m)) (default_table pred n p) ts /\
    kept (fun m => documented_need pred p (d_name m)) (default_plot pred n p) ps.
Proof.
  intro TE. assert (A := default_avail pred n p TE).
  assert (D : forall m : described F, d_available m p = Ok true \/ d_available m p <> Ok true).
  { intro m. destruct (d_available m p) as [[]| |]; [left; auto|right; discriminate..]. }
  destruct (kept_exists _ D (default_table pred n p)) as (ts & K1). destruct (kept_exists _ D (default_plot pred n p)) as (ps & K2).
  exists ts, ps. split; [|split].
  - apply C70_chosen. cbv zeta. cbn [or_default]. repeat split; auto; try apply default_nodup. intros m I. destruct (A m I) as (b & H & _). eauto.
  - apply (kept_ext (fun m => d_available m p = Ok true)); auto. intros m I. destruct (A m) as (b & H & E); [apply in_app_iff; auto|]. rewrite H, <- E. split; [now intros [= ->]|now intros ->].
  - apply (kept_ext (fun m => d_available m p = Ok true)); auto. intros m I. destruct (A m) as (b & H & E); [apply in_app_iff; auto|]. rewrite H, <- E. split; [now intros [= ->]|now intros ->].
Qed.
(** The default metrics are different objects, apart from the four that are in both
    lists: values of one cannot be taken for values of another. *)
Theorem C70_default_objects {F} (pred : agent_id -> predictor F) n p :
  (forall a b, In a (default_table pred n p ++ default_plot pred n p) -> In b (default_table pred n p ++ default_plot pred n p) ->
    m_id (d_metric a) = m_id (d_metric b) -> a = b) /\
  (forall a, In a (default_table pred n p) -> In a (default_plot pred n p) -> In (d_name a) ["mse"; "accuracy"; "precision"; "recall"]%string).
Proof.
  assert (K : forall (l : list (described F)), NoDup (map (fun m => m_id (d_metric m)) l) -> forall a b, In a l -> In b l -> m_id (d_metric a) = m_id (d_metric b) -> a = b).
  { induction l as [|x l IH]; [intros _ a b []|]. cbn [map]. intros N. inversion N as [|? ? N1 N2]; subst. intros a b [-> |Ia] [-> |Ib] E; auto.
    - exfalso. apply N1. rewrite E. now apply (in_map (fun m => m_id (d_metric m))).
    - exfalso. apply N1. rewrite <- E. now apply (in_map (fun m => m_id (d_metric m))). }
  set (shared := [MSE pred 13 p; Accuracy pred 14 p; Precision pred 15 p; Recall pred 16 p]).
  set (plots := filter (fun m => negb (existsb (Nat.eqb (m_id (d_metric m))) [13; 14; 15; 16]%nat)) (default_plot pred n p)).
  assert (N : NoDup (map (fun m => m_id (d_metric m)) (default_table pred n p ++ plots))).
  { cbn. repeat (constructor; [cbn; intuition discriminate|]). constructor. }
  assert (I : forall a, In a (default_table pred n p ++ default_plot pred n p) -> In a (default_table pred n p ++ plots)).
  { intros a Ha. apply in_app_iff in Ha. apply in_app_iff. destruct Ha as [Ha|Ha]; [now left|].
    assert (In a shared \/ In a plots) as [S|S].
    { cbn in Ha |- *. intuition (subst; auto). }
    - left. cbn in S |- *. intuition (subst; auto 25).
    - now right. }
  split; [intros a b Ha Hb; apply (K _ N); auto|].
  intros a Ha Hb. cbn [default_plot In] in Hb. cbn [default_table map] in N.
  repeat (destruct Hb as [<- |Hb]; [first [now cbn; auto|exfalso; cbn [default_table In] in Ha;
    repeat (destruct Ha as [Ha|Ha]; [apply (f_equal (fun m => m_id (d_metric m))) in Ha; cbn in Ha; discriminate Ha|]); destruct Ha]|]). destruct Hb.
Qed.
Print Assumptions C70_default_objects.
Example C70_case : match choose_metrics classify 1 prob3 None None with
  | Ok (_, ps) => map d_name ps = ["gradient norm"; "consensus error"; "loss"; "mse"; "accuracy"; "precision"; "recall"]%string
  | _ => False end.
Proof.
  unfold choose_metrics. cbv zeta.
  rewrite (proj2 (validate_ok (default_table classify 1 prob3)) (proj1 (default_nodup classify 1 prob3))). cbn [rbind].
  rewrite (proj2 (validate_ok (default_plot classify 1 prob3)) (proj2 (default_nodup classify 1 prob3))). cbn [rbind].
  assert (A1 : labels_available classify prob3 = Ok true) by reflexivity. assert (A2 : mse_available classify prob3 = Ok true) by reflexivity.
  assert (A3 : xopt_available prob3 = Ok false) by reflexivity. assert (A4 : fed_available prob3 = Ok false) by reflexivity.
  assert (A5 : server_mse_available classify prob3 = Ok false) by reflexivity. assert (A6 : server_accuracy_available classify prob3 = Ok false) by reflexivity.
  assert (A7 : always prob3 = Ok true) by reflexivity.
  unfold default_table, default_plot. cbn [remove_unavailable]. cbn [d_available Accuracy MSE Precision Recall ServerMSE ServerAccuracy].
  rewrite A1, A2, A3, A4, A5, A6, A7. cbn [rbind]. reflexivity.
Qed.
Example C70_case_defaults : forall d, pb_test prob3 = Some d -> td_rows d <> [].
Proof. intros d [= <-]. discriminate. Qed.
Example C70_case_duplicates : choose_metrics classify 1 prob3 (Some [Accuracy classify 0 prob3; Accuracy classify 1 prob3]) None = ValueError.
Proof. refine (proj1 (C70_duplicates_rejected _ _ _ _ _ _)). intro N. inversion N as [|? ? X _]. apply X. left. reflexivity. Qed.

Print Assumptions C69_accuracy.
Print Assumptions C69_diverged.
Print Assumptions C69_sample_order.
Print Assumptions C69_documented_precision_and_recall_refuted.
Print Assumptions C69_available_accuracy_refuted.
Print Assumptions C70_chosen.
Print Assumptions C70_defaults.
