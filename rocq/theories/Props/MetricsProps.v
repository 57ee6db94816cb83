(** C49, C50, C62, C63: metrics. *)
From Coq Require Import List Bool Arith ZArith QArith Qcanon Lia Lra Reals Sorted FunctionalExtensionality.
From Verif.Model Require Import PyDict History Messages Network Runner Counting Schemes Vec P2P Metrics.
From Verif.Spec Require Import HistorySpec NetworkSpec RunnerSpec CostSpec P2PSpec AlgSpec MetricsSpec.
From Verif.Proofs Require Import PyDictProofs HistoryProofs SortProofs VecProofs NetworkProofs NetworkInv P2PLock AlgClient CountX EmpiricalProofs MetricsProofs MetricsPipeline.
From Verif.Props Require Import RunnerProps P2PProps AlgProps.
Import ListNotations.
Local Open Scope R_scope.

(** ** C49: the iteration axis *)

(** The axis of [compute_metrics]: strictly increasing, exactly the iterations
    at which some node (agent or server) of some trial of some algorithm has a
    snapshot. *)
Theorem C49_axis_is_union : forall (Alg : Type) t cost (states : list (Alg * list trial)),
  let axis := all_iterations (map (fun p => (fst p, map (from_network t cost) (snd p))) states) in
  StronglySorted Z.lt axis /\
  (forall k, In k axis <-> exists p tr a, In p states /\ In tr (snd p) /\ In a (t_nodes t) /\
     In k (h_keylist (a_hist (n_agents (tr_net tr) a)))).
Proof.
  intros Alg t cost states axis. split; [apply sorted_set_sorted|]. intro k. unfold axis. rewrite all_iterations_In. split.
  - intros (p & nv & a & Ip & Inv & Ia & Ik). apply in_map_iff in Ip. destruct Ip as (q & <- & Iq). cbn [snd] in Inv.
    apply in_map_iff in Inv. destruct Inv as (tr & <- & Itr). cbn [from_network nv_nodes] in Ia.
    apply in_map_iff in Ia. destruct Ia as (b & <- & Ib). exists q, tr, b. auto.
  - intros (p & tr & a & Ip & Itr & Ia & Ik). exists (fst p, map (from_network t cost) (snd p)), (from_network t cost tr), (from_agent cost tr a).
    repeat split; auto; [now apply in_map_iff; eauto|cbn [snd]; now apply in_map|cbn [from_network nv_nodes]; now apply in_map].
Qed.

(** After finished runs the axis is 0 and every iteration due for a snapshot
    at some agent under some algorithm of the benchmark. *)
Theorem C49_axis_of_runs : forall (St : Type) t (e : env vec) period cost (states : list (alg vec St * list trial)),
  NoDup (t_nodes t) ->
  (forall A trs tr, In (A, trs) states -> In tr trs -> client_code t e A /\
     exists w, r_out (run t period A 0 w) = Finished /\ snd (r_world (run t period A 0 w)) = tr_net tr /\
       forall a, In a (t_nodes t) -> exists x0, initialised (snd (al_init A w)) a x0) ->
  forall k, In k (all_iterations (map (fun p => (fst p, map (from_network t cost) (snd p))) states)) <->
    exists A trs a, In (A, trs) states /\ trs <> [] /\ In a (t_nodes t) /\
      (k = 0%Z \/ exists i, k = Z.of_nat i /\ due (period a) (al_iters A) i).
Proof.
  intros St t e period cost states ND H k.
  rewrite (proj2 (C49_axis_is_union (alg vec St) t cost states) k). split.
  - intros ((A & trs) & tr & a & Ip & Itr & Ia & Ik). cbn [snd] in Itr. exists A, trs, a.
    destruct (H A trs tr Ip Itr) as (CC & w & O & E & I). destruct (I a Ia) as (x0 & I0).
    destruct (C04_snapshot_schedule vec St t e period A w a x0 ND Ia CC I0 O) as (K & _). rewrite E in K. apply K in Ik.
    repeat split; auto. intros ->. destruct Itr.
  - intros (A & trs & a & Ip & NE & Ia & Hk). destruct trs as [|tr trs]; [congruence|].
    exists (A, tr :: trs), tr, a. cbn [snd]. repeat split; auto; [left; auto|].
    destruct (H A _ tr Ip (or_introl eq_refl)) as (CC & w & O & E & I). destruct (I a Ia) as (x0 & I0).
    destruct (C04_snapshot_schedule vec St t e period A w a x0 ND Ia CC I0 O) as (K & _). rewrite E in K. now apply K.
Qed.

(** What a metric at iteration [it] sees of an agent is its nearest preceding
    snapshot: the mean state, the losses, the drifts. *)
Theorem C49_nearest_preceding : forall (n : nat) (l : list aview) (it : Z), (0 <= it)%Z -> Forall recorded l ->
  (forall m, x_mean l it = Ok m <-> exists xs, Forall2 (state_at it) l xs /\ l <> [] /\ m = average xs) /\
  (forall rs, losses l it = Ok rs <-> exists xs, Forall2 (state_at it) l xs /\
     rs = map (fun p => c_fun (v_cost (fst p)) (snd p)) (combine l xs)) /\
  (forall s ds, recorded s -> drifts n l s it = Ok ds <-> exists sx xs, state_at it s sx /\ Forall2 (state_at it) l xs /\
     ds = map (fun x => norm n (vsub x sx)) xs).
Proof.
  intros n l it P R. split; [|split].
  - intro m. rewrite x_mean_ok. split; intros (xs & F & NE & E); exists xs; (split; [now apply (F2_states it l xs P R)|auto]).
  - intro rs. unfold losses. rewrite mapR_ok. split.
    + intro F. assert (G : exists xs, Forall2 (fun a x => h_get (v_hist a) it = Ok x) l xs /\
        rs = map (fun p => c_fun (v_cost (fst p)) (snd p)) (combine l xs)).
      { clear R. induction F as [|a r l rs H F (xs & G & ->)]; [exists []; split; constructor|].
        apply rbind_ok in H. destruct H as (x & Hx & [= <-]). exists (x :: xs). split; [constructor; auto|reflexivity]. }
      destruct G as (xs & G & ->). exists xs. split; auto. now apply (F2_states it l xs P R).
    + intros (xs & G & ->). apply (F2_states it l xs P R) in G. clear R. induction G as [|a x l xs Hx G IH]; cbn [combine map]; constructor; auto.
      rewrite Hx. reflexivity.
  - intros s ds Rs. rewrite drifts_ok. split.
    + intros (sx & xs & E & F & ->). exists sx, xs. split; [now apply state_at_get|]. split; auto. now apply (F2_states it l xs P R).
    + intros (sx & xs & E & F & ->). exists sx, xs. split; [now apply state_at_get|]. split; auto. now apply (F2_states it l xs P R).
Qed.

(** Beyond its last snapshot (an algorithm that stopped earlier) an agent
    contributes its final state. *)
Theorem C49_past_the_end : forall a it x, (forall k, has_iteration a k -> (k <= it)%Z) -> state_at it a x <-> final_state a x.
Proof.
  intros a it x H. unfold state_at, final_state. split; intros (log & k & E & N & L); exists log, k; split; auto; split; auto.
  - destruct N as (W & _ & M). split; auto. intros k' W'. apply M; auto. apply H. exists log. auto.
  - destruct N as (W & M). split; auto. split; [apply H; exists log; auto|]. intros; auto.
Qed.

(** A mean exists exactly when there are agents and all have a snapshot by then. *)
Theorem C49_mean_defined : forall l it, (0 <= it)%Z -> Forall recorded l ->
  (exists m, x_mean l it = Ok m) <-> l <> [] /\ Forall (fun a => exists k, has_iteration a k /\ (k <= it)%Z) l.
Proof.
  intros l it P R. split.
  - intros (m & E). apply x_mean_ok in E. destruct E as (xs & F & NE & _). split; auto.
    apply (F2_states it l xs P R) in F. clear NE R. induction F as [|a x l xs H F IH]; constructor; auto.
    destruct H as (log & k & E & (W & L & _) & _). exists k. split; auto. exists log. auto.
  - intros (NE & F). assert (G : exists xs, Forall2 (fun a x => h_get (v_hist a) it = Ok x) l xs).
    { clear NE. induction F as [|a l (k & (log & E & W) & L) F IH]; [exists []; constructor|].
      inversion R; subst. destruct IH as (xs & G); auto.
      destruct (h_get_spec _ log (h_run log) it (hinv_run _ log) P) as (A & B & C).
      destruct (h_get (h_run log) it) as [x| |] eqn:X.
      - exists (x :: xs). constructor; auto. rewrite E. exact X.
      - exfalso. pose proof (proj1 B eq_refl k W). lia.
      - congruence. }
    destruct G as (xs & G). exists (average xs). apply x_mean_ok. eauto.
Qed.

(** ** C50: what the metrics mean *)

Theorem C50_regret : forall l x_opt it xs, (0 <= it)%Z -> Forall recorded l -> l <> [] -> Forall2 (state_at it) l xs ->
  let mean := average xs in
  exists r, regret l x_opt it = Ok r /\
    r = total_cost l mean / INR (length l) - total_cost l x_opt / INR (length l) /\
    (minimises l x_opt -> 0 <= r /\ (r = 0 <-> minimises l mean)).
Proof.
  intros l xo it xs P R NE F mean. exists ((total_cost l mean - total_cost l xo) / INR (length l)).
  pose proof (INR_pos l NE) as Q.
  assert (E : regret l xo it = Ok ((total_cost l mean - total_cost l xo) / INR (length l))).
  { apply regret_ok. exists mean. split; auto. apply x_mean_ok. exists xs. split; auto. now apply (F2_states it l xs P R). }
  split; auto. split; [field; lra|]. intro M. pose proof (M mean) as M1. split.
  - apply Rmult_le_pos; [lra|]. left. now apply Rinv_0_lt_compat.
  - split.
    + intros Z z. assert (total_cost l mean - total_cost l xo = 0).
      { apply (Rmult_eq_reg_r (/ INR (length l))); [|apply Rinv_neq_0_compat; lra]. unfold Rdiv in Z. lra. }
      pose proof (M z). lra.
    + intro M2. pose proof (M2 xo). replace (total_cost l mean - total_cost l xo) with 0 by lra. unfold Rdiv. ring.
Qed.

(** one error per agent, in order; all zero iff the agents agree *)
Theorem C50_consensus : forall n l it xs, (0 <= it)%Z -> Forall recorded l -> l <> [] -> Forall2 (state_at it) l xs ->
  exists es, consensus_error n l it = Ok es /\
    es = map (fun x => norm n (vsub (average xs) x)) xs /\
    (Forall (fun e => e = 0) es <-> forall x y, In x xs -> In y xs -> same n x y).
Proof.
  intros n l it xs P R NE F. exists (map (fun x => norm n (vsub (average xs) x)) xs).
  assert (F' := proj2 (F2_states it l xs P R) F).
  split; [apply consensus_ok; exists xs; auto|]. split; auto. rewrite Forall_map, Forall_forall. split.
  - intros H x y Ix Iy i Hi. pose proof (proj1 (l2norm_sub_zero n _ _) (H x Ix) i Hi). pose proof (proj1 (l2norm_sub_zero n _ _) (H y Iy) i Hi). lra.
  - intros H x Ix. apply (l2norm_sub_zero n). intros i Hi. unfold average.
    rewrite (rsum_map_ext (fun z : vec => z i) (fun _ => x i)) by (intros z Iz; apply (H z x); auto).
    rewrite rsum_const. assert (xs <> []) by (intros ->; destruct Ix). pose proof (INR_pos xs H0). field. lra.
Qed.

(** the reported errors have the least possible sum of squares: no other
    point is closer to all agents in that sense *)
Theorem C50_mean_minimises : forall n l it xs es, (0 <= it)%Z -> Forall recorded l -> Forall2 (state_at it) l xs ->
  consensus_error n l it = Ok es ->
  forall y, rsum (map (fun e => e * e) es) <= rsum (map (fun x => norm n (vsub x y) * norm n (vsub x y)) xs) /\
    (rsum (map (fun e => e * e) es) = rsum (map (fun x => norm n (vsub x y) * norm n (vsub x y)) xs) <-> same n y (average xs)).
Proof.
  intros n l it xs es P R F E y. apply consensus_ok in E. destruct E as (xs' & F' & NE & ->).
  apply (F2_states it l xs P R) in F. assert (xs' = xs) by (apply (F2_det (fun a x => h_get (v_hist a) it = Ok x) l xs' xs); auto; intros; congruence).
  subst xs'. assert (NX : xs <> []) by (intros ->; inversion F; subst; congruence).
  rewrite map_map. rewrite (rsum_map_ext (fun x => l2norm n (vsub (average xs) x) * l2norm n (vsub (average xs) x)) (fun x => nrm2 n (vsub (average xs) x))) by (intros; apply l2norm_sq).
  rewrite (rsum_map_ext (fun x => norm n (vsub x y) * norm n (vsub x y)) (fun x => nrm2 n (vsub x y))) by (intros; apply norm_sq).
  rewrite (decompose n xs y NX). pose proof (nrm2_nonneg n (vsub (average xs) y)) as N. pose proof (INR_pos xs NX) as Q.
  pose proof (Rmult_le_pos _ _ (Rlt_le _ _ Q) N). split; [lra|]. split.
  - intro Z. assert (Z2 : INR (length xs) * nrm2 n (vsub (average xs) y) = 0) by lra. apply Rmult_integral in Z2. destruct Z2 as [Z2|Z2]; [lra|].
    intros i Hi. pose proof (nrm2_zero_inv n _ (Req_le _ _ Z2) i Hi) as X. unfold vsub in X. lra.
  - intro S. rewrite (nrm2_ext n (vsub (average xs) y) vzero), nrm2_zero; [lra|]. intros i Hi. unfold vsub, vzero. rewrite (S i Hi). lra.
Qed.

(** x error: the distance of the mean to the optimum; the mean squared distance
    of the agents to the optimum is its square plus the mean squared consensus
    error. *)
Theorem C50_x_error : forall n l x_opt it xs, (0 <= it)%Z -> Forall recorded l -> l <> [] -> Forall2 (state_at it) l xs ->
  exists r es, x_error n l x_opt it = Ok r /\ r = norm n (vsub (average xs) x_opt) /\
    (r = 0 <-> same n (average xs) x_opt) /\
    consensus_error n l it = Ok es /\
    rsum (map (fun x => norm n (vsub x x_opt) * norm n (vsub x x_opt)) xs) / INR (length l)
    = r * r + rsum (map (fun e => e * e) es) / INR (length l).
Proof.
  intros n l xo it xs P R NE F. pose proof (proj2 (F2_states it l xs P R) F) as F'.
  exists (norm n (vsub (average xs) xo)), (map (fun x => norm n (vsub (average xs) x)) xs).
  assert (NX : xs <> []) by (intros ->; inversion F; subst; congruence).
  split; [unfold x_error; rewrite (proj2 (x_mean_ok l it (average xs))) by eauto; reflexivity|].
  split; auto. split; [apply (l2norm_sub_zero n)|]. split; [apply consensus_ok; eauto|].
  rewrite (F2_len _ _ _ F). rewrite map_map.
  rewrite (rsum_map_ext (fun x => norm n (vsub (average xs) x) * norm n (vsub (average xs) x)) (fun x => nrm2 n (vsub (average xs) x))) by (intros; apply norm_sq).
  rewrite (rsum_map_ext (fun x => norm n (vsub x xo) * norm n (vsub x xo)) (fun x => nrm2 n (vsub x xo))) by (intros; apply norm_sq).
  rewrite norm_sq, (decompose n xs xo NX). pose proof (INR_pos xs NX). field. lra.
Qed.

(** gradient norm: the norm of the average gradient at the mean; for convex
    costs it vanishes only at a minimiser, so that the regret is then zero *)
Theorem C50_gradient_norm : forall n l it xs, (0 <= it)%Z -> Forall recorded l -> l <> [] -> Forall2 (state_at it) l xs ->
  let mean := average xs in
  exists g, gradient_norm n l it = Ok g /\
    g = norm n (average (map (fun a => c_grad (v_cost a) mean) l)) /\ 0 <= g /\
    (Forall (fun a => convex_cost n (v_cost a)) l -> g = 0 -> minimises l mean).
Proof.
  intros n l it xs P R NE F mean. pose proof (proj2 (F2_states it l xs P R) F) as F'.
  exists (norm n (average (map (fun a => c_grad (v_cost a) mean) l))).
  split; [unfold gradient_norm; rewrite (proj2 (x_mean_ok l it mean)) by (exists xs; auto); cbn [rbind]; rewrite average_eq; reflexivity|].
  split; auto. split; [apply norm_nonneg|]. intros C Z z. pose proof (proj1 (l2norm_zero n _) Z) as S. unfold same, average, vzero in S.
  assert (G : rsum (map (fun a => dot n (c_grad (v_cost a) mean) (vsub z mean)) l) = 0).
  { unfold dot. rewrite rsum_sumn. rewrite (sumn_ext n _ (fun _ => 0 * 0)).
    - rewrite sumn_scal. lra.
    - intros i Hi. specialize (S i Hi). rewrite map_map, map_length in S.
      rewrite (rsum_map_ext (fun a => c_grad (v_cost a) mean i * vsub z mean i) (fun a => vsub z mean i * c_grad (v_cost a) mean i)) by (intros; ring).
      rewrite rsum_map_scal. pose proof (INR_pos l NE) as Q.
      assert (rsum (map (fun a => c_grad (v_cost a) mean i) l) = 0).
      { apply (Rmult_eq_reg_r (/ INR (length l))); [|apply Rinv_neq_0_compat; lra]. unfold Rdiv in S. rewrite S. lra. }
      rewrite H. lra. }
  unfold total_cost. clear S Z F F' NE R.
  assert (H : rsum (map (fun a => c_fun (v_cost a) mean) l) + rsum (map (fun a => dot n (c_grad (v_cost a) mean) (vsub z mean)) l) <= rsum (map (fun a => c_fun (v_cost a) z) l)).
  { clear G. induction C as [|a l Ca C IH]; cbn [map]; [rewrite !rsum_nil; lra|]. rewrite !rsum_cons. specialize (Ca mean z). lra. }
  lra.
Qed.

(** drift: zero exactly for the clients that hold the server's state *)
Theorem C50_drift : forall n l s it xs sx, (0 <= it)%Z -> Forall recorded l -> recorded s -> state_at it s sx -> Forall2 (state_at it) l xs ->
  exists ds, drifts n l s it = Ok ds /\ Forall2 (fun x d => 0 <= d /\ (d = 0 <-> same n x sx)) xs ds.
Proof.
  intros n l s it xs sx P R Rs S F. exists (map (fun x => norm n (vsub x sx)) xs). split.
  - apply drifts_ok. exists sx, xs. split; [now apply state_at_get|]. split; auto. now apply (F2_states it l xs P R).
  - clear F. induction xs as [|x xs IH]; cbn [map]; constructor; auto. split; [apply norm_nonneg|apply (l2norm_sub_zero n)].
Qed.

(** Two agents in one dimension with costs (x-1)^2 and (x+1)^2, snapshots at
    0,2 and 0,3. *)
Definition cst (r : R) : vec := fun _ => r.
Definition qcost (c : R) : mcost := mkCost (fun x => (x 0%nat - c) * (x 0%nat - c)) (fun x => cst (2 * (x 0%nat - c))) 1.
Definition vw (id : nat) (c : R) (log : list (Z * vec)) : aview :=
  mkView id (qcost c) (h_run log) 0 (fun _ => 0%nat) 0%Qc 0%Qc 0%Qc 0.
Definition log1 : list (Z * vec) := [(0%Z, cst 0); (2%Z, cst 4)].
Definition log2 : list (Z * vec) := [(0%Z, cst 1); (3%Z, cst 2)].
Definition two : list aview := [vw 0 1 log1; vw 1 (-1) log2].
Example two_recorded : Forall recorded two.
Proof. repeat constructor; [exists log1|exists log2]; reflexivity. Qed.
Example two_states : Forall2 (state_at 2) two [cst 4; cst 1].
Proof. apply (F2_states 2 two [cst 4; cst 1]); [lia|apply two_recorded|]. repeat constructor. Qed.
Example C49_case : all_sorted_iterations two = [0; 2; 3]%Z /\ x_mean two 2 = Ok (average [cst 4; cst 1]).
Proof.
  split; [reflexivity|]. apply (C49_nearest_preceding 1 two 2); [lia|apply two_recorded|].
  exists [cst 4; cst 1]. split; [apply two_states|]. split; [discriminate|reflexivity].
Qed.
Example two_min : minimises two (cst 0).
Proof. intro z. cbv - [Rplus Rmult Rminus Ropp IZR Rle]. pose proof (Rle_0_sqr (z 0%nat)) as Q. unfold Rsqr in Q. nra. Qed.
Example C50_case : exists r, regret two (cst 0) 2 = Ok r /\ r = 25 / 4.
Proof.
  destruct (C50_regret two (cst 0) 2 _ ltac:(lia) two_recorded ltac:(discriminate) two_states) as (r & E & V & _).
  exists r. split; auto. rewrite V. cbv - [Rplus Rmult Rminus Ropp Rdiv Rinv IZR]. field.
Qed.
Example C50_case_consensus : exists es, consensus_error 1 two 2 = Ok es /\ es = [sqrt (9/4); sqrt (9/4)].
Proof.
  destruct (C50_consensus 1 two 2 _ ltac:(lia) two_recorded ltac:(discriminate) two_states) as (es & E & V & _).
  exists es. split; auto. rewrite V. cbn [map].
  f_equal; [|f_equal]; unfold norm; f_equal; cbv - [Rplus Rmult Rminus Ropp Rdiv Rinv IZR]; field.
Qed.

(** ** C62: tables and plots *)

(** Plot data: one value per algorithm, trial, position in the metric's output
    and iteration of the axis; table data: the same values at the last
    iteration of the axis, whether or not the metric is also plotted. *)
Theorem C62_plots_and_tables : forall (Alg : Type) (to32 : fval -> fval) t cost plots tables (states : list (Alg * list trial)) pr tb,
  (forall m m', In m (plots ++ tables) -> In m' (plots ++ tables) -> m_id m = m_id m' -> m = m') ->
  compute_metrics to32 t cost plots tables states = Ok (pr, tb) ->
  let axis := all_iterations (map (fun p => (fst p, map (from_network t cost) (snd p))) states) in
  let value m alg i j it v := exists p tr vals u, In p states /\ fst p = alg /\ nth_error (snd p) i = Some tr /\
      m_compute m (from_network t cost tr) it = Ok vals /\ nth_error vals j = Some u /\ v = clamp (to32 u) in
  axis <> [] ->
  (forall m, In m plots -> exists f, dget Nat.eqb pr (m_id m) = Some f /\
     forall alg i j it v, In (mkRow alg i j it v) f <-> In it axis /\ value m alg i j it v) /\
  (exists last, In last axis /\ (forall k, In k axis -> (k <= last)%Z) /\
   forall m, In m tables -> exists f, dget Nat.eqb tb (m_id m) = Some f /\
     forall alg i j v, In (alg, i, j, v) f <-> value m alg i j last v).
Proof.
  intros Alg to32 t cost plots tables states pr tb U E axis value NE.
  unfold compute_metrics in E. fold axis in E. set (views := map _ states) in *.
  apply rbind_ok in E. destruct E as (pr' & Ep & E). apply rbind_ok in E. destruct E as (tb' & Et & [= <- <-]).
  assert (V : forall m alg i j it v, (exists p nv vals u, In p views /\ nth_error (snd p) i = Some nv /\ m_compute m nv it = Ok vals /\
      nth_error vals j = Some u /\ alg = fst p /\ v = clamp (to32 u)) <-> value m alg i j it v).
  { intros m alg i j it v. unfold value. split.
    - intros (p & nv & vals & u & Ip & Nv & Ev & Nu & -> & ->). destruct (proj1 (in_views t cost states i nv (fst p))) as (q & tr & Iq & Nt & Ef & ->); [eauto|].
      exists q, tr, vals, u. auto 8.
    - intros (q & tr & vals & u & Iq & <- & Nt & Ev & Nu & ->). destruct (proj2 (in_views t cost states i (from_network t cost tr) (fst q))) as (p & Ip & Nv & Ef); [eauto 8|].
      exists p, (from_network t cost tr), vals, u. auto 8. }
  unfold plot_metrics in Ep. unfold table_metrics in Et. destruct axis as [|i0 its] eqn:AX; [congruence|]. rewrite <- AX in *.
  set (last := fold_left Z.max its i0) in *.
  assert (LM : forall k, In k axis -> (k <= last)%Z).
  { intros k Ik. rewrite AX in Ik. apply fold_max_ge. destruct Ik as [->|Ik]; auto. }
  assert (LI : In last axis).
  { rewrite AX. unfold last. destruct (fold_max_in its i0) as [->|I]; [left; auto|right; auto]. }
  destruct (fold_dict m_id (plot_frame to32 views axis) plots [] pr' Ep) as (PF & PN).
  { intros; apply U; auto; apply in_app_iff; auto. }
  destruct (fold_dict m_id (table_frame to32 views last pr') tables [] tb' Et) as (TF & _).
  { intros; apply U; auto; apply in_app_iff; auto. }
  assert (PR : forall m f, In m plots -> plot_frame to32 views axis m = Ok f ->
     forall alg i j it v, In (mkRow alg i j it v) f <-> In it axis /\ value m alg i j it v).
  { intros m f Im Ef alg i j it v. rewrite (plot_frame_rows to32 views axis m f _ Ef). cbn [w_alg w_trial w_agent w_iter w_value].
    rewrite <- V. split.
    - intros (p & nv & vals & u & ? & ? & ? & ? & ? & ? & ?). split; auto. exists p, nv, vals, u. auto 8.
    - intros (? & p & nv & vals & u & ? & ? & ? & ? & ? & ?). exists p, nv, vals, u. auto 8. }
  split.
  - intros m Im. destruct (PF m Im) as (f & Ef & Df). exists f. split; [exact Df|]. now apply PR.
  - exists last. split; auto. split; auto. intros m Im. destruct (TF m Im) as (g & Eg & Dg). exists g. split; [exact Dg|].
    intros alg i j v. unfold table_frame in Eg. apply rbind_ok in Eg. destruct Eg as (f & Ef & [= <-]).
    assert (DI : forall w, drop_iter w = (alg, i, j, v) <-> exists it, w = mkRow alg i j it v).
    { intros [wa wi wj wt wv]. unfold drop_iter. cbn. split; [intros [= -> -> -> ->]; eauto|intros (it & [= -> -> -> -> ->]); auto]. }
    rewrite in_map_iff. destruct (in_dec Nat.eq_dec (m_id m) (map m_id plots)) as [J|J].
    + apply in_map_iff in J. destruct J as (m' & Em & Im').
      assert (m' = m) by (apply U; auto; apply in_app_iff; auto). subst m'.
      destruct (PF m Im') as (f' & Ef' & Df'). rewrite Df' in Ef. injection Ef as <-. split.
      * intros (w & Ew & Iw). apply filter_In in Iw. destruct Iw as (Iw & T). apply Z.eqb_eq in T.
        apply DI in Ew. destruct Ew as (it & ->). cbn in T. subst it. now apply (PR m f' Im' Ef') in Iw.
      * intro Hv. exists (mkRow alg i j last v). split; [now apply DI; eauto|]. apply filter_In. split; [now apply (PR m f' Im' Ef')|apply Z.eqb_refl].
    + rewrite PN in Ef by auto. cbn in Ef.
      split.
      * intros (w & Ew & Iw). apply DI in Ew. destruct Ew as (it & ->).
        apply (at_iter_rows to32 views m last f _ Ef) in Iw. cbn [w_alg w_trial w_agent w_iter w_value] in Iw.
        apply V. destruct Iw as (p & nv & vals & u & ? & ? & ? & ? & ? & _ & ?). exists p, nv, vals, u. auto 8.
      * intro Hv. exists (mkRow alg i j last v). split; [now apply DI; eauto|]. apply (at_iter_rows to32 views m last f _ Ef).
        cbn [w_alg w_trial w_agent w_iter w_value]. apply V in Hv. destruct Hv as (p & nv & vals & u & ? & ? & ? & ? & ? & ?). exists p, nv, vals, u. auto 8.
Qed.

(** No value is reported as NaN, and finite values are in range. *)
Theorem C62_values_clamped : forall v, clamp v <> NaN /\
  (forall r, clamp v = Fin r <-> v = Fin r /\ - 10 ^ 30 <= r <= 10 ^ 30).
Proof.
  intro v. unfold clamp, max_abs. destruct v as [r| | |];
    try (split; [discriminate|intro r'; split; [discriminate|intros (X & _); discriminate X]]).
  destruct (Rlt_dec (10 ^ 30) r) as [H|H].
  { split; [discriminate|]. intro r'. split; [discriminate|]. intros (X & Y). injection X as X. rewrite <- X in Y. lra. }
  destruct (Rlt_dec r (- 10 ^ 30)) as [H'|H'].
  { split; [discriminate|]. intro r'. split; [discriminate|]. intros (X & Y). injection X as X. rewrite <- X in Y. lra. }
  split; [discriminate|]. intro r'. split; [intro X; split; auto; injection X as X; rewrite <- X; lra|intros (X & _); exact X].
Qed.

(** ** C63: computing metrics again *)

(** With metrics that do not report oracle calls, computing metrics twice on
    the same result gives the same data. *)
Theorem C63_repeatable_partial : forall (Alg : Type) (to32 : fval -> fval) t cost plots tables (states : list (Alg * list trial)) plots' tables',
  Forall insensitive plots -> Forall insensitive tables ->
  compute_metrics to32 t cost plots tables (after_metrics t cost plots' tables' states) = compute_metrics to32 t cost plots tables states.
Proof.
  intros Alg to32 t cost plots tables states plots' tables' IP IT. unfold compute_metrics.
  pose proof (after_same t cost plots' tables' states) as F. rewrite (iterations_same _ _ F).
  set (its := all_iterations _). rewrite (plots_same to32 _ _ plots its IP F).
  destruct (plot_metrics to32 _ plots its) as [pr| |]; cbn [rbind]; auto.
  rewrite (tables_same to32 _ _ tables its pr IT F). reflexivity.
Qed.
(** All library metrics modelled except the four call counts qualify. *)
Theorem C63_insensitive : forall n x_opt id, Forall insensitive
  [Regret id x_opt; GradientNorm n id; XError n id x_opt; ConsensusError n id; Loss id; XUpdates id;
   SentMessages id; ReceivedMessages id; SentMessagesDropped id; ClientDrift n id; FractionSelected id].
Proof.
  intros. repeat constructor; auto using Regret_ins, GradientNorm_ins, XError_ins, Consensus_ins, Loss_ins, XUpdates_ins, Sent_ins, Recv_ins, Drop_ins, Drift_ins, Fraction_ins.
Qed.

(** The first computation reports the calls counted during the run, one value
    per client in order. *)
Theorem C63_first_computation : forall (Alg : Type) to32 t cost plots tables (states : list (Alg * list trial)) pr tb id k,
  (forall m m', In m (plots ++ tables) -> In m' (plots ++ tables) -> m_id m = m_id m' -> m = m') ->
  compute_metrics to32 t cost plots tables states = Ok (pr, tb) ->
  In (Calls id k) tables ->
  all_iterations (map (fun p => (fst p, map (from_network t cost) (snd p))) states) <> [] ->
  exists f, dget Nat.eqb tb id = Some f /\
    forall alg i j v, In (alg, i, j, v) f <-> exists p tr a, In p states /\ fst p = alg /\ nth_error (snd p) i = Some tr /\
      nth_error (agents t) j = Some a /\ v = clamp (to32 (Fin (INR (c_count (tr_count tr) a k)))).
Proof.
  intros Alg to32 t cost plots tables states pr tb id k U E I NE.
  destruct (C62_plots_and_tables Alg to32 t cost plots tables states pr tb U E NE) as (_ & last & _ & _ & T).
  destruct (T _ I) as (f & D & V). exists f. split; auto. intros alg i j v. rewrite V. clear V T.
  assert (G : forall tr, m_compute (Calls id k) (from_network t cost tr) last = Ok (map (fun a => Fin (INR (c_count (tr_count tr) a k))) (agents t))).
  { intro tr. cbn [Calls m_compute]. f_equal. unfold nv_agents, from_network, agents, is_server. cbn [nv_server nv_nodes].
    destruct (t_server t) as [s|].
    - induction (t_nodes t) as [|a l IH]; cbn [map filter]; auto. cbn [v_id from_agent]. destruct (negb (a =? s)%nat); cbn [map]; rewrite IH; reflexivity.
    - rewrite map_map. induction (t_nodes t) as [|a l IH]; cbn [map filter negb]; auto. rewrite IH. reflexivity. }
  split.
  - intros (p & tr & vals & u & Ip & <- & Nt & Ev & Nu & ->). rewrite G in Ev. injection Ev as <-.
    rewrite nth_error_map in Nu. destruct (nth_error (agents t) j) as [a|] eqn:Na; [|discriminate]. injection Nu as <-. exists p, tr, a. auto 8.
  - intros (p & tr & a & Ip & <- & Nt & Na & ->). exists p, tr, (map (fun a => Fin (INR (c_count (tr_count tr) a k))) (agents t)), (Fin (INR (c_count (tr_count tr) a k))).
    repeat split; auto. rewrite nth_error_map, Na. reflexivity.
Qed.

(** A second computation on the same result also reports the calls the first
    one made to evaluate the costs. *)
Definition duo : topo := mkTopo [0%nat; 1%nat] (fun a => [(1 - a)%nat]) None 1.
Definition duo_agent (a : agent_id) : agent vec :=
  mkAgent (Some (cst 0)) (h_run (if Nat.eqb a 0 then log1 else log2)) [] s_empty 0 0%Qc 0%Qc 0%Qc 0.
Definition duo_trial : trial := mkTrial (mkNet duo_agent 3 None [] 0 []) c_init.
Definition duo_cost (a : agent_id) : mcost := qcost (if Nat.eqb a 0 then 1 else -1).
Definition duo_states : list (nat * list trial) := [(0%nat, [duo_trial])].
Definition idf (v : fval) : fval := v.
Definition duo_plots : list metric := [Regret 0 (cst 0)].
Definition duo_tables : list metric := [Calls 1 KFunction].
Lemma duo_unique m m' : In m (duo_plots ++ duo_tables) -> In m' (duo_plots ++ duo_tables) -> m_id m = m_id m' -> m = m'.
Proof. cbn. intros [<-|[<-|[]]] [<-|[<-|[]]]; cbn; congruence. Qed.
Lemma duo_first : exists pr tb, compute_metrics idf duo duo_cost duo_plots duo_tables duo_states = Ok (pr, tb).
Proof. do 2 eexists. cbv - [clamp Rplus Rmult Rminus Ropp Rdiv Rinv IZR INR cst]. reflexivity. Qed.
Lemma duo_again : exists pr tb, compute_metrics idf duo duo_cost duo_plots duo_tables (after_metrics duo duo_cost duo_plots duo_tables duo_states) = Ok (pr, tb).
Proof. do 2 eexists. cbv - [clamp Rplus Rmult Rminus Ropp Rdiv Rinv IZR INR cst]. reflexivity. Qed.
Lemma clamp_nat k : (k <= 10)%nat -> clamp (idf (Fin (INR k))) = Fin (INR k).
Proof.
  intro H. apply (proj2 (C62_values_clamped _)). split; auto. pose proof (pos_INR k). apply le_INR in H.
  replace (INR 10) with 10 in H by (cbn; lra). assert (1 <= 10 ^ 29) by (apply pow_R1_Rle; lra). cbn [pow] in *. lra.
Qed.
Theorem C63_call_counts_refuted : ~ (forall (Alg : Type) to32 t cost plots tables (states : list (Alg * list trial)) r r',
  compute_metrics to32 t cost plots tables states = Ok r ->
  compute_metrics to32 t cost plots tables (after_metrics t cost plots tables states) = Ok r' -> snd r' = snd r).
Proof.
  intro H. destruct duo_first as (pr & tb & E). destruct duo_again as (pr' & tb' & E').
  specialize (H nat idf duo duo_cost duo_plots duo_tables duo_states _ _ E E'). cbn [snd] in H. subst tb'.
  destruct (C63_first_computation _ _ _ _ _ _ _ _ _ 1%nat KFunction duo_unique E) as (f & D & V); [left; auto|cbv; discriminate|].
  destruct (C63_first_computation _ _ _ _ _ _ _ _ _ 1%nat KFunction duo_unique E') as (f' & D' & V'); [left; auto|cbv; discriminate|].
  rewrite D in D'. injection D' as <-.
  assert (I : In (0%nat, 0%nat, 0%nat, Fin (INR 0)) f).
  { apply V. exists (0%nat, [duo_trial]), duo_trial, 0%nat. repeat split; try (left; auto); auto. symmetry. apply (clamp_nat 0). lia. }
  apply V' in I. destruct I as (p & tr & a & Ip & _ & Nt & Na & Ev).
  cbn [after_metrics duo_states map fst snd] in Ip. destruct Ip as [<-|[]]. cbn [snd nth_error] in Nt. injection Nt as <-.
  cbn in Na. injection Na as <-.
  match type of Ev with _ = clamp (idf (Fin (INR ?c))) => assert (X : c = 6%nat) by (vm_compute; reflexivity); rewrite X in Ev end.
  rewrite clamp_nat in Ev by lia. injection Ev as Ev. cbn in Ev. lra.
Qed.

(** Non-trivial instance of C62: the regret plotted at iteration 2. *)
Example C62_case : exists pr tb f, compute_metrics idf duo duo_cost duo_plots duo_tables duo_states = Ok (pr, tb) /\
  dget Nat.eqb pr 0%nat = Some f /\ exists r, In (mkRow 0%nat 0%nat 0%nat 2%Z (clamp (Fin r))) f /\ r = 25 / 4.
Proof.
  destruct duo_first as (pr & tb & E). exists pr, tb.
  destruct (C62_plots_and_tables _ _ _ _ _ _ _ _ _ duo_unique E) as (P & _); [cbv; discriminate|].
  destruct (P (Regret 0 (cst 0))) as (f & D & V); [left; auto|]. exists f. split; auto. split; auto.
  destruct C50_case as (r & Er & Vr). exists r. split; auto. apply V. split; [cbv; auto|].
  exists (0%nat, [duo_trial]), duo_trial, [Fin r], (Fin r). repeat split; auto; [left; auto|].
  cbn [Regret m_compute]. change (nv_agents (from_network duo duo_cost duo_trial)) with two. rewrite Er. reflexivity.
Qed.

(** The runs of [C49_axis_of_runs] exist: DGD for three iterations on the lossy
    path, snapshots every second iteration; the axis is 0, 2, 3. *)
Lemma dgd_axis A tr cost : A = case_p2p -> snd (r_world (run path3 (fun _ => 2%nat) A 0 blank)) = tr_net tr -> forall k,
  In k (all_iterations (map (fun p => (fst p, map (from_network path3 cost) (snd p))) [(A, [tr])])) <->
  (k = 0 \/ k = 2 \/ k = 3)%Z.
Proof.
  intros EA ET. assert (H := C49_axis_of_runs nat path3 lossy_env (fun _ => 2%nat) cost [(A, [tr])] (proj1 (proj1 path3_ok))).
  assert (N3 : al_iters A = 3%nat) by (rewrite EA; reflexivity).
  assert (CC : client_code path3 lossy_env A) by (rewrite EA; apply (p2p_class_ok path3 lossy_env qgrad qprox 3 case_p2p case_p2p_class)).
  assert (O : r_out (run path3 (fun _ => 2%nat) A 0 blank) = Finished) by (rewrite EA; apply case_p2p_out).
  assert (I0 : forall a, In a (t_nodes path3) -> exists x0, initialised (snd (al_init A blank)) a x0).
  { intros a Ia. rewrite EA. unfold case_p2p. cbn [p2p al_init]. unfold do_init.
    rewrite (agents_p2p path3 eq_refl). apply do_init_in; [apply path3_ok|exact Ia]. }
  clear EA. intro k. rewrite H; clear H.
  - split.
    + intros (A' & trs & a & [E|[]] & _ & _ & [->|(i & -> & D)]); [now left|]. injection E as <- <-. rewrite N3 in D. destruct D as (D1 & D2).
      assert (X : (i = 1 \/ i = 2 \/ i = 3)%nat) by lia. destruct X as [->|[->| ->]]; [destruct D2 as [D2|D2]; discriminate|lia|lia].
    + intro K. exists A, [tr], 0%nat. split; [now left|]. split; [discriminate|]. split; [now left|].
      rewrite N3. destruct K as [->|[->| ->]]; [now left|right; exists 2%nat|right; exists 3%nat];
      (split; [reflexivity|]); unfold due; (split; [lia|]); [now left|now right].
  - intros A' trs tr' [E|[]] I. injection E as <- <-. destruct I as [<-|[]]. split; [exact CC|]. exists blank. auto.
Qed.
Lemma mk_net n : n = tr_net (mkTrial n c_init). Proof. reflexivity. Qed.
Example C49_axis_case cost : exists A tr, r_out (run path3 (fun _ => 2%nat) A 0 blank) = Finished /\
  snd (r_world (run path3 (fun _ => 2%nat) A 0 blank)) = tr_net tr /\
  forall k, In k (all_iterations (map (fun p => (fst p, map (from_network path3 cost) (snd p))) [(A, [tr])])) <->
  (k = 0 \/ k = 2 \/ k = 3)%Z.
Proof.
  exists case_p2p. exists (mkTrial (snd (r_world (run path3 (fun _ => 2%nat) case_p2p 0 blank))) c_init).
  split; [apply case_p2p_out|]. split; [apply mk_net|]. apply dgd_axis; [reflexivity|apply mk_net].
Qed.

Print Assumptions C49_axis_of_runs.
Print Assumptions C50_x_error.
Print Assumptions C62_plots_and_tables.
Print Assumptions C63_call_counts_refuted.
