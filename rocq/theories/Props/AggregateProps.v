(** C62 (no repeated rows) and C65: aggregation across agents and trials. *)
From Coq Require Import Reals List Bool Arith ZArith Lia Lra Permutation Sorted String.
From Verif.Model Require Import Messages PyDict History Vec Network Metrics Aggregate.
From Verif.Spec Require Import MetricsSpec AggregateSpec.
From Verif.Proofs Require Import PyDictProofs SortProofs EmpiricalProofs MetricsProofs MetricsPipeline AggregateProofs AggregateFrames.
From Verif.Props Require Import MetricsProps.
Import ListNotations.
Local Open Scope R_scope.

Section Frames.
  Context {Alg : Type}.
  Variables (to32 : fval -> fval) (t : topo) (cost : agent_id -> mcost) (plots tables : list metric) (states : list (Alg * list trial)).
  Let views := map (fun p => (fst p, map (from_network t cost) (snd p))) states.
  Let axis := all_iterations views.
  Lemma axis_nodup : NoDup axis.
  Proof.
    assert (S : StronglySorted Z.lt axis) by apply (C49_axis_is_union Alg t cost states). induction S as [|k l S IH F]; constructor; [|exact IH].
    intro I. rewrite Forall_forall in F. specialize (F k I). lia.
  Qed.
  Lemma views_nodup : NoDup (map fst states) -> NoDup (map fst views).
  Proof. unfold views. now rewrite map_map. Qed.
  Lemma frames pr tb : (forall m m', In m (plots ++ tables) -> In m' (plots ++ tables) -> m_id m = m_id m' -> m = m') ->
    NoDup (map fst states) -> compute_metrics to32 t cost plots tables states = Ok (pr, tb) -> axis <> [] ->
    (forall m, In m plots -> exists f, dget Nat.eqb pr (m_id m) = Some f /\ NoDup (map rkey f)) /\
    (forall m, In m tables -> exists f, dget Nat.eqb tb (m_id m) = Some f /\ NoDup (map tkey f)).
  Proof.
    intros U ND E NE. unfold compute_metrics in E. fold views in E. fold axis in E.
    apply rbind_ok in E. destruct E as (pr' & Ep & E). apply rbind_ok in E. destruct E as (tb' & Et & [= <- <-]).
    unfold plot_metrics in Ep. unfold table_metrics in Et. destruct axis as [|i0 its] eqn:AX; [congruence|]. rewrite <- AX in *.
    set (last := fold_left Z.max its i0) in *.
    destruct (fold_dict m_id (plot_frame to32 views axis) plots [] pr' Ep) as (PF & PN). { intros; apply U; auto; apply in_app_iff; auto. }
    destruct (fold_dict m_id (table_frame to32 views last pr') tables [] tb' Et) as (TF & _). { intros; apply U; auto; apply in_app_iff; auto. }
    assert (PD : forall m f, plot_frame to32 views axis m = Ok f -> NoDup (map rkey f)).
    { intros m f. apply plot_frame_nodup; [now apply views_nodup|apply axis_nodup]. }
    split.
    - intros m Im. destruct (PF m Im) as (f & Ef & Df). exists f. split; [exact Df|]. eapply PD; eauto.
    - intros m Im. destruct (TF m Im) as (g & Eg & Dg). exists g. split; [exact Dg|]. unfold table_frame in Eg. apply rbind_ok in Eg. destruct Eg as (f & Ef & [= <-]).
      assert (X : NoDup (map rkey f) /\ forall w, In w f -> w_iter w = last).
      { destruct (dget Nat.eqb pr' (m_id m)) as [h|] eqn:D.
        - injection Ef as <-. split; [|intros w I; apply filter_In in I; apply Z.eqb_eq, I]. apply nodup_filter_map.
          destruct (in_dec Nat.eq_dec (m_id m) (map m_id plots)) as [J|J].
          + apply in_map_iff in J. destruct J as (m' & Em & Im'). destruct (PF m' Im') as (f' & Ef' & Df'). rewrite Em in Df'. rewrite Df' in D. injection D as <-. eapply PD; eauto.
          + rewrite PN in D by auto. discriminate.
        - apply (at_iter_nodup to32 views m last f (views_nodup ND) Ef). }
      apply (drop_nodup f last); apply X.
  Qed.
End Frames.

(** Every frame has at most one row for an algorithm, trial, agent and
    iteration. *)
Theorem C62_no_duplicate_rows (Alg : Type) (to32 : fval -> fval) t cost plots tables (states : list (Alg * list trial)) pr tb :
  (forall m m', In m (plots ++ tables) -> In m' (plots ++ tables) -> m_id m = m_id m' -> m = m') -> NoDup (map fst states) ->
  compute_metrics to32 t cost plots tables states = Ok (pr, tb) ->
  all_iterations (map (fun p => (fst p, map (from_network t cost) (snd p))) states) <> [] ->
  (forall m, In m plots -> exists f, dget Nat.eqb pr (m_id m) = Some f /\ NoDup (map (fun w => (w_alg w, w_trial w, w_agent w, w_iter w)) f)) /\
  (forall m, In m tables -> exists f, dget Nat.eqb tb (m_id m) = Some f /\ NoDup (map fst f)).
Proof. apply frames. Qed.

Lemma ravg_mean l : ravg l = mean l. Proof. reflexivity. Qed.
Lemma rstd_var d l : rstd d l = sqrt (variance d l).
Proof. unfold rstd, variance. do 3 f_equal. apply map_ext. intro x. rewrite ravg_mean. ring. Qed.
Lemma nodup_fst {A B} (l : list (A * B)) a b b' : NoDup (map fst l) -> In (a, b) l -> In (a, b') l -> b = b'.
Proof.
  induction l as [|(x & y) l IH]; cbn [map fst In]; [tauto|]. intro N. inversion N as [|? ? N1 N2]. subst.
  intros [H1|I] [H2|I']; [congruence| | |now apply IH]; exfalso; apply N1.
  - injection H1 as -> ->. change a with (fst (a, b')). now apply in_map.
  - injection H2 as -> ->. change a with (fst (a, b)). now apply in_map.
Qed.

(** The finite values a metric has for each trial, as reported. *)
Definition reported (to32 : fval -> fval) t cost (m : metric) (it : Z) (tr : trial) (rs : list R) : Prop :=
  rs <> [] /\ exists vals, m_compute m (from_network t cost tr) it = Ok vals /\ map (fun u => clamp (to32 u)) vals = map Fin rs.

Section Values.
  Context {Alg : Type}.
  Variables (to32 : fval -> fval) (t : topo) (cost : agent_id -> mcost) (states : list (Alg * list trial)) (m : metric) (it : Z) (p : Alg * list trial) (values : list (list R)).
  Hypotheses (ND : NoDup (map fst states)) (IP : In p states) (RV : Forall2 (reported to32 t cost m it) (snd p) values).
  Let vals (i : nat) : list R := nth i values [].
  Lemma value_iff i j v : (exists q tr us u, In q states /\ fst q = fst p /\ nth_error (snd q) i = Some tr /\
      m_compute m (from_network t cost tr) it = Ok us /\ nth_error us j = Some u /\ v = clamp (to32 u)) <->
    (i < List.length (snd p))%nat /\ exists r, nth_error (vals i) j = Some r /\ v = Fin r.
  Proof.
    assert (AT : forall i tr, nth_error (snd p) i = Some tr -> reported to32 t cost m it tr (vals i)).
    { clear - RV. unfold vals. induction RV as [|tr rs l ys H F IH]; intros [|i] tr' E; cbn in *; try discriminate; [congruence|now apply IH]. }
    assert (ID : forall us rs, map (fun u => clamp (to32 u)) us = map Fin rs ->
      (exists u, nth_error us j = Some u /\ v = clamp (to32 u)) <-> exists r, nth_error rs j = Some r /\ v = Fin r).
    { intros us rs E. rewrite <- nth_error_map_Fin, <- E, nth_error_map. destruct (nth_error us j) as [u|]; cbn; split.
      - intros (u' & [= <-] & ->). reflexivity.
      - intros [= <-]. eauto.
      - intros (u' & [=] & _).
      - discriminate. }
    split.
    - intros (q & tr & us & u & Iq & Eq & Nt & Eu & Nu & ->). destruct p as (a & trs), q as (a' & trs'). cbn [fst snd] in *. subst a'.
      rewrite (nodup_fst _ _ _ _ ND Iq IP) in Nt. split; [apply nth_error_Some; congruence|].
      destruct (AT i tr Nt) as (_ & us' & Eu' & EM). rewrite Eu in Eu'. injection Eu' as <-. apply (ID us _ EM). eauto.
    - intros (L & X). destruct (nth_error (snd p) i) as [tr|] eqn:Nt; [|apply nth_error_None in Nt; lia].
      destruct (AT i tr Nt) as (_ & us & Eu & EM). apply (ID us _ EM) in X. destruct X as (u & Nu & ->). exists p, tr, us, u. auto 8.
  Qed.
  Lemma vals_ne i : (i < List.length (snd p))%nat -> vals i <> [].
  Proof.
    unfold vals. revert i. clear - RV.
    induction RV as [|tr rs l ys H F IH]; intros [|i] L; cbn in L |- *; [lia|lia|apply H|].
    apply (IH F). lia.
  Qed.
  Lemma vals_map {B} (g : list R -> B) : map (fun i => g (vals i)) (seq 0 (List.length (snd p))) = map g values.
  Proof.
    pose proof (F2_length _ _ _ RV) as L. rewrite L. unfold vals. clear. induction values as [|v l IH]; [reflexivity|].
    cbn [List.length seq map nth]. f_equal. rewrite <- seq_shift, map_map. exact IH.
  Qed.
End Values.

(** ** C65 *)
(** Plots show, at every iteration of the axis, the mean over trials of the mean
    over agents, between the smallest and largest trial mean. *)
Theorem C65_plot (Alg : Type) aeqb (aspec : forall a b : Alg, reflect (a = b) (aeqb a b)) to32 round odd t cost plots tables states pr tb m p it values :
  (forall m m', In m (plots ++ tables) -> In m' (plots ++ tables) -> m_id m = m_id m' -> m = m') -> NoDup (map fst states) ->
  compute_metrics to32 t cost plots tables states = Ok (pr, tb) -> In m plots -> In p states -> snd p <> [] ->
  In it (all_iterations (map (fun p => (fst p, map (from_network t cost) (snd p))) states)) ->
  Forall2 (reported to32 t cost m it) (snd p) values ->
  exists f lo hi, dget Nat.eqb pr (m_id m) = Some f /\
    is_min (map mean values) lo /\ is_max (map mean values) hi /\ lo <= mean (map mean values) <= hi /\
    forall x, In (fst p, it, x) (aggregate_plot aeqb round odd f) <->
      x = (round (Fin (mean (map mean values))), round (Fin lo), round (Fin hi)).
Proof.
  intros U ND E Im Ip NT It R.
  assert (NE : all_iterations (map (fun p => (fst p, map (from_network t cost) (snd p))) states) <> []) by (intro Z; rewrite Z in It; destruct It).
  destruct (proj1 (frames to32 t cost plots tables states pr tb U ND E NE) m Im) as (f & Df & NDf).
  destruct (proj1 (C62_plots_and_tables Alg to32 t cost plots tables states pr tb U E NE) m Im) as (f' & Df' & HF). rewrite Df in Df'. injection Df' as <-.
  assert (NV : map mean values <> []). { pose proof (F2_length _ _ _ R) as L. destruct values; [|discriminate]. destruct (snd p); [contradiction|discriminate]. }
  exists f, (rmin (map mean values)), (rmax (map mean values)). split; [exact Df|]. split; [now apply rmin_spec|]. split; [now apply rmax_spec|].
  split; [apply mean_between; [exact NV|now apply rmin_spec|now apply rmax_spec]|]. intro x.
  rewrite (aggregate_plot_spec aeqb aspec round odd f (fst p) it (List.length (snd p)) (fun i => nth i values [])).
  - cbn zeta. rewrite (vals_map to32 t cost m it p values R ravg). reflexivity.
  - exact NDf.
  - intros i j v. rewrite HF. rewrite <- (value_iff to32 t cost states m it p values ND Ip R i j v). tauto.
  - intros i L. exact (vals_ne to32 t cost m it p values R i L).
  - destruct (snd p); [contradiction|cbn; lia].
Qed.

(** With the same number of values in every trial that is the mean of all. *)
Theorem C65_grand_mean values n : (0 < n)%nat -> values <> [] -> Forall (fun rs => List.length rs = n) values ->
  mean (map mean values) = mean (List.concat values).
Proof.
  intros N NE F.
  assert (A : forall l, Forall (fun rs : list R => List.length rs = n) l -> rsum (List.concat l) = INR n * rsum (map mean l) /\ List.length (List.concat l) = (n * List.length l)%nat).
  { induction 1 as [|rs l H F' (I1 & I2)]; [cbn [List.concat map List.length]; rewrite ?rsum_nil; split; [change (rsum []) with 0; ring|cbn; lia]|]. cbn [List.concat map List.length]. split.
    - assert (X : forall a b, rsum (a ++ b) = rsum a + rsum b). { induction a as [|z a IHa]; intro b; cbn [app]; rewrite ?rsum_cons, ?rsum_nil; [lra|]. rewrite IHa. lra. }
      rewrite X, rsum_cons, I1. unfold mean at 2. rewrite H. field. apply not_0_INR. lia.
    - rewrite app_length, I2. lia. }
  destruct (A values F) as (S & L). unfold mean at 1 3. rewrite S, L, map_length, mult_INR. field.
  split; apply not_0_INR; [destruct values; [contradiction|discriminate]|lia].
Qed.

(** Statistics by name. *)
Lemma alias_valid s name : alias s = name /\ valid_statistic name <-> stands_for s name.
Proof.
  unfold alias. split.
  - intros (E & V). destruct (String.eqb_spec s "average"); [subst; constructor|]. destruct (String.eqb_spec s "avg"); [subst; constructor|].
    destruct (String.eqb_spec s "maximum"); [subst; constructor|]. destruct (String.eqb_spec s "minimum"); [subst; constructor|].
    destruct (String.eqb_spec s "mdn"); [subst; constructor|]. subst. now constructor.
  - intros [n V| | | | |]; try (split; [reflexivity|unfold valid_statistic; tauto]). split; [|exact V].
    destruct V as [->|[->|[->|[->| ->]]]]; reflexivity.
Qed.
Lemma stats_valid ddof s : dmem String.eqb (statistics ddof) s = true <-> valid_statistic s.
Proof.
  rewrite (dmem_In _ _ String.eqb String.eqb_spec). unfold valid_statistic. cbn. intuition auto.
Qed.
Lemma resolve_fold ddof l : forall d, NoDup (map fst d) -> Forall valid_statistic l -> (forall s f, In (s, f) d -> In (s, f) (statistics ddof)) ->
  let r := fold_left (fun d s => match dget String.eqb (statistics ddof) s with Some f => dset String.eqb d s f | None => d end) l d in
  NoDup (map fst r) /\ (forall s, In s (map fst r) <-> In s (map fst d) \/ In s l) /\ (forall s f, In (s, f) r -> In (s, f) (statistics ddof)).
Proof.
  induction l as [|s l IH]; intros d N V H; cbn [fold_left]; cbn zeta; [cbn; tauto|]. inversion V as [|? ? V1 V2]. subst.
  destruct (dget String.eqb (statistics ddof) s) as [f|] eqn:D.
  2:{ exfalso. apply stats_valid with (ddof := ddof) in V1. unfold dmem in V1. rewrite D in V1. discriminate. }
  pose proof (dget_In _ _ String.eqb String.eqb_spec _ _ _ D) as IS.
  pose proof (NoDup_dset _ _ String.eqb String.eqb_spec d s f N) as N'.
  destruct (IH (dset String.eqb d s f) N' V2) as (R1 & R2 & R3).
  - intros s' f' I. apply (dget_NoDup _ _ String.eqb String.eqb_spec) in I; [|exact N'].
    rewrite (dget_dset _ _ String.eqb String.eqb_spec) in I. destruct (String.eqb_spec s' s) as [->|NE]; [injection I as <-; exact IS|].
    apply (dget_In _ _ String.eqb String.eqb_spec) in I. now apply H.
  - split; [exact R1|]. split; [|exact R3]. intro s'. rewrite R2.
    assert (K : In s' (map fst (dset String.eqb d s f)) <-> s' = s \/ In s' (map fst d)).
    { change (In s' (dkeys (dset String.eqb d s f)) <-> s' = s \/ In s' (dkeys d)). rewrite (dkeys_dset _ _ String.eqb String.eqb_spec).
      destruct (dmem String.eqb d s) eqn:DM; [|rewrite in_app_iff; cbn; intuition congruence].
      apply (dmem_In _ _ String.eqb String.eqb_spec) in DM. intuition congruence. }
    rewrite K. cbn [In]. intuition auto.
Qed.
Lemma resolve_spec ddof names : let r := resolve_statistics ddof names in
  NoDup (map fst r) /\ (forall name, In name (map fst r) <-> shown names name) /\ (forall s f, In (s, f) r -> In (s, f) (statistics ddof)).
Proof.
  cbn zeta. unfold resolve_statistics.
  assert (DF : forall P : Prop, P -> NoDup (map fst (default_statistics ddof)) /\ (forall name, In name (map fst (default_statistics ddof)) <-> (name = "mean" \/ name = "std")%string) /\
    (forall s f, In (s, f) (default_statistics ddof) -> In (s, f) (statistics ddof))).
  { intros _ _. split; [repeat constructor; cbn; intuition discriminate|]. split; [cbn; intuition auto|]. intros s f [E|[E|[]]]; injection E as <- <-; cbn; auto. }
  destruct (DF True I) as (D1 & D2 & D3). destruct names as [l|]; cbn [shown]; [|auto].
  set (res := filter _ _).
  assert (RI : forall n, In n res <-> exists s, In s l /\ stands_for s n).
  { intro n. unfold res. rewrite filter_In, in_map_iff, stats_valid. split.
    - intros ((s & E & I) & V). exists s. split; [exact I|]. now apply alias_valid.
    - intros (s & I & S). apply alias_valid in S. destruct S. eauto. }
  destruct res as [|n0 rs] eqn:RE.
  - split; [exact D1|]. split; [|exact D3]. intro name. rewrite D2. split.
    + intro X. right. split; [|exact X]. intros s n I S. apply (RI n). eauto.
    + intros [(s & I & S)|(_ & X)]; [|exact X]. exfalso. apply (RI name). eauto.
  - rewrite <- RE in *. destruct (resolve_fold ddof res [] (NoDup_nil _)) as (R1 & R2 & R3); [|intros ? ? []|].
    { apply Forall_forall. intros n I. apply RI in I. destruct I as (s & _ & S). apply alias_valid in S. apply S. }
    split; [exact R1|]. split; [|exact R3]. intro name. rewrite R2. cbn [map In]. rewrite RI. split; [intros [[]|X]; left; exact X|]. intros [X|(N & _)]; [right; exact X|].
    exfalso. assert (I0 : In n0 res) by (rewrite RE; now left). apply RI in I0. destruct I0 as (s & I & S). exact (N s n0 I S).
Qed.
(** The statistics shown are exactly those the names stand for; unknown names
    are ignored, and mean and std are used when none is known or given. *)
Theorem C65_statistics_shown ddof names name : In name (map fst (resolve_statistics ddof names)) <-> shown names name.
Proof. apply resolve_spec. Qed.

Lemma statistic_ok ddof name fn : In (name, fn) (statistics ddof) ->
  (forall l l', Permutation l l' -> fn l = fn l') /\ forall l, l <> [] -> is_statistic ddof name l (fn l).
Proof.
  unfold is_statistic. cbn. intros [E|[E|[E|[E|[E|[]]]]]]; injection E as <- <-.
  - split; [apply ravg_perm|]. intros. left. auto.
  - split; [apply rstd_perm|]. intros. right. left. split; [reflexivity|apply rstd_var].
  - split; [apply rmax_perm|]. intros l N. right. right. left. split; [reflexivity|now apply rmax_spec].
  - split; [apply rmin_perm|]. intros l N. do 3 right. left. split; [reflexivity|now apply rmin_spec].
  - split; [apply rmedian_perm|]. intros l N. do 4 right. split; [reflexivity|apply rmedian_spec].
Qed.


(** Tables, metrics with several values per trial: for every statistic shown,
    mean and population standard deviation over trials of the statistic across
    the agents, at the last iteration. *)
Theorem C65_table_statistics (Alg : Type) aeqb (aspec : forall a b : Alg, reflect (a = b) (aeqb a b)) to32 round odd ddof t cost plots tables states pr tb m p names name last values :
  (forall m m', In m (plots ++ tables) -> In m' (plots ++ tables) -> m_id m = m_id m' -> m = m') -> NoDup (map fst states) ->
  compute_metrics to32 t cost plots tables states = Ok (pr, tb) -> In m tables -> In p states ->
  In last (all_iterations (map (fun p => (fst p, map (from_network t cost) (snd p))) states)) ->
  (forall k, In k (all_iterations (map (fun p => (fst p, map (from_network t cost) (snd p))) states)) -> (k <= last)%Z) ->
  Forall2 (reported to32 t cost m last) (snd p) values -> Exists (fun rs => (2 <= List.length rs)%nat) values -> shown names name ->
  exists f ss, dget Nat.eqb tb (m_id m) = Some f /\ Forall2 (is_statistic ddof name) values ss /\
    forall x, In (fst p, name, x) (aggregate_table aeqb round odd ddof names f) <->
      x = (round (Fin (mean ss)), round (Fin (sqrt (variance 0 ss)))).
Proof.
  intros U ND E Im Ip Il Lmax R TWO SH.
  assert (NE : all_iterations (map (fun p => (fst p, map (from_network t cost) (snd p))) states) <> []) by (intro Z; rewrite Z in Il; destruct Il).
  destruct (proj2 (frames to32 t cost plots tables states pr tb U ND E NE) m Im) as (f & Df & NDf).
  destruct (proj2 (C62_plots_and_tables Alg to32 t cost plots tables states pr tb U E NE)) as (last' & Il' & Lmax' & HT).
  assert (last' = last) by (pose proof (Lmax last' Il'); pose proof (Lmax' last Il); lia). subst last'.
  destruct (HT m Im) as (f' & Df' & HF). rewrite Df in Df'. injection Df' as <-. clear HT.
  assert (HI : forall i j v, In (fst p, i, j, v) f <-> (i < List.length (snd p))%nat /\ exists r, nth_error (nth i values []) j = Some r /\ v = Fin r).
  { intros i j v. rewrite HF. apply (value_iff to32 t cost states m last p values ND Ip R i j v). }
  destruct (resolve_spec ddof names) as (N1 & N2 & N3). apply N2 in SH. apply in_map_iff in SH. destruct SH as ((name' & fn) & <- & IS). cbn [fst].
  destruct (statistic_ok ddof name' fn (N3 _ _ IS)) as (FP & FS).
  exists f, (map fn values). split; [exact Df|]. split.
  { assert (NV : Forall (fun rs => rs <> []) values) by (clear - R; induction R as [|? ? ? ? (H & _)]; constructor; auto).
    clear - NV FS. induction NV; constructor; auto. }
  assert (T0 : (0 < List.length (snd p))%nat). { pose proof (F2_length _ _ _ R) as L. rewrite L. destruct TWO; cbn; lia. }
  intro x. rewrite (aggregate_table_stats aeqb aspec round odd ddof f (fst p) (List.length (snd p)) (fun i => nth i values []) NDf HI) with (fn := fn).
  - cbn zeta. rewrite (vals_map to32 t cost m last p values R fn). rewrite rstd_var. reflexivity.
  - exact (vals_ne to32 t cost m last p values R).
  - exact T0.
  - apply Exists_exists in TWO. destruct TWO as (rs & Irs & L2). apply (In_nth _ _ []) in Irs. destruct Irs as (i & Li & Ei). rewrite <- (F2_length _ _ _ R) in Li.
    destruct rs as [|r0 [|r1 rs]]; cbn in L2; try lia. exists i, 0%nat, i, 1%nat, (fst p), (fst p), (Fin r0), (Fin r1). rewrite !HI, Ei. cbn. repeat split; eauto.
  - exact N1.
  - exact IS.
  - exact FP.
Qed.
(** Metrics with one value per trial: mean and standard deviation of that value,
    under no statistic's name. *)
Theorem C65_table_single (Alg : Type) aeqb (aspec : forall a b : Alg, reflect (a = b) (aeqb a b)) to32 round odd ddof t cost plots tables states pr tb m p names last values :
  (forall m m', In m (plots ++ tables) -> In m' (plots ++ tables) -> m_id m = m_id m' -> m = m') -> NoDup (map fst states) ->
  compute_metrics to32 t cost plots tables states = Ok (pr, tb) -> In m tables -> In p states -> snd p <> [] ->
  In last (all_iterations (map (fun p => (fst p, map (from_network t cost) (snd p))) states)) ->
  (forall k, In k (all_iterations (map (fun p => (fst p, map (from_network t cost) (snd p))) states)) -> (k <= last)%Z) ->
  Forall2 (fun tr r => reported to32 t cost m last tr [r]) (snd p) values ->
  (forall q tr vals, In q states -> In tr (snd q) -> m_compute m (from_network t cost tr) last = Ok vals -> List.length vals = 1%nat) ->
  exists f, dget Nat.eqb tb (m_id m) = Some f /\
    forall x, In (fst p, ""%string, x) (aggregate_table aeqb round odd ddof names f) <->
      x = (round (Fin (mean values)), round (Fin (sqrt (variance 0 values)))).
Proof.
  intros U ND E Im Ip NT Il Lmax R1 ONE.
  assert (R : Forall2 (reported to32 t cost m last) (snd p) (map (fun r => [r]) values)) by (clear - R1; induction R1; cbn; constructor; auto).
  assert (NE : all_iterations (map (fun p => (fst p, map (from_network t cost) (snd p))) states) <> []) by (intro Z; rewrite Z in Il; destruct Il).
  destruct (proj2 (frames to32 t cost plots tables states pr tb U ND E NE) m Im) as (f & Df & NDf).
  destruct (proj2 (C62_plots_and_tables Alg to32 t cost plots tables states pr tb U E NE)) as (last' & Il' & Lmax' & HT).
  assert (last' = last) by (pose proof (Lmax last' Il'); pose proof (Lmax' last Il); lia). subst last'.
  destruct (HT m Im) as (f' & Df' & HF). rewrite Df in Df'. injection Df' as <-. clear HT.
  exists f. split; [exact Df|]. intro x.
  rewrite (aggregate_table_single aeqb aspec round odd ddof f (fst p) (List.length (snd p)) (fun i => nth i (map (fun r => [r]) values) []) NDf).
  - cbn zeta. rewrite (vals_map to32 t cost m last p (map (fun r => [r]) values) R (fun l => nth 0 l 0)). rewrite map_map. cbn [nth]. rewrite map_id, rstd_var. reflexivity.
  - intros i j v. rewrite HF. apply (value_iff to32 t cost states m last p (map (fun r => [r]) values) ND Ip R i j v).
  - exact (vals_ne to32 t cost m last p (map (fun r => [r]) values) R).
  - destruct (snd p); [contradiction|cbn; lia].
  - intros a i j v I. apply HF in I. destruct I as (q & tr & us & u & Iq & _ & Nt & Eu & Nu & _).
    pose proof (ONE q tr us Iq (nth_error_In _ _ Nt) Eu) as L. assert (j < List.length us)%nat by (apply nth_error_Some; congruence). lia.
Qed.

(** Instance: two trials of a network of two agents with 1 and 3 calls in the
    first, 5 and 7 in the second. *)
Definition called (x y : nat) : trial :=
  mkTrial (mkNet duo_agent 3 None [] 0 []) (Counting.mkC (fun _ => 0%Z) (fun a _ => if Nat.eqb a 0 then x else y)).
Definition agg_states : list (nat * list trial) := [(0%nat, [called 1 3; called 5 7])].
Definition agg_metric : metric := Calls 0 Counting.KFunction.
Definition agg_values : list (list R) := [[INR 1; INR 3]; [INR 5; INR 7]].
Lemma agg_unique m m' : In m ([agg_metric] ++ [agg_metric]) -> In m' ([agg_metric] ++ [agg_metric]) -> m_id m = m_id m' -> m = m'.
Proof. cbn. intros [<-|[<-|[]]] [<-|[<-|[]]] _; reflexivity. Qed.
Lemma agg_computed : exists pr tb, compute_metrics idf duo duo_cost [agg_metric] [agg_metric] agg_states = Ok (pr, tb).
Proof. do 2 eexists. cbv - [clamp Rplus Rmult Rminus Ropp Rdiv Rinv IZR INR cst]. reflexivity. Qed.
Lemma agg_reported it : Forall2 (reported idf duo duo_cost agg_metric it) (snd (0%nat, [called 1 3; called 5 7])) agg_values.
Proof.
  repeat constructor; try discriminate; (eexists; split; [reflexivity|]); cbn [map]; unfold Metrics.nv_agents; cbn - [clamp idf INR];
  rewrite !clamp_nat by lia; reflexivity.
Qed.
Lemma agg_means : map mean agg_values = [2; 6].
Proof. unfold agg_values, mean. cbn [map List.length]. rewrite !rsum_cons. change (rsum []) with 0. cbn [INR]. f_equal; [lra|]. f_equal. lra. Qed.
Example C65_plot_case odd : exists pr tb f, compute_metrics idf duo duo_cost [agg_metric] [agg_metric] agg_states = Ok (pr, tb) /\
  dget Nat.eqb pr 0%nat = Some f /\ In (0%nat, 2%Z, (Fin 4, Fin 2, Fin 6)) (aggregate_plot Nat.eqb idf odd f).
Proof.
  destruct agg_computed as (pr & tb & E). exists pr, tb.
  destruct (C65_plot nat Nat.eqb Nat.eqb_spec idf idf odd duo duo_cost [agg_metric] [agg_metric] agg_states pr tb agg_metric
    (0%nat, [called 1 3; called 5 7]) 2%Z agg_values) as (f & lo & hi & D & L & H & _ & V); auto using agg_unique, agg_reported.
  - repeat constructor. intros [].
  - left. reflexivity.
  - left. reflexivity.
  - discriminate.
  - cbv. auto.
  - exists f. split; auto. split; [exact D|]. apply V. rewrite agg_means in *. unfold idf.
    assert (lo = 2) by (destruct L as ([<-|[<-|[]]] & L); [reflexivity|specialize (L 2 (or_introl eq_refl)); lra]).
    assert (hi = 6) by (destruct H as ([<-|[<-|[]]] & H); [specialize (H 6 (or_intror (or_introl eq_refl))); lra|reflexivity]). subst.
    replace (mean [2; 6]) with 4; [reflexivity|]. unfold mean. cbn [List.length]. rewrite !rsum_cons. change (rsum []) with 0. cbn [INR]. lra.
Qed.
Example C65_table_case odd : exists pr tb f, compute_metrics idf duo duo_cost [agg_metric] [agg_metric] agg_states = Ok (pr, tb) /\
  dget Nat.eqb tb 0%nat = Some f /\ In (0%nat, "max"%string, (Fin 5, Fin 2)) (aggregate_table Nat.eqb idf odd 1 (Some ["maximum"%string; "nonsense"%string]) f).
Proof.
  destruct agg_computed as (pr & tb & E). exists pr, tb.
  destruct (C65_table_statistics nat Nat.eqb Nat.eqb_spec idf idf odd 1 duo duo_cost [agg_metric] [agg_metric] agg_states pr tb agg_metric
    (0%nat, [called 1 3; called 5 7]) (Some ["maximum"%string; "nonsense"%string]) "max"%string 3%Z agg_values) as (f & ss & D & SS & V); auto using agg_unique, agg_reported.
  - repeat constructor. intros [].
  - left. reflexivity.
  - left. reflexivity.
  - cbv. auto.
  - intros k. change (In k [0; 2; 3]%Z -> (k <= 3)%Z). cbn. intros [<-|[<-|[<-|[]]]]; lia.
  - constructor. cbn. lia.
  - left. exists "maximum"%string. split; [left; reflexivity|constructor].
  - exists f. split; auto. split; [exact D|]. apply V. unfold idf.
    assert (ES : ss = [3; 7]).
    { inversion SS as [|? s1 ? ss1 S1 SS1]. subst. inversion SS1 as [|? s2 ? ss2 S2 SS2]. subst. inversion SS2. subst.
      assert (X : forall a b s, a < b -> is_statistic 1 "max" [a; b] s -> s = b).
      { intros a b s L [(N & _)|[(N & _)|[(_ & M)|[(N & _)|(N & _)]]]]; try discriminate.
        destruct M as ([<-|[<-|[]]] & M); [specialize (M b (or_intror (or_introl eq_refl))); lra|reflexivity]. }
      cbn [INR] in S1, S2. apply X in S1; [|lra]. apply X in S2; [|lra]. subst. f_equal; [lra|]. f_equal. lra. }
    rewrite ES. unfold variance. cbn [map]. unfold mean. cbn [List.length Nat.sub]. rewrite !rsum_cons. change (rsum []) with 0. cbn [INR].
    replace ((3 + (7 + 0)) / (1 + 1)) with 5 by lra. f_equal. f_equal. symmetry. replace (((3 - 5) ^ 2 + ((7 - 5) ^ 2 + 0)) / (1 + 1)) with (Rsqr 2) by (unfold Rsqr; lra). apply sqrt_Rsqr. lra.
Qed.

Print Assumptions C62_no_duplicate_rows.
Print Assumptions C65_plot.
Print Assumptions C65_grand_mean.
Print Assumptions C65_statistics_shown.
Print Assumptions C65_table_statistics.
Print Assumptions C65_table_single.
