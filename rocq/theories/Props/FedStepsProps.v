(** C91, several local steps: FedAvg goes to the point at which the clients'
    moves balance, which is not the optimum in general. *)
From Coq Require Import Reals List Arith Lia Lra FunctionalExtensionality.
From Verif.Model Require Import Costs EmpiricalRisk PyDict History Messages Network Runner Vec P2P Fed.
From Verif.Spec Require Import P2PSpec FedSpec ConvSpec FedStepsSpec.
From Verif.Proofs Require Import CostProofs VecProofs EmpiricalProofs P2PRuns FedLock FedRuns FedRuns2 FedRuns3 FedRuns4 FedDerived ConvSolve ConvStack ConvFed ConvFed2.
From Verif.Props Require Import P2PProps FedProps ConvProps ConvFedProps.
Import ListNotations.
Open Scope R_scope.

Lemma steps_contract n F G m L a grad i : smooth_strongly_convex n (F i) (G i) m L -> 0 <= m -> 0 < L -> 0 <= a -> a * L <= 2 ->
  exact_gradients grad G -> 0 <= 1 - a * m * (2 - a * L) -> forall K x z s,
  local_steps grad i (fun y g => vsub y (vscal a g)) K x z s -> forall y, nrm2 n (vsub z (gradient_steps (G i) a K y)) <= (1 - a * m * (2 - a * L)) ^ K * nrm2 n (vsub x y).
Proof.
  intros SC M LP A AL EG Q K x z s H. induction H as [x|K x g z s (d & GE) LS IH]; intro y; [cbn [pow gradient_steps]; lra|].
  rewrite EG in GE. subst g. cbn [gradient_steps]. eapply Rle_trans; [apply IH|]. cbn [pow].
  pose proof (step_contracts n (F i) (G i) m L SC M LP a x y A AL) as C.
  apply Rmult_le_compat_l with (r := (1 - a * m * (2 - a * L)) ^ K) in C; [|now apply pow_le]. lra.
Qed.
Lemma nrm2_means n l (v u : agent_id -> vec) xs B : l <> [] -> (forall c, (c < n)%nat -> mean_over l u c = xs c) -> (forall i, In i l -> nrm2 n (vsub (v i) (u i)) <= B) ->
  nrm2 n (vsub (mean_over l v) xs) <= B.
Proof.
  intros NE U H. pose proof (len_pos l NE) as LP.
  rewrite (nrm2_ext n _ (vsub (mean_over l (fun i => vadd (vsub (v i) (u i)) xs)) xs)).
  - apply nrm2_mean; [exact NE|]. intros i I. replace (vsub (vadd (vsub (v i) (u i)) xs) xs) with (vsub (v i) (u i)); [now apply H|].
    apply functional_extensionality. intro c. unfold vsub, vadd. lra.
  - intros c C. unfold vsub. f_equal. unfold mean_over at 2. unfold vadd.
    assert (E : mean_over l u c = xs c) by now apply U. unfold mean_over in *. rewrite rsum_map_add, rs_const.
    rewrite rsum_map_sub. rewrite !Rmult_plus_distr_l. unfold Rminus. rewrite Rmult_plus_distr_l. rewrite Ropp_mult_distr_r_reverse, E. field. lra.
Qed.

(** Everybody takes part and nothing is lost; the clients make [K] local steps:
    the server's x approaches the balanced point at the rate of [K] steps a round. *)
Theorem C91_fedavg_steps_linear t e sv period N w n F G grad m L a K xf x0 : fed_net t e sv -> agents t <> [] ->
  (forall i, In i (agents t) -> smooth_strongly_convex n (F i) (G i) m L) -> 0 <= m -> 0 < L -> exact_gradients grad G ->
  0 <= a -> a * L <= 2 -> balanced n (agents t) G a K xf -> synchronous e ->
  exists X, throughout t period (fed N (fedavg_init t sv x0) (fed_round t e sv (fedavg_alg grad K a) None)) w
      (fun k st => state_is st sv (X k)) /\ X 0%nat = x0 sv /\
    forall k, (k <= N)%nat -> nrm2 n (vsub (X k) xf) <= ((1 - a * m * (2 - a * L)) ^ K) ^ k * nrm2 n (vsub (x0 sv) xf).
Proof.
  intros NET NE SC M LP EG A AL BAL SY.
  destruct (fedavg_run t e sv NET period N w grad None K a x0 proper_none (reliable_faithful e (proj1 SY))) as (X & T & X0 & ST).
  exists (fun k => X k sv). split. { apply (throughout_mono t period _ w _ _) with (2 := T). intros k st H. apply H; eapply sv_node; eauto. }
  split; [apply X0|]. destruct (Nat.eq_dec n 0) as [-> | NN].
  { intros k _. unfold nrm2, dot, sumn. cbn. lra. }
  assert (I0 : exists i, In i (agents t)) by (destruct (agents t) as [|i l]; [congruence|exists i; now left]). destruct I0 as (i0 & I0).
  assert (Q : 0 <= 1 - a * m * (2 - a * L)) by (apply (rate_pos n (F i0) (G i0) m L a); auto; lia).
  induction k as [|k IH]; intro Hk; [cbn [pow]; rewrite X0; lra|]. specialize (IH ltac:(lia)).
  destruct (ST k ltac:(lia)) as (P & R0 & PA & LO & _ & _ & MEAN). destruct (sync_part t e P R0 SY PA) as (-> & ->). rewrite (MEAN NE).
  eapply Rle_trans; [apply nrm2_means with (u := fun i => gradient_steps (G i) a K xf) (B := (1 - a * m * (2 - a * L)) ^ K * nrm2 n (vsub (X k sv) xf)); auto|].
  - intros i I. destruct (LO i I) as (s & LS). eapply steps_contract; eauto.
  - cbn [pow]. set (q := (1 - a * m * (2 - a * L)) ^ K) in *. rewrite Rmult_assoc. apply Rmult_le_compat_l; [now apply pow_le|exact IH].
Qed.

(** ---- two clients, |x|^2 / 2 and |x - 1|^2 / 4: the optimum is 1/3, two steps of
    size 1 balance at 3/7 ---- *)
Definition vone : vec := fun _ => 1.
Definition cost2 (i : agent_id) (x : vec) : R := match i with O => nrm2 1 x / 2 | _ => nrm2 1 (vsub x vone) / 4 end.
Definition g2 (i : agent_id) (x : vec) : vec := match i with O => x | _ => vscal (1/2) (vsub x vone) end.
Definition grad2 (d : nat) (i : agent_id) (x : vec) : vec := g2 i x.
Lemma cost2_ok i : smooth_strongly_convex 1 (cost2 i) (g2 i) (1/2) 1.
Proof.
  intros x h. unfold cost2, g2. destruct i; unfold nrm2, dot, sumn, vsub, vadd, vscal, vone; cbn; pose proof (Rle_0_sqr (h 0%nat)) as Q; unfold Rsqr in Q; nra.
Qed.
Lemma third_minimises : minimises (agents star3) cost2 (fun _ => 1/3).
Proof.
  intro z. rewrite star3_clients. unfold cost2. cbn [map]. rewrite !rsum_cons. unfold rsum, nrm2, dot, sumn, vsub, vone. cbn.
  pose proof (Rle_0_sqr (z 0%nat - 1/3)) as Q. unfold Rsqr in Q. nra.
Qed.
Lemma balanced_sevenths : balanced 1 (agents star3) g2 1 2 (fun _ => 3/7).
Proof.
  intros c _. rewrite star3_clients. unfold mean_over. cbn [map length gradient_steps]. rewrite !rsum_cons. unfold rsum, g2, vsub, vscal, vone. cbn. lra.
Qed.
Example C91_fedavg_steps_case : exists X,
  throughout star3 (fun _ => 1%nat) (fed 10 (fedavg_init star3 2%nat start) (fed_round star3 sync_env 2%nat (fedavg_alg grad2 2 1) None)) blank
    (fun k st => state_is st 2%nat (X k)) /\ X 0%nat = start 2%nat /\
  forall k, (k <= 10)%nat -> nrm2 1 (vsub (X k) (fun _ => 3/7)) <= ((1 - 1 * (1/2) * (2 - 1 * 1)) ^ 2) ^ k * nrm2 1 (vsub (start 2%nat) (fun _ => 3/7)).
Proof.
  apply (C91_fedavg_steps_linear star3 sync_env 2%nat (fun _ => 1%nat) 10 blank 1 cost2 g2); try lra; auto using star3_sync, star3_ne, balanced_sevenths, sync_ok.
  - intros; apply cost2_ok.
  - now intros d i x.
Qed.
(** With several local steps FedAvg does not reach the optimum. *)
Theorem C91_fedavg_steps_refuted : ~ (forall t sv n F G grad m L a K xs x0 eps, agents t <> [] -> (0 < n)%nat -> (1 <= K)%nat ->
  (forall i, In i (agents t) -> smooth_strongly_convex n (F i) (G i) m L) -> 0 < m -> 0 < L -> exact_gradients grad G ->
  0 < a -> a * L < 2 -> minimises (agents t) F xs -> 0 < eps ->
  exists M, forall N e period w, (M <= N)%nat -> fed_net t e sv -> synchronous e ->
    let r := run t period (fed N (fedavg_init t sv x0) (fed_round t e sv (fedavg_alg grad K a) None)) 0 w in
    r_out r = Finished /\ exists x, state_is (snd (r_world r)) sv x /\ nrm2 n (vsub x xs) <= eps).
Proof.
  intros H. destruct (H star3 2%nat 1%nat cost2 g2 grad2 (1/2) 1 1 2%nat (fun _ => 1/3) (fun _ _ => 3/7) (/ 1000)) as (M & HM); try lra; auto using star3_ne, third_minimises.
  { intros; apply cost2_ok. } { now intros d i x. }
  destruct (HM M sync_env (fun _ => 1%nat) blank (le_n M) star3_sync sync_ok) as (_ & x & S1 & B1).
  destruct (C91_fedavg_steps_linear star3 sync_env 2%nat (fun _ => 1%nat) M blank 1 cost2 g2 grad2 (1/2) 1 1 2 (fun _ => 3/7) (fun _ _ => 3/7)) as (X & (_ & _ & _ & LAST) & _ & B2); try lra; auto using star3_sync, star3_ne, balanced_sevenths, sync_ok.
  { intros; apply cost2_ok. } { now intros d i z. }
  unfold state_is in S1, LAST. rewrite S1 in LAST. injection LAST as E. cbn [al_iters fed] in E. subst x. specialize (B2 M (le_n M)).
  assert (Z0 : nrm2 1 (vsub (fun _ : nat => 3/7) (fun _ => 3/7)) = 0) by (unfold nrm2, dot, sumn, vsub; cbn; lra). rewrite Z0, Rmult_0_r in B2.
  clear - B1 B2. unfold nrm2, dot, sumn, vsub in B1, B2. cbn in B1, B2. pose proof (Rle_0_sqr (X M 0%nat - 8/21)) as Q. unfold Rsqr in Q. nra.
Qed.

(** Scaffold, started at the optimum with the gradients there as control variables,
    stays there: with any number of local steps, any selection and any losses. *)
Lemma local_fixed grad i next K x z s : (forall g, gradient_of grad i x g -> next x g = x) -> local_steps grad i next K x z s -> z = x.
Proof. intros H LS. revert H. induction LS as [x|K x g z s GE LS IH]; intro H; [reflexivity|]. pose proof (H g GE) as E. rewrite E in IH. auto. Qed.
Theorem C91_scaffold_stays t e sv period N w G grad sch K a eta xs x0 c0 : fed_net t e sv -> proper sch -> faithful e -> exact_gradients grad G ->
  x0 sv = xs -> (forall i, In i (agents t) -> c0 i = G i xs) -> c0 sv = mean_over (agents t) c0 -> (forall c, rsum (map (fun i => G i xs c) (agents t)) = 0) ->
  exists X, throughout t period (fed N (scaffold_init t sv x0 c0) (fed_round t e sv (scaffold_alg t grad K a eta) sch)) w (fun k st => state_is st sv (X k)) /\
    forall k, (k <= N)%nat -> X k = xs.
Proof.
  intros NET PR FA EG X00 CI CM ST0.
  destruct (C37_scaffold_run t e sv NET period N w grad sch K a eta x0 c0 PR FA) as (X & C & T & I & R).
  assert (C0 : c0 sv = vzero).
  { rewrite CM. apply functional_extensionality. intro c. unfold mean_over, vzero. rewrite (map_ext_in _ (fun i => G i xs c)) by (intros i Hi; now rewrite CI). rewrite ST0. lra. }
  assert (INV : forall k, (k <= N)%nat -> X k sv = xs /\ C k sv = vzero /\ forall i, In i (agents t) -> C k i = G i xs).
  { induction k as [|k IH]; intro Hk.
    - destruct (I sv) as [E1 E2]. rewrite E1, E2. split; [exact X00|]. split; [exact C0|]. intros i Hi. rewrite (proj2 (I i)). auto.
    - destruct (IH ltac:(lia)) as (XE & CE & CC). destruct (R k ltac:(lia)) as (P & Q & PA & LO & OU & M0 & M1 & SU). rewrite XE in *. rewrite CE in *.
      assert (L1 : forall i, In i P -> X (S k) i = xs /\ C (S k) i = C k i).
      { intros i Hi. destruct PA as (_ & PC & _). pose proof (CC i (PC i Hi)) as Ci. destruct (LO i Hi) as ((s & LS) & CN).
        assert (E : X (S k) i = xs).
        { apply (local_fixed grad i _ K xs _ s) with (2 := LS). intros g (d & ->). rewrite EG, Ci. apply functional_extensionality. intro c. unfold vsub, vscal, vadd, vzero. lra. }
        split; [exact E|]. rewrite CN, E. apply functional_extensionality. intro c. unfold vsub, vscal, vadd, vzero. lra. }
      assert (L2 : forall i, In i (agents t) -> C (S k) i = G i xs).
      { intros i Hi. rewrite <- (CC i Hi). destruct (in_dec Nat.eq_dec i P) as [Ip|Ip]; [now apply L1|now apply OU]. }
      assert (QP : forall i, In i Q -> In i P) by (destruct PA as (_ & _ & _ & QP & _); exact QP).
      split; [|split; [|exact L2]].
      + destruct (list_eq_dec Nat.eq_dec Q []) as [-> | QN]; [now apply M0|]. rewrite (M1 QN). apply functional_extensionality. intro c. unfold vadd, vscal, mean_over.
        rewrite (map_ext_in _ (fun _ => 0)); [rewrite rs_const; lra|]. intros i Hi. rewrite (proj1 (L1 i (QP i Hi))). unfold vsub. lra.
      + rewrite SU. apply functional_extensionality. intro c. unfold vadd, vscal, sum_over, vzero. rewrite (map_ext_in _ (fun _ => 0)); [rewrite rs_const; lra|].
        intros i Hi. rewrite (proj2 (L1 i (QP i Hi))). unfold vsub. lra. }
  exists (fun k => X k sv). split; [|intros k Hk; now apply INV].
  apply (throughout_mono t period _ w _ _) with (2 := T). intros k st (H & _). apply H. eapply sv_node; eauto.
Qed.
(** The two clients above, two local steps, one client active, uploads lost. *)
Example C91_scaffold_stays_case (c0 := fun i => if Nat.eqb i 2 then mean_over (agents star3) (fun i => g2 i (fun _ => 1/3)) else g2 i (fun _ => 1/3)) : exists X,
  throughout star3 (fun _ => 1%nat) (fed 10 (scaffold_init star3 2%nat (fun _ _ => 1/3) c0) (fed_round star3 lossy_fed 2%nat (scaffold_alg star3 grad2 2 1 1) first_only)) blank (fun k st => state_is st 2%nat (X k)) /\
  forall k, (k <= 10)%nat -> X k = (fun _ => 1/3).
Proof.
  apply (C91_scaffold_stays star3 lossy_fed 2%nat (fun _ => 1%nat) 10 blank g2); auto using star3_lossy, first_proper.
  - split; reflexivity.
  - now intros d i x.
  - intros i I. rewrite star3_clients in I. destruct I as [<-|[<-|[]]]; reflexivity.
  - intro c. rewrite star3_clients. cbn [map]. rewrite !rsum_cons. unfold rsum, g2, vscal, vsub, vone. cbn. lra.
Qed.

Print Assumptions C91_fedavg_steps_linear.
Print Assumptions C91_fedavg_steps_refuted.
Print Assumptions C91_scaffold_stays.
