(** C33, C35, C36 for the variance-reduced algorithms GT-SAGA, GT-VR, GT-SARAH
    and LT-ADMM-VR, and C68, their gradient estimators. *)
From Coq Require Import Reals String List Bool Arith ZArith QArith.Qcanon Lia Lra FunctionalExtensionality Permutation.
From Verif.Model Require Import PyDict History Messages Network Runner Vec P2P P2PVR Batch.
From Verif.Spec Require Import NetworkSpec P2PSpec P2PVRSpec.
From Verif.Proofs Require Import EmpiricalProofs P2PVRSteps P2PVRRuns P2PVREst P2PVRMore.
From Verif.Props Require Import P2PProps.
Import ListNotations.
Open Scope R_scope.

(** ** C33, one iteration on networks that may lose messages *)
Section Steps.
  Variables (t : topo) (e : env vec).
  Hypothesis PT : p2p_topo t.
  Hypothesis FA : faithful e.
  Variable W : agent_id -> agent_id -> R.
  (** the number of samples of each agent, the gradients at single samples, the batches *)
  Variables (m : agent_id -> nat) (sg : agent_id -> nat -> vec -> vec) (batch : nat -> agent_id -> list nat).
  Hypothesis PB : proper m batch.
  Notation full := (full_gradient m sg).

  (** GT-SAGA: estimate g' = SAGA estimate at x, y' = mix(y + g' - g),
      x' = mix(x - a y'), then the rows of a second batch are set to the
      gradients at x'. *)
  Theorem C33_gt_saga_step a k d st X Y G T :
    (forall i, In i (t_nodes t) -> state_is st i (X i) /\ aux_is st i "y" (Y i) /\ aux_is st i "g" (G i) /\ auxmap_is st i "z_grads" (table (m i) (T i))) ->
    exists d' st' D1 D2 B B' Y', let G' := fun i => saga_est m sg i (B i) (T i) (X i) in
      do_phases t e (saga W sg batch a k) (d, step t k st) = ((d', st'), false) /\
      delivery t e (active_at t e k st) D1 /\ delivery t e (active_at t e k st) D2 /\
      (forall i, In i (active_at t e k st) -> let x' := mix W (D2 i) (fun j => vsub (X j) (vscal a (Y' j))) i in
         drawn batch i (B i) /\ drawn batch i (B' i) /\
         Y' i = mix W (D1 i) (fun j => vsub (vadd (Y j) (G' j)) (G j)) i /\
         state_is st' i x' /\ aux_is st' i "y" (Y' i) /\ aux_is st' i "g" (G' i) /\
         auxmap_is st' i "z_grads" (table (m i) (refresh (B' i) (fun s => sg i s x') (T i)))) /\
      (forall i, ~ In i (active_at t e k st) -> untouched st st' i).
  Proof. apply saga_step; auto. Qed.

  (** GT-VR: x' = mix(x - a y), the snapshot becomes x' if the coin says so,
      v' = SVRG estimate at x', y' = mix(y + v' - v). *)
  Theorem C33_gt_vr_step (coin : nat -> agent_id -> bool) a k d st X Y V Ta :
    (forall i, In i (t_nodes t) -> state_is st i (X i) /\ aux_is st i "y" (Y i) /\ aux_is st i "v" (V i) /\ aux_is st i "tau" (Ta i) /\
       aux_is st i "full_grad_tau" (full i (Ta i))) ->
    exists d' st' D1 D2 B X', let Ta' := fun i => if coin k i then X' i else Ta i in let V' := fun i => svrg_est m sg i (B i) (Ta' i) (X' i) in
      do_phases t e (gt_vr W m sg batch coin a k) (d, step t k st) = ((d', st'), false) /\
      delivery t e (active_at t e k st) D1 /\ delivery t e (active_at t e k st) D2 /\
      (forall i, In i (active_at t e k st) ->
         drawn batch i (B i) /\ X' i = mix W (D1 i) (fun j => vsub (X j) (vscal a (Y j))) i /\
         state_is st' i (X' i) /\ aux_is st' i "y" (mix W (D2 i) (fun j => vsub (vadd (Y j) (V' j)) (V j)) i) /\ aux_is st' i "v" (V' i) /\
         aux_is st' i "tau" (Ta' i) /\ aux_is st' i "full_grad_tau" (full i (Ta' i))) /\
      (forall i, ~ In i (active_at t e k st) -> untouched st st' i).
  Proof. apply gt_vr_step; auto. Qed.

  (** LT-ADMM-VR: [tau] local SAGA steps with the table kept ([v2]) or rebuilt at
      the current state, and the relaxed update of z. *)
  Theorem C33_lt_admm_vr_step v2 tau ga be rho al k d st X Z T :
    (forall i, In i (t_nodes t) -> state_is st i (X i) /\ auxmap_is st i "z_i" (rows t i (Z i)) /\ (v2 = true -> auxmap_is st i "r_grads" (table (m i) (T i)))) ->
    exists d' st' D X' T', do_phases t e (lt_admm_vr t m sg batch v2 tau ga be rho al k) (d, step t k st) = ((d', st'), false) /\
      delivery t e (active_at t e k st) D /\
      (forall i, In i (active_at t e k st) ->
         vr_steps m sg batch i ga (vscal be (vsub (vscal (rho * deg t i) (X i)) (vsum (map (Z i) (t_adj t i))))) tau
           (X i) (if v2 then T i else fun s => sg i s (X i)) (X' i) (T' i) /\
         state_is st' i (X' i) /\ auxmap_is st' i "r_grads" (table (m i) (T' i)) /\
         auxmap_is st' i "z_i" (rows t i (fun j => if memb j (D i)
            then vsub (vscal (1 - al) (Z i j)) (vscal al (vsub (Z j i) (vscal (2 * rho) (X' j)))) else Z i j))) /\
      (forall i, ~ In i (active_at t e k st) -> untouched st st' i).
  Proof. apply ltvr_step; auto. Qed.
End Steps.

(** GT-SARAH has [q] + 1 rounds of communication per iteration over the same two
    channels.  If no message is lost, whoever is active, round [r] takes
    [X r], [Y r], [V r] to the next: the first estimate is the full gradient, the
    others SARAH estimates, y' = mix(y) + v' - v and x' = mix(x) - a y'. *)
Theorem C33_gt_sarah_step t e W m sg batch a q k d st X Y V : p2p_topo t -> reliable e ->
  (forall i, In i (t_nodes t) -> state_is st i (X i) /\ aux_is st i "y" (Y i) /\ aux_is st i "v" (V i)) ->
  exists d' st' Xs Ys Vs B, let act := active_at t e k st in
    do_phases t e (sarah W m sg batch a q k) (d, step t k st) = ((d', st'), false) /\
    Xs 0%nat = X /\ Ys 0%nat = Y /\ Vs 0%nat = V /\
    (forall i, In i act -> Vs 1%nat i = full_gradient m sg i (X i)) /\
    (forall r i, (r < q)%nat -> In i act -> drawn batch i (B r i) /\
       Vs (S (S r)) i = sarah_est sg i (B r i) (Xs r i) (Vs (S r) i) (Xs (S r) i)) /\
    (forall r i, (r <= q)%nat -> In i act ->
       Ys (S r) i = vsub (vadd (mix W (heard t act i) (Ys r) i) (Vs (S r) i)) (Vs r i) /\
       Xs (S r) i = vsub (mix W (heard t act i) (Xs r) i) (vscal a (Ys (S r) i))) /\
    (forall i, In i act -> state_is st' i (Xs (S q) i) /\ aux_is st' i "y" (Ys (S q) i) /\ aux_is st' i "v" (Vs (S q) i)) /\
    (forall i, ~ In i act -> untouched st st' i).
Proof. intros PT RE H. now apply sarah_step. Qed.

(** If messages can be lost it is not so: an agent that misses a message mixes
    the one of the round before, which is still in its channel, instead of
    leaving it out. *)
Definition one_loss : env vec := mkEnv (fun _ _ _ => true) (fun d _ => Nat.eqb d 17) (fun _ _ v => v) (fun _ _ => 1%Z) (fun _ _ => None) vadd.
Theorem C33_gt_sarah_lossy_refuted :
  ~ (forall t e W m sg batch a q k d st X Y V, p2p_topo t -> faithful e -> proper m batch ->
      (forall i, In i (t_nodes t) -> state_is st i (X i) /\ aux_is st i "y" (Y i) /\ aux_is st i "v" (V i)) ->
      exists d' st' Xs Ys Vs B D1 D2, let act := active_at t e k st in
        do_phases t e (sarah W m sg batch a q k) (d, step t k st) = ((d', st'), false) /\
        Xs 0%nat = X /\ Ys 0%nat = Y /\ Vs 0%nat = V /\
        (forall r, delivery t e act (D1 r) /\ delivery t e act (D2 r)) /\
        (forall i, In i act -> Vs 1%nat i = full_gradient m sg i (X i)) /\
        (forall r i, (r < q)%nat -> In i act -> drawn batch i (B r i) /\
           Vs (S (S r)) i = sarah_est sg i (B r i) (Xs r i) (Vs (S r) i) (Xs (S r) i)) /\
        (forall r i, (r <= q)%nat -> In i act ->
           Ys (S r) i = vsub (vadd (mix W (D1 r i) (Ys r) i) (Vs (S r) i)) (Vs r i) /\
           Xs (S r) i = vsub (mix W (D2 r i) (Xs r) i) (vscal a (Ys (S r) i))) /\
        (forall i, In i act -> state_is st' i (Xs (S q) i) /\ aux_is st' i "y" (Ys (S q) i) /\ aux_is st' i "v" (Vs (S q) i))).
Proof.
  intro H. pose (sg := fun (i : agent_id) (_ : nat) (_ : vec) => (fun _ : nat => INR i) : vec).
  pose (Y := fun i : agent_id => (fun _ : nat => if Nat.eqb i 1 then 4 else 0) : vec).
  pose (st := state_with (fun _ => vzero) (fun i => [("y", AArr (Y i)); ("v", AArr vzero)]%string)).
  destruct (H two one_loss halves (fun _ => 1%nat) sg (fun _ _ => [0%nat]) 1 1%nat 0%nat 0%nat st (fun _ => vzero) Y (fun _ => vzero) two_ok)
    as (d' & st' & Xs & Ys & Vs & B & D1 & D2 & E & E1 & E2 & E3 & DE & V1 & VS & YX & F).
  { split; reflexivity. }
  { intros n i. split; [discriminate|]. split; [repeat constructor; cbn; tauto|]. intros x [<-|[]]. cbn. auto. }
  { intros i _. repeat split. }
  assert (AC : active_at two one_loss 0 st = [0%nat; 1%nat]) by reflexivity. rewrite AC in *.
  assert (I0 : In 0%nat [0%nat; 1%nat]) by (cbn; auto). assert (I1 : In 1%nat [0%nat; 1%nat]) by (cbn; auto).
  assert (VA : forall i, In i [0%nat; 1%nat] -> forall c, Vs 1%nat i c = INR i).
  { intros i Hi c. rewrite (V1 i Hi). unfold full_gradient, avg. cbn [seq map length]. rewrite rsum_cons, rsum_nil. unfold sg. cbn [INR]. lra. }
  assert (VB : forall i, In i [0%nat; 1%nat] -> forall c, Vs 2%nat i c = INR i).
  { intros i Hi c. rewrite (proj2 (VS 0%nat i ltac:(lia) Hi)). unfold sarah_est, avg. rewrite VA by auto. unfold sg. lra. }
  assert (DC : forall r, D1 r 0%nat = [] \/ D1 r 0%nat = [1%nat]).
  { intro r. destruct (DE r) as (DD & _). destruct (DD 0%nat) as (ND & IN & _). destruct (D1 r 0%nat) as [|x [|y l]] eqn:ED; auto.
    - right. destruct (IN x (or_introl eq_refl)) as ([<-|[]] & _). reflexivity.
    - destruct (IN x (or_introl eq_refl)) as ([<-|[]] & _). destruct (IN y (or_intror (or_introl eq_refl))) as ([<-|[]] & _). exfalso. inversion ND as [|? ? NI]. apply NI. now left. }
  assert (DC1 : forall r, D1 r 1%nat = [] \/ D1 r 1%nat = [0%nat]).
  { intro r. destruct (DE r) as (DD & _). destruct (DD 1%nat) as (ND & IN & _). destruct (D1 r 1%nat) as [|x [|y l]] eqn:ED; auto.
    - right. destruct (IN x (or_introl eq_refl)) as ([<-|[]] & _). reflexivity.
    - destruct (IN x (or_introl eq_refl)) as ([<-|[]] & _). destruct (IN y (or_intror (or_introl eq_refl))) as ([<-|[]] & _). exfalso. inversion ND as [|? ? NI]. apply NI. now left. }
  pose proof (proj1 (YX 0%nat 0%nat ltac:(lia) I0)) as A0. pose proof (proj1 (YX 0%nat 1%nat ltac:(lia) I1)) as A1. pose proof (proj1 (YX 1%nat 0%nat ltac:(lia) I0)) as A2.
  destruct (F 0%nat I0) as (_ & FY & _). unfold aux_is in FY.
  replace st' with (snd (fst (do_phases two one_loss (sarah halves (fun _ => 1%nat) sg (fun _ _ => [0%nat]) 1 1 0) (0%nat, step two 0 st)))) in FY by (now rewrite E).
  clear E. cbv - [Rplus Rmult Rminus Ropp Rdiv Rinv IZR INR] in FY. injection FY as FY.
  assert (FC := f_equal (fun f : vec => f 0%nat) FY). cbv beta in FC. rewrite A2 in FC. 
  assert (Y10 : Ys 1%nat 0%nat 0%nat = 0 \/ Ys 1%nat 0%nat 0%nat = 2).
  { rewrite A0, E2, E3. unfold vsub, vadd, vzero, mix. rewrite VA by auto. destruct (DC 0%nat) as [-> | ->]; [left|right]; cbn [map]; rewrite ?rsum_cons, ?rsum_nil; unfold halves, Y; cbn; lra. }
  assert (Y11 : Ys 1%nat 1%nat 0%nat = 3).
  { rewrite A1, E2, E3. unfold vsub, vadd, vzero, mix. rewrite VA by auto. destruct (DC1 0%nat) as [-> | ->]; cbn [map]; rewrite ?rsum_cons, ?rsum_nil; unfold halves, Y; cbn; lra. }
  unfold vsub, vadd, mix in FC. rewrite VA, VB in FC by auto.
  destruct (DC 1%nat) as [D | D]; rewrite D in FC; cbn [map] in FC; rewrite ?rsum_cons, ?rsum_nil, ?Y11 in FC; unfold halves in FC; cbn [Nat.ltb Nat.leb andb] in FC; cbn [INR] in FC; destruct Y10 as [Y0|Y0]; rewrite Y0 in FC; lra.
Qed.

(** ** C33, whole runs on synchronous networks *)
Section Runs.
  Variables (t : topo) (e : env vec).
  Hypothesis PT : p2p_topo t.
  Hypothesis SY : synchronous e.
  Variable W : agent_id -> agent_id -> R.
  Hypothesis SP : sparse t W.
  Variables (m : agent_id -> nat) (sg : agent_id -> nat -> vec -> vec) (batch : nat -> agent_id -> list nat).
  Hypothesis PB : proper m batch.
  Variables (period : agent_id -> nat) (N : nat) (w : world vec nat).
  Notation nodes := (t_nodes t).
  Notation row := (row_of t).
  Notation full := (full_gradient m sg).

  Theorem C33_gt_saga_run a x0 : let A := p2p t e N (saga_init m sg x0) (saga W sg batch a) in
    exists X Y G T B B', trajectory t period A w X /\ aux_trajectory t period A w "y" Y /\ aux_trajectory t period A w "g" G /\
      table_trajectory t period A w m "z_grads" T /\
      (forall i, X 0%nat i = x0 i /\ Y 0%nat i = vzero /\ G 0%nat i = vzero /\ forall s, T 0%nat i s = sg i s (x0 i)) /\
      forall k i, (k < N)%nat -> In i nodes -> drawn batch i (B k i) /\ drawn batch i (B' k i) /\
        G (S k) i = saga_est m sg i (B k i) (T k i) (X k i) /\
        Y (S k) i = row W (fun j => vsub (vadd (Y k j) (G (S k) j)) (G k j)) i /\
        X (S k) i = row W (fun j => vsub (X k j) (vscal a (Y (S k) j))) i /\
        T (S k) i = refresh (B' k i) (fun s => sg i s (X (S k) i)) (T k i).
  Proof. apply saga_run; auto. Qed.

  Theorem C33_gt_vr_run coin a x0 : let A := p2p t e N (vr_init m sg x0) (gt_vr W m sg batch coin a) in
    exists X Y V Ta B, trajectory t period A w X /\ aux_trajectory t period A w "y" Y /\ aux_trajectory t period A w "v" V /\
      aux_trajectory t period A w "tau" Ta /\
      (forall i, X 0%nat i = x0 i /\ Y 0%nat i = full i (x0 i) /\ V 0%nat i = full i (x0 i) /\ Ta 0%nat i = x0 i) /\
      forall k i, (k < N)%nat -> In i nodes -> drawn batch i (B k i) /\
        X (S k) i = row W (fun j => vsub (X k j) (vscal a (Y k j))) i /\
        Ta (S k) i = (if coin k i then X (S k) i else Ta k i) /\
        V (S k) i = svrg_est m sg i (B k i) (Ta (S k) i) (X (S k) i) /\
        Y (S k) i = row W (fun j => vsub (vadd (Y k j) (V (S k) j)) (V k j)) i.
  Proof. apply gt_vr_run; auto. Qed.

  (** [X k r]: before round [r] of iteration [k]. *)
  Theorem C33_gt_sarah_run a q x0 : let A := p2p t e N (sarah_init x0) (sarah W m sg batch a q) in
    exists X Y V B, trajectory t period A w (fun k => X k 0%nat) /\ aux_trajectory t period A w "y" (fun k => Y k 0%nat) /\ aux_trajectory t period A w "v" (fun k => V k 0%nat) /\
      (forall i, X 0%nat 0%nat i = x0 i /\ Y 0%nat 0%nat i = vzero /\ V 0%nat 0%nat i = vzero) /\
      forall k i, (k < N)%nat -> In i nodes ->
        V k 1%nat i = full i (X k 0%nat i) /\
        (forall r, (r < q)%nat -> drawn batch i (B k r i) /\
           V k (S (S r)) i = sarah_est sg i (B k r i) (X k r i) (V k (S r) i) (X k (S r) i)) /\
        (forall r, (r <= q)%nat ->
           Y k (S r) i = vsub (vadd (row W (Y k r) i) (V k (S r) i)) (V k r i) /\
           X k (S r) i = vsub (row W (X k r) i) (vscal a (Y k (S r) i))) /\
        X (S k) 0%nat i = X k (S q) i /\ Y (S k) 0%nat i = Y k (S q) i /\ V (S k) 0%nat i = V k (S q) i.
  Proof. apply sarah_run; auto. Qed.

  Theorem C33_lt_admm_vr_run v2 tau ga be rho al x0 : let A := p2p t e N (ltvr_init t m sg v2 x0) (lt_admm_vr t m sg batch v2 tau ga be rho al) in
    exists X Z T, trajectory t period A w X /\ rows_trajectory t period A w "z_i" Z /\ (v2 = true -> table_trajectory t period A w m "r_grads" T) /\
      (forall i, X 0%nat i = x0 i /\ (forall j, Z 0%nat i j = x0 i) /\ forall s, T 0%nat i s = sg i s (x0 i)) /\
      forall k i, (k < N)%nat -> In i nodes ->
        vr_steps m sg batch i ga (vscal be (vsub (vscal (rho * deg t i) (X k i)) (vsum (map (Z k i) (t_adj t i))))) tau
          (X k i) (if v2 then T k i else fun s => sg i s (X k i)) (X (S k) i) (T (S k) i) /\
        (forall j, In j (t_adj t i) -> Z (S k) i j = vsub (vscal (1 - al) (Z k i j)) (vscal al (vsub (Z k j i) (vscal (2 * rho) (X (S k) j))))).
  Proof. apply ltvr_run; auto. Qed.

  (** ** C35, C68: with column-stochastic weights the trackers sum to the
      estimates, the mean of the states descends along the mean estimate, the rows
      of the tables and the snapshots are of points that the agent visited. *)
  Hypothesis CS : col_stochastic t W.
  Notation T := (total_of t).
  Notation mean := (mean_of t).

  Theorem C35_gt_saga_tracking a x0 : let A := p2p t e N (saga_init m sg x0) (saga W sg batch a) in
    exists X Y G Tb B, trajectory t period A w X /\ aux_trajectory t period A w "y" Y /\ aux_trajectory t period A w "g" G /\
      (forall i, X 0%nat i = x0 i) /\
      (forall k i, (k < N)%nat -> In i nodes -> drawn batch i (B k i) /\ G (S k) i = saga_est m sg i (B k i) (Tb k i) (X k i)) /\
      (forall k i s, (k <= N)%nat -> In i nodes -> exists k', (k' <= k)%nat /\ Tb k i s = sg i s (X k' i)) /\
      (forall k, (k <= N)%nat -> T (Y k) = T (G k)) /\
      forall k, (k < N)%nat -> mean (X (S k)) = vsub (mean (X k)) (vscal a (mean (G (S k)))).
  Proof. apply saga_tracking; auto. Qed.

  Theorem C35_gt_vr_tracking coin a x0 : let A := p2p t e N (vr_init m sg x0) (gt_vr W m sg batch coin a) in
    exists X Y V Ta B, trajectory t period A w X /\ aux_trajectory t period A w "y" Y /\ aux_trajectory t period A w "v" V /\
      (forall i, X 0%nat i = x0 i /\ V 0%nat i = full i (x0 i)) /\
      (forall k i, (k < N)%nat -> In i nodes -> drawn batch i (B k i) /\ V (S k) i = svrg_est m sg i (B k i) (Ta (S k) i) (X (S k) i)) /\
      (forall k i, (k <= N)%nat -> In i nodes -> exists k', (k' <= k)%nat /\ Ta k i = X k' i /\ forall q, (k' <= q < k)%nat -> coin q i = false) /\
      (forall k, (k <= N)%nat -> T (Y k) = T (V k)) /\
      forall k, (k < N)%nat -> mean (X (S k)) = vsub (mean (X k)) (vscal a (mean (V k))).
  Proof. apply gt_vr_tracking; auto. Qed.

  Theorem C35_gt_sarah_tracking a q x0 : let A := p2p t e N (sarah_init x0) (sarah W m sg batch a q) in
    exists X Y V B, trajectory t period A w (fun k => X k 0%nat) /\ aux_trajectory t period A w "y" (fun k => Y k 0%nat) /\ aux_trajectory t period A w "v" (fun k => V k 0%nat) /\
      (forall i, X 0%nat 0%nat i = x0 i) /\
      (forall k i, (k < N)%nat -> In i nodes -> V k 1%nat i = full i (X k 0%nat i) /\
        (forall r, (r < q)%nat -> drawn batch i (B k r i) /\ V k (S (S r)) i = sarah_est sg i (B k r i) (X k r i) (V k (S r) i) (X k (S r) i)) /\
        X (S k) 0%nat i = X k (S q) i) /\
      (forall k, (k <= N)%nat -> T (Y k 0%nat) = T (V k 0%nat)) /\
      forall k r, (k < N)%nat -> (r <= q)%nat -> mean (X k (S r)) = vsub (mean (X k r)) (vscal a (mean (V k (S r)))).
  Proof. apply sarah_tracking; auto. Qed.
End Runs.

(** ** C36, fixed points: at consensus on [xs], with the trackers at zero and the
    estimates, tables and snapshots those of [xs], nothing moves, whatever the
    batches, coins and numbers of inner rounds. *)
Section Fixed.
  Variables (t : topo) (e : env vec).
  Hypothesis PT : p2p_topo t.
  Hypothesis SY : synchronous e.
  Variable W : agent_id -> agent_id -> R.
  Hypothesis SP : sparse t W.
  Hypothesis RS : row_stochastic t W.
  Variables (m : agent_id -> nat) (sg : agent_id -> nat -> vec -> vec) (batch : nat -> agent_id -> list nat).
  Hypothesis PB : proper m batch.
  Variable xs : vec.
  Notation nodes := (t_nodes t).
  Notation G := (fun i => full_gradient m sg i xs).

  Theorem C36_gt_saga_fixed a k d st :
    (forall i, In i nodes -> state_is st i xs /\ aux_is st i "y" vzero /\ aux_is st i "g" (G i) /\ auxmap_is st i "z_grads" (table (m i) (fun s => sg i s xs))) ->
    exists d' st', do_phases t e (saga W sg batch a k) (d, step t k st) = ((d', st'), false) /\
      (forall i, In i nodes -> state_is st' i xs /\ aux_is st' i "y" vzero /\ aux_is st' i "g" (G i) /\ auxmap_is st' i "z_grads" (table (m i) (fun s => sg i s xs))).
  Proof. apply saga_fixed; auto. Qed.

  Theorem C36_gt_vr_fixed coin a k d st :
    (forall i, In i nodes -> state_is st i xs /\ aux_is st i "y" vzero /\ aux_is st i "v" (G i) /\ aux_is st i "tau" xs /\ aux_is st i "full_grad_tau" (G i)) ->
    exists d' st', do_phases t e (gt_vr W m sg batch coin a k) (d, step t k st) = ((d', st'), false) /\
      (forall i, In i nodes -> state_is st' i xs /\ aux_is st' i "y" vzero /\ aux_is st' i "v" (G i) /\ aux_is st' i "tau" xs /\ aux_is st' i "full_grad_tau" (G i)).
  Proof. apply gt_vr_fixed; auto. Qed.

  Theorem C36_gt_sarah_fixed a q k d st :
    (forall i, In i nodes -> state_is st i xs /\ aux_is st i "y" vzero /\ aux_is st i "v" (G i)) ->
    exists d' st', do_phases t e (sarah W m sg batch a q k) (d, step t k st) = ((d', st'), false) /\
      (forall i, In i nodes -> state_is st' i xs /\ aux_is st' i "y" vzero /\ aux_is st' i "v" (G i)).
  Proof. apply sarah_fixed; auto. Qed.

  Theorem C36_lt_admm_vr_fixed v2 tau ga be rho al z k d st :
    (forall i, In i nodes -> vscal be (vsub (vscal (rho * deg t i) xs) (vsum (map (z i) (t_adj t i)))) = vscal (-1) (vscal ga (G i))) ->
    (forall i j, In j (t_adj t i) -> vadd (z i j) (z j i) = vscal (2 * rho) xs) ->
    (forall i, In i nodes -> state_is st i xs /\ auxmap_is st i "z_i" (rows t i (z i)) /\ (v2 = true -> auxmap_is st i "r_grads" (table (m i) (fun s => sg i s xs)))) ->
    exists d' st', do_phases t e (lt_admm_vr t m sg batch v2 tau ga be rho al k) (d, step t k st) = ((d', st'), false) /\
      (forall i, In i nodes -> state_is st' i xs /\ auxmap_is st' i "z_i" (rows t i (z i)) /\ auxmap_is st' i "r_grads" (table (m i) (fun s => sg i s xs))).
  Proof. apply ltvr_fixed; auto. Qed.
End Fixed.

(** ** C68, the estimators *)
Section Estimators.
  Variables (m : agent_id -> nat) (sg : agent_id -> nat -> vec -> vec) (i : agent_id).
  Notation full := (full_gradient m sg i).

  (** Over batches in which all samples are equally likely, the SAGA and SVRG
      estimates average to the full gradient, whatever the table or snapshot; the
      SARAH estimate averages to the previous estimate plus the change of the full
      gradient. *)
  Theorem C68_unbiased b r F : (0 < m i)%nat -> balanced (m i) b r F ->
    (forall T x, expect F (fun B => saga_est m sg i B T x) = full x) /\
    (forall tau x, expect F (fun B => svrg_est m sg i B tau x) = full x) /\
    (forall xp v x, expect F (fun B => sarah_est sg i B xp v x) = vadd v (vsub (full x) (full xp))).
  Proof.
    intros M0 BF. split; [|split]; intros.
    - eapply saga_unbiased; eauto.
    - eapply svrg_unbiased; eauto.
    - eapply sarah_increment; eauto.
  Qed.

  (** With batches of all samples, in any order, they are the full gradient. *)
  Theorem C68_full_batch B : Permutation B (seq 0 (m i)) ->
    (forall T x, saga_est m sg i B T x = full x) /\
    (forall tau x, svrg_est m sg i B tau x = full x) /\
    (forall xp x, sarah_est sg i B xp (full xp) x = full x).
  Proof.
    intro P. split; [|split]; intros; [now apply saga_full_batch|now apply svrg_full_batch|now apply sarah_full_batch].
  Qed.

  (** At the point of the table or snapshot no batch makes an error. *)
  Theorem C68_no_variance B x : incl B (seq 0 (m i)) ->
    (forall T, (forall s, (s < m i)%nat -> T s = sg i s x) -> saga_est m sg i B T x = full x) /\
    svrg_est m sg i B x x = full x /\ (forall v, sarah_est sg i B x v x = v).
  Proof.
    intro I. split; [|split]; intros; [now apply saga_exact|apply svrg_exact|apply sarah_exact].
  Qed.
End Estimators.

(** The sampler of [EmpiricalRiskCost]: over the equally likely outcomes of the
    first permutation, every batch of the first epoch is such that all samples are
    equally likely. *)
Theorem C68_sampler_balanced n b j P : (0 < b < n)%nat -> (j < n / b)%nat -> all_permutations n P ->
  exists r F, balanced n b r F /\
    Forall2 (fun p B => nth_error (fst (calls (fun _ _ => p) n b (repeat IxBatch (S j)) sp_new)) j = Some (BOk (map Z.of_nat B))) P F.
Proof.
  intros (B0 & BN) J AP. assert (JB : (j * b + b <= n)%nat) by (pose proof (Nat.mul_div_le n b ltac:(lia)); nia).
  destruct (windows_balanced n b (j * b) P AP B0 JB) as (r & BF). exists r, (map (fun p => firstn b (skipn (j * b) p)) P). split; [exact BF|].
  destruct AP as (_ & IN). clear BF. assert (L : forall p, In p P -> length p = n) by (intros p Hp; apply IN, Permutation_length in Hp; now rewrite seq_length in Hp).
  clear IN. induction P as [|p P IH]; cbn [map]; constructor; [|apply IH; intros; apply L; now right].
  rewrite (first_epoch (fun _ _ => p) n b p (S j) B0 BN (L p (or_introl eq_refl)) eq_refl ltac:(lia)).
  rewrite nth_error_map. rewrite (nth_error_nth' _ 0%nat) by (rewrite seq_length; lia). rewrite seq_nth by lia. reflexivity.
Qed.

(** But the sampler draws without replacement within an epoch: given the first
    batch, the second of two batches that make up the data set is known, and the
    estimate made with it is biased. *)
Theorem C68_given_history_refuted :
  ~ (forall n b j P h (sg : agent_id -> nat -> vec -> vec) T x, (0 < b < n)%nat -> (j < n / b)%nat -> all_permutations n P ->
      let outcome := fun p => fst (calls (fun _ _ => p) n b (repeat IxBatch (S j)) sp_new) in
      (* the outcomes in which the batches before the [j]-th are those of [h] *)
      let P' := filter (fun p => if list_eq_dec (list_eq_dec Z.eq_dec) (map (fun o => match o with BOk l => l | _ => [] end) (firstn j (outcome p))) h then true else false) P in
      P' <> [] ->
      forall F, Forall2 (fun p B => nth_error (outcome p) j = Some (BOk (map Z.of_nat B))) P' F ->
      expect F (fun B => saga_est (fun _ => n) sg 0%nat B T x) = full_gradient (fun _ => n) sg 0%nat x).
Proof.
  intro H. pose (P := [[0%nat; 1%nat]; [1%nat; 0%nat]]).
  assert (AP : all_permutations 2 P).
  { split; [repeat constructor; cbn; intuition; discriminate|]. intro p. split.
    - intros [<-|[<-|[]]]; cbn; [auto|constructor].
    - intro Q. assert (L := Permutation_length Q). cbn in L. destruct p as [|x [|y [|z l]]]; try discriminate.
      apply Permutation_sym in Q. cbn in Q. apply Permutation_length_2 in Q. destruct Q as [[<- <-]|[<- <-]]; cbn; auto. }
  pose (sg := fun (_ : agent_id) (s : nat) (_ : vec) => (fun _ : nat => INR s) : vec).
  specialize (H 2%nat 1%nat 1%nat P [[0%Z]] sg (fun _ => vzero) vzero ltac:(lia) ltac:(cbn; lia) AP ltac:(discriminate) [[1%nat]]).
  assert (E := f_equal (fun f : vec => f 0%nat) (H ltac:(repeat constructor))). clear H.
  unfold expect, saga_est, full_gradient, avg, sg, vzero in E. cbn [map length seq] in E. rewrite !rsum_cons, !rsum_nil in E. cbn [INR] in E. lra.
Qed.

(** ** Concrete cases *)
(** Two samples per agent, with gradients x - b_i + 1 and x - b_i - 1, drawn in
    turn. *)
Definition sgrad (i : agent_id) (s : nat) (x : vec) : vec := fun c => x c - centre i c + (if Nat.eqb s 0 then 1 else -1).
Definition turns (n : nat) (_ : agent_id) : list nat := [Nat.modulo n 2].
Lemma turns_ok : proper (fun _ => 2%nat) turns.
Proof.
  intros n i. split; [discriminate|]. split; [repeat constructor; cbn; tauto|]. intros x [<-|[]]. apply in_seq. pose proof (Nat.mod_upper_bound n 2). lia.
Qed.
Lemma sgrad_full i x : full_gradient (fun _ => 2%nat) sgrad i x = vsub x (centre i).
Proof. apply functional_extensionality. intro c. unfold full_gradient, avg, sgrad, vsub. cbn [seq map length Nat.eqb]. rewrite !rsum_cons, !rsum_nil. cbn [INR]. lra. Qed.

Example C33_vr_step_case :
  let m := fun _ : agent_id => 2%nat in
  let T := fun i s => sgrad i s (start i) in
  let st := state_with start (fun i => [("y", AArr vzero); ("g", AArr (start i)); ("v", AArr (start i)); ("tau", AArr (start i));
      ("full_grad_tau", AArr (full_gradient m sgrad i (start i)));
      ("z_grads", AMap (table 2 (T i))); ("r_grads", AMap (table 2 (T i))); ("z_i", AMap (rows path3 i start))]%string) in
  (forall i, In i (t_nodes path3) -> state_is st i (start i) /\ aux_is st i "y" vzero /\ aux_is st i "g" (start i) /\ aux_is st i "v" (start i) /\ aux_is st i "tau" (start i) /\
     aux_is st i "full_grad_tau" (full_gradient m sgrad i (start i)) /\ auxmap_is st i "z_grads" (table 2 (T i)) /\ auxmap_is st i "r_grads" (table 2 (T i)) /\
     auxmap_is st i "z_i" (rows path3 i start)) /\
  active_at path3 lossy_env 0 st = [0%nat; 1%nat].
Proof. split; [|reflexivity]. intros [|[|[|i]]] H; cbn in H; [| | |intuition; discriminate]; repeat split. Qed.
Example C33_vr_run_case : let A := p2p path3 sync_env 10 (saga_init (fun _ => 2%nat) sgrad start) (saga W3 sgrad turns (1/10)) in
  exists X Y G T B B', trajectory path3 (fun _ => 1%nat) A blank X /\ aux_trajectory path3 (fun _ => 1%nat) A blank "y" Y /\ aux_trajectory path3 (fun _ => 1%nat) A blank "g" G /\
    table_trajectory path3 (fun _ => 1%nat) A blank (fun _ => 2%nat) "z_grads" T /\
    (forall i, X 0%nat i = start i /\ Y 0%nat i = vzero /\ G 0%nat i = vzero /\ forall s, T 0%nat i s = sgrad i s (start i)) /\
    forall k i, (k < 10)%nat -> In i (t_nodes path3) -> drawn turns i (B k i) /\ drawn turns i (B' k i) /\
      G (S k) i = saga_est (fun _ => 2%nat) sgrad i (B k i) (T k i) (X k i) /\
      Y (S k) i = row_of path3 W3 (fun j => vsub (vadd (Y k j) (G (S k) j)) (G k j)) i /\
      X (S k) i = row_of path3 W3 (fun j => vsub (X k j) (vscal (1/10) (Y (S k) j))) i /\
      T (S k) i = refresh (B' k i) (fun s => sgrad i s (X (S k) i)) (T k i).
Proof. apply (C33_gt_saga_run path3 sync_env path3_ok sync_ok W3 (proj1 W3_ok) (fun _ => 2%nat) sgrad turns turns_ok). Qed.
Example C33_gt_sarah_step_case : reliable sync_env.
Proof. apply sync_ok. Qed.
Example C35_vr_case coin : exists X V, trajectory path3 (fun _ => 1%nat) (p2p path3 sync_env 10 (vr_init (fun _ => 2%nat) sgrad start) (gt_vr W3 (fun _ => 2%nat) sgrad turns coin (1/10))) blank X /\
  forall k, (k < 10)%nat -> mean_of path3 (X (S k)) = vsub (mean_of path3 (X k)) (vscal (1/10) (mean_of path3 (V k))).
Proof.
  destruct (C35_gt_vr_tracking path3 sync_env path3_ok sync_ok W3 (proj1 W3_ok) (fun _ => 2%nat) sgrad turns (fun _ => 1%nat) 10 blank (proj2 (proj2 W3_ok)) coin (1/10) start)
    as (X & Y & V & Ta & B & TR & _ & _ & _ & _ & _ & _ & M). exists X, V. auto.
Qed.
Example C36_vr_case a (st := state_with (fun _ => vzero) (fun i => [("y", AArr vzero); ("g", AArr (G0 i)); ("z_grads", AMap (table 2 (fun s => sgrad i s vzero)))]%string)) :
  exists d' st', do_phases path3 sync_env (saga W3 sgrad turns a 0) (0%nat, step path3 0 st) = ((d', st'), false) /\
    (forall i, In i (t_nodes path3) -> state_is st' i vzero).
Proof.
  destruct (C36_gt_saga_fixed path3 sync_env path3_ok sync_ok W3 (proj1 W3_ok) (proj1 (proj2 W3_ok)) (fun _ => 2%nat) sgrad turns turns_ok vzero a 0 0 st) as (d' & st' & E & Q).
  - intros i Hi. rewrite sgrad_full. replace (vsub vzero (centre i)) with (G0 i) by (apply functional_extensionality; intro c; unfold G0, vsub, vscal, vzero; lra).
    revert i Hi. three; repeat split.
  - exists d', st'. split; [exact E|]. intros i Hi. apply (Q i Hi).
Qed.
Example C36_lt_admm_vr_case ga be rho : be <> 0 ->
  (forall i, In i (t_nodes path3) -> vscal be (vsub (vscal (rho * deg path3 i) vzero) (vsum (map (edge_dual (3 * ga / be) i) (t_adj path3 i)))) =
     vscal (-1) (vscal ga (full_gradient (fun _ => 2%nat) sgrad i vzero))) /\
  (forall i j, In j (t_adj path3 i) -> vadd (edge_dual (3 * ga / be) i j) (edge_dual (3 * ga / be) j i) = vscal (2 * rho) vzero).
Proof.
  intro NB. destruct (C36_lt_admm_case ga be rho NB) as (A & B). split; [|exact B]. intros i Hi. rewrite sgrad_full, A by auto.
  apply functional_extensionality. intro c. unfold G0, vsub, vscal, vzero. lra.
Qed.
(** The pairs of three samples: each sample in two of three. *)
Example C68_unbiased_case : balanced 3 2 2 [[0; 1]; [0; 2]; [1; 2]]%nat.
Proof.
  split; [lia|]. split; [lia|]. split; [intros B [<-|[<-|[<-|[]]]]; reflexivity|]. intros [|[|[|s]]]; reflexivity.
Qed.
Example C68_full_batch_case : Permutation [2; 0; 1]%nat (seq 0 3).
Proof. cbn. apply Permutation_sym. transitivity [0; 2; 1]%nat; [apply perm_skip|]; apply perm_swap. Qed.
Example C68_no_variance_case x : saga_est (fun _ => 2%nat) sgrad 0%nat [1%nat] (fun s => sgrad 0%nat s x) x = full_gradient (fun _ => 2%nat) sgrad 0%nat x.
Proof. apply C68_no_variance; auto. intros y [<-|[]]. cbn. auto. Qed.
Example C68_sampler_case : all_permutations 2 [[0; 1]; [1; 0]]%nat.
Proof.
  split; [repeat constructor; cbn; intuition; discriminate|]. intro p. split.
  - intros [<-|[<-|[]]]; cbn; [auto|constructor].
  - intro Q. assert (L := Permutation_length Q). cbn in L. destruct p as [|x [|y [|z l]]]; try discriminate.
    apply Permutation_sym in Q. cbn in Q. apply Permutation_length_2 in Q. destruct Q as [[<- <-]|[<- <-]]; cbn; auto.
Qed.
Print Assumptions C33_gt_saga_step.
Print Assumptions C33_gt_vr_step.
Print Assumptions C33_lt_admm_vr_step.
Print Assumptions C33_gt_sarah_step.
Print Assumptions C33_gt_sarah_lossy_refuted.
Print Assumptions C33_gt_saga_run.
Print Assumptions C33_gt_vr_run.
Print Assumptions C33_gt_sarah_run.
Print Assumptions C33_lt_admm_vr_run.
Print Assumptions C35_gt_saga_tracking.
Print Assumptions C35_gt_vr_tracking.
Print Assumptions C35_gt_sarah_tracking.
Print Assumptions C36_gt_saga_fixed.
Print Assumptions C36_gt_vr_fixed.
Print Assumptions C36_gt_sarah_fixed.
Print Assumptions C36_lt_admm_vr_fixed.
Print Assumptions C68_unbiased.
Print Assumptions C68_full_batch.
Print Assumptions C68_no_variance.
Print Assumptions C68_sampler_balanced.
Print Assumptions C68_given_history_refuted.
