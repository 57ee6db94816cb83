(** C33-C36: the peer-to-peer algorithms. *)
From Coq Require Import Reals String List Bool Arith ZArith QArith.Qcanon Lia Lra FunctionalExtensionality.
From Verif.Model Require Import PyDict History Messages Network Runner Vec P2P.
From Verif.Spec Require Import NetworkSpec P2PSpec.
From Verif.Proofs Require Import NetworkProofs EmpiricalProofs P2PLock P2PSteps P2PRuns P2PMean P2PFixed P2PUnique.
Import ListNotations.
Open Scope R_scope.

(** ** C33, one step on any faithful network *)
(** A message arrives as sent or not at all, agents are active or not, in any
    pattern: what one [step] of each class does to the agents' variables, in
    terms of the set [D i] of agents whose message reached [i] in a round of
    communication. [do_phases t e (alg ..) (d, step t k st)] is the call of
    [Algorithm.step] in iteration [k] of [Algorithm.run] ([al_step]). *)
Section Step.
  Variables (t : topo) (e : env vec).
  Hypothesis PT : p2p_topo t.
  Hypothesis FA : faithful e.
  Variable W : agent_id -> agent_id -> R.
  Variable grad : nat -> agent_id -> vec -> vec.
  Variable prox : nat -> agent_id -> vec -> R -> vec.

  Theorem C33_dgd_step a k d st X : (forall i, In i (t_nodes t) -> state_is st i (X i)) ->
    exists d' st' D, do_phases t e (dgd W grad a k) (d, step t k st) = ((d', st'), false) /\
      delivery t e (active_at t e k st) D /\
      (forall i, In i (active_at t e k st) -> exists g, gradient_of grad i (X i) g /\
         state_is st' i (vsub (mix W (D i) X i) (vscal a g))) /\
      (forall i, ~ In i (active_at t e k st) -> untouched st st' i).
  Proof. eapply dgd_step; eauto. Qed.

  Theorem C33_atc_step a k d st X : (forall i, In i (t_nodes t) -> state_is st i (X i)) ->
    exists d' st' D Y, do_phases t e (atc W grad a k) (d, step t k st) = ((d', st'), false) /\
      delivery t e (active_at t e k st) D /\
      (forall i, In i (active_at t e k st) -> exists g, gradient_of grad i (X i) g /\ Y i = vsub (X i) (vscal a g) /\
         state_is st' i (fun c => W i i * X i c + rsum (map (fun j => W i j * Y j c) (D i)))) /\
      (forall i, ~ In i (active_at t e k st) -> untouched st st' i).
  Proof. eapply atc_step; eauto. Qed.

  Theorem C33_simple_gt_step a k d st X Y : (forall i, In i (t_nodes t) -> state_is st i (X i) /\ aux_is st i "y" (Y i)) ->
    exists d' st' D, do_phases t e (simple_gt W grad a k) (d, step t k st) = ((d', st'), false) /\
      delivery t e (active_at t e k st) D /\
      (forall i, In i (active_at t e k st) -> exists g, gradient_of grad i (X i) g /\
         state_is st' i (vadd (vsub (vsub (X i) (vscal a g)) (Y i)) (mix W (D i) X i)) /\
         aux_is st' i "y" (vsub (X i) (vscal a g))) /\
      (forall i, ~ In i (active_at t e k st) -> untouched st st' i).
  Proof. eapply simple_gt_step; eauto. Qed.

  Theorem C33_atct_step a k d st X Y G :
    (forall i, In i (t_nodes t) -> state_is st i (X i) /\ aux_is st i "y" (Y i) /\ aux_is st i "g" (G i)) ->
    let S := fun j => vsub (X j) (vscal a (Y j)) in
    exists d' st' D1 D2 Gn, do_phases t e (atct W grad a k) (d, step t k st) = ((d', st'), false) /\
      delivery t e (active_at t e k st) D1 /\ delivery t e (active_at t e k st) D2 /\
      (forall i, In i (active_at t e k st) -> let x' := mix W (D1 i) S i in
         gradient_of grad i x' (Gn i) /\ state_is st' i x' /\
         aux_is st' i "y" (vsub (vadd (mix W (D2 i) Y i) (Gn i)) (G i)) /\ aux_is st' i "g" (Gn i)) /\
      (forall i, ~ In i (active_at t e k st) -> untouched st st' i).
  Proof. eapply atct_step; eauto. Qed.

  Theorem C33_aug_dgm_step a k d st X Y G :
    (forall i, In i (t_nodes t) -> state_is st i (X i) /\ aux_is st i "y" (Y i) /\ aux_is st i "g" (G i)) ->
    let S := fun j => vsub (X j) (vscal a (Y j)) in
    exists d' st' D1 D2 Gn, do_phases t e (aug_dgm W grad a k) (d, step t k st) = ((d', st'), false) /\
      delivery t e (active_at t e k st) D1 /\ delivery t e (active_at t e k st) D2 /\
      (forall i, In i (active_at t e k st) -> let x' := mix W (D1 i) S i in
         gradient_of grad i x' (Gn i) /\ state_is st' i x' /\
         aux_is st' i "y" (mix W (D2 i) (fun j => vsub (vadd (Y j) (Gn j)) (G j)) i) /\ aux_is st' i "g" (Gn i)) /\
      (forall i, ~ In i (active_at t e k st) -> untouched st st' i).
  Proof. eapply aug_dgm_step; eauto. Qed.

  Theorem C33_extra_step0 a d st X : (forall i, In i (t_nodes t) -> state_is st i (X i)) ->
    exists d' st' D, do_phases t e (extra W grad a 0) (d, step t 0 st) = ((d', st'), false) /\
      delivery t e (active_at t e 0 st) D /\
      (forall i, In i (active_at t e 0 st) -> exists g, gradient_of grad i (X i) g /\
         state_is st' i (vsub (mix W (D i) X i) (vscal a g)) /\
         aux_is st' i "x_old" (X i) /\ aux_is st' i "x_cons" (mix W (D i) X i)) /\
      (forall i, ~ In i (active_at t e 0 st) -> untouched st st' i).
  Proof. eapply extra_step0; eauto. Qed.

  Theorem C33_extra_stepS a k d st X XO XC :
    (forall i, In i (t_nodes t) -> state_is st i (X i) /\ aux_is st i "x_old" (XO i) /\ aux_is st i "x_cons" (XC i)) ->
    exists d' st' D, do_phases t e (extra W grad a (S k)) (d, step t (S k) st) = ((d', st'), false) /\
      delivery t e (active_at t e (S k) st) D /\
      (forall i, In i (active_at t e (S k) st) -> exists g go, gradient_of grad i (X i) g /\ gradient_of grad i (XO i) go /\
         state_is st' i (vsub (vsub (vsub (vadd (X i) (mix W (D i) X i)) (vscal (1/2) (XO i))) (vscal (1/2) (XC i))) (vscal a (vsub g go))) /\
         aux_is st' i "x_old" (X i) /\ aux_is st' i "x_cons" (mix W (D i) X i)) /\
      (forall i, ~ In i (active_at t e (S k) st) -> untouched st st' i).
  Proof. eapply extra_stepS; eauto. Qed.

  Theorem C33_nids_step0 a d st X XO : (forall i, In i (t_nodes t) -> state_is st i (X i) /\ aux_is st i "x_old" (XO i)) ->
    exists d' st', do_phases t e (nids W grad a 0) (d, step t 0 st) = ((d', st'), false) /\
      (forall i, In i (active_at t e 0 st) -> exists g, gradient_of grad i (X i) g /\
         state_is st' i (vsub (XO i) (vscal a g)) /\ aux_is st' i "g" g /\ aux_is st' i "x_old" (XO i)) /\
      (forall i, ~ In i (active_at t e 0 st) -> untouched st st' i).
  Proof. eapply nids_step0; eauto. Qed.

  Theorem C33_nids_stepS a k d st X XO G : (forall i, In i (t_nodes t) -> state_is st i (X i) /\ aux_is st i "x_old" (XO i) /\ aux_is st i "g" (G i)) ->
    exists d' st' D Gn, do_phases t e (nids W grad a (S k)) (d, step t (S k) st) = ((d', st'), false) /\
      delivery t e (active_at t e (S k) st) D /\
      (forall i, In i (active_at t e (S k) st) -> gradient_of grad i (X i) (Gn i) /\
         state_is st' i (mix (half_plus W) (D i) (fun j => vadd (vsub (vsub (vscal 2 (X j)) (XO j)) (vscal a (Gn j))) (vscal a (G j))) i) /\
         aux_is st' i "g" (Gn i) /\ aux_is st' i "x_old" (X i)) /\
      (forall i, ~ In i (active_at t e (S k) st) -> untouched st st' i).
  Proof. rewrite <- halfW_eq. eapply nids_stepS; eauto. Qed.

  Theorem C33_ed_step a k d st X Y YN : (forall i, In i (t_nodes t) -> state_is st i (X i) /\ aux_is st i "y" (Y i) /\ aux_is st i "y_new" (YN i)) ->
    exists d' st' D, do_phases t e (ed W grad a k) (d, step t k st) = ((d', st'), false) /\
      delivery t e (active_at t e k st) D /\
      (forall i, In i (active_at t e k st) -> let x' := mix (half_plus W) (D i) (fun j => vsub (vadd (X j) (YN j)) (Y j)) i in
         exists g, gradient_of grad i x' g /\ state_is st' i x' /\ aux_is st' i "y" (YN i) /\ aux_is st' i "y_new" (vsub x' (vscal a g))) /\
      (forall i, ~ In i (active_at t e k st) -> untouched st st' i).
  Proof. rewrite <- halfW_eq. eapply ed_step; eauto. Qed.

  Theorem C33_wang_elia_step a k d st X Z : (forall i, In i (t_nodes t) -> state_is st i (X i) /\ aux_is st i "z" (Z i)) ->
    exists d' st' D1 D2, do_phases t e (wang_elia W grad a k) (d, step t k st) = ((d', st'), false) /\
      delivery t e (active_at t e k st) D1 /\ delivery t e (active_at t e k st) D2 /\
      (forall i, In i (active_at t e k st) -> 
         exists g, gradient_of grad i (X i) g /\ state_is st' i (vsub (vsub (X i) (mix (half_minus W) (D1 i) (fun j => vadd (X j) (Z j)) i)) (vscal a g)) /\
           aux_is st' i "z" (vadd (Z i) (mix (half_minus W) (D2 i) X i)) /\ aux_is st' i "x_old" (X i)) /\
      (forall i, ~ In i (active_at t e k st) -> untouched st st' i).
  Proof. rewrite <- weK_eq. eapply wang_elia_step; eauto. Qed.

  Theorem C33_led_step tau a b k d st X Y : (forall i, In i (t_nodes t) -> state_is st i (X i) /\ aux_is st i "y" (Y i)) ->
    exists d' st' D Phi, do_phases t e (led W grad tau a b k) (d, step t k st) = ((d', st'), false) /\
      delivery t e (active_at t e k st) D /\
      (forall i, In i (active_at t e k st) ->
         (exists s, local_steps grad i (fun phi g => vsub phi (vadd (vscal a g) (vscal b (Y i)))) tau (X i) (Phi i) s) /\
         state_is st' i (mix W (D i) Phi i) /\ aux_is st' i "y" (vadd (Y i) (vsub (Phi i) (mix W (D i) Phi i)))) /\
      (forall i, ~ In i (active_at t e k st) -> untouched st st' i).
  Proof. eapply led_step; eauto. Qed.

  Theorem C33_prox_skip_step coin chi a b k d st X Y : (forall i, In i (t_nodes t) -> state_is st i (X i) /\ aux_is st i "y" (Y i)) ->
    exists d' st' D Z, do_phases t e (prox_skip W grad coin chi a b k) (d, step t k st) = ((d', st'), false) /\
      delivery t e (active_at t e k st) D /\
      (forall i, In i (active_at t e k st) -> exists g, gradient_of grad i (X i) g /\ Z i = vsub (vsub (X i) (vscal a g)) (Y i) /\
         if coin k then state_is st' i (mix (damped W chi) (D i) Z i) /\ aux_is st' i "y" (vadd (Y i) (vscal b (vsub (Z i) (mix (damped W chi) (D i) Z i))))
         else state_is st' i (Z i) /\ aux_is st' i "y" (Y i)) /\
      (forall i, ~ In i (active_at t e k st) -> untouched st st' i).
  Proof. rewrite <- psW_eq. eapply prox_skip_step; eauto. Qed.

  Theorem C33_kgt_step kk a b k d st X Cv : (forall i, In i (t_nodes t) -> state_is st i (X i) /\ aux_is st i "c" (Cv i)) ->
    exists d' st' D XK, do_phases t e (kgt W grad kk a b k) (d, step t k st) = ((d', st'), false) /\
      delivery t e (active_at t e k st) D /\
      let Z := fun i => vscal (/ (INR kk * a)) (vsub (X i) (XK i)) in
      let M := fun i => vsub (X i) (vscal (INR kk * b * a) (Z i)) in
      (forall i, In i (active_at t e k st) ->
         (exists s, local_steps grad i (fun x g => vsub x (vscal a (vadd g (Cv i)))) kk (X i) (XK i) s) /\
         state_is st' i (mix W (D i) M i) /\
         aux_is st' i "c" (vadd (vsub (Cv i) (Z i)) (mix W (D i) Z i))) /\
      (forall i, ~ In i (active_at t e k st) -> untouched st st' i).
  Proof. eapply kgt_step; eauto. Qed.

  Theorem C33_admm_step rho al k d st X Z :
    (forall i, In i (t_nodes t) -> state_is st i (X i) /\ auxmap_is st i "z" (rows t i (Z i))) ->
    exists d' st' D X', do_phases t e (admm t prox rho al k) (d, step t k st) = ((d', st'), false) /\
      delivery t e (active_at t e k st) D /\
      (forall i, In i (active_at t e k st) ->
         (exists n, X' i = prox n i (vscal (/ (rho * deg t i)) (vsum (map (Z i) (t_adj t i)))) (/ (rho * deg t i))) /\
         state_is st' i (X' i) /\
         auxmap_is st' i "z" (rows t i (fun j => if memb j (D i)
            then vsub (vscal (1 - al) (Z i j)) (vscal al (vsub (Z j i) (vscal (2 * rho) (X' j)))) else Z i j))) /\
      (forall i, ~ In i (active_at t e k st) -> untouched st st' i).
  Proof. eapply admm_step; eauto. Qed.

  Theorem C33_lt_admm_step tau ga be rho al k d st X Z :
    (forall i, In i (t_nodes t) -> state_is st i (X i) /\ auxmap_is st i "z_i" (rows t i (Z i))) ->
    exists d' st' D X', do_phases t e (lt_admm t grad tau ga be rho al k) (d, step t k st) = ((d', st'), false) /\
      delivery t e (active_at t e k st) D /\
      (forall i, In i (active_at t e k st) ->
         (exists s, local_steps grad i (fun phi g => vsub phi (vadd (vscal ga g) (vscal be (vsub (vscal (rho * deg t i) (X i)) (vsum (map (Z i) (t_adj t i))))))) tau (X i) (X' i) s) /\
         state_is st' i (X' i) /\
         auxmap_is st' i "z_i" (rows t i (fun j => if memb j (D i)
            then vsub (vscal (1 - al) (Z i j)) (vscal al (vsub (Z j i) (vscal (2 * rho) (X' j)))) else Z i j))) /\
      (forall i, ~ In i (active_at t e k st) -> untouched st st' i).
  Proof. eapply lt_admm_step; eauto. Qed.

  Theorem C33_atg_step rho al ga de k d st X ZY ZS :
    (forall i, In i (t_nodes t) -> state_is st i (X i) /\ auxmap_is st i "z_y" (rows t i (ZY i)) /\ auxmap_is st i "z_s" (rows t i (ZS i))) ->
    let Y := fun i => vscal (/ (1 + rho * deg t i)) (vadd (X i) (vsum (map (ZY i) (t_adj t i)))) in
    exists d' st' D G, let S := fun i => vscal (/ (1 + rho * deg t i)) (vadd (G i) (vsum (map (ZS i) (t_adj t i)))) in
      do_phases t e (atg t grad rho al ga de k) (d, step t k st) = ((d', st'), false) /\
      delivery t e (active_at t e k st) D /\
      (forall i, In i (active_at t e k st) -> gradient_of grad i (X i) (G i) /\
         state_is st' i (vadd (vscal (1 - ga) (X i)) (vscal ga (vsub (Y i) (vscal de (S i))))) /\
         auxmap_is st' i "z_y" (rows t i (fun j => if memb j (D i)
            then vadd (vscal (1 - al) (ZY i j)) (vscal al (vadd (vscal (-1) (ZY j i)) (vscal (2 * rho) (Y j)))) else ZY i j)) /\
         auxmap_is st' i "z_s" (rows t i (fun j => if memb j (D i)
            then vadd (vscal (1 - al) (ZS i j)) (vscal al (vadd (vscal (-1) (ZS j i)) (vscal (2 * rho) (S j)))) else ZS i j))) /\
      (forall i, ~ In i (active_at t e k st) -> untouched st st' i).
  Proof. eapply atg_step; eauto. Qed.

End Step.


(** ** C33, whole runs on a reliable synchronous network *)
(** The states of all agents over a run of any length follow the recursion of
    the class documentation with the matrix of weights. *)
Section Run.
  Variables (t : topo) (e : env vec).
  Hypothesis PT : p2p_topo t.
  Hypothesis SY : synchronous e.
  Variable W : agent_id -> agent_id -> R.
  Hypothesis SP : sparse t W.
  Variable grad : nat -> agent_id -> vec -> vec.
  Variable prox : nat -> agent_id -> vec -> R -> vec.
  Variables (period : agent_id -> nat) (N : nat) (w : world vec nat).
  Notation nodes := (t_nodes t).
  Notation row := (row_of t).

  Theorem C33_dgd_run a x0 : let A := p2p t e N (dgd_init x0) (dgd W grad a) in
    exists X G, trajectory t period A w X /\ (forall i, X 0%nat i = x0 i) /\
      forall k i, (k < N)%nat -> In i nodes -> gradient_of grad i (X k i) (G k i) /\
        X (S k) i = vsub (row W (X k) i) (vscal a (G k i)).
  Proof. eapply dgd_run; eauto. Qed.

  Theorem C33_atc_run a x0 : let A := p2p t e N (atc_init x0) (atc W grad a) in
    exists X G, trajectory t period A w X /\ (forall i, X 0%nat i = x0 i) /\
      forall k i, (k < N)%nat -> In i nodes -> gradient_of grad i (X k i) (G k i) /\
        X (S k) i = vadd (row W (fun j => vsub (X k j) (vscal a (G k j))) i) (vscal (W i i * a) (G k i)).
  Proof. eapply atc_run; eauto. Qed.

  Theorem C33_simple_gt_run a x0 : let A := p2p t e N (simple_gt_init x0) (simple_gt W grad a) in
    exists X Y G, trajectory t period A w X /\ aux_trajectory t period A w "y" Y /\
      (forall i, X 0%nat i = x0 i /\ Y 0%nat i = x0 i) /\
      forall k i, (k < N)%nat -> In i nodes -> gradient_of grad i (X k i) (G k i) /\
        Y (S k) i = vsub (X k i) (vscal a (G k i)) /\
        X (S k) i = vadd (vsub (Y (S k) i) (Y k i)) (row W (X k) i).
  Proof. eapply simple_gt_run; eauto. Qed.

  Theorem C33_atct_run a x0 : let A := p2p t e N (track_init grad x0) (atct W grad a) in
    exists X Y G, trajectory t period A w X /\ aux_trajectory t period A w "y" Y /\ aux_trajectory t period A w "g" G /\
      (forall i, In i nodes -> X 0%nat i = x0 i /\ Y 0%nat i = G 0%nat i) /\
      (forall k i, (k <= N)%nat -> In i nodes -> gradient_of grad i (X k i) (G k i)) /\
      forall k i, (k < N)%nat -> In i nodes -> 
        X (S k) i = row W (fun j => vsub (X k j) (vscal a (Y k j))) i /\
        Y (S k) i = vsub (vadd (row W (Y k) i) (G (S k) i)) (G k i).
  Proof. eapply atct_run; eauto. Qed.

  Theorem C33_aug_dgm_run a x0 : let A := p2p t e N (track_init grad x0) (aug_dgm W grad a) in
    exists X Y G, trajectory t period A w X /\ aux_trajectory t period A w "y" Y /\ aux_trajectory t period A w "g" G /\
      (forall i, In i nodes -> X 0%nat i = x0 i /\ Y 0%nat i = G 0%nat i) /\
      (forall k i, (k <= N)%nat -> In i nodes -> gradient_of grad i (X k i) (G k i)) /\
      forall k i, (k < N)%nat -> In i nodes -> 
        X (S k) i = row W (fun j => vsub (X k j) (vscal a (Y k j))) i /\
        Y (S k) i = row W (fun j => vsub (vadd (Y k j) (G (S k) j)) (G k j)) i.
  Proof. eapply aug_dgm_run; eauto. Qed.

  Theorem C33_extra_run a x0 : let A := p2p t e N (extra_init x0) (extra W grad a) in
    exists X G G', trajectory t period A w X /\ (forall i, X 0%nat i = x0 i) /\
      (forall k i, (k < N)%nat -> In i nodes -> gradient_of grad i (X k i) (G k i)) /\
      (forall k i, (S k < N)%nat -> In i nodes -> gradient_of grad i (X k i) (G' k i)) /\
      (forall i, (0 < N)%nat -> In i nodes -> X 1%nat i = vsub (row W (X 0%nat) i) (vscal a (G 0%nat i))) /\
      forall k i, (S k < N)%nat -> In i nodes ->
        X (S (S k)) i = vsub (vsub (vadd (X (S k) i) (row W (X (S k)) i)) (vscal (1/2) (vadd (X k i) (row W (X k) i))))
                             (vscal a (vsub (G (S k) i) (G' k i))).
  Proof. eapply extra_run; eauto. Qed.

  Theorem C33_nids_run a x0 : let A := p2p t e N (nids_init x0) (nids W grad a) in
    exists X G, trajectory t period A w X /\ (forall i, X 0%nat i = x0 i) /\
      (forall k i, (k < N)%nat -> In i nodes -> gradient_of grad i (X k i) (G k i)) /\
      (forall i, (0 < N)%nat -> In i nodes -> X 1%nat i = vsub (X 0%nat i) (vscal a (G 0%nat i))) /\
      forall k i, (S k < N)%nat -> In i nodes ->
        X (S (S k)) i = row (half_plus W) (fun j => vsub (vsub (vscal 2 (X (S k) j)) (X k j)) (vscal a (vsub (G (S k) j) (G k j)))) i.
  Proof. eapply nids_run; eauto. Qed.

  Theorem C33_ed_run a x0 : let A := p2p t e N (ed_init grad a x0) (ed W grad a) in
    exists X Y G, trajectory t period A w X /\ aux_trajectory t period A w "y" Y /\ aux_trajectory t period A w "y_new" (fun k => Y (S k)) /\
      (forall i, X 0%nat i = x0 i /\ Y 0%nat i = x0 i) /\
      forall k i, (k <= N)%nat -> In i nodes -> gradient_of grad i (X k i) (G k i) /\
        Y (S k) i = vsub (X k i) (vscal a (G k i)) /\
        ((k < N)%nat -> X (S k) i = row (half_plus W) (fun j => vsub (vadd (Y (S k) j) (X k j)) (Y k j)) i).
  Proof. eapply ed_run; eauto. Qed.

  Theorem C33_wang_elia_run a x0 : let A := p2p t e N (we_init x0) (wang_elia W grad a) in
    exists X Z G, trajectory t period A w X /\ aux_trajectory t period A w "z" Z /\
      (forall i, X 0%nat i = x0 i /\ Z 0%nat i = vzero) /\
      forall k i, (k < N)%nat -> In i nodes -> gradient_of grad i (X k i) (G k i) /\
        X (S k) i = vsub (vsub (X k i) (row (half_minus W) (fun j => vadd (X k j) (Z k j)) i)) (vscal a (G k i)) /\
        Z (S k) i = vadd (Z k i) (row (half_minus W) (X k) i).
  Proof. eapply wang_elia_run; eauto. Qed.

  Theorem C33_led_run tau a b x0 : let A := p2p t e N (led_init x0) (led W grad tau a b) in
    exists X Y Phi Sg, trajectory t period A w X /\ aux_trajectory t period A w "y" Y /\
      (forall i, X 0%nat i = x0 i /\ Y 0%nat i = vzero) /\
      forall k i, (k < N)%nat -> In i nodes ->
        local_steps grad i (fun phi g => vsub phi (vadd (vscal a g) (vscal b (Y k i)))) tau (X k i) (Phi k i) (Sg k i) /\
        X (S k) i = row W (Phi k) i /\
        Y (S k) i = vadd (Y k i) (vsub (Phi k i) (X (S k) i)).
  Proof. eapply led_run; eauto. Qed.

  Theorem C33_kgt_run kk a b x0 : let A := p2p t e N (kgt_init x0) (kgt W grad kk a b) in
    exists X C XK Sg, trajectory t period A w X /\ aux_trajectory t period A w "c" C /\
      (forall i, X 0%nat i = x0 i /\ C 0%nat i = vzero) /\
      forall k i, (k < N)%nat -> In i nodes ->
        let Z := fun j => vscal (/ (INR kk * a)) (vsub (X k j) (XK k j)) in
        local_steps grad i (fun x g => vsub x (vscal a (vadd g (C k i)))) kk (X k i) (XK k i) (Sg k i) /\
        X (S k) i = row W (fun j => vsub (X k j) (vscal (INR kk * b * a) (Z j))) i /\
        C (S k) i = vadd (vsub (C k i) (Z i)) (row W Z i).
  Proof. eapply kgt_run; eauto. Qed.

  Theorem C33_prox_skip_run coin chi a b x0 : let A := p2p t e N (ps_init x0) (prox_skip W grad coin chi a b) in
    exists X Y G, trajectory t period A w X /\ aux_trajectory t period A w "y" Y /\
      (forall i, X 0%nat i = x0 i /\ Y 0%nat i = vzero) /\
      forall k i, (k < N)%nat -> In i nodes -> let Z := fun j => vsub (vsub (X k j) (vscal a (G k j))) (Y k j) in
        gradient_of grad i (X k i) (G k i) /\
        X (S k) i = (if coin k then row (damped W chi) Z i else Z i) /\
        Y (S k) i = (if coin k then vadd (Y k i) (vscal b (vsub (Z i) (X (S k) i))) else Y k i).
  Proof. eapply prox_skip_run; eauto. Qed.

  Theorem C33_admm_run rho al x0 z0 : let A := p2p t e N (admm_init t prox rho x0 z0) (admm t prox rho al) in
    exists X Z, trajectory t period A w X /\ rows_trajectory t period A w "z" Z /\
      (forall i, In i nodes -> (match x0 with Some x0 => X 0%nat i = x0 i
         | None => exists n, X 0%nat i = prox n i (vscal (/ rho) (z0 i)) (/ (rho * deg t i)) end) /\ forall j, Z 0%nat i j = z0 i) /\
      forall k i, (k < N)%nat -> In i nodes ->
        (exists n, X (S k) i = prox n i (vscal (/ (rho * deg t i)) (vsum (map (Z k i) (t_adj t i)))) (/ (rho * deg t i))) /\
        (forall j, In j (t_adj t i) -> Z (S k) i j = vsub (vscal (1 - al) (Z k i j)) (vscal al (vsub (Z k j i) (vscal (2 * rho) (X (S k) j))))).
  Proof. eapply admm_run; eauto. Qed.

  Theorem C33_lt_admm_run tau ga be rho al x0 : let A := p2p t e N (lt_admm_init t x0) (lt_admm t grad tau ga be rho al) in
    exists X Z Sg, trajectory t period A w X /\ rows_trajectory t period A w "z_i" Z /\
      (forall i, X 0%nat i = x0 i /\ forall j, Z 0%nat i j = x0 i) /\
      forall k i, (k < N)%nat -> In i nodes ->
        local_steps grad i (fun phi g => vsub phi (vadd (vscal ga g) (vscal be (vsub (vscal (rho * deg t i) (X k i)) (vsum (map (Z k i) (t_adj t i)))))))
          tau (X k i) (X (S k) i) (Sg k i) /\
        (forall j, In j (t_adj t i) -> Z (S k) i j = vsub (vscal (1 - al) (Z k i j)) (vscal al (vsub (Z k j i) (vscal (2 * rho) (X (S k) j))))).
  Proof. eapply lt_admm_run; eauto. Qed.

  Theorem C33_atg_run rho al ga de x0 z0 : let A := p2p t e N (atg_init t x0 z0) (atg t grad rho al ga de) in
    exists X ZY ZS G, trajectory t period A w X /\ rows_trajectory t period A w "z_y" ZY /\ rows_trajectory t period A w "z_s" ZS /\
      (forall i, X 0%nat i = x0 i /\ forall j, ZY 0%nat i j = z0 i /\ ZS 0%nat i j = z0 i) /\
      forall k i, (k < N)%nat -> In i nodes ->
        let Y := fun i => vscal (/ (1 + rho * deg t i)) (vadd (X k i) (vsum (map (ZY k i) (t_adj t i)))) in
        let S' := fun i => vscal (/ (1 + rho * deg t i)) (vadd (G k i) (vsum (map (ZS k i) (t_adj t i)))) in
        gradient_of grad i (X k i) (G k i) /\
        X (S k) i = vadd (vscal (1 - ga) (X k i)) (vscal ga (vsub (Y i) (vscal de (S' i)))) /\
        (forall j, In j (t_adj t i) ->
           ZY (S k) i j = vadd (vscal (1 - al) (ZY k i j)) (vscal al (vsub (vscal (2 * rho) (Y j)) (ZY k j i))) /\
           ZS (S k) i j = vadd (vscal (1 - al) (ZS k i j)) (vscal al (vsub (vscal (2 * rho) (S' j)) (ZS k j i)))).
  Proof. eapply atg_run; eauto. Qed.

End Run.


(** ** C34 and C35, mean dynamics and tracking with column-stochastic weights *)
Section Mean.
  Variables (t : topo) (e : env vec).
  Hypothesis PT : p2p_topo t.
  Hypothesis SY : synchronous e.
  Variable W : agent_id -> agent_id -> R.
  Hypothesis SP : sparse t W.
  Hypothesis CS : col_stochastic t W.
  Variable grad : nat -> agent_id -> vec -> vec.
  Variable prox : nat -> agent_id -> vec -> R -> vec.
  Variables (period : agent_id -> nat) (N : nat) (w : world vec nat).
  Notation nodes := (t_nodes t).
  Notation T := (total_of t).
  Notation mean := (mean_of t).

  Theorem C34_dgd_mean a x0 : let A := p2p t e N (dgd_init x0) (dgd W grad a) in
    exists X G, trajectory t period A w X /\ (forall i, X 0%nat i = x0 i) /\
      (forall k i, (k < N)%nat -> In i nodes -> gradient_of grad i (X k i) (G k i)) /\
      forall k, (k < N)%nat -> mean (X (S k)) = vsub (mean (X k)) (vscal a (mean (G k))).
  Proof. eapply dgd_mean; eauto. Qed.

  Theorem C34_simple_gt_mean a x0 : let A := p2p t e N (simple_gt_init x0) (simple_gt W grad a) in
    exists X G, trajectory t period A w X /\ (forall i, X 0%nat i = x0 i) /\
      (forall k i, (k < N)%nat -> In i nodes -> gradient_of grad i (X k i) (G k i)) /\
      forall k, (k < N)%nat -> mean (X (S k)) = vsub (mean (X k)) (vscal a (mean (G k))).
  Proof. eapply simple_gt_mean; eauto. Qed.

  Theorem C35_atct_tracking a x0 : let A := p2p t e N (track_init grad x0) (atct W grad a) in
    exists X Y G, trajectory t period A w X /\ aux_trajectory t period A w "y" Y /\ (forall i, In i nodes -> X 0%nat i = x0 i) /\
      (forall k i, (k <= N)%nat -> In i nodes -> gradient_of grad i (X k i) (G k i)) /\
      (forall k, (k <= N)%nat -> T (Y k) = T (G k)) /\
      forall k, (k < N)%nat -> mean (X (S k)) = vsub (mean (X k)) (vscal a (mean (G k))).
  Proof. eapply atct_tracking; eauto. Qed.

  Theorem C35_aug_dgm_tracking a x0 : let A := p2p t e N (track_init grad x0) (aug_dgm W grad a) in
    exists X Y G, trajectory t period A w X /\ aux_trajectory t period A w "y" Y /\ (forall i, In i nodes -> X 0%nat i = x0 i) /\
      (forall k i, (k <= N)%nat -> In i nodes -> gradient_of grad i (X k i) (G k i)) /\
      (forall k, (k <= N)%nat -> T (Y k) = T (G k)) /\
      forall k, (k < N)%nat -> mean (X (S k)) = vsub (mean (X k)) (vscal a (mean (G k))).
  Proof. eapply aug_dgm_tracking; eauto. Qed.

  Theorem C34_extra_mean a x0 : (forall n m i x, grad n i x = grad m i x) -> let A := p2p t e N (extra_init x0) (extra W grad a) in
    exists X G, trajectory t period A w X /\ (forall i, X 0%nat i = x0 i) /\
      (forall k i, (k < N)%nat -> In i nodes -> gradient_of grad i (X k i) (G k i)) /\
      forall k, (k < N)%nat -> mean (X (S k)) = vsub (mean (X k)) (vscal a (mean (G k))).
  Proof. eapply extra_mean; eauto. Qed.

  Theorem C34_nids_mean a x0 : let A := p2p t e N (nids_init x0) (nids W grad a) in
    exists X G, trajectory t period A w X /\ (forall i, X 0%nat i = x0 i) /\
      (forall k i, (k < N)%nat -> In i nodes -> gradient_of grad i (X k i) (G k i)) /\
      forall k, (k < N)%nat -> mean (X (S k)) = vsub (mean (X k)) (vscal a (mean (G k))).
  Proof. eapply nids_mean; eauto. Qed.

  Theorem C34_ed_mean a x0 : let A := p2p t e N (ed_init grad a x0) (ed W grad a) in
    exists X G, trajectory t period A w X /\ (forall i, X 0%nat i = x0 i) /\
      (forall k i, (k < N)%nat -> In i nodes -> gradient_of grad i (X k i) (G k i)) /\
      forall k, (k < N)%nat -> mean (X (S k)) = vsub (mean (X k)) (vscal a (mean (G k))).
  Proof. eapply ed_mean; eauto. Qed.

  Theorem C34_wang_elia_mean a x0 : let A := p2p t e N (we_init x0) (wang_elia W grad a) in
    exists X G, trajectory t period A w X /\ (forall i, X 0%nat i = x0 i) /\
      (forall k i, (k < N)%nat -> In i nodes -> gradient_of grad i (X k i) (G k i)) /\
      forall k, (k < N)%nat -> mean (X (S k)) = vsub (mean (X k)) (vscal a (mean (G k))).
  Proof. eapply wang_elia_mean; eauto. Qed.

  Theorem C34_led_mean tau a b x0 : let A := p2p t e N (led_init x0) (led W grad tau a b) in
    exists X Y Phi Sg, trajectory t period A w X /\ aux_trajectory t period A w "y" Y /\ (forall i, X 0%nat i = x0 i) /\
      (forall k i, (k < N)%nat -> In i nodes ->
         local_steps grad i (fun phi g => vsub phi (vadd (vscal a g) (vscal b (Y k i)))) tau (X k i) (Phi k i) (Sg k i)) /\
      (forall k, (k <= N)%nat -> T (Y k) = vzero) /\
      forall k, (k < N)%nat -> mean (X (S k)) = vsub (mean (X k)) (vscal a (mean (Sg k))).
  Proof. eapply led_mean; eauto. Qed.

  Theorem C34_kgt_mean kk a b x0 : INR kk * a <> 0 -> let A := p2p t e N (kgt_init x0) (kgt W grad kk a b) in
    exists X C XK Sg, trajectory t period A w X /\ aux_trajectory t period A w "c" C /\ (forall i, X 0%nat i = x0 i) /\
      (forall k i, (k < N)%nat -> In i nodes ->
         local_steps grad i (fun x g => vsub x (vscal a (vadd g (C k i)))) kk (X k i) (XK k i) (Sg k i)) /\
      (forall k, (k <= N)%nat -> T (C k) = vzero) /\
      forall k, (k < N)%nat -> mean (X (S k)) = vsub (mean (X k)) (vscal (a * b) (mean (Sg k))).
  Proof. eapply kgt_mean; eauto. Qed.

  Theorem C34_prox_skip_mean coin chi a b x0 : let A := p2p t e N (ps_init x0) (prox_skip W grad coin chi a b) in
    exists X Y G, trajectory t period A w X /\ aux_trajectory t period A w "y" Y /\ (forall i, X 0%nat i = x0 i) /\
      (forall k i, (k < N)%nat -> In i nodes -> gradient_of grad i (X k i) (G k i)) /\
      (forall k, (k <= N)%nat -> T (Y k) = vzero) /\
      forall k, (k < N)%nat -> mean (X (S k)) = vsub (mean (X k)) (vscal a (mean (G k))).
  Proof. eapply prox_skip_mean; eauto. Qed.

End Mean.


(** ** C36, fixed points *)
Section Fixed.
  Variables (t : topo) (e : env vec).
  Hypothesis PT : p2p_topo t.
  Hypothesis SY : synchronous e.
  Variable W : agent_id -> agent_id -> R.
  Hypothesis SP : sparse t W.
  Hypothesis RS : row_stochastic t W.
  Variable grad : nat -> agent_id -> vec -> vec.
  Variable prox : nat -> agent_id -> vec -> R -> vec.
  (** a point and the gradients of the agents' costs there *)
  Variables (xs : vec) (G : agent_id -> vec).
  Hypothesis GR : forall i g, In i (t_nodes t) -> gradient_of grad i xs g -> g = G i.
  Notation nodes := (t_nodes t).
  Notation row := (row_of t).

  Theorem C36_dgd_fixed a k d st : (forall i, In i nodes -> state_is st i xs) ->
    exists d' st', do_phases t e (dgd W grad a k) (d, step t k st) = ((d', st'), false) /\
      ((forall i, In i nodes -> state_is st' i xs) <-> (forall i, In i nodes -> vscal a (G i) = vzero)).
  Proof. eapply dgd_fixed; eauto. Qed.

  Theorem C36_simple_gt_fixed a k d st : (forall i, In i nodes -> state_is st i xs /\ aux_is st i "y" (vsub xs (vscal a (G i)))) ->
    exists d' st', do_phases t e (simple_gt W grad a k) (d, step t k st) = ((d', st'), false) /\
      (forall i, In i nodes -> state_is st' i xs /\ aux_is st' i "y" (vsub xs (vscal a (G i)))).
  Proof. eapply simple_gt_fixed; eauto. Qed.

  Theorem C36_atct_fixed a k d st : (forall i, In i nodes -> state_is st i xs /\ aux_is st i "y" vzero /\ aux_is st i "g" (G i)) ->
    exists d' st', do_phases t e (atct W grad a k) (d, step t k st) = ((d', st'), false) /\
      (forall i, In i nodes -> state_is st' i xs /\ aux_is st' i "y" vzero /\ aux_is st' i "g" (G i)).
  Proof. eapply atct_fixed; eauto. Qed.

  Theorem C36_aug_dgm_fixed a k d st : (forall i, In i nodes -> state_is st i xs /\ aux_is st i "y" vzero /\ aux_is st i "g" (G i)) ->
    exists d' st', do_phases t e (aug_dgm W grad a k) (d, step t k st) = ((d', st'), false) /\
      (forall i, In i nodes -> state_is st' i xs /\ aux_is st' i "y" vzero /\ aux_is st' i "g" (G i)).
  Proof. eapply aug_dgm_fixed; eauto. Qed.

  Theorem C36_extra_fixed a k d st : (forall i, In i nodes -> state_is st i xs /\ aux_is st i "x_old" xs /\ aux_is st i "x_cons" xs) ->
    exists d' st', do_phases t e (extra W grad a (S k)) (d, step t (S k) st) = ((d', st'), false) /\
      (forall i, In i nodes -> state_is st' i xs /\ aux_is st' i "x_old" xs /\ aux_is st' i "x_cons" xs).
  Proof. eapply extra_fixed; eauto. Qed.

  Theorem C36_nids_fixed a k d st : (forall i, In i nodes -> state_is st i xs /\ aux_is st i "x_old" xs /\ aux_is st i "g" (G i)) ->
    exists d' st', do_phases t e (nids W grad a (S k)) (d, step t (S k) st) = ((d', st'), false) /\
      (forall i, In i nodes -> state_is st' i xs /\ aux_is st' i "x_old" xs /\ aux_is st' i "g" (G i)).
  Proof. eapply nids_fixed; eauto. Qed.

  Theorem C36_ed_fixed a k d st : let y := fun i => vsub xs (vscal a (G i)) in
    (forall i, In i nodes -> state_is st i xs /\ aux_is st i "y" (y i) /\ aux_is st i "y_new" (y i)) ->
    exists d' st', do_phases t e (ed W grad a k) (d, step t k st) = ((d', st'), false) /\
      (forall i, In i nodes -> state_is st' i xs /\ aux_is st' i "y" (y i) /\ aux_is st' i "y_new" (y i)).
  Proof. eapply ed_fixed; eauto. Qed.

  Theorem C36_wang_elia_fixed a z k d st : (forall i, In i nodes -> row (half_minus W) z i = vscal (-1) (vscal a (G i))) ->
    (forall i, In i nodes -> state_is st i xs /\ aux_is st i "z" (z i)) ->
    exists d' st', do_phases t e (wang_elia W grad a k) (d, step t k st) = ((d', st'), false) /\
      (forall i, In i nodes -> state_is st' i xs /\ aux_is st' i "z" (z i)).
  Proof. eapply wang_elia_fixed; eauto. Qed.

  Theorem C36_led_fixed tau a b y k d st : (forall i, In i nodes -> vscal b (y i) = vscal (-1) (vscal a (G i))) ->
    (forall i, In i nodes -> state_is st i xs /\ aux_is st i "y" (y i)) ->
    exists d' st', do_phases t e (led W grad tau a b k) (d, step t k st) = ((d', st'), false) /\
      (forall i, In i nodes -> state_is st' i xs /\ aux_is st' i "y" (y i)).
  Proof. eapply led_fixed; eauto. Qed.

  Theorem C36_kgt_fixed kk a b k d st : 
    (forall i, In i nodes -> state_is st i xs /\ aux_is st i "c" (vscal (-1) (G i))) ->
    exists d' st', do_phases t e (kgt W grad kk a b k) (d, step t k st) = ((d', st'), false) /\
      (forall i, In i nodes -> state_is st' i xs /\ aux_is st' i "c" (vscal (-1) (G i))).
  Proof. eapply kgt_fixed; eauto. Qed.

  Theorem C36_prox_skip_fixed coin chi a b k d st : 
    (forall i, In i nodes -> state_is st i xs /\ aux_is st i "y" (vscal (-1) (vscal a (G i)))) ->
    exists d' st', do_phases t e (prox_skip W grad coin chi a b k) (d, step t k st) = ((d', st'), false) /\
      (forall i, In i nodes -> state_is st' i xs /\ aux_is st' i "y" (vscal (-1) (vscal a (G i)))).
  Proof. eapply prox_skip_fixed; eauto. Qed.

  Theorem C36_admm_fixed rho al z k d st :
    (forall i, In i nodes -> forall n, prox n i (vscal (/ (rho * deg t i)) (vsum (map (z i) (t_adj t i)))) (/ (rho * deg t i)) = xs) ->
    (forall i j, In j (t_adj t i) -> vadd (z i j) (z j i) = vscal (2 * rho) xs) ->
    (forall i, In i nodes -> state_is st i xs /\ auxmap_is st i "z" (rows t i (z i))) ->
    exists d' st', do_phases t e (admm t prox rho al k) (d, step t k st) = ((d', st'), false) /\
      (forall i, In i nodes -> state_is st' i xs /\ auxmap_is st' i "z" (rows t i (z i))).
  Proof. eapply admm_fixed; eauto. Qed.

  Theorem C36_lt_admm_fixed tau ga be rho al z k d st :
    (forall i, In i nodes -> vscal be (vsub (vscal (rho * deg t i) xs) (vsum (map (z i) (t_adj t i)))) = vscal (-1) (vscal ga (G i))) ->
    (forall i j, In j (t_adj t i) -> vadd (z i j) (z j i) = vscal (2 * rho) xs) ->
    (forall i, In i nodes -> state_is st i xs /\ auxmap_is st i "z_i" (rows t i (z i))) ->
    exists d' st', do_phases t e (lt_admm t grad tau ga be rho al k) (d, step t k st) = ((d', st'), false) /\
      (forall i, In i nodes -> state_is st' i xs /\ auxmap_is st' i "z_i" (rows t i (z i))).
  Proof. eapply lt_admm_fixed; eauto. Qed.

  Theorem C36_atg_fixed rho al ga de zy zs k d st : 0 <= rho ->
    (forall i, In i nodes -> vsum (map (zy i) (t_adj t i)) = vscal (rho * deg t i) xs) ->
    (forall i, In i nodes -> vsum (map (zs i) (t_adj t i)) = vscal (-1) (G i)) ->
    (forall i j, In j (t_adj t i) -> vadd (zy i j) (zy j i) = vscal (2 * rho) xs /\ vadd (zs i j) (zs j i) = vzero) ->
    (forall i, In i nodes -> state_is st i xs /\ auxmap_is st i "z_y" (rows t i (zy i)) /\ auxmap_is st i "z_s" (rows t i (zs i))) ->
    exists d' st', do_phases t e (atg t grad rho al ga de k) (d, step t k st) = ((d', st'), false) /\
      (forall i, In i nodes -> state_is st' i xs /\ auxmap_is st' i "z_y" (rows t i (zy i)) /\ auxmap_is st' i "z_s" (rows t i (zs i))).
  Proof. eapply atg_fixed; eauto. Qed.

End Fixed.

(** ** Determinacy, default weights, standstill *)
(** The recursions above are about the states of the run and nothing else:
    these are determined. *)
Theorem C33_trajectory_unique t period A w X X' : trajectory t period A w X -> trajectory t period A w X' ->
  forall k i, (k <= al_iters A)%nat -> In i (t_nodes t) -> X k i = X' k i.
Proof. apply trajectory_unique. Qed.

(** The weights a network has by default satisfy all that is assumed of [W]. *)
Theorem C34_default_weights t : p2p_topo t ->
  sparse t (metropolis t) /\ row_stochastic t (metropolis t) /\ col_stochastic t (metropolis t) /\
  (forall i j, metropolis t i j = metropolis t j i) /\
  (forall i j, In j (t_adj t i) -> metropolis t i j = 1 / (1 + INR (Nat.max (length (t_adj t i)) (length (t_adj t j))))).
Proof.
  intro PT. split; [now apply metropolis_sparse|]. split; [now apply metropolis_row|]. split; [now apply metropolis_col|].
  split; [intros; now apply metropolis_sym|intros; now apply metropolis_edge].
Qed.

(** If the mean follows the centralised recursion, agents that all stand still
    are at a point where the gradients they used cancel. *)
Theorem C36_standstill t (a : R) (X X' G : agent_id -> vec) : t_nodes t <> [] -> a <> 0 ->
  mean_of t X' = vsub (mean_of t X) (vscal a (mean_of t G)) ->
  (forall i, In i (t_nodes t) -> X' i = X i) -> total_of t G = vzero.
Proof.
  intros NE NA M E. rewrite (mean_eq t X' X) in M by (now apply total_ext). apply functional_extensionality. intro c.
  assert (Mc : mean_of t X c = mean_of t X c - a * mean_of t G c) by (exact (f_equal (fun f => f c) M)).
  unfold mean_of, vscal in Mc. unfold vzero.
  assert (INR (length (t_nodes t)) <> 0) by (apply not_0_INR; destruct (t_nodes t); cbn; congruence).
  assert (K : a * (/ INR (length (t_nodes t)) * total_of t G c) = 0) by lra.
  apply Rmult_integral in K. destruct K as [K|K]; [congruence|]. apply Rmult_integral in K. destruct K as [K|K]; auto.
  apply Rinv_neq_0_compat in H. congruence.
Qed.

(** ** What fails *)
(** A network of two connected agents. *)
Definition two : topo := mkTopo [0%nat; 1%nat] (fun a => match a with O => [1%nat] | 1%nat => [0%nat] | _ => [] end) None 1.
Definition sync_env : env vec := mkEnv (fun _ _ _ => true) (fun _ _ => false) (fun _ _ v => v) (fun _ _ => 1%Z) (fun _ _ => None) vadd.
Definition halves : agent_id -> agent_id -> R := fun i j => if Nat.ltb i 2 && Nat.ltb j 2 then 1/2 else 0.
Definition blank : world vec nat := (0%nat, mkNet (fun _ => new_agent) 0 None [] 0 []).
Lemma two_ok : p2p_topo two.
Proof.
  split; [|split; [reflexivity|]].
  - split; [repeat constructor; cbn; intuition; discriminate|]. split; [|split; [|exact I]].
    + intros [|[|a]] b; cbn; intuition; subst; cbn; auto.
    + intros [|[|a]]; cbn; repeat constructor; cbn; tauto.
  - intros [|[|a]]; cbn; intuition; discriminate.
Qed.
Lemma sync_ok : synchronous sync_env.
Proof. repeat split. Qed.
Lemma halves_ok : sparse two halves /\ col_stochastic two halves /\ row_stochastic two halves.
Proof.
  split; [|split].
  - intros [|[|i]] [|[|j]] N A; cbn in *; unfold halves; cbn; auto; try congruence; exfalso; apply A; auto.
  - intros [|[|j]] H; cbn in *; unfold halves, rsum; cbn; try lra. intuition; discriminate.
  - intros [|[|j]] H; cbn in *; unfold halves, rsum; cbn; try lra. intuition; discriminate.
Qed.

(** ATC combines the neighbours' adapted variables with the agent's own variable
    before adaptation, so it does not follow its documented recursion
    x' = sum_j W_ij (x_j - a grad f_j(x_j)) (it does up to the term
    [W i i * a * grad f_i(x_i)], see [C33_atc_run]) ... *)
Theorem C33_atc_documented_refuted :
  ~ (forall t e W grad a x0 period N w, p2p_topo t -> synchronous e -> sparse t W -> col_stochastic t W -> 0 < a ->
      exists X G, trajectory t period (p2p t e N (atc_init x0) (atc W grad a)) w X /\
        forall k i, (k < N)%nat -> In i (t_nodes t) -> gradient_of grad i (X k i) (G k i) /\
          X (S k) i = row_of t W (fun j => vsub (X k j) (vscal a (G k j))) i).
Proof.
  intro H. destruct halves_ok as (SP & CS & _).
  pose (grad := fun (_ : nat) (_ : agent_id) (_ : vec) => (fun _ : nat => 1) : vec).
  destruct (H two sync_env halves grad 1 (fun _ => vzero) (fun _ => 1%nat) 1%nat blank two_ok sync_ok SP CS Rlt_0_1) as (X & G & TR & R).
  destruct (atc_run two sync_env two_ok sync_ok halves SP grad (fun _ => 1%nat) 1 blank 1 (fun _ => vzero)) as (X' & G' & TR' & _ & R').
  assert (U := trajectory_unique _ _ _ _ _ _ TR TR').
  assert (I0 : In 0%nat (t_nodes two)) by (cbn; auto). assert (I1 : In 1%nat (t_nodes two)) by (cbn; auto).
  destruct (R 0%nat 0%nat ltac:(lia) I0) as ((n & g) & E). destruct (R 0%nat 1%nat ltac:(lia) I1) as ((n1 & g1) & _).
  destruct (R' 0%nat 0%nat ltac:(lia) I0) as ((n' & g') & E'). destruct (R' 0%nat 1%nat ltac:(lia) I1) as ((n1' & g1') & _).
  rewrite (U 1%nat 0%nat) in E by (auto; cbn; lia). rewrite E' in E.
  assert (Ec := f_equal (fun f : vec => f 0%nat) E). unfold row_of, vadd, vscal, vsub in Ec. cbn [two t_nodes map] in Ec.
  rewrite (U 0%nat 0%nat), (U 0%nat 1%nat) in Ec by (auto; cbn; lia).
  rewrite !rsum_cons, !rsum_nil in Ec. rewrite g, g1, g', g1' in Ec. unfold grad, halves in Ec. cbn in Ec. lra.
Qed.
(** ... nor does the mean of the agents' states follow gradient descent. *)
Theorem C34_atc_mean_refuted :
  ~ (forall t e W grad a x0 period N w, p2p_topo t -> synchronous e -> sparse t W -> col_stochastic t W -> 0 < a ->
      exists X G, trajectory t period (p2p t e N (atc_init x0) (atc W grad a)) w X /\
        (forall k i, (k < N)%nat -> In i (t_nodes t) -> gradient_of grad i (X k i) (G k i)) /\
        forall k, (k < N)%nat -> mean_of t (X (S k)) = vsub (mean_of t (X k)) (vscal a (mean_of t (G k)))).
Proof.
  intro H. destruct halves_ok as (SP & CS & _).
  pose (grad := fun (_ : nat) (_ : agent_id) (_ : vec) => (fun _ : nat => 1) : vec).
  destruct (H two sync_env halves grad 1 (fun _ => vzero) (fun _ => 1%nat) 1%nat blank two_ok sync_ok SP CS Rlt_0_1) as (X & G & TR & R & M).
  destruct (atc_run two sync_env two_ok sync_ok halves SP grad (fun _ => 1%nat) 1 blank 1 (fun _ => vzero)) as (X' & G' & TR' & _ & R').
  assert (U := trajectory_unique _ _ _ _ _ _ TR TR').
  assert (I0 : In 0%nat (t_nodes two)) by (cbn; auto). assert (I1 : In 1%nat (t_nodes two)) by (cbn; auto).
  destruct (R 0%nat 0%nat ltac:(lia) I0) as (n & g). destruct (R 0%nat 1%nat ltac:(lia) I1) as (n1 & g1).
  destruct (R' 0%nat 0%nat ltac:(lia) I0) as ((n' & g') & E'). destruct (R' 0%nat 1%nat ltac:(lia) I1) as ((n1' & g1') & E1').
  specialize (M 0%nat ltac:(lia)). assert (Mc := f_equal (fun f : vec => f 0%nat) M). unfold mean_of, total_of, vsub, vscal in Mc. cbn [two t_nodes map length] in Mc.
  rewrite (U 1%nat 0%nat), (U 1%nat 1%nat), (U 0%nat 0%nat), (U 0%nat 1%nat) in Mc by (auto; cbn; lia).
  rewrite E', E1' in Mc. rewrite !rsum_cons, !rsum_nil in Mc. unfold row_of, vadd, vscal, vsub in Mc. cbn [two t_nodes map] in Mc.
  rewrite !rsum_cons, !rsum_nil in Mc. rewrite g, g1, g', g1' in Mc. unfold grad, halves in Mc. cbn in Mc. lra.
Qed.

(** With agents that are not always active the mean is not preserved, even
    without any loss of messages and with vanishing gradients: an agent that
    hears nothing scales its state by its own weight. *)
Theorem C34_inactive_refuted :
  ~ (forall t e W grad a d st X, p2p_topo t -> reliable e -> sparse t W -> col_stochastic t W -> row_stochastic t W -> 0 < a ->
      (forall n i x, grad n i x = vzero) -> (forall i, In i (t_nodes t) -> state_is st i (X i)) ->
      exists d' st' X', do_phases t e (dgd W grad a 0) (d, step t 0 st) = ((d', st'), false) /\
        (forall i, In i (t_nodes t) -> state_is st' i (X' i)) /\ mean_of t X' = mean_of t X).
Proof.
  intro H. destruct halves_ok as (SP & CS & RS).
  pose (e := mkEnv (fun _ a _ => Nat.eqb a 0) (fun _ _ => false) (fun _ _ (v : vec) => v) (fun _ _ => 1%Z) (fun _ _ => None) vadd).
  pose (one := (fun _ : nat => 1) : vec).
  pose (st := mkNet (fun _ => @set_x vec one new_agent) 0 None [] 0 []).
  assert (RE : reliable e) by (repeat split).
  destruct (H two e halves (fun _ _ _ => vzero) 1 0%nat st (fun _ => one) two_ok RE SP CS RS Rlt_0_1) as (d' & st' & X' & E & S & M); [auto|reflexivity|].
  destruct (dgd_step two e two_ok (conj (proj1 (proj2 RE)) (proj2 (proj2 RE))) halves (fun _ _ _ => vzero) 1 0 0 st (fun _ => one)) as (d2 & st2 & D & E2 & DE & Q & U); [reflexivity|].
  rewrite E in E2. injection E2 as <- <-. assert (AC : active_at two e 0 st = [0%nat]) by reflexivity. rewrite AC in *.
  destruct (Q 0%nat (or_introl eq_refl)) as (g & (n & ->) & Q0). destruct (U 1%nat) as (U1 & _); [cbn; intuition; discriminate|].
  assert (D0 : D 0%nat = []). { destruct (D 0%nat) as [|j l] eqn:ED; auto. destruct (DE 0%nat) as (_ & DI & _). rewrite ED in DI. destruct (DI j (or_introl eq_refl)) as (A1 & A2). cbn in A1, A2. intuition; subst; discriminate. }
  rewrite D0 in Q0. pose proof (S 0%nat ltac:(cbn; auto)) as S0. pose proof (S 1%nat ltac:(cbn; auto)) as S1.
  unfold state_is in *. rewrite Q0 in S0. rewrite U1 in S1. cbn in S1. injection S0 as S0. injection S1 as S1.
  assert (Mc := f_equal (fun f : vec => f 0%nat) M). unfold mean_of, total_of, vscal in Mc. cbn [two t_nodes map length] in Mc.
  rewrite <- S0, <- S1 in Mc. rewrite !rsum_cons, !rsum_nil in Mc. unfold mix, vsub, vscal, vzero, one in Mc. cbn [map] in Mc. rewrite rsum_nil in Mc. unfold halves in Mc. cbn in Mc. lra.
Qed.

(** EXTRA evaluates the gradient at the previous point once more: with
    stochastic gradients the two evaluations differ and the mean of the states
    does not follow stochastic gradient descent ([C34_extra_mean] needs
    deterministic gradients). *)
Theorem C34_extra_stochastic_refuted :
  ~ (forall t e W grad a x0 period N w, p2p_topo t -> synchronous e -> sparse t W -> col_stochastic t W -> 0 < a ->
      exists X G, trajectory t period (p2p t e N (extra_init x0) (extra W grad a)) w X /\
        (forall k i, (k < N)%nat -> In i (t_nodes t) -> gradient_of grad i (X k i) (G k i)) /\
        forall k, (k < N)%nat -> mean_of t (X (S k)) = vsub (mean_of t (X k)) (vscal a (mean_of t (G k)))).
Proof.
  intro H. destruct halves_ok as (SP & CS & _).
  pose (grad := fun (n : nat) (_ : agent_id) (_ : vec) => (fun _ : nat => if Nat.eqb n 3 then 1 else 0) : vec).
  pose (A := p2p two sync_env 2 (extra_init (fun _ => vzero)) (extra halves grad 1)).
  destruct (H two sync_env halves grad 1 (fun _ => vzero) (fun _ => 1%nat) 2%nat blank two_ok sync_ok SP CS Rlt_0_1) as (X & G & TR & R & M).
  fold A in TR. pose proof TR as (_ & TS & _ & TF).
  assert (I0 : In 0%nat (t_nodes two)) by (cbn; auto). assert (I1 : In 1%nat (t_nodes two)) by (cbn; auto).
  assert (GP : forall k i c, (k < 2)%nat -> In i (t_nodes two) -> 0 <= G k i c).
  { intros k i c Hk Hi. destruct (R k i Hk Hi) as (n & ->). unfold grad. destruct (Nat.eqb n 3); lra. }
  set (r := run two (fun _ => 1%nat) A 0 blank) in *.
  assert (X2 : forall i, In i (t_nodes two) -> a_x (n_agents (snd (r_world r)) i) = Some (X 2%nat i)) by exact TF.
  pose proof (X2 0%nat I0) as E20. pose proof (X2 1%nat I1) as E21.
  cbv - [Rplus Rmult Rminus Ropp Rdiv Rinv IZR] in E20, E21. injection E20 as E20. injection E21 as E21.
  assert (F20 := f_equal (fun f : vec => f 0%nat) E20). assert (F21 := f_equal (fun f : vec => f 0%nat) E21). clear E20 E21.
  cbv beta in F20, F21.
  pose proof (M 0%nat ltac:(lia)) as M0. pose proof (M 1%nat ltac:(lia)) as M1.
  assert (X00 : forall i, In i (t_nodes two) -> X 0%nat i = vzero).
  { intros i Hi. destruct (extra_run two sync_env two_ok sync_ok halves SP grad (fun _ => 1%nat) 2 blank 1 (fun _ => vzero)) as (X' & _ & _ & TR' & I & _).
    rewrite (trajectory_unique _ _ _ _ _ _ TR TR' 0%nat i); [apply I|lia|auto]. }
  assert (M0c := f_equal (fun f : vec => f 0%nat) M0). assert (M1c := f_equal (fun f : vec => f 0%nat) M1).
  unfold mean_of, total_of, vsub, vscal in M0c, M1c. cbn [two t_nodes map length] in M0c, M1c. rewrite !rsum_cons, !rsum_nil in M0c, M1c.
  rewrite (X00 0%nat I0), (X00 1%nat I1) in M0c. unfold vzero in M0c.
  pose proof (GP 0%nat 0%nat 0%nat ltac:(lia) I0). pose proof (GP 0%nat 1%nat 0%nat ltac:(lia) I1).
  pose proof (GP 1%nat 0%nat 0%nat ltac:(lia) I0). pose proof (GP 1%nat 1%nat 0%nat ltac:(lia) I1).
  replace (INR 2) with 2 in * by (cbn; lra). lra.
Qed.

(** ** Concrete cases *)
(** A path of three agents with its default weights; a network that loses some
    messages and where agent 2 rests in even iterations; quadratic costs
    1/2 |x - b_i|^2 with b = (3, 0, -3), whose sum is minimal at 0. *)
Definition path3 : topo := mkTopo [0%nat; 1%nat; 2%nat]
  (fun a => match a with O => [1%nat] | 1%nat => [0%nat; 2%nat] | 2%nat => [1%nat] | _ => [] end) None 1.
Definition lossy_env : env vec :=
  mkEnv (fun _ a k => negb (Nat.eqb a 2 && Nat.even k)) (fun d _ => Nat.eqb (Nat.modulo d 3) 1) (fun _ _ v => v) (fun _ _ => 1%Z) (fun _ _ => None) vadd.
Definition centre (i : agent_id) : vec := fun _ => match i with O => 3 | 1%nat => 0 | _ => -3 end.
Definition qgrad (n : nat) (i : agent_id) (x : vec) : vec := vsub x (centre i).
Definition qprox (n : nat) (i : agent_id) (x : vec) (rho : R) : vec := vscal (/ (1 + rho)) (vadd x (vscal rho (centre i))).
Definition start (i : agent_id) : vec := fun _ => INR i.
(** every agent [i] with state [x i] and auxiliary variables [ax i] *)
Definition state_with (x : agent_id -> vec) (ax : agent_id -> list (string * auxv vec)) : net vec :=
  mkNet (fun i => mkAgent (Some (x i)) h_empty (ax i) s_empty 0 0%Qc 0%Qc 0%Qc 0) 0 None [] 0 [].

Lemma path3_ok : p2p_topo path3.
Proof.
  split; [|split; [reflexivity|]].
  - split; [repeat constructor; cbn; intuition; discriminate|]. split; [|split; [|exact I]].
    + intros [|[|[|a]]] b; cbn; intuition; subst; cbn; auto.
    + intros [|[|[|a]]]; cbn; repeat constructor; cbn; intuition; discriminate.
  - intros [|[|[|a]]]; cbn; intuition; discriminate.
Qed.
Lemma lossy_ok : faithful lossy_env.
Proof. split; reflexivity. Qed.
Definition W3 := metropolis path3.
Lemma W3_ok : sparse path3 W3 /\ row_stochastic path3 W3 /\ col_stochastic path3 W3.
Proof. destruct (C34_default_weights path3 path3_ok) as (A & B & C & _). auto. Qed.

(** C33, one step: agents 0 and 1 active, some messages lost, every algorithm. *)
Example C33_step_case :
  let st := state_with start (fun i => [("y", AArr vzero); ("g", AArr (start i)); ("y_new", AArr (start i)); ("x_old", AArr (start i));
      ("x_cons", AArr (start i)); ("c", AArr vzero); ("z_i", AMap (rows path3 i start)); ("z_y", AMap (rows path3 i start)); ("z_s", AMap (rows path3 i start))]%string) in
  (forall i, In i (t_nodes path3) -> state_is st i (start i) /\ aux_is st i "y" vzero /\ aux_is st i "y_new" (start i) /\ aux_is st i "g" (start i) /\
     aux_is st i "x_old" (start i) /\ aux_is st i "x_cons" (start i) /\ aux_is st i "c" vzero /\
     auxmap_is st i "z_i" (rows path3 i start) /\ auxmap_is st i "z_y" (rows path3 i start) /\ auxmap_is st i "z_s" (rows path3 i start)) /\
  active_at path3 lossy_env 0 st = [0%nat; 1%nat].
Proof. split; [|reflexivity]. intros [|[|[|i]]] H; cbn in H; [| | |intuition; discriminate]; repeat split. Qed.
Example C33_dgd_step_case : let st := state_with start (fun _ => []) in
  exists d' st' D, do_phases path3 lossy_env (dgd W3 qgrad 1 0) (0%nat, step path3 0 st) = ((d', st'), false) /\
    delivery path3 lossy_env [0%nat; 1%nat] D /\
    state_is st' 0%nat (vsub (mix W3 (D 0%nat) start 0%nat) (vscal 1 (vsub (start 0%nat) (centre 0%nat)))) /\
    untouched st st' 2%nat.
Proof.
  intro st. destruct (C33_dgd_step path3 lossy_env path3_ok lossy_ok W3 qgrad 1 0 0 st start) as (d' & st' & D & E & DE & Q & U); [reflexivity|].
  exists d', st', D. split; [exact E|split; [exact DE|split]].
  - destruct (Q 0%nat) as (g & (n & ->) & Q0); [cbn; auto|exact Q0].
  - apply U. cbn. intuition; discriminate.
Qed.

(** C33, C34, C35: ten iterations on the path with its default weights. *)
Example C33_run_case :
  exists X G, trajectory path3 (fun _ => 1%nat) (p2p path3 sync_env 10 (dgd_init start) (dgd W3 qgrad (1/2))) blank X /\ (forall i, X 0%nat i = start i) /\
    forall k i, (k < 10)%nat -> In i (t_nodes path3) -> gradient_of qgrad i (X k i) (G k i) /\
      X (S k) i = vsub (row_of path3 W3 (X k) i) (vscal (1/2) (G k i)).
Proof. apply (C33_dgd_run path3 sync_env path3_ok sync_ok W3 (proj1 W3_ok) qgrad (fun _ => 1%nat) 10 blank (1/2) start). Qed.
Example C34_mean_case :
  exists X G, trajectory path3 (fun _ => 1%nat) (p2p path3 sync_env 10 (nids_init start) (nids W3 qgrad (1/2))) blank X /\ (forall i, X 0%nat i = start i) /\
    (forall k i, (k < 10)%nat -> In i (t_nodes path3) -> gradient_of qgrad i (X k i) (G k i)) /\
    forall k, (k < 10)%nat -> mean_of path3 (X (S k)) = vsub (mean_of path3 (X k)) (vscal (1/2) (mean_of path3 (G k))).
Proof. apply (C34_nids_mean path3 sync_env path3_ok sync_ok W3 (proj1 W3_ok) (proj2 (proj2 W3_ok)) qgrad (fun _ => 1%nat) 10 blank (1/2) start). Qed.
Example C34_kgt_case : INR 5 * (1/10) <> 0.
Proof. cbn. lra. Qed.
Example C34_extra_case : forall n m i x, qgrad n i x = qgrad m i x.
Proof. reflexivity. Qed.
Example C35_tracking_case :
  exists X Y G, trajectory path3 (fun _ => 1%nat) (p2p path3 sync_env 10 (track_init qgrad start) (atct W3 qgrad (1/10))) blank X /\
    aux_trajectory path3 (fun _ => 1%nat) (p2p path3 sync_env 10 (track_init qgrad start) (atct W3 qgrad (1/10))) blank "y" Y /\
    (forall k i, (k <= 10)%nat -> In i (t_nodes path3) -> gradient_of qgrad i (X k i) (G k i)) /\
    (forall k, (k <= 10)%nat -> total_of path3 (Y k) = total_of path3 (G k)).
Proof.
  destruct (C35_atct_tracking path3 sync_env path3_ok sync_ok W3 (proj1 W3_ok) (proj2 (proj2 W3_ok)) qgrad (fun _ => 1%nat) 10 blank (1/10) start) as (X & Y & G & A & B & _ & C & D & _).
  exists X, Y, G. auto.
Qed.

(** C36: at 0 the gradients are -b_i and not zero, but cancel; with the dual
    variables below every class of [Section Fixed] but DGD stands still. *)
Definition G0 (i : agent_id) : vec := vscal (-1) (centre i).
Lemma G0_ok : forall i g, In i (t_nodes path3) -> gradient_of qgrad i vzero g -> g = G0 i.
Proof. intros i g _ (n & ->). apply functional_extensionality. intro c. unfold qgrad, G0, vsub, vscal, vzero. lra. Qed.
Lemma W3_values : W3 0%nat 0%nat = 2/3 /\ W3 0%nat 1%nat = 1/3 /\ W3 0%nat 2%nat = 0 /\ W3 1%nat 0%nat = 1/3 /\ W3 1%nat 1%nat = 1/3 /\ W3 1%nat 2%nat = 1/3 /\
  W3 2%nat 0%nat = 0 /\ W3 2%nat 1%nat = 1/3 /\ W3 2%nat 2%nat = 2/3.
Proof.
  destruct (C34_default_weights path3 path3_ok) as (SP & RS & _ & _ & ED). fold W3 in *.
  pose proof (ED 0%nat 1%nat ltac:(cbn; auto)) as A. pose proof (ED 1%nat 0%nat ltac:(cbn; auto)) as B.
  pose proof (ED 1%nat 2%nat ltac:(cbn; auto)) as C. pose proof (ED 2%nat 1%nat ltac:(cbn; auto)) as D. cbn [path3 t_adj length Nat.max INR] in A, B, C, D.
  replace (1 + (1 + 1)) with 3 in * by lra.
  pose proof (SP 0%nat 2%nat ltac:(discriminate) ltac:(cbn; intuition; discriminate)) as E.
  pose proof (SP 2%nat 0%nat ltac:(discriminate) ltac:(cbn; intuition; discriminate)) as F.
  pose proof (RS 0%nat ltac:(cbn; auto)) as R0. pose proof (RS 1%nat ltac:(cbn; auto)) as R1. pose proof (RS 2%nat ltac:(cbn; auto)) as R2.
  cbn [path3 t_nodes map] in R0, R1, R2. rewrite !rsum_cons, !rsum_nil in R0, R1, R2. repeat split; lra.
Qed.
(** the dual variables: for Wang-Elia, and per edge for the ADMM family *)
Definition we_dual (a : R) (i : agent_id) : vec := fun _ => match i with O => 18 * a | 1%nat => 0 | _ => -18 * a end.
Definition edge_dual (s : R) (i j : agent_id) : vec := fun _ => match i, j with O, _ => - s | 1%nat, O => s | 1%nat, _ => - s | _, _ => s end.
Ltac three := let h := fresh in intros [|[|[|?]]] h; cbn in h; [| | |exfalso; intuition; discriminate].
Example C36_case a (st := state_with (fun _ => vzero) (fun i => [("y", AArr vzero); ("g", AArr (G0 i))]%string)) :
  exists d' st', do_phases path3 sync_env (atct W3 qgrad a 0) (0%nat, step path3 0 st) = ((d', st'), false) /\
    (forall i, In i (t_nodes path3) -> state_is st' i vzero /\ aux_is st' i "y" vzero /\ aux_is st' i "g" (G0 i)).
Proof.
  apply (C36_atct_fixed path3 sync_env path3_ok sync_ok W3 (proj1 W3_ok) (proj1 (proj2 W3_ok)) qgrad vzero G0 G0_ok). three; repeat split.
Qed.
Example C36_wang_elia_case a : forall i, In i (t_nodes path3) -> row_of path3 (half_minus W3) (we_dual a) i = vscal (-1) (vscal a (G0 i)).
Proof.
  destruct W3_values as (A & B & C & D & E & F & G & H & I).
  three; apply functional_extensionality; intro c; unfold row_of; cbn [path3 t_nodes map]; rewrite !rsum_cons, !rsum_nil;
    unfold half_minus, ident, vscal, G0, centre, we_dual; cbn [Nat.eqb]; rewrite ?A, ?B, ?C, ?D, ?E, ?F, ?G, ?H, ?I; unfold vscal; lra.
Qed.
Example C36_led_case a b : b <> 0 -> forall i, In i (t_nodes path3) -> vscal b (vscal (a / b) (centre i)) = vscal (-1) (vscal a (G0 i)).
Proof. intros NB i _. apply functional_extensionality. intro c. unfold G0, vscal. field. auto. Qed.
Example C36_admm_case rho : 0 < rho ->
  (forall i, In i (t_nodes path3) -> forall n, qprox n i (vscal (/ (rho * deg path3 i)) (vsum (map (edge_dual 3 i) (t_adj path3 i)))) (/ (rho * deg path3 i)) = vzero) /\
  (forall i j, In j (t_adj path3 i) -> vadd (edge_dual 3 i j) (edge_dual 3 j i) = vscal (2 * rho) vzero).
Proof.
  intro P. split.
  - three; intro n; apply functional_extensionality; intro c; unfold qprox, edge_dual, centre, vsum, deg, vscal, vadd, vzero; cbn; unfold vadd, vzero; field; lra.
  - intros [|[|[|i]]] j H; cbn in H; try tauto; intuition; subst; apply functional_extensionality; intro c; unfold edge_dual, vadd, vscal, vzero; lra.
Qed.
Example C36_lt_admm_case ga be rho : be <> 0 ->
  (forall i, In i (t_nodes path3) -> vscal be (vsub (vscal (rho * deg path3 i) vzero) (vsum (map (edge_dual (3 * ga / be) i) (t_adj path3 i)))) = vscal (-1) (vscal ga (G0 i))) /\
  (forall i j, In j (t_adj path3 i) -> vadd (edge_dual (3 * ga / be) i j) (edge_dual (3 * ga / be) j i) = vscal (2 * rho) vzero).
Proof.
  intro NB. split.
  - three; apply functional_extensionality; intro c; unfold G0, edge_dual, centre, vsum, deg, vscal, vsub, vzero; cbn; unfold vadd, vzero; field; auto.
  - intros [|[|[|i]]] j H; cbn in H; try tauto; intuition; subst; apply functional_extensionality; intro c; unfold edge_dual, vadd, vscal, vzero; lra.
Qed.
Example C36_atg_case rho :
  (forall i, In i (t_nodes path3) -> vsum (map (fun _ => vzero) (t_adj path3 i)) = vscal (rho * deg path3 i) vzero) /\
  (forall i, In i (t_nodes path3) -> vsum (map (edge_dual (-3) i) (t_adj path3 i)) = vscal (-1) (G0 i)) /\
  (forall i j, In j (t_adj path3 i) -> vadd vzero vzero = vscal (2 * rho) vzero /\ vadd (edge_dual (-3) i j) (edge_dual (-3) j i) = vzero).
Proof.
  split; [|split].
  - three; apply functional_extensionality; intro c; unfold vsum, vscal; cbn; unfold vadd, vzero; lra.
  - three; apply functional_extensionality; intro c; unfold vsum, G0, edge_dual, centre, vscal; cbn; unfold vadd, vzero; lra.
  - intros [|[|[|i]]] j H; cbn in H; try tauto; intuition; subst; apply functional_extensionality; intro c; unfold edge_dual, vadd, vscal, vzero; lra.
Qed.
Example C36_standstill_case : let X := fun _ : agent_id => vzero in
  mean_of path3 X = vsub (mean_of path3 X) (vscal (1/2) (mean_of path3 G0)).
Proof.
  intro X. apply functional_extensionality. intro c. unfold mean_of, total_of, vsub, vscal. cbn [path3 t_nodes map].
  rewrite !rsum_cons, !rsum_nil. unfold X, G0, centre, vscal, vzero. lra.
Qed.

Print Assumptions C33_dgd_step.
Print Assumptions C33_atc_step.
Print Assumptions C33_simple_gt_step.
Print Assumptions C33_atct_step.
Print Assumptions C33_aug_dgm_step.
Print Assumptions C33_extra_step0.
Print Assumptions C33_extra_stepS.
Print Assumptions C33_nids_step0.
Print Assumptions C33_nids_stepS.
Print Assumptions C33_ed_step.
Print Assumptions C33_wang_elia_step.
Print Assumptions C33_led_step.
Print Assumptions C33_prox_skip_step.
Print Assumptions C33_kgt_step.
Print Assumptions C33_admm_step.
Print Assumptions C33_lt_admm_step.
Print Assumptions C33_atg_step.
Print Assumptions C33_dgd_run.
Print Assumptions C33_atc_run.
Print Assumptions C33_simple_gt_run.
Print Assumptions C33_atct_run.
Print Assumptions C33_aug_dgm_run.
Print Assumptions C33_extra_run.
Print Assumptions C33_nids_run.
Print Assumptions C33_ed_run.
Print Assumptions C33_wang_elia_run.
Print Assumptions C33_led_run.
Print Assumptions C33_kgt_run.
Print Assumptions C33_prox_skip_run.
Print Assumptions C33_admm_run.
Print Assumptions C33_lt_admm_run.
Print Assumptions C33_atg_run.
Print Assumptions C34_dgd_mean.
Print Assumptions C34_simple_gt_mean.
Print Assumptions C35_atct_tracking.
Print Assumptions C35_aug_dgm_tracking.
Print Assumptions C34_extra_mean.
Print Assumptions C34_nids_mean.
Print Assumptions C34_ed_mean.
Print Assumptions C34_wang_elia_mean.
Print Assumptions C34_led_mean.
Print Assumptions C34_kgt_mean.
Print Assumptions C34_prox_skip_mean.
Print Assumptions C36_dgd_fixed.
Print Assumptions C36_simple_gt_fixed.
Print Assumptions C36_atct_fixed.
Print Assumptions C36_aug_dgm_fixed.
Print Assumptions C36_extra_fixed.
Print Assumptions C36_nids_fixed.
Print Assumptions C36_ed_fixed.
Print Assumptions C36_wang_elia_fixed.
Print Assumptions C36_led_fixed.
Print Assumptions C36_kgt_fixed.
Print Assumptions C36_prox_skip_fixed.
Print Assumptions C36_admm_fixed.
Print Assumptions C36_lt_admm_fixed.
Print Assumptions C36_atg_fixed.
Print Assumptions C33_trajectory_unique.
Print Assumptions C34_default_weights.
Print Assumptions C36_standstill.
Print Assumptions C33_atc_documented_refuted.
Print Assumptions C34_atc_mean_refuted.
Print Assumptions C34_inactive_refuted.
Print Assumptions C34_extra_stochastic_refuted.
