(** Runs of the variance-reduced algorithms on reliable synchronous networks. *)
From Coq Require Import Reals String List Bool Arith ZArith Lia Lra FunctionalExtensionality Permutation.
From Verif.Model Require Import PyDict History Messages Network Runner Vec P2P P2PVR.
From Verif.Spec Require Import NetworkSpec P2PSpec P2PVRSpec.
From Verif.Proofs Require Import PyDictProofs NetworkProofs NetworkInv NetworkMore EmpiricalProofs RunnerProofs P2PLock P2PSteps P2PRuns P2PMean P2PFixed P2PVRSteps.
Import ListNotations.
Open Scope R_scope.

Record vstate := mkV { sX : agent_id -> vec; sY : agent_id -> vec; sG : agent_id -> vec; sT : agent_id -> nat -> vec;
                       sB : agent_id -> list nat; sB' : agent_id -> list nat }.

Section Runs.
  Variables (t : topo) (e : env vec).
  Hypothesis PT : p2p_topo t.
  Hypothesis SY : synchronous e.
  Variable W : agent_id -> agent_id -> R.
  Hypothesis SP : sparse t W.
  Variables (m : agent_id -> nat) (sg : agent_id -> nat -> vec -> vec) (batch : nat -> agent_id -> list nat).
  Hypothesis PB : proper m batch.
  Variables (period : agent_id -> nat) (N : nat) (w : world vec nat).
  Notation nodes := (t_nodes t).
  Notation row := (row_of t).
  Notation full := (full_gradient m sg).
  Notation acts := (active_all t e PT SY).
  Notation smx := (smix t e PT SY).
  Notation FAe := (P2PRuns.FA e SY).
  Notation NDn := (P2PRuns.NDn t PT).

  Ltac mstab := intros k s st st' U H i Hi; specialize (H i Hi); destruct (U i Hi) as (U1 & U2); unfold state_is, aux_is, auxmap_is in *; rewrite ?U1, ?U2; exact H.
  Ltac traj SS SC SW := match goal with
    | |- trajectory _ _ _ _ _ => split; [assumption|split; [|split]]; intros; [eapply SS|eapply SC|eapply SW]; eauto
    | |- aux_trajectory _ _ _ _ _ _ => split; [|split]; intros; [eapply SS|eapply SC|eapply SW]; eauto
    | |- rows_trajectory _ _ _ _ _ _ => split; [|split]; intros; [eapply SS|eapply SC|eapply SW]; eauto
    | |- table_trajectory _ _ _ _ _ _ _ => split; [|split]; intros; [eapply SS|eapply SC|eapply SW]; eauto
    end.
  Ltac init := intros; match goal with A := p2p _ _ _ _ _ |- _ => subst A | _ => idtac end; cbn [al_init p2p snd fst] in *;
    match goal with i : agent_id, Hi : In ?i nodes |- context [do_init t ?f ?u] =>
      let n := fresh "n" in let A := fresh in let B := fresh in
      destruct (do_init_spec t f u PT i Hi) as (n & A & B);
      unfold state_is, aux_is, auxmap_is; rewrite ?A, ?B; cbn end.

  Lemma row_ext M u v i : (forall j, In j nodes -> u j = v j) -> row M u i = row M v i.
  Proof. intro H. apply functional_extensionality. intro c. unfold row_of. apply rsum_map_ext. intros j Hj. now rewrite H. Qed.

  Theorem saga_run a x0 : let A := p2p t e N (saga_init m sg x0) (saga W sg batch a) in
    exists X Y G T B B', trajectory t period A w X /\ aux_trajectory t period A w "y" Y /\ aux_trajectory t period A w "g" G /\
      table_trajectory t period A w m "z_grads" T /\
      (forall i, X 0%nat i = x0 i /\ Y 0%nat i = vzero /\ G 0%nat i = vzero /\ forall s, T 0%nat i s = sg i s (x0 i)) /\
      forall k i, (k < N)%nat -> In i nodes -> drawn batch i (B k i) /\ drawn batch i (B' k i) /\
        G (S k) i = saga_est m sg i (B k i) (T k i) (X k i) /\
        Y (S k) i = row W (fun j => vsub (vadd (Y k j) (G (S k) j)) (G k j)) i /\
        X (S k) i = row W (fun j => vsub (X k j) (vscal a (Y (S k) j))) i /\
        T (S k) i = refresh (B' k i) (fun s => sg i s (X (S k) i)) (T k i).
  Proof.
    intro A.
    destruct (run_trace t period A (fun _ s st => forall i, In i nodes -> state_is st i (sX s i) /\ aux_is st i "y" (sY s i) /\ aux_is st i "g" (sG s i) /\ auxmap_is st i "z_grads" (table (m i) (sT s i)))
      (fun _ s s' => forall i, In i nodes -> drawn batch i (sB s' i) /\ drawn batch i (sB' s' i) /\
        sG s' i = saga_est m sg i (sB s' i) (sT s i) (sX s i) /\
        sY s' i = row W (fun j => vsub (vadd (sY s j) (sG s' j)) (sG s j)) i /\
        sX s' i = row W (fun j => vsub (sX s j) (vscal a (sY s' j))) i /\
        sT s' i = refresh (sB' s' i) (fun h => sg i h (sX s' i)) (sT s i))
      NDn ltac:(mstab)) with (w := w) (s := mkV x0 (fun _ => vzero) (fun _ => vzero) (fun i s => sg i s (x0 i)) (fun _ => []) (fun _ => []))
      as (sq & S0 & SR & SO & SS & SC & SW).
    - intros k s d st H. destruct (saga_step t e PT W m sg batch PB FAe a k d st (sX s) (sY s) (sG s) (sT s) H) as (d' & st' & D1 & D2 & B & B' & Y' & E & DE1 & DE2 & Q & _).
      rewrite acts in *. cbv zeta in Q. set (G' := fun i => saga_est m sg i (B i) (sT s i) (sX s i)) in *.
      set (Y1 := row W (fun j => vsub (vadd (sY s j) (G' j)) (sG s j))).
      assert (EY : forall i, In i nodes -> Y' i = Y1 i). { intros i Hi. destruct (Q i Hi) as (_ & _ & -> & _). unfold Y1. now rewrite (smx W). }
      set (X1 := row W (fun j => vsub (sX s j) (vscal a (Y1 j)))).
      assert (EX : forall i, In i nodes -> mix W (D2 i) (fun j => vsub (sX s j) (vscal a (Y' j))) i = X1 i).
      { intros i Hi. rewrite (smx W) by auto. unfold X1. apply row_ext. intros j Hj. now rewrite EY. }
      exists d', st', (mkV X1 Y1 G' (fun i => refresh (B' i) (fun h => sg i h (X1 i)) (sT s i)) B B'). cbn [sX sY sG sT sB sB'].
      split; [exact E|]. split.
      + intros i Hi. destruct (Q i Hi) as (_ & _ & _ & Q4 & Q5 & Q6 & Q7). rewrite EX in Q4, Q7 by auto. rewrite EY in Q5 by auto. auto.
      + intros i Hi. destruct (Q i Hi) as (Q1 & Q2 & _). repeat split; auto.
    - init. auto.
    - exists (fun k => sX (sq k)), (fun k => sY (sq k)), (fun k => sG (sq k)), (fun k => sT (sq k)), (fun k => sB (sq (S k))), (fun k => sB' (sq (S k))).
      do 4 (split; [traj SS SC SW|]). split.
      + intros i. rewrite S0. cbn. auto.
      + intros k i Hk Hi. apply (SR k); auto.
  Qed.

  Theorem gt_vr_run coin a x0 : let A := p2p t e N (vr_init m sg x0) (gt_vr W m sg batch coin a) in
    exists X Y V Ta B, trajectory t period A w X /\ aux_trajectory t period A w "y" Y /\ aux_trajectory t period A w "v" V /\
      aux_trajectory t period A w "tau" Ta /\
      (forall i, X 0%nat i = x0 i /\ Y 0%nat i = full i (x0 i) /\ V 0%nat i = full i (x0 i) /\ Ta 0%nat i = x0 i) /\
      forall k i, (k < N)%nat -> In i nodes -> drawn batch i (B k i) /\
        X (S k) i = row W (fun j => vsub (X k j) (vscal a (Y k j))) i /\
        Ta (S k) i = (if coin k i then X (S k) i else Ta k i) /\
        V (S k) i = svrg_est m sg i (B k i) (Ta (S k) i) (X (S k) i) /\
        Y (S k) i = row W (fun j => vsub (vadd (Y k j) (V (S k) j)) (V k j)) i.
  Proof.
    intro A.
    destruct (run_trace t period A (fun _ s st => forall i, In i nodes -> state_is st i (sX s i) /\ aux_is st i "y" (sY s i) /\ aux_is st i "v" (sG s i) /\
          aux_is st i "tau" (sT s i 0%nat) /\ aux_is st i "full_grad_tau" (full i (sT s i 0%nat)))
      (fun k s s' => forall i, In i nodes -> drawn batch i (sB s' i) /\
        sX s' i = row W (fun j => vsub (sX s j) (vscal a (sY s j))) i /\
        sT s' i 0%nat = (if coin k i then sX s' i else sT s i 0%nat) /\
        sG s' i = svrg_est m sg i (sB s' i) (sT s' i 0%nat) (sX s' i) /\
        sY s' i = row W (fun j => vsub (vadd (sY s j) (sG s' j)) (sG s j)) i)
      NDn ltac:(mstab)) with (w := w) (s := mkV x0 (fun i => full i (x0 i)) (fun i => full i (x0 i)) (fun i _ => x0 i) (fun _ => []) (fun _ => []))
      as (sq & S0 & SR & SO & SS & SC & SW).
    - intros k s d st H. destruct (gt_vr_step t e PT W m sg batch FAe coin a k d st (sX s) (sY s) (sG s) (fun i => sT s i 0%nat) H) as (d' & st' & D1 & D2 & B & X' & E & DE1 & DE2 & Q & _).
      rewrite acts in *. set (X1 := row W (fun j => vsub (sX s j) (vscal a (sY s j)))).
      assert (EX : forall i, In i nodes -> X' i = X1 i). { intros i Hi. destruct (Q i Hi) as (_ & -> & _). unfold X1. now rewrite (smx W). }
      set (T1 := fun i => if coin k i then X1 i else sT s i 0%nat). set (V1 := fun i => svrg_est m sg i (B i) (T1 i) (X1 i)).
      set (Y1 := row W (fun j => vsub (vadd (sY s j) (V1 j)) (sG s j))).
      assert (ET : forall i, In i nodes -> (if coin k i then X' i else sT s i 0%nat) = T1 i). { intros i Hi. unfold T1. now rewrite EX. }
      exists d', st', (mkV X1 Y1 V1 (fun i _ => T1 i) B (fun _ => [])). cbn [sX sY sG sT sB sB'].
      split; [exact E|]. split.
      + intros i Hi. destruct (Q i Hi) as (_ & _ & Q3 & Q4 & Q5 & Q6 & Q7). rewrite ET, EX in * by auto. 
        split; auto. split; [|split; [exact Q5|auto]].
        rewrite (smx W) in Q4 by auto. unfold Y1. erewrite row_ext; [exact Q4|]. intros j Hj. cbn beta. rewrite ET, EX by auto. reflexivity.
      + intros i Hi. destruct (Q i Hi) as (Q1 & _). repeat split; auto.
    - init. rewrite (grad_on_full m sg). auto.
    - exists (fun k => sX (sq k)), (fun k => sY (sq k)), (fun k => sG (sq k)), (fun k i => sT (sq k) i 0%nat), (fun k => sB (sq (S k))).
      do 4 (split; [traj SS SC SW|]). split.
      + intros i. rewrite S0. cbn. auto.
      + intros k i Hk Hi. apply (SR k); auto.
  Qed.

  Lemma heard_row M v i : sparse t M -> In i nodes -> mix M (heard t nodes i) v i = row M v i.
  Proof.
    intros SM Hi. apply (sync_mix t e M (heard t nodes)); auto; [apply SY|]. destruct PT as ((_ & AD & NA & _) & _). intro j.
    split; [apply NoDup_filter, NA|]. split.
    - intros q Hq. unfold heard in Hq. apply filter_In in Hq. rewrite memb_In in Hq. exact Hq.
    - intros _ _ q Hq Hn. unfold heard. apply filter_In. rewrite memb_In. auto.
  Qed.

  (** [X k r]: before round [r] of iteration [k] *)
  Theorem sarah_run a q x0 : let A := p2p t e N (sarah_init x0) (sarah W m sg batch a q) in
    exists X Y V B, trajectory t period A w (fun k => X k 0%nat) /\ aux_trajectory t period A w "y" (fun k => Y k 0%nat) /\ aux_trajectory t period A w "v" (fun k => V k 0%nat) /\
      (forall i, X 0%nat 0%nat i = x0 i /\ Y 0%nat 0%nat i = vzero /\ V 0%nat 0%nat i = vzero) /\
      forall k i, (k < N)%nat -> In i nodes ->
        V k 1%nat i = full i (X k 0%nat i) /\
        (forall r, (r < q)%nat -> drawn batch i (B k r i) /\
           V k (S (S r)) i = sarah_est sg i (B k r i) (X k r i) (V k (S r) i) (X k (S r) i)) /\
        (forall r, (r <= q)%nat ->
           Y k (S r) i = vsub (vadd (row W (Y k r) i) (V k (S r) i)) (V k r i) /\
           X k (S r) i = vsub (row W (X k r) i) (vscal a (Y k (S r) i))) /\
        X (S k) 0%nat i = X k (S q) i /\ Y (S k) 0%nat i = Y k (S q) i /\ V (S k) 0%nat i = V k (S q) i.
  Proof.
    intro A.
    set (St := ((agent_id -> vec) * (agent_id -> vec) * (agent_id -> vec) * ((nat -> agent_id -> vec) * (nat -> agent_id -> vec) * (nat -> agent_id -> vec) * (nat -> agent_id -> list nat)))%type).
    destruct (run_trace t period A (fun _ (s : St) st => forall i, In i nodes -> state_is st i (fst (fst (fst s)) i) /\ aux_is st i "y" (snd (fst (fst s)) i) /\ aux_is st i "v" (snd (fst s) i))
      (fun k (s s' : St) => let X := fst (fst (fst (snd s'))) in let Y := snd (fst (fst (snd s'))) in let V := snd (fst (snd s')) in let B := snd (snd s') in
        X 0%nat = fst (fst (fst s)) /\ Y 0%nat = snd (fst (fst s)) /\ V 0%nat = snd (fst s) /\ forall i, In i nodes -> 
        V 1%nat i = full i (X 0%nat i) /\
        (forall r, (r < q)%nat -> drawn batch i (B r i) /\ V (S (S r)) i = sarah_est sg i (B r i) (X r i) (V (S r) i) (X (S r) i)) /\
        (forall r, (r <= q)%nat -> Y (S r) i = vsub (vadd (row W (Y r) i) (V (S r) i)) (V r i) /\ X (S r) i = vsub (row W (X r) i) (vscal a (Y (S r) i))) /\
        fst (fst (fst s')) i = X (S q) i /\ snd (fst (fst s')) i = Y (S q) i /\ snd (fst s') i = V (S q) i)
      NDn ltac:(mstab)) with (w := w) (s := ((x0, (fun _ : agent_id => vzero), (fun _ : agent_id => vzero), ((fun _ => x0), (fun _ => x0), (fun _ => x0), (fun (_ : nat) (_ : agent_id) => @nil nat))) : St))
      as (sq & S0 & SR & SO & SS & SC & SW).
    - intros k s d st H. destruct (sarah_step t e PT W m sg batch (proj1 SY) a q k d st _ _ _ H) as (d' & st' & Xs & Ys & Vs & B & E & E1 & E2 & E3 & Q1 & Q2 & Q3 & Q4 & _).
      rewrite acts in *.
      exists d', st', (Xs (S q), Ys (S q), Vs (S q), (Xs, Ys, Vs, B)). cbn [fst snd]. split; [exact E|]. split; [exact Q4|].
      do 3 (split; [assumption|]). intros i Hi. split; [rewrite E1; auto|]. split; [auto|]. split; [|auto].
      intros r Hr. destruct (Q3 r i Hr Hi) as (R1 & R2). rewrite heard_row in R1, R2 by auto. auto.
    - init. auto.
    - exists (fun k r => match r with O => fst (fst (fst (sq k))) | _ => fst (fst (fst (snd (sq (S k))))) r end),
        (fun k r => match r with O => snd (fst (fst (sq k))) | _ => snd (fst (fst (snd (sq (S k))))) r end),
        (fun k r => match r with O => snd (fst (sq k)) | _ => snd (fst (snd (sq (S k)))) r end), (fun k => snd (snd (sq (S k)))).
      do 3 (split; [traj SS SC SW|]). split.
      + intros i. rewrite S0. cbn. auto.
      + intros k i Hk Hi. destruct (SR k Hk) as (E1 & E2 & E3 & R). specialize (R i Hi). destruct R as (R1 & R2 & R3 & R4). rewrite E1 in R1.
        split; [exact R1|]. split; [|split; [|exact R4]].
        * intros r Hr. specialize (R2 r Hr). destruct r; [rewrite E1 in R2|]; exact R2.
        * intros r Hr. specialize (R3 r Hr). destruct r; [rewrite E1, E2, E3 in R3|]; exact R3.
  Qed.

  Lemma smem D i j : delivery t e nodes D -> In i nodes -> In j (t_adj t i) -> memb j (D i) = true.
  Proof. apply (P2PRuns.smem t e PT SY). Qed.

  Theorem ltvr_run v2 tau ga be rho al x0 : let A := p2p t e N (ltvr_init t m sg v2 x0) (lt_admm_vr t m sg batch v2 tau ga be rho al) in
    exists X Z T, trajectory t period A w X /\ rows_trajectory t period A w "z_i" Z /\ (v2 = true -> table_trajectory t period A w m "r_grads" T) /\
      (forall i, X 0%nat i = x0 i /\ (forall j, Z 0%nat i j = x0 i) /\ forall s, T 0%nat i s = sg i s (x0 i)) /\
      forall k i, (k < N)%nat -> In i nodes ->
        vr_steps m sg batch i ga (vscal be (vsub (vscal (rho * deg t i) (X k i)) (vsum (map (Z k i) (t_adj t i))))) tau
          (X k i) (if v2 then T k i else fun s => sg i s (X k i)) (X (S k) i) (T (S k) i) /\
        (forall j, In j (t_adj t i) -> Z (S k) i j = vsub (vscal (1 - al) (Z k i j)) (vscal al (vsub (Z k j i) (vscal (2 * rho) (X (S k) j))))).
  Proof.
    intro A. set (St := ((agent_id -> vec) * (agent_id -> agent_id -> vec) * (agent_id -> nat -> vec))%type).
    destruct (run_trace t period A (fun _ (s : St) st => forall i, In i nodes -> state_is st i (fst (fst s) i) /\ auxmap_is st i "z_i" (rows t i (snd (fst s) i)) /\
         (v2 = true -> auxmap_is st i "r_grads" (table (m i) (snd s i))))
      (fun k (s s' : St) => forall i, In i nodes -> let X := fst (fst s) in let Z := snd (fst s) in let X' := fst (fst s') in
        vr_steps m sg batch i ga (vscal be (vsub (vscal (rho * deg t i) (X i)) (vsum (map (Z i) (t_adj t i))))) tau
          (X i) (if v2 then snd s i else fun h => sg i h (X i)) (X' i) (snd s' i) /\
        (forall j, In j (t_adj t i) -> snd (fst s') i j = vsub (vscal (1 - al) (Z i j)) (vscal al (vsub (Z j i) (vscal (2 * rho) (X' j))))))
      NDn ltac:(mstab)) with (w := w) (s := ((x0, (fun i _ => x0 i), (fun i s => sg i s (x0 i))) : St)) as (sq & S0 & SR & SO & SS & SC & SW).
    - intros k [[X Z] T] d st H. cbn [fst snd] in *. destruct (ltvr_step t e PT m sg batch PB FAe v2 tau ga be rho al k d st X Z T H) as (d' & st' & D & X' & T' & E & DE & Q & _).
      rewrite acts in *.
      exists d', st', (X', (fun i j => vsub (vscal (1 - al) (Z i j)) (vscal al (vsub (Z j i) (vscal (2 * rho) (X' j))))), T').
      cbn [fst snd]. split; [exact E|]. split.
      + intros i Hi. destruct (Q i Hi) as (_ & Q2 & Q3 & Q4). split; auto. split; auto. erewrite (rows_ext t) in Q4; [exact Q4|]. intros j Hj. cbn beta. now rewrite smem.
      + intros i Hi. destruct (Q i Hi) as (Q1 & _). auto.
    - init. destruct v2; cbn; auto. split; auto. split; auto. discriminate.
    - exists (fun k => fst (fst (sq k))), (fun k => snd (fst (sq k))), (fun k => snd (sq k)).
      split; [traj SS SC SW|]. split; [traj SS SC SW|]. split; [|split].
      + intro V2. split; [|split]; intros; [eapply SS|eapply SC|eapply SW]; eauto.
      + intros i; rewrite S0; cbn [fst snd]; auto.
      + intros k i Hk Hi. apply (SR k); auto.
  Qed.
End Runs.
