(** Runs of FedNova with server momentum. *)
From Coq Require Import Reals String List Bool Arith ZArith Lia Lra FunctionalExtensionality.
From Verif.Model Require Import PyDict History Messages Network Runner Vec P2P Fed.
From Verif.Spec Require Import NetworkSpec P2PSpec FedSpec.
From Verif.Proofs Require Import PyDictProofs MessagesProofs NetworkProofs NetworkInv NetworkMore NetworkActive RunnerProofs EmpiricalProofs P2PLock P2PSteps P2PRuns FedLock FedSteps FedSteps2 FedRuns FedRuns2 FedRuns3.
Import ListNotations.
Open Scope R_scope.

Section NovaMom.
  Variables (t : topo) (e : env vec) (sv : agent_id).
  Hypothesis NET : fed_net t e sv.
  Variables (period : agent_id -> nat) (N : nat) (w : world vec nat).
  Variable grad : nat -> agent_id -> vec -> vec.
  Notation clients := (agents t).

  Lemma fednova_mom_run sch steps count a beta mu ga x0 : proper sch -> faithful e ->
    (forall i, In i clients -> 0 < fst (nova_coeff a beta mu (steps i))) ->
    exists X m, throughout t period (fed N (fednova_mom_init t sv x0) (fed_round t e sv (fednova_alg grad steps count a beta mu (Some ga)) sch)) w
        (fun k st => (forall i, In i (t_nodes t) -> state_is st i (X k i)) /\ aux_is st sv "m" (m k)) /\
      (forall i, X 0%nat i = x0 i) /\ m 0%nat = vzero /\
      forall k, (k < N)%nat -> exists P R, participation t e sch P R /\
        (forall i, In i P -> nova_path grad i a beta mu (X k sv) (steps i) (X k sv) vzero (X (S k) i)) /\
        (forall i, In i clients -> ~ In i P -> X (S k) i = X k i) /\
        (R = [] -> X (S k) sv = X k sv /\ m (S k) = m k) /\
        (R <> [] -> m (S k) = vadd (vscal ga (m k)) (nova_aggregate count (fun i => fst (nova_coeff a beta mu (steps i))) (fun i => vsub (X k sv) (X (S k) i)) R) /\
           X (S k) sv = vsub (X k sv) (m (S k))).
  Proof.
    intros PR FA POS.
    set (Inv := fun (s : (agent_id -> vec) * vec) st => Xinv t (fst s) st /\ aux_is st sv "m" (snd s)).
    set (Rel := fun s s' : (agent_id -> vec) * vec => let '(X, m) := s in let '(X', m') := s' in exists P R, participation t e sch P R /\
        (forall i, In i P -> nova_path grad i a beta mu (X sv) (steps i) (X sv) vzero (X' i)) /\
        (forall i, In i clients -> ~ In i P -> X' i = X i) /\
        (R = [] -> X' sv = X sv /\ m' = m) /\
        (R <> [] -> m' = vadd (vscal ga m) (nova_aggregate count (fun i => fst (nova_coeff a beta mu (steps i))) (fun i => vsub (X sv) (X' i)) R) /\
           X' sv = vsub (X sv) m')).
    destruct (fed_trace t e sv NET period N w Inv Rel (fed_round t e sv (fednova_alg grad steps count a beta mu (Some ga)) sch) (fednova_mom_init t sv x0) (x0, vzero)) as (sg & S0 & SR & ST).
    - intros s st st' U (H1 & H2). split; [eapply Xinv_stab; eauto|]. unfold aux_is in *. destruct (U sv (sv_node t e sv NET)) as (_ & ->). auto.
    - intros k (X, m) d st H. pose proof H as (H1 & H2). cbn [fst snd] in *.
      destruct (fednova_round t e sv NET grad sch steps count a beta mu (Some ga) k d st (X sv) PR FA POS (H1 sv (sv_node t e sv NET)) ltac:(eauto))
        as (st' & P & R & Y & RR & UP & HP & HR & R0 & R1).
      assert (IP : incl P clients) by (eapply (round_part t e sv); eauto). destruct UP as (U1 & U2 & U3 & U4). cbn zeta in R1.
      set (m' := match R with [] => m | _ => vadd (vscal ga m) (nova_aggregate count (fun i => fst (nova_coeff a beta mu (steps i))) (fun i => vsub (X sv) (Y i)) R) end).
      set (x' := match R with [] => X sv | _ => vsub (X sv) m' end).
      assert (SX : state_is st' sv x' /\ aux_is st' sv "m" m').
      { unfold x', m'. destruct R as [|q R'] eqn:ER; [destruct (R0 eq_refl); auto|]. destruct (R1 ltac:(discriminate) m H2). auto. }
      assert (CS : forall i, In i P -> i <> sv) by (intros i Hi; apply (client_sv t e sv NET), IP, Hi).
      exists (after sv P Y X x', m'), st'. split; [apply RR|]. split.
      + split; [|apply SX]. cbn [fst]. apply (Xinv_after t e sv NET) with (st := st); auto; try apply SX; try apply RR. intros i Hi. now apply HP.
      + cbn. exists P, R. split; [|split; [|split; [|split]]].
        * apply (participate t e sv sch d k st st'); auto. apply RR.
        * intros i Hi. rewrite !after_in by auto. now apply HP.
        * intros i Hi Ni. pose proof (client_sv t e sv NET i Hi). now rewrite !after_out by auto.
        * intros ->. now rewrite after_sv.
        * intro NR. rewrite after_sv. unfold x', m'. destruct R as [|q R'] eqn:ER; [destruct (NR eq_refl)|]. rewrite <- ER in *. split; [|reflexivity].
          f_equal. apply nova_aggregate_ext. intros i Hi. rewrite after_in by auto. auto.
    - destruct (fed_init_spec t e sv NET w (x0 sv) [("m"%string, AArr vzero)] x0 (fun _ => [])) as (A & B & C). fold (fednova_mom_init t sv x0) in *.
      split.
      + cbn [fst]. intros i Hi. unfold state_is. destruct (node_cases t e sv NET i Hi) as [->|Hc]; [exact A|]. now apply C.
      + unfold aux_is. now rewrite B.
    - exists (fun k => fst (sg k)), (fun k => snd (sg k)). split; [|split; [|split]].
      + exact ST.
      + intro i. now rewrite S0.
      + now rewrite S0.
      + intros k Hk. specialize (SR k Hk). unfold Rel in SR. destruct (sg k) as (X, m), (sg (S k)) as (X', m'). exact SR.
  Qed.
End NovaMom.
