(** Runs of the FedOpt family, FedNova, FedLT. *)
From Coq Require Import Reals String List Bool Arith ZArith Lia Lra FunctionalExtensionality Permutation.
From Verif.Model Require Import PyDict History Messages Network Runner Vec P2P Fed.
From Verif.Spec Require Import NetworkSpec P2PSpec FedSpec.
From Verif.Proofs Require Import PyDictProofs MessagesProofs NetworkProofs NetworkInv NetworkMore NetworkActive RunnerProofs EmpiricalProofs P2PLock P2PSteps P2PRuns FedLock FedSteps FedSteps2 FedRuns FedRuns2.
Import ListNotations.
Open Scope R_scope.

Section Runs3.
  Variables (t : topo) (e : env vec) (sv : agent_id).
  Hypothesis NET : fed_net t e sv.
  Variables (period : agent_id -> nat) (N : nat) (w : world vec nat).
  Variable grad : nat -> agent_id -> vec -> vec.
  Variable prox : nat -> agent_id -> vec -> R -> vec.
  Notation clients := (agents t).

  Definition opt_init (x0 : agent_id -> vec) := fed_init t sv (x0 sv) [("m"%string, AArr vzero); ("v"%string, AArr vzero)] x0 (fun _ => []).
  Lemma fedopt_run sch K a b1 eps eta Phi x0 : proper sch -> faithful e ->
    exists X m v, throughout t period (fed N (opt_init x0) (fed_round t e sv (fedopt_alg grad K a b1 eps eta Phi) sch)) w
        (fun k st => (forall i, In i (t_nodes t) -> state_is st i (X k i)) /\ aux_is st sv "m" (m k) /\ aux_is st sv "v" (v k)) /\
      (forall i, X 0%nat i = x0 i) /\ m 0%nat = vzero /\ v 0%nat = vzero /\
      forall k, (k < N)%nat -> exists P R, participation t e sch P R /\
        (forall i, In i P -> exists s, local_steps grad i (fun y g => vsub y (vscal a g)) K (X k sv) (X (S k) i) s) /\
        (forall i, In i clients -> ~ In i P -> X (S k) i = X k i) /\
        (R = [] -> X (S k) sv = X k sv /\ m (S k) = m k /\ v (S k) = v k) /\
        (R <> [] -> let D := mean_over R (fun i => vsub (X (S k) i) (X k sv)) in
           m (S k) = vadd (vscal b1 (m k)) (vscal (1 - b1) D) /\ v (S k) = Phi (v k) D /\
           X (S k) sv = fun c => X k sv c + eta * m (S k) c / (sqrt (v (S k) c) + eps)).
  Proof.
    intros PR FA.
    set (Inv := fun (s : (agent_id -> vec) * vec * vec) st => Xinv t (fst (fst s)) st /\ aux_is st sv "m" (snd (fst s)) /\ aux_is st sv "v" (snd s)).
    set (Rel := fun s s' : (agent_id -> vec) * vec * vec => let '(X, m, v) := s in let '(X', m', v') := s' in exists P R, participation t e sch P R /\
        (forall i, In i P -> exists s, local_steps grad i (fun y g => vsub y (vscal a g)) K (X sv) (X' i) s) /\
        (forall i, In i clients -> ~ In i P -> X' i = X i) /\
        (R = [] -> X' sv = X sv /\ m' = m /\ v' = v) /\
        (R <> [] -> let D := mean_over R (fun i => vsub (X' i) (X sv)) in
           m' = vadd (vscal b1 m) (vscal (1 - b1) D) /\ v' = Phi v D /\
           X' sv = fun c => X sv c + eta * m' c / (sqrt (v' c) + eps))).
    destruct (fed_trace t e sv NET period N w Inv Rel (fed_round t e sv (fedopt_alg grad K a b1 eps eta Phi) sch) (opt_init x0) (x0, vzero, vzero)) as (sg & S0 & SR & ST).
    - intros s st st' U (H1 & H2 & H3). split; [eapply Xinv_stab; eauto|]. unfold aux_is in *. destruct (U sv (sv_node t e sv NET)) as (_ & ->). auto.
    - intros k ((X, m), v) d st H. pose proof H as (H1 & H2 & H3). cbn [fst snd] in *.
      destruct (fedopt_round t e sv NET grad sch K a b1 eps eta Phi k d st (X sv) m v PR (H1 sv (sv_node t e sv NET)) H2 H3)
        as (st' & P & R & B & Y & M & RR & UP & HP & HR & R0 & R1).
      assert (IP : incl P clients) by (eapply (round_part t e sv); eauto).
      assert (HB : forall i, In i P -> B i = X sv) by (intros i Hi; destruct (HP i Hi) as ((_ & Gx) & _); auto).
      destruct UP as (U1 & U2 & U3 & U4).
      set (D := mean_over R (fun i => vsub (Y i) (X sv))).
      assert (DE : mean_over R M = D). { apply mean_ext. intros i Hi. destruct (HR i Hi) as (_ & E). rewrite (E FA), HB; auto. }
      rewrite DE in R1. cbn zeta in R1.
      set (m' := match R with [] => m | _ => vadd (vscal b1 m) (vscal (1 - b1) D) end).
      set (v' := match R with [] => v | _ => Phi v D end).
      set (x' := match R with [] => X sv | _ => fun c => X sv c + eta * m' c / (sqrt (v' c) + eps) end).
      assert (SX : state_is st' sv x' /\ aux_is st' sv "m" m' /\ aux_is st' sv "v" v').
      { unfold x', m', v'. destruct R as [|q R'] eqn:ER; [now apply R0|]. destruct (R1 ltac:(discriminate)) as (A1 & A2 & A3). auto. }
      assert (CS : forall i, In i P -> i <> sv) by (intros i Hi; apply (client_sv t e sv NET), IP, Hi).
      exists (after sv P Y X x', m', v'), st'. split; [apply RR|]. split.
      + split; [|apply SX]. cbn [fst]. apply (Xinv_after t e sv NET) with (st := st); auto; try apply SX; try apply RR. intros i Hi. now apply HP.
      + cbn. exists P, R. split; [|split; [|split; [|split]]].
        * apply (participate t e sv sch d k st st'); auto. apply RR.
        * intros i Hi. rewrite !after_in by auto. destruct (HP i Hi) as (_ & L & _). rewrite HB in L by auto. auto.
        * intros i Hi Ni. pose proof (client_sv t e sv NET i Hi). now rewrite !after_out by auto.
        * intros ->. now rewrite after_sv.
        * intro NR.
          replace (mean_over R (fun i => vsub (after sv P Y X x' i) (X sv))) with D.
          2:{ apply mean_ext. intros i Hi. rewrite after_in by auto. auto. }
          rewrite after_sv. unfold x', m', v'. destruct R as [|q R'] eqn:ER; [destruct (NR eq_refl)|]. auto.
    - destruct (fed_init_spec t e sv NET w (x0 sv) [("m"%string, AArr vzero); ("v"%string, AArr vzero)] x0 (fun _ => [])) as (A & B & C). fold (opt_init x0) in *.
      split; [|split].
      + cbn [fst]. intros i Hi. unfold state_is. destruct (node_cases t e sv NET i Hi) as [->|Hc]; [exact A|]. now apply C.
      + unfold aux_is. now rewrite B.
      + unfold aux_is. now rewrite B.
    - exists (fun k => fst (fst (sg k))), (fun k => snd (fst (sg k))), (fun k => snd (sg k)). split; [|split; [|split; [|split]]].
      + exact ST.
      + intro i. now rewrite S0.
      + now rewrite S0.
      + now rewrite S0.
      + intros k Hk. specialize (SR k Hk). unfold Rel in SR. destruct (sg k) as ((X, m), v), (sg (S k)) as ((X', m'), v'). exact SR.
  Qed.

  Lemma fednova_run sch steps count a beta mu x0 : proper sch -> faithful e ->
    (forall i, In i clients -> 0 < fst (nova_coeff a beta mu (steps i))) ->
    exists X, throughout t period (fed N (plain_init t sv x0) (fed_round t e sv (fednova_alg grad steps count a beta mu None) sch)) w
        (fun k st => forall i, In i (t_nodes t) -> state_is st i (X k i)) /\
      (forall i, X 0%nat i = x0 i) /\
      forall k, (k < N)%nat -> exists P R, participation t e sch P R /\
        (forall i, In i P -> nova_path grad i a beta mu (X k sv) (steps i) (X k sv) vzero (X (S k) i)) /\
        (forall i, In i clients -> ~ In i P -> X (S k) i = X k i) /\
        (R = [] -> X (S k) sv = X k sv) /\
        (R <> [] -> X (S k) sv = vsub (X k sv) (nova_aggregate count (fun i => fst (nova_coeff a beta mu (steps i))) (fun i => vsub (X k sv) (X (S k) i)) R)).
  Proof.
    intros PR FA POS.
    set (Rel := fun X X' : agent_id -> vec => exists P R, participation t e sch P R /\
        (forall i, In i P -> nova_path grad i a beta mu (X sv) (steps i) (X sv) vzero (X' i)) /\
        (forall i, In i clients -> ~ In i P -> X' i = X i) /\
        (R = [] -> X' sv = X sv) /\
        (R <> [] -> X' sv = vsub (X sv) (nova_aggregate count (fun i => fst (nova_coeff a beta mu (steps i))) (fun i => vsub (X sv) (X' i)) R))).
    destruct (fed_trace t e sv NET period N w (Xinv t) Rel (fed_round t e sv (fednova_alg grad steps count a beta mu None) sch) (plain_init t sv x0) x0) as (sg & S0 & SR & ST).
    - intros; eapply Xinv_stab; eauto.
    - intros k X d st H.
      destruct (fednova_round t e sv NET grad sch steps count a beta mu None k d st (X sv) PR FA POS (H sv (sv_node t e sv NET)) ltac:(discriminate))
        as (st' & P & R & Y & RR & UP & HP & HR & R0 & R1).
      assert (IP : incl P clients) by (eapply (round_part t e sv); eauto). destruct UP as (U1 & U2 & U3 & U4). cbn zeta in R1.
      set (x' := match R with [] => X sv | _ => vsub (X sv) (nova_aggregate count (fun i => fst (nova_coeff a beta mu (steps i))) (fun i => vsub (X sv) (Y i)) R) end).
      assert (SX : state_is st' sv x'). { unfold x'. destruct R as [|q R'] eqn:ER; [now apply R0|]. apply R1. discriminate. }
      assert (CS : forall i, In i P -> i <> sv) by (intros i Hi; apply (client_sv t e sv NET), IP, Hi).
      exists (after sv P Y X x'), st'. split; [apply RR|]. split.
      + apply (Xinv_after t e sv NET) with (st := st); auto; try apply RR. intros i Hi. now apply HP.
      + exists P, R. split; [|split; [|split; [|split]]].
        * apply (participate t e sv sch d k st st'); auto. apply RR.
        * intros i Hi. rewrite !after_in by auto. now apply HP.
        * intros i Hi Ni. pose proof (client_sv t e sv NET i Hi). now rewrite !after_out by auto.
        * intros ->. now rewrite after_sv.
        * intro NR. rewrite after_sv. unfold x'. destruct R as [|q R'] eqn:ER; [destruct (NR eq_refl)|]. rewrite <- ER in *.
          f_equal. apply nova_aggregate_ext. intros i Hi. rewrite after_in by auto. auto.
    - now apply (plain_Xinv t e sv NET).
    - exists sg. split; [exact ST|]. split; [now rewrite S0|]. exact SR.
  Qed.

  Definition lt_init (x0 z0 : agent_id -> vec) := fed_init t sv (x0 sv) [("z_by_client"%string, AMap (client_rows t z0))] x0 (fun i => [("z"%string, AArr (z0 i))]).
  Lemma fedlt_run sch sol K a rho x0 z0 : proper sch -> faithful e ->
    exists X Z ZS, throughout t period (fed N (lt_init x0 z0) (fed_round t e sv (fedlt_alg t sv grad prox sol K a rho) sch)) w
        (fun k st => (forall i, In i (t_nodes t) -> state_is st i (X k i)) /\ (forall i, In i clients -> aux_is st i "z" (Z k i)) /\
           auxmap_is st sv "z_by_client" (client_rows t (ZS k))) /\
      (forall i, X 0%nat i = x0 i /\ Z 0%nat i = z0 i /\ ZS 0%nat i = z0 i) /\
      forall k, (k < N)%nat -> exists P R, participation t e sch P R /\
        (exists n, X (S k) sv = prox n sv (mean_over clients (ZS k)) (rho / INR (length clients))) /\
        (forall i, In i P -> fedlt_local grad sol K a rho i (fun c => 2 * X (S k) sv c - Z k i c) (X k i) (X (S k) i) /\
           Z (S k) i = fun c => Z k i c + 2 * (X (S k) i c - X (S k) sv c)) /\
        (forall i, In i clients -> ~ In i P -> X (S k) i = X k i /\ Z (S k) i = Z k i) /\
        (forall i, In i R -> ZS (S k) i = Z (S k) i) /\ (forall i, ~ In i R -> ZS (S k) i = ZS k i).
  Proof.
    intros PR FA.
    set (Inv := fun (s : (agent_id -> vec) * (agent_id -> vec) * (agent_id -> vec)) st => let '(X, Z, ZS) := s in
       Xinv t X st /\ (forall i, In i clients -> aux_is st i "z" (Z i)) /\ auxmap_is st sv "z_by_client" (client_rows t ZS)).
    set (Rel := fun s s' : (agent_id -> vec) * (agent_id -> vec) * (agent_id -> vec) => let '(X, Z, ZS) := s in let '(X', Z', ZS') := s' in exists P R, participation t e sch P R /\
        (exists n, X' sv = prox n sv (mean_over clients ZS) (rho / INR (length clients))) /\
        (forall i, In i P -> fedlt_local grad sol K a rho i (fun c => 2 * X' sv c - Z i c) (X i) (X' i) /\
           Z' i = fun c => Z i c + 2 * (X' i c - X' sv c)) /\
        (forall i, In i clients -> ~ In i P -> X' i = X i /\ Z' i = Z i) /\
        (forall i, In i R -> ZS' i = Z' i) /\ (forall i, ~ In i R -> ZS' i = ZS i)).
    destruct (fed_trace t e sv NET period N w Inv Rel (fed_round t e sv (fedlt_alg t sv grad prox sol K a rho) sch) (lt_init x0 z0) (x0, z0, z0)) as (sg & S0 & SR & ST).
    - intros ((X, Z), ZS) st st' U (H1 & H2 & H3). unfold Inv, aux_is, auxmap_is in *. split; [eapply Xinv_stab; eauto|]. split.
      + intros i Hi. destruct (U i (client_node t e sv NET i Hi)) as (_ & ->). auto.
      + destruct (U sv (sv_node t e sv NET)) as (_ & ->). auto.
    - intros k ((X, Z), ZS) d st H. pose proof H as (H1 & H2 & H3).
      assert (HXZ : forall i, In i clients -> state_is st i (X i) /\ aux_is st i "z" (Z i)).
      { intros i Hi. split; auto. apply H1. now apply (client_node t e sv NET). }
      destruct (fedlt_round t e sv NET grad prox sch sol K a rho k d st ZS X Z PR H3 HXZ) as (st' & P & R & B & Y & M & RR & UP & SX & HP & HR & HZ).
      set (xs := prox d sv (mean_over clients ZS) (rho / INR (length clients))) in *.
      assert (IP : incl P clients) by (eapply (round_part t e sv); eauto). destruct UP as (U1 & U2 & U3 & U4).
      assert (HB : forall i, In i P -> B i = xs) by (intros i Hi; destruct (HP i Hi) as ((_ & Gx) & _); auto).
      assert (CS : forall i, In i P -> i <> sv) by (intros i Hi; apply (client_sv t e sv NET), IP, Hi).
      set (Zn := fun i => (fun c => Z i c + 2 * (Y i c - xs c)) : vec).
      exists (after sv P Y X xs, after sv P Zn Z vzero, replaced R M ZS), st'. split; [apply RR|]. split.
      + split; [|split].
        * apply (Xinv_after t e sv NET) with (st := st); auto; try apply RR. intros i Hi. now apply HP.
        * intros i Hi. pose proof (client_sv t e sv NET i Hi) as Hs. destruct (in_dec Nat.eq_dec i P).
          -- rewrite after_in by auto. destruct (HP i i0) as (_ & _ & _ & A). unfold Zn. now rewrite HB in A by auto.
          -- rewrite after_out by auto. destruct RR as (_ & _ & RU). unfold aux_is. destruct (RU i Hi n) as (_ & ->). now apply H2.
        * exact HZ.
      + cbn. exists P, R. split; [|split; [|split; [|split; [|split]]]].
        * apply (participate t e sv sch (S d) k st st'); auto. apply RR.
        * exists d. now rewrite after_sv.
        * intros i Hi. rewrite !after_sv, !after_in by auto. destruct (HP i Hi) as (_ & L & _). rewrite HB in L by auto. auto.
        * intros i Hi Ni. pose proof (client_sv t e sv NET i Hi). now rewrite !after_out by auto.
        * intros i Hi. unfold replaced. rewrite after_in by auto. assert (E : memb i R = true) by now apply memb_In. rewrite E.
          destruct (HR i Hi) as (_ & D). rewrite (D FA), HB by auto. reflexivity.
        * intros i Hi. unfold replaced. destruct (memb i R) eqn:E; auto. apply memb_In in E. contradiction.
    - destruct (fed_init_spec t e sv NET w (x0 sv) [("z_by_client"%string, AMap (client_rows t z0))] x0 (fun i => [("z"%string, AArr (z0 i))])) as (A & B & C). fold (lt_init x0 z0) in *.
      split; [|split].
      + intros i Hi. unfold state_is. destruct (node_cases t e sv NET i Hi) as [->|Hc]; [exact A|]. now apply C.
      + intros i Hi. unfold aux_is. destruct (C i Hi) as (_ & ->). reflexivity.
      + unfold auxmap_is. now rewrite B.
    - exists (fun k => fst (fst (sg k))), (fun k => snd (fst (sg k))), (fun k => snd (sg k)). split; [|split].
      + destruct ST as (T1 & T2 & T3 & T4). unfold throughout, Inv in *. split; auto. split; [|split].
        * intros k w' Hk. specialize (T2 k w' Hk). destruct (sg k) as ((X, Z), ZS). exact T2.
        * intros k w' Hk. specialize (T3 k w' Hk). destruct (sg (S k)) as ((X, Z), ZS). exact T3.
        * cbn [al_iters fed] in *. destruct (sg N) as ((X, Z), ZS). exact T4.
      + intro i. now rewrite S0.
      + intros k Hk. specialize (SR k Hk). unfold Rel in SR. destruct (sg k) as ((X, m), v), (sg (S k)) as ((X', m'), v'). exact SR.
  Qed.
End Runs3.
