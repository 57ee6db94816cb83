(** Runs of Scaffold and FedDyn. *)
From Coq Require Import Reals String List Bool Arith ZArith Lia Lra FunctionalExtensionality Permutation.
From Verif.Model Require Import PyDict History Messages Network Runner Vec P2P Fed.
From Verif.Spec Require Import NetworkSpec P2PSpec FedSpec.
From Verif.Proofs Require Import PyDictProofs MessagesProofs NetworkProofs NetworkInv NetworkMore NetworkActive RunnerProofs EmpiricalProofs P2PLock P2PSteps P2PRuns FedLock FedSteps FedSteps2 FedRuns.
Import ListNotations.
Open Scope R_scope.

Section Runs2.
  Variables (t : topo) (e : env vec) (sv : agent_id).
  Hypothesis NET : fed_net t e sv.
  Variables (period : agent_id -> nat) (N : nat) (w : world vec nat).
  Variable grad : nat -> agent_id -> vec -> vec.
  Notation clients := (agents t).

  (** the server variable [ks] and the client variable [kc] *)
  Definition XC (ks kc : string) (s : (agent_id -> vec) * (agent_id -> vec)) (st : net vec) : Prop :=
    Xinv t (fst s) st /\ aux_is st sv ks (snd s sv) /\ forall i, In i clients -> aux_is st i kc (snd s i).
  Lemma XC_stab ks kc s st st' : (forall i, In i (t_nodes t) -> untouched st st' i) -> XC ks kc s st -> XC ks kc s st'.
  Proof.
    intros U (H1 & H2 & H3). split; [eapply Xinv_stab; eauto|]. unfold aux_is in *. split.
    - destruct (U sv (sv_node t e sv NET)) as (_ & ->). auto.
    - intros i Hi. destruct (U i (client_node t e sv NET i Hi)) as (_ & ->). auto.
  Qed.
  Definition XC_init ks kc (x0 c0 : agent_id -> vec) :=
    fed_init t sv (x0 sv) [(ks, AArr (c0 sv))] x0 (fun i => [(kc, AArr (c0 i))]).
  Lemma XC_start ks kc x0 c0 : XC ks kc (x0, c0) (snd (XC_init ks kc x0 c0 w)).
  Proof.
    destruct (fed_init_spec t e sv NET w (x0 sv) [(ks, AArr (c0 sv))] x0 (fun i => [(kc, AArr (c0 i))])) as (A & B & C). fold (XC_init ks kc x0 c0) in *.
    split; [|split].
    - intros i Hi. unfold state_is. destruct (node_cases t e sv NET i Hi) as [->|Hc]; [exact A|]. now apply C.
    - unfold aux_is. rewrite B. cbn. now rewrite String.eqb_refl.
    - intros i Hi. unfold aux_is. destruct (C i Hi) as (_ & ->). cbn. now rewrite String.eqb_refl.
  Qed.
  Lemma XC_after ks kc P Y X x' Cn C c' st st' : XC ks kc (X, C) st -> state_is st' sv x' -> aux_is st' sv ks c' ->
    (forall i, In i P -> state_is st' i (Y i) /\ aux_is st' i kc (Cn i)) ->
    (forall i, In i clients -> ~ In i P -> untouched st st' i) -> incl P clients -> XC ks kc (after sv P Y X x', after sv P Cn C c') st'.
  Proof.
    intros (H1 & H2 & H3) S1 S2 S3 S4 I. split; [|split]; cbn [fst snd] in *.
    - apply (Xinv_after t e sv NET) with (st := st); auto. intros i Hi. apply S3, Hi.
    - now rewrite after_sv.
    - intros i Hi. pose proof (client_sv t e sv NET i Hi) as Hs. destruct (in_dec Nat.eq_dec i P).
      + rewrite after_in by auto. now apply S3.
      + rewrite after_out by auto. unfold aux_is. destruct (S4 i Hi n) as (_ & ->). now apply H3.
  Qed.

  Lemma sum_nil (v : agent_id -> vec) : sum_over [] v = vzero. Proof. reflexivity. Qed.
  Lemma frac_mean (l : list agent_id) n (v : agent_id -> vec) : l <> [] -> vscal (INR (length l) / n) (mean_over l v) = vscal (/ n) (sum_over l v).
  Proof.
    intro H. apply functional_extensionality. intro c. unfold vscal, mean_over, sum_over. pose proof (len_pos l H).
    unfold Rdiv. rewrite <- Rmult_assoc. f_equal. replace (INR (length l) * / n * / INR (length l)) with (/ n * (INR (length l) * / INR (length l))) by ring.
    rewrite Rinv_r by lra. lra.
  Qed.

  Lemma scaffold_run sch K a eta x0 c0 : proper sch -> faithful e ->
    exists X C, throughout t period (fed N (XC_init "c" "c_i" x0 c0) (fed_round t e sv (scaffold_alg t grad K a eta) sch)) w
        (fun k st => (forall i, In i (t_nodes t) -> state_is st i (X k i)) /\ aux_is st sv "c" (C k sv) /\ forall i, In i clients -> aux_is st i "c_i" (C k i)) /\
      (forall i, X 0%nat i = x0 i /\ C 0%nat i = c0 i) /\
      forall k, (k < N)%nat -> exists P R, participation t e sch P R /\
        (forall i, In i P ->
           (exists s, local_steps grad i (fun y g => vsub y (vscal a (vadd (vsub g (C k i)) (C k sv)))) K (X k sv) (X (S k) i) s) /\
           C (S k) i = vadd (vsub (C k i) (C k sv)) (vscal (/ (INR K * a)) (vsub (X k sv) (X (S k) i)))) /\
        (forall i, In i clients -> ~ In i P -> X (S k) i = X k i /\ C (S k) i = C k i) /\
        (R = [] -> X (S k) sv = X k sv) /\
        (R <> [] -> X (S k) sv = vadd (X k sv) (vscal eta (mean_over R (fun i => vsub (X (S k) i) (X k sv))))) /\
        C (S k) sv = vadd (C k sv) (vscal (/ INR (length clients)) (sum_over R (fun i => vsub (C (S k) i) (C k i)))).
  Proof.
    intros PR FA.
    set (Rel := fun s s' : (agent_id -> vec) * (agent_id -> vec) => let (X, C) := s in let (X', C') := s' in exists P R, participation t e sch P R /\
        (forall i, In i P -> (exists s, local_steps grad i (fun y g => vsub y (vscal a (vadd (vsub g (C i)) (C sv)))) K (X sv) (X' i) s) /\
           C' i = vadd (vsub (C i) (C sv)) (vscal (/ (INR K * a)) (vsub (X sv) (X' i)))) /\
        (forall i, In i clients -> ~ In i P -> X' i = X i /\ C' i = C i) /\
        (R = [] -> X' sv = X sv) /\
        (R <> [] -> X' sv = vadd (X sv) (vscal eta (mean_over R (fun i => vsub (X' i) (X sv))))) /\
        C' sv = vadd (C sv) (vscal (/ INR (length clients)) (sum_over R (fun i => vsub (C' i) (C i))))).
    destruct (fed_trace t e sv NET period N w (XC "c" "c_i") Rel (fed_round t e sv (scaffold_alg t grad K a eta) sch) (XC_init "c" "c_i" x0 c0) (x0, c0)) as (sg & S0 & SR & ST).
    - intros; eapply XC_stab; eauto.
    - intros k (X, C) d st H. pose proof H as (H1 & H2 & H3). cbn [fst snd] in *.
      destruct (scaffold_round t e sv NET grad sch K a eta k d st (X sv) (C sv) C PR (H1 sv (sv_node t e sv NET)) H2 H3)
        as (st' & P & R & B & Y & MD & MC & RR & UP & HPR & R0 & R1). cbn zeta in HPR. destruct HPR as (HP & HR).
      assert (IP : incl P clients) by (eapply (round_part t e sv); eauto).
      set (Cn := fun i => vadd (vsub (C i) (C sv)) (vscal (/ (INR K * a)) (vsub (X sv) (Y i)))).
      assert (HB : forall i, In i P -> B i = vstack (X sv) (C sv)) by (intros i Hi; destruct (HP i Hi) as ((_ & G) & _); auto).
      destruct UP as (U1 & U2 & U3 & U4).
      assert (MDE : forall i, In i R -> MD i = vsub (Y i) (X sv)).
      { intros i Hi. destruct (HR i Hi) as ((_ & D) & _). rewrite (D FA), HB by auto. now rewrite vrow0_stack. }
      assert (MCE : forall i, In i R -> MC i = vsub (Cn i) (C i)).
      { intros i Hi. destruct (HR i Hi) as (_ & (_ & D)). rewrite (D FA), HB by auto. now rewrite vrow0_stack, vrow1_stack. }
      set (x' := match R with [] => X sv | _ => vadd (X sv) (vscal eta (mean_over R MD)) end).
      set (c' := vadd (C sv) (vscal (/ INR (length clients)) (sum_over R MC))).
      assert (SX : state_is st' sv x' /\ aux_is st' sv "c" c').
      { unfold x', c'. destruct R as [|q R'] eqn:ER.
        - destruct (R0 eq_refl) as (A1 & A2). split; auto. rewrite sum_nil. replace (vadd _ _) with (C sv); auto.
          apply functional_extensionality; intro; unfold vadd, vscal, vzero; lra.
        - destruct (R1 ltac:(discriminate)) as (A1 & A2). split; auto. now rewrite <- frac_mean by discriminate. }
      exists (after sv P Y X x', after sv P Cn C c'), st'. split; [apply RR|]. split.
      + apply XC_after with (st := st); auto; try apply SX; try apply RR.
        intros i Hi. destruct (HP i Hi) as (_ & _ & A1 & A2). split; auto. rewrite HB in A2 by auto. now rewrite vrow0_stack, vrow1_stack in A2.
      + cbn. assert (CS : forall i, In i P -> i <> sv) by (intros i Hi; apply (client_sv t e sv NET), IP, Hi).
        exists P, R. split; [|split; [|split; [|split; [|split]]]].
        * apply (participate t e sv sch d k st st'); auto. apply RR.
        * intros i Hi. rewrite !after_in by auto. destruct (HP i Hi) as (_ & L & _). rewrite HB, vrow0_stack, vrow1_stack in L by auto. auto.
        * intros i Hi Ni. pose proof (client_sv t e sv NET i Hi). now rewrite !after_out by auto.
        * intros ->. now rewrite after_sv.
        * intro NR. rewrite after_sv. unfold x'. destruct R as [|q R'] eqn:ER; [destruct (NR eq_refl)|]. rewrite <- ER in *. f_equal. f_equal. apply mean_ext.
          intros i Hi. rewrite after_in by auto. auto.
        * rewrite after_sv. unfold c'. f_equal. f_equal. apply sum_ext. intros i Hi. rewrite after_in by auto. auto.
    - apply XC_start.
    - exists (fun k => fst (sg k)), (fun k => snd (sg k)). split; [|split].
      + exact ST.
      + intro i. now rewrite S0.
      + intros k Hk. specialize (SR k Hk). unfold Rel in SR. destruct (sg k) as (X, C), (sg (S k)) as (X', C'). exact SR.
  Qed.

  Lemma feddyn_run sch K a al x0 : proper sch -> faithful e ->
    exists X G, throughout t period (fed N (XC_init "h" "g" x0 (fun _ => vzero)) (fed_round t e sv (feddyn_alg t grad K a al) sch)) w
        (fun k st => (forall i, In i (t_nodes t) -> state_is st i (X k i)) /\ aux_is st sv "h" (G k sv) /\ forall i, In i clients -> aux_is st i "g" (G k i)) /\
      (forall i, X 0%nat i = x0 i /\ G 0%nat i = vzero) /\
      forall k, (k < N)%nat -> exists P R, participation t e sch P R /\
        (forall i, In i P ->
           (exists s, local_steps grad i (fun y g => vsub y (vscal a (vadd (vsub g (G k i)) (vscal al (vsub y (X k sv)))))) K (X k sv) (X (S k) i) s) /\
           G (S k) i = vsub (G k i) (vscal al (vsub (X (S k) i) (X k sv)))) /\
        (forall i, In i clients -> ~ In i P -> X (S k) i = X k i /\ G (S k) i = G k i) /\
        G (S k) sv = vadd (G k sv) (vscal (/ INR (length clients)) (sum_over R (fun i => vsub (G (S k) i) (G k i)))) /\
        (R = [] -> X (S k) sv = X k sv) /\
        (R <> [] -> X (S k) sv = vsub (mean_over R (X (S k))) (vscal (/ al) (G (S k) sv))).
  Proof.
    intros PR FA.
    set (Rel := fun s s' : (agent_id -> vec) * (agent_id -> vec) => let (X, G) := s in let (X', G') := s' in exists P R, participation t e sch P R /\
        (forall i, In i P -> (exists s, local_steps grad i (fun y g => vsub y (vscal a (vadd (vsub g (G i)) (vscal al (vsub y (X sv)))))) K (X sv) (X' i) s) /\
           G' i = vsub (G i) (vscal al (vsub (X' i) (X sv)))) /\
        (forall i, In i clients -> ~ In i P -> X' i = X i /\ G' i = G i) /\
        G' sv = vadd (G sv) (vscal (/ INR (length clients)) (sum_over R (fun i => vsub (G' i) (G i)))) /\
        (R = [] -> X' sv = X sv) /\
        (R <> [] -> X' sv = vsub (mean_over R X') (vscal (/ al) (G' sv)))).
    destruct (fed_trace t e sv NET period N w (XC "h" "g") Rel (fed_round t e sv (feddyn_alg t grad K a al) sch) (XC_init "h" "g" x0 (fun _ => vzero)) (x0, fun _ => vzero)) as (sg & S0 & SR & ST).
    - intros; eapply XC_stab; eauto.
    - intros k (X, G) d st H. pose proof H as (H1 & H2 & H3). cbn [fst snd] in *.
      destruct (feddyn_round t e sv NET grad sch K a al k d st (X sv) (G sv) G PR (H1 sv (sv_node t e sv NET)) H2 H3)
        as (st' & P & R & B & Y & M & RR & UP & HP & HR & R0 & R1).
      assert (IP : incl P clients) by (eapply (round_part t e sv); eauto).
      set (Gn := fun i => vsub (G i) (vscal al (vsub (Y i) (X sv)))).
      assert (HB : forall i, In i P -> B i = X sv) by (intros i Hi; destruct (HP i Hi) as ((_ & Gx) & _); auto).
      destruct UP as (U1 & U2 & U3 & U4).
      assert (ME : forall i, In i R -> M i = Y i) by (intros i Hi; destruct (HR i Hi) as (_ & D); auto).
      set (h' := vadd (G sv) (vscal (/ INR (length clients)) (sum_over R (fun i => vsub (Gn i) (G i))))).
      assert (HE : vsub (G sv) (vscal (al / INR (length clients)) (sum_over R (fun i => vsub (M i) (X sv)))) = h').
      { unfold h'. rewrite (sum_ext R (fun i => vsub (M i) (X sv)) (fun i => vsub (Y i) (X sv))) by (intros i Hi; now rewrite ME).
        apply functional_extensionality. intro c. unfold Gn, vsub, vadd, vscal, sum_over.
        rewrite (map_ext (fun i => G i c - al * (Y i c - X sv c) - G i c) (fun i => - al * (Y i c - X sv c))) by (intro; ring).
        rewrite (rsum_map_scal (fun i => Y i c - X sv c) (- al)). unfold Rdiv. ring. }
      set (x' := match R with [] => X sv | _ => vsub (mean_over R M) (vscal (/ al) h') end).
      assert (SX : state_is st' sv x' /\ aux_is st' sv "h" h').
      { unfold x'. destruct R as [|q R'] eqn:ER.
        - destruct (R0 eq_refl) as (A1 & A2). split; auto. unfold h'. rewrite sum_nil. replace (vadd _ _) with (G sv); auto.
          apply functional_extensionality; intro; unfold vadd, vscal, vzero; lra.
        - destruct (R1 ltac:(discriminate)) as (A1 & A2). rewrite HE in A1, A2. auto. }
      exists (after sv P Y X x', after sv P Gn G h'), st'. split; [apply RR|]. split.
      + apply XC_after with (st := st); auto; try apply SX; try apply RR.
        intros i Hi. destruct (HP i Hi) as (_ & _ & A1 & A2). split; auto. now rewrite HB in A2 by auto.
      + cbn. assert (CS : forall i, In i P -> i <> sv) by (intros i Hi; apply (client_sv t e sv NET), IP, Hi).
        exists P, R. split; [|split; [|split; [|split; [|split]]]].
        * apply (participate t e sv sch d k st st'); auto. apply RR.
        * intros i Hi. rewrite !after_in by auto. destruct (HP i Hi) as (_ & L & _). rewrite HB in L by auto. auto.
        * intros i Hi Ni. pose proof (client_sv t e sv NET i Hi). now rewrite !after_out by auto.
        * rewrite after_sv. unfold h'. f_equal. f_equal. apply sum_ext. intros i Hi. rewrite after_in by auto. auto.
        * intros ->. now rewrite after_sv.
        * intro NR. rewrite !after_sv. unfold x'. destruct R as [|q R'] eqn:ER; [destruct (NR eq_refl)|]. rewrite <- ER in *. f_equal. apply mean_ext.
          intros i Hi. rewrite after_in by auto. auto.
    - apply XC_start.
    - exists (fun k => fst (sg k)), (fun k => snd (sg k)). split; [|split].
      + exact ST.
      + intro i. now rewrite S0.
      + intros k Hk. specialize (SR k Hk). unfold Rel in SR. destruct (sg k) as (X, C), (sg (S k)) as (X', C'). exact SR.
  Qed.

  (** [scaffold_run] as a relation between trajectories *)
  Definition drift (C : nat -> agent_id -> vec) (k : nat) : vec := vsub (C k sv) (mean_over clients (C k)).
  Lemma drift_step (C : nat -> agent_id -> vec) k P R : clients <> [] -> NoDup P -> incl P clients -> NoDup R -> incl R P ->
    (forall i, In i clients -> ~ In i P -> C (S k) i = C k i) ->
    C (S k) sv = vadd (C k sv) (vscal (/ INR (length clients)) (sum_over R (fun i => vsub (C (S k) i) (C k i)))) ->
    drift C (S k) = vsub (drift C k) (vscal (/ INR (length clients)) (sum_over (filter (fun i => negb (memb i R)) P) (fun i => vsub (C (S k) i) (C k i)))).
  Proof.
    intros NE NDP IP NDR IR OUT SRV. unfold drift. rewrite SRV. apply functional_extensionality. intro c.
    unfold vsub, vadd, vscal, mean_over, sum_over.
    set (f := fun i => C (S k) i c - C k i c).
    assert (E1 : rsum (map (fun i => C (S k) i c) clients) = rsum (map (fun i => C k i c) clients) + rsum (map f P)).
    { rewrite (rsum_sub f clients P) by (auto; apply (NDc t e sv NET)). rewrite <- rsum_map_add. f_equal. apply map_ext_in. intros i Hi.
      destruct (memb i P) eqn:E; [unfold f; lra|]. rewrite OUT; auto; [lra|]. intro I. apply memb_In in I. congruence. }
    assert (E2 : rsum (map f P) = rsum (map f R) + rsum (map f (filter (fun i => negb (memb i R)) P))).
    { rewrite (rsum_sub f P R) by auto. rewrite (rsum_sub f P (filter (fun i => negb (memb i R)) P)).
      2,3: auto using NoDup_filter. 2:{ intros i Hi. now apply filter_In in Hi. }
      rewrite <- rsum_map_add. f_equal. apply map_ext_in. intros i Hi. destruct (memb i R) eqn:E.
      - destruct (memb i (filter (fun i => negb (memb i R)) P)) eqn:E'; [|lra]. apply memb_In, filter_In in E'. destruct E' as (_ & E'). rewrite E in E'. discriminate.
      - assert (I : In i (filter (fun i => negb (memb i R)) P)) by (apply filter_In; rewrite E; auto). apply memb_In in I. rewrite I. lra. }
    rewrite E1, E2. change (fun i => C (S k) i c - C k i c) with f. ring.
  Qed.
  (** a chain of one step *)
  Lemma local_one i next x y s : local_steps grad i next 1 x y s -> exists g, gradient_of grad i x g /\ y = next x g.
  Proof. intro H. inversion H as [|? ? g z s' G L]; subst. inversion L; subst. eauto. Qed.
  (** one local step of Scaffold, everybody participating *)
  Lemma scaffold_one (X C : nat -> agent_id -> vec) (g : agent_id -> vec) a eta k : a <> 0 -> clients <> [] -> drift C k = vzero ->
    (forall i, In i clients -> X (S k) i = vsub (X k sv) (vscal a (vadd (vsub (g i) (C k i)) (C k sv)))) ->
    X (S k) sv = vadd (X k sv) (vscal eta (mean_over clients (fun i => vsub (X (S k) i) (X k sv)))) ->
    X (S k) sv = vsub (X k sv) (vscal (eta * a) (mean_over clients g)).
  Proof.
    intros A NE D HX ->. rewrite (mean_ext clients (fun i => vsub (X (S k) i) (X k sv)) (fun i => vscal (- a) (vadd (vsub (g i) (C k i)) (C k sv)))).
    2:{ intros i Hi. rewrite HX by auto. apply functional_extensionality. intro c. unfold vsub, vscal, vadd. ring. }
    apply functional_extensionality. intro c. apply (f_equal (fun v => v c)) in D. unfold drift, vsub, vadd, vscal, mean_over, vzero in *.
    rewrite (rsum_map_scal (fun i => g i c - C k i c + C k sv c) (- a)).
    rewrite (rsum_map_add (fun i => g i c - C k i c) (fun _ => C k sv c)), rsum_map_sub, rsum_const.
    pose proof (len_pos clients NE). set (n := INR (length clients)) in *.
    set (sg := rsum (map (fun i => g i c) clients)). set (sc := rsum (map (fun i => C k i c) clients)) in *.
    replace (C k sv c) with (/ n * sc) by lra. field. lra.
  Qed.
End Runs2.
