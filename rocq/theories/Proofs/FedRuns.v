(** Runs of the federated algorithms. *)
From Coq Require Import Reals String List Bool Arith ZArith Lia Lra FunctionalExtensionality Permutation.
From Verif.Model Require Import PyDict History Messages Network Runner Vec P2P Fed.
From Verif.Spec Require Import NetworkSpec P2PSpec FedSpec.
From Verif.Proofs Require Import PyDictProofs MessagesProofs NetworkProofs NetworkInv NetworkMore NetworkActive RunnerProofs EmpiricalProofs P2PLock P2PSteps P2PRuns FedLock FedSteps FedSteps2.
Import ListNotations.
Open Scope R_scope.

Lemma rsum_app a b : rsum (a ++ b) = rsum a + rsum b.
Proof. induction a as [|z a IH]; cbn [app]; rewrite ?rsum_nil, ?rsum_cons; [lra|]. rewrite IH. lra. Qed.
(** a sum over a sublist as a sum over the list *)
Lemma rsum_sub (f : agent_id -> R) l q : NoDup l -> NoDup q -> incl q l -> rsum (map f q) = rsum (map (fun i => if memb i q then f i else 0) l).
Proof.
  intros NL NQ I.
  assert (P : Permutation l (q ++ filter (fun j => negb (memb j q)) l)).
  { apply NoDup_Permutation; auto.
    - assert (N2 : NoDup (filter (fun j => negb (memb j q)) l)) by now apply NoDup_filter.
      assert (D : forall x, In x q -> ~ In x (filter (fun j => negb (memb j q)) l)).
      { intros x Hx F. apply filter_In in F. destruct F as (_ & F). apply memb_In in Hx. rewrite Hx in F. discriminate. }
      generalize dependent (filter (fun j => negb (memb j q)) l). intros f0 F D. clear I.
      induction q as [|y q IH]; cbn; auto. inversion NQ; subst. constructor.
      + intro J. apply in_app_or in J. destruct J; [contradiction|]. apply (D y); [now left|auto].
      + apply IH; auto. intros x Hx. apply D. now right.
    - intro x. rewrite in_app_iff, filter_In. split.
      + intro Hx. destruct (memb x q) eqn:E; [left; now apply memb_In|right; split; auto].
      + intros [Hx|(Hx & _)]; auto. }
  rewrite (rsum_perm _ _ (Permutation_map (fun i => if memb i q then f i else 0) P)), map_app, rsum_app.
  assert (Z : rsum (map (fun i => if memb i q then f i else 0) (filter (fun j => negb (memb j q)) l)) = 0).
  { assert (G : forall m, (forall i, In i m -> memb i q = false) -> rsum (map (fun i => if memb i q then f i else 0) m) = 0).
    { induction m as [|i m IH]; intro H; cbn [map]; rewrite ?rsum_nil, ?rsum_cons; auto. rewrite IH by (intros; apply H; now right). rewrite (H i) by now left. lra. }
    apply G. intros i Hi. apply filter_In in Hi. destruct Hi as (_ & Hi). now apply negb_true_iff. }
  rewrite Z, Rplus_0_r. f_equal. apply map_ext_in. intros i Hi. apply memb_In in Hi. now rewrite Hi.
Qed.
Lemma sum_over_add l (u v : agent_id -> vec) : sum_over l (fun i => vadd (u i) (v i)) = vadd (sum_over l u) (sum_over l v).
Proof. apply functional_extensionality. intro c. unfold sum_over, vadd. apply rsum_map_add. Qed.
Lemma mean_sum l v : mean_over l v = vscal (/ INR (length l)) (sum_over l v).
Proof. reflexivity. Qed.
Lemma mean_ext l u v : (forall i, In i l -> u i = v i) -> mean_over l u = mean_over l v.
Proof. intro H. unfold mean_over. apply functional_extensionality. intro c. do 2 f_equal. apply map_ext_in. intros i Hi. now rewrite H. Qed.
Lemma sum_ext l u v : (forall i, In i l -> u i = v i) -> sum_over l u = sum_over l v.
Proof. intro H. unfold sum_over. apply functional_extensionality. intro c. f_equal. apply map_ext_in. intros i Hi. now rewrite H. Qed.
Lemma rsum_const (a : R) {B} (l : list B) : rsum (map (fun _ => a) l) = INR (length l) * a.
Proof. induction l as [|b l IH]; [cbn [map length]; rewrite rsum_nil; cbn [INR]; lra|]. cbn [map]. rewrite rsum_cons, IH. cbn [length]. rewrite S_INR. lra. Qed.
Lemma len_pos {B} (l : list B) : l <> [] -> 0 < INR (length l).
Proof. destruct l; [congruence|]. intros _. apply lt_0_INR. cbn. lia. Qed.

Section Runs.
  Variables (t : topo) (e : env vec) (sv : agent_id).
  Hypothesis NET : fed_net t e sv.
  Variables (period : agent_id -> nat) (N : nat) (w : world vec nat).
  Variable grad : nat -> agent_id -> vec -> vec.
  Variable prox : nat -> agent_id -> vec -> R -> vec.
  Notation clients := (agents t).

  Lemma NDn : NoDup (t_nodes t). Proof. apply NET. Qed.
  Lemma NDc : NoDup clients. Proof. apply agents_NoDup, NET. Qed.
  Lemma node_cases i : In i (t_nodes t) -> i = sv \/ In i clients.
  Proof. intro Hi. destruct (Nat.eq_dec i sv); auto. right. apply (agents_spec t e sv NET). auto. Qed.
  Lemma client_node i : In i clients -> In i (t_nodes t). Proof. intro H. now apply (agents_spec t e sv NET) in H. Qed.
  Lemma client_sv i : In i clients -> i <> sv. Proof. intro H. now apply (agents_spec t e sv NET) in H. Qed.

  Lemma active_all_fed k st : always_active e -> active_at t e k st = clients.
  Proof.
    intro AA. unfold active_at, active_agents. destruct (step_spec vec t k st) as (_ & S2 & _). rewrite S2.
    assert (G : forall it l d, fst (act_filter e it l d) = l).
    { induction l as [|a l IH]; intro d; [reflexivity|]. cbn [act_filter]. rewrite AA. specialize (IH (S d)). destruct (act_filter e it l (S d)). cbn in *. now subst. }
    specialize (G (n_iter (step t k st)) clients (n_draws (step t k st))). destruct (act_filter _ _ _ _). exact G.
  Qed.
  Lemma participate sch d1 k st st' P R : proper sch ->
    took_part t e sv st' (chosen sch d1 k (active_at t e k st)) P -> NoDup R -> incl R P -> (reliable e -> R = P) -> participation t e sch P R.
  Proof.
    intros PR (T1 & T2 & T3 & T4 & T5) R1 R2 R3. split; auto. split; [intros i Hi; auto|]. split; auto. split; auto. split; auto.
    intros RE AA ->. rewrite (T5 RE). rewrite active_all_fed by auto. unfold chosen. destruct clients; reflexivity.
  Qed.

  Lemma fed_init_spec sx saux cx caux : let st := snd (fed_init t sv sx saux cx caux w) in
    a_x (n_agents st sv) = Some sx /\ a_aux (n_agents st sv) = saux /\
    forall i, In i clients -> a_x (n_agents st i) = Some (cx i) /\ a_aux (n_agents st i) = caux i.
  Proof.
    cbn zeta. unfold fed_init. cbn [snd].
    assert (G : forall l (st : net vec), NoDup l -> let st' := fold_left (fun st i => upd_agent i (initialize (Some (cx i)) (caux i)) st) l st in
      (forall i, In i l -> a_x (n_agents st' i) = Some (cx i) /\ a_aux (n_agents st' i) = caux i) /\
      (forall i, ~ In i l -> n_agents st' i = n_agents st i)).
    { induction l as [|b l IH]; intros st NDl; cbn [fold_left]; [split; [intros i []|auto]|]. inversion NDl; subst.
      destruct (IH (upd_agent b (initialize (Some (cx b)) (caux b)) st) H2) as (I1 & I2). split.
      - intros i [<-|Hi]; [|auto]. rewrite I2 by auto. cbn. unfold upd. rewrite Nat.eqb_refl. auto.
      - intros i Hi. rewrite I2 by (intro; apply Hi; now right). cbn. unfold upd. destruct (Nat.eqb_spec i b); auto. exfalso. apply Hi. now left. }
    destruct (G clients (upd_agent sv (initialize (Some sx) saux) (snd w)) NDc) as (G1 & G2).
    assert (NS : ~ In sv clients) by (intro X; now apply client_sv in X).
    rewrite G2 by auto. cbn. unfold upd. rewrite Nat.eqb_refl. auto.
  Qed.

  Lemma fed_trace {St} (Inv : St -> net vec -> Prop) (Rel : St -> St -> Prop) (round : nat -> F unit) init s0 :
    (forall s st st', (forall i, In i (t_nodes t) -> untouched st st' i) -> Inv s st -> Inv s st') ->
    (forall k s d st, Inv s st -> exists s' st', (exists d', fstep (round k) (d, step t k st) = ((d', st'), false)) /\ Inv s' st' /\ Rel s s') ->
    Inv s0 (snd (init w)) ->
    exists sg, sg 0%nat = s0 /\ (forall k, (k < N)%nat -> Rel (sg k) (sg (S k))) /\
      throughout t period (fed N init round) w (fun k st => Inv (sg k) st).
  Proof.
    intros ST STEP I0. apply (run_trace t period (fed N init round) (fun _ => Inv) (fun _ => Rel)); auto.
    - apply NDn.
    - intros k s d st H. destruct (STEP k s d st H) as (s' & st' & (d' & E) & H' & R). exists d', st', s'. auto.
  Qed.

  (** all agents have a state *)
  Definition Xinv (X : agent_id -> vec) st := forall i, In i (t_nodes t) -> state_is st i (X i).
  Lemma Xinv_stab X st st' : (forall i, In i (t_nodes t) -> untouched st st' i) -> Xinv X st -> Xinv X st'.
  Proof. intros U H i Hi. unfold state_is. destruct (U i Hi) as (-> & _). now apply H. Qed.
  (** the states after a round in which [P] computed [Y] and the server has [x'] *)
  Definition after (P : list agent_id) (Y X : agent_id -> vec) (x' : vec) : agent_id -> vec :=
    fun i => if Nat.eqb i sv then x' else if memb i P then Y i else X i.
  Lemma after_sv P Y X x' : after P Y X x' sv = x'. Proof. unfold after. now rewrite Nat.eqb_refl. Qed.
  Lemma after_in P Y X x' i : i <> sv -> In i P -> after P Y X x' i = Y i.
  Proof. intros H I. unfold after. destruct (Nat.eqb_spec i sv); [contradiction|]. apply memb_In in I. now rewrite I. Qed.
  Lemma after_out P Y X x' i : i <> sv -> ~ In i P -> after P Y X x' i = X i.
  Proof. intros H I. unfold after. destruct (Nat.eqb_spec i sv); [contradiction|]. destruct (memb i P) eqn:E; [|auto]. apply memb_In in E. contradiction. Qed.
  Lemma Xinv_after P Y X x' st st' : Xinv X st -> state_is st' sv x' -> (forall i, In i P -> state_is st' i (Y i)) ->
    (forall i, In i clients -> ~ In i P -> untouched st st' i) -> incl P clients -> Xinv (after P Y X x') st'.
  Proof.
    intros H S1 S2 S3 I i Hi. destruct (node_cases i Hi) as [->|Hc]; [now rewrite after_sv|]. pose proof (client_sv i Hc) as Hs.
    destruct (in_dec Nat.eq_dec i P).
    - rewrite after_in by auto. auto.
    - rewrite after_out by auto. unfold state_is. destruct (S3 i Hc n) as (-> & _). now apply H.
  Qed.

  Definition plain_init (x0 : agent_id -> vec) := fed_init t sv (x0 sv) [] x0 (fun _ => []).
  Lemma plain_Xinv x0 : Xinv x0 (snd (plain_init x0 w)).
  Proof.
    destruct (fed_init_spec (x0 sv) [] x0 (fun _ => [])) as (A & B & C). intros i Hi. unfold state_is. fold (plain_init x0).
    destruct (node_cases i Hi) as [->|Hc]; [exact A|]. now apply C.
  Qed.

  Lemma round_part A sch k d1 d st st' P : round_result t e sv A sch k d1 d st st' P -> incl P clients.
  Proof. intros (_ & (_ & T2 & T3 & _) & _) i Hi. auto. Qed.

  (** averaging algorithms on networks that do not alter messages *)
  Lemma average_run (A : fedalg) (Cl : agent_id -> vec -> vec -> Prop) sch x0 : proper sch -> faithful e ->
    (forall k d st x, state_is st sv x -> exists st' P R B Y M, round_result t e sv A sch k d d st st' P /\ uploaded e sv st' P dflt R /\
      (forall i, In i P -> got e sv st' i (B i) x /\ Cl i (B i) (Y i) /\ state_is st' i (Y i)) /\
      (forall i, In i R -> delivered e sv st' dflt i (M i) (Y i)) /\
      (R = [] -> state_is st' sv x) /\ (R <> [] -> state_is st' sv (mean_over R M))) ->
    exists X, throughout t period (fed N (plain_init x0) (fed_round t e sv A sch)) w (fun k st => forall i, In i (t_nodes t) -> state_is st i (X k i)) /\
      (forall i, X 0%nat i = x0 i) /\
      forall k, (k < N)%nat -> exists P R, participation t e sch P R /\
        (forall i, In i P -> Cl i (X k sv) (X (S k) i)) /\
        (forall i, In i clients -> ~ In i P -> X (S k) i = X k i) /\
        (R = [] -> X (S k) sv = X k sv) /\ (R <> [] -> X (S k) sv = mean_over R (X (S k))).
  Proof.
    intros PR FA RND.
    destruct (fed_trace Xinv (fun X X' => exists P R, participation t e sch P R /\
        (forall i, In i P -> Cl i (X sv) (X' i)) /\ (forall i, In i clients -> ~ In i P -> X' i = X i) /\
        (R = [] -> X' sv = X sv) /\ (R <> [] -> X' sv = mean_over R X')) (fed_round t e sv A sch) (plain_init x0) x0) as (X & X0 & XR & XT).
    - intros; eapply Xinv_stab; eauto.
    - intros k X d st H. destruct (RND k d st (X sv) (H sv (sv_node t e sv NET))) as (st' & P & R & B & Y & M & RR & UP & HP & HR & R0 & R1).
      set (x' := match R with [] => X sv | _ => mean_over R M end).
      assert (SX : state_is st' sv x'). { unfold x'. destruct R; [auto|]. apply R1. discriminate. }
      assert (IP : incl P clients) by (eapply round_part; eauto).
      exists (after P Y X x'), st'. split; [apply RR|]. split.
      + apply Xinv_after with (st := st); auto. { intros i Hi. apply HP, Hi. } apply RR.
      + exists P, R. destruct UP as (U1 & U2 & U3 & U4). split; [|split; [|split; [|split]]].
        * apply (participate sch d k st st'); auto. apply RR.
        * intros i Hi. rewrite after_in by (auto; apply client_sv, IP, Hi). destruct (HP i Hi) as ((_ & G) & C & _). now rewrite <- (G FA).
        * intros i Hi Ni. apply after_out; auto. now apply client_sv.
        * intros ->. now rewrite after_sv.
        * intro NR. rewrite after_sv. unfold x'. destruct R as [|q R'] eqn:ER; [congruence|]. rewrite <- ER in *. apply mean_ext. intros i Hi.
          rewrite after_in by (auto; apply client_sv, IP, U2, Hi). destruct (HR i Hi) as (_ & D). auto.
    - apply plain_Xinv.
    - exists X. split; [exact XT|]. split; [now rewrite X0|]. exact XR.
  Qed.

  Lemma fedavg_run sch K a x0 : proper sch -> faithful e ->
    exists X, throughout t period (fed N (plain_init x0) (fed_round t e sv (fedavg_alg grad K a) sch)) w (fun k st => forall i, In i (t_nodes t) -> state_is st i (X k i)) /\
      (forall i, X 0%nat i = x0 i) /\
      forall k, (k < N)%nat -> exists P R, participation t e sch P R /\
        (forall i, In i P -> exists s, local_steps grad i (fun y g => vsub y (vscal a g)) K (X k sv) (X (S k) i) s) /\
        (forall i, In i clients -> ~ In i P -> X (S k) i = X k i) /\
        (R = [] -> X (S k) sv = X k sv) /\ (R <> [] -> X (S k) sv = mean_over R (X (S k))).
  Proof.
    intros PR FA. apply average_run with (Cl := fun i b y => exists s, local_steps grad i (fun y g => vsub y (vscal a g)) K b y s); auto.
    intros. now apply fedavg_round.
  Qed.
  Lemma fedprox_run sch K a mu x0 : proper sch -> faithful e ->
    exists X, throughout t period (fed N (plain_init x0) (fed_round t e sv (fedprox_alg grad K a mu) sch)) w (fun k st => forall i, In i (t_nodes t) -> state_is st i (X k i)) /\
      (forall i, X 0%nat i = x0 i) /\
      forall k, (k < N)%nat -> exists P R, participation t e sch P R /\
        (forall i, In i P -> exists s, local_steps grad i (fun y g => vsub y (vscal a (vadd g (vscal mu (vsub y (X k sv)))))) K (X k sv) (X (S k) i) s) /\
        (forall i, In i clients -> ~ In i P -> X (S k) i = X k i) /\
        (R = [] -> X (S k) sv = X k sv) /\ (R <> [] -> X (S k) sv = mean_over R (X (S k))).
  Proof.
    intros PR FA. apply average_run with (Cl := fun i b y => exists s, local_steps grad i (fun y g => vsub y (vscal a (vadd g (vscal mu (vsub y b))))) K b y s); auto.
    intros. now apply fedprox_round.
  Qed.
End Runs.
