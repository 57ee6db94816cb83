(** DLM and DiNNO on reliable synchronous networks. *)
From Coq Require Import Reals String List Bool Arith ZArith Lia Lra FunctionalExtensionality Permutation.
From Verif.Model Require Import PyDict History Messages Network Runner Vec P2P P2PShared.
From Verif.Spec Require Import NetworkSpec P2PSpec P2PSharedSpec.
From Verif.Proofs Require Import PyDictProofs NetworkProofs NetworkInv NetworkMore EmpiricalProofs RunnerProofs P2PLock P2PSteps P2PRuns.
From Verif.Proofs Require Import P2PSharedProofs P2PSharedRuns P2PSharedSteps.
Import ListNotations.
Open Scope R_scope.

Section Sync.
  Variables (t : topo) (e : env vec).
  Hypothesis PT : p2p_topo t.
  Hypothesis SY : synchronous e.
  Variable grad : nat -> agent_id -> vec -> vec.
  Notation nodes := (t_nodes t).
  Notation DA := (disagreement t).

  Lemma sfaith : faithful e. Proof. destruct SY as ((_ & A & B) & _). split; auto. Qed.
  Lemma sall k st : active_at t e k st = nodes.
  Proof. destruct (step_cfg t e (P2PSteps.WF t PT) (P2PSteps.SV t PT) k st) as (? & _ & _ & _ & _ & _ & _ & X). apply X, SY. Qed.
  Lemma sperm D i : delivery t e nodes D -> In i nodes -> Permutation (D i) (t_adj t i).
  Proof.
    intros DE Hi. destruct (DE i) as (N1 & I1 & I2). destruct PT as ((_ & SYM & NDA & _) & _). apply NoDup_Permutation; auto.
    intro j. split; [intro H; apply (I1 j H)|]. intro H. apply I2; auto; [apply SY|]. now destruct (SYM i j H) as (_ & ? & _).
  Qed.
  Lemma sdiffer D X i : delivery t e nodes D -> In i nodes -> differ (D i) X i = DA X i.
  Proof. intros. change (DA X i) with (differ (t_adj t i) X i). apply differ_perm. now apply sperm. Qed.
  Lemma sgathered D X S i : delivery t e nodes D -> In i nodes -> (t_adj t i = [] -> S i = vzero) -> gathered (D i) X S i = DA X i.
  Proof.
    intros DE Hi HS. rewrite <- (sdiffer D) by auto. unfold gathered. destruct (D i) eqn:ED; auto.
    pose proof (sperm D i DE Hi) as P. rewrite ED in P. apply Permutation_nil in P. rewrite (HS P). reflexivity.
  Qed.
  Lemma spnew D rho X Pv i : delivery t e nodes D -> In i nodes -> pnew (D i) rho X Pv i = vadd (Pv i) (vscal rho (DA X i)).
  Proof.
    intros DE Hi. rewrite <- (sdiffer D) by auto. unfold pnew. destruct (D i) eqn:ED; auto.
    apply functional_extensionality. intro c. unfold vadd, vscal, differ. cbn [map]. rewrite rsum_nil. lra.
  Qed.
  Lemma snext D a rho X i p : delivery t e nodes D -> In i nodes -> dinno_next a rho (D i) X i p = dinno_next a rho (t_adj t i) X i p.
  Proof.
    intros DE Hi. do 2 (apply functional_extensionality; intro). unfold dinno_next. do 4 f_equal. apply functional_extensionality. intro c.
    apply rsum_perm, Permutation_map. now apply sperm.
  Qed.

  Variables (period : agent_id -> nat) (N : nat).
  Lemma snd_nodes : NoDup nodes. Proof. apply PT. Qed.

  Ltac stab := intros; unfold state_is, aux_is, auxmap_is in *;
    match goal with U : forall i, In i nodes -> untouched _ _ i |- _ => 
      intros; match goal with Hi : In ?i nodes |- _ => let A := fresh in let B := fresh in destruct (U i Hi) as (A & B); rewrite ?A, ?B; auto end
    end.
  Ltac init := intros; match goal with A := p2p _ _ _ _ _ |- _ => subst A | _ => idtac end; cbn [al_init p2p snd fst] in *;
    match goal with i : agent_id, Hi : In ?i nodes |- context [do_init t ?f ?u] =>
      let n := fresh "n" in let A := fresh in let B := fresh in
      destruct (do_init_spec t f u PT i Hi) as (n & A & B);
      unfold state_is, aux_is, auxmap_is; rewrite ?A, ?B; cbn end.
  Ltac traj SS SC SW := match goal with
    | |- trajectory _ _ _ _ _ => split; [assumption|split; [|split]]; intros; [eapply SS|eapply SC|eapply SW]; eauto
    | |- aux_trajectory _ _ _ _ _ _ => split; [|split]; intros; [eapply SS|eapply SC|eapply SW]; eauto
    end.

  Theorem dlm_plain_run mu rho x0 w : let A := p2p t e N (plain_init (dlm_init x0)) (dlm_plain grad mu rho) in
    exists X Y G, trajectory t period A w X /\ aux_trajectory t period A w "y" Y /\
      (forall i, X 0%nat i = x0 i /\ Y 0%nat i = vzero) /\
      (forall i, (0 < N)%nat -> In i nodes -> X 1%nat i = X 0%nat i /\ Y 1%nat i = Y 0%nat i) /\
      forall k i, (0 < k < N)%nat -> In i nodes -> gradient_of grad i (X k i) (G k i) /\
        X (S k) i = vsub (X k i) (vscal mu (vadd (vadd (G k i) (vscal rho (DA (X k) i))) (Y k i))) /\
        Y (S k) i = vadd (Y k i) (vscal rho (DA (X (S k)) i)).
  Proof.
    intro A.
    destruct (run_trace t period A
      (fun k s st => forall i, In i nodes -> state_is st i (s 0%nat i) /\ aux_is st i "y" (s 1%nat i) /\
         aux_is st i "s" (match k with O => vzero | S _ => DA (s 0%nat) i end))
      (fun k s s' => forall i, In i nodes -> match k with
         | O => s' 0%nat i = s 0%nat i /\ s' 1%nat i = s 1%nat i
         | S _ => gradient_of grad i (s 0%nat i) (s' 2%nat i) /\
             s' 0%nat i = vsub (s 0%nat i) (vscal mu (vadd (vadd (s' 2%nat i) (vscal rho (DA (s 0%nat) i))) (s 1%nat i))) /\
             s' 1%nat i = vadd (s 1%nat i) (vscal rho (DA (s' 0%nat) i)) end)
      snd_nodes ltac:(stab)) with (w := w) (s := slots [x0; fun _ => vzero]) as (sg & S0 & SR & SO & SS & SC & SW).
    - intros k s d st H. destruct k as [|k].
      + destruct (dlm_step0 t e PT sfaith grad mu rho d st (s 0%nat) (s 1%nat) (fun _ => vzero) H) as (d' & st' & D & E & DE & Q & _).
        rewrite sall in *. exists d', st', (slots [s 0%nat; s 1%nat]). cbn [slots nth]. split; [exact E|]. split.
        * intros i Hi. destruct (Q i Hi) as (Q1 & Q2 & Q3). rewrite sgathered in Q3 by auto. auto.
        * auto.
      + destruct (dlm_stepS t e PT sfaith grad mu rho k d st (s 0%nat) (s 1%nat) (fun i => DA (s 0%nat) i) H) as (d' & st' & D & X' & G & E & DE & Q & _).
        rewrite sall in *. exists d', st', (slots [X'; fun i => vadd (s 1%nat i) (vscal rho (DA X' i)); G]). cbn [slots nth]. split; [exact E|].
        assert (Z : forall i, t_adj t i = [] -> DA (s 0%nat) i = vzero). { intros i Z. unfold disagreement. rewrite Z. reflexivity. }
        split.
        * intros i Hi. destruct (Q i Hi) as (_ & Q1 & Q2 & Q3 & Q4). rewrite sgathered in Q3, Q4 by auto. auto.
        * intros i Hi. destruct (Q i Hi) as (Q0 & Q1 & _). auto.
    - init. auto.
    - exists (fun k => sg k 0%nat), (fun k => sg k 1%nat), (fun k => sg (S k) 2%nat).
      split; [traj SS SC SW|]. split; [traj SS SC SW|]. split; [intro; rewrite S0; auto|]. split.
      + intros i HN Hi. apply (SR 0%nat); auto.
      + intros [|k] i Hk Hi; [lia|]. apply (SR (S k)); auto. apply Hk.
  Qed.

  Theorem dinno_plain_run a rho B x0 w : let A := p2p t e N (plain_init (dinno_init x0)) (dinno_plain grad a rho B) in
    exists X P Sg, trajectory t period A w X /\ aux_trajectory t period A w "p" P /\
      (forall i, X 0%nat i = x0 i /\ P 0%nat i = vzero) /\
      forall k i, (k < N)%nat -> In i nodes ->
        P (S k) i = vadd (P k i) (vscal rho (DA (X k) i)) /\
        local_steps grad i (dinno_next a rho (t_adj t i) (X k) i (P (S k) i)) B (X k i) (X (S k) i) (Sg k i).
  Proof.
    intro A.
    destruct (run_trace t period A
      (fun k s st => forall i, In i nodes -> state_is st i (s 0%nat i) /\ aux_is st i "p" (s 1%nat i))
      (fun k s s' => forall i, In i nodes -> s' 1%nat i = vadd (s 1%nat i) (vscal rho (DA (s 0%nat) i)) /\
          local_steps grad i (dinno_next a rho (t_adj t i) (s 0%nat) i (s' 1%nat i)) B (s 0%nat i) (s' 0%nat i) (s' 2%nat i))
      snd_nodes ltac:(stab)) with (w := w) (s := slots [x0; fun _ => vzero]) as (sg & S0 & SR & SO & SS & SC & SW).
    - intros k s d st H. destruct (dinno_step t e PT sfaith grad a rho B k d st (s 0%nat) (s 1%nat) H) as (d' & st' & D & E & DE & Q & _).
      rewrite sall in *.
      assert (Q2 : exists ZS : agent_id -> vec * vec, forall i, In i nodes -> aux_is st' i "p" (vadd (s 1%nat i) (vscal rho (DA (s 0%nat) i))) /\
        local_steps grad i (dinno_next a rho (t_adj t i) (s 0%nat) i (vadd (s 1%nat i) (vscal rho (DA (s 0%nat) i)))) B (s 0%nat i) (fst (ZS i)) (snd (ZS i)) /\ state_is st' i (fst (ZS i))).
      { apply (choice_list (fun i zs => aux_is st' i "p" (vadd (s 1%nat i) (vscal rho (DA (s 0%nat) i))) /\
          local_steps grad i (dinno_next a rho (t_adj t i) (s 0%nat) i (vadd (s 1%nat i) (vscal rho (DA (s 0%nat) i)))) B (s 0%nat i) (fst zs) (snd zs) /\ state_is st' i (fst zs)) (vzero, vzero)).
        intros i Hi. destruct (Q i Hi) as (Q1 & z & sm & Q2 & Q3). rewrite spnew in Q1, Q2 by auto. rewrite snext in Q2 by auto. exists (z, sm). auto. }
      destruct Q2 as (ZS & Q2).
      exists d', st', (slots [fun i => fst (ZS i); fun i => vadd (s 1%nat i) (vscal rho (DA (s 0%nat) i)); fun i => snd (ZS i)]). cbn [slots nth]. split; [exact E|]. split.
      + intros i Hi. destruct (Q2 i Hi) as (Q3 & _ & Q4). auto.
      + intros i Hi. destruct (Q2 i Hi) as (_ & Q3 & _). auto.
    - init. auto.
    - exists (fun k => sg k 0%nat), (fun k => sg k 1%nat), (fun k => sg (S k) 2%nat).
      split; [traj SS SC SW|]. split; [traj SS SC SW|]. split; [intro; rewrite S0; auto|].
      intros k i Hk Hi. apply (SR k); auto.
  Qed.

  (** ** From runs without to runs with shared arrays *)
  Section Lift.
    Variables (A : alg buf (nat * heap)) (A' : alg vec nat) (w : world buf (nat * heap)).
    Hypothesis IT : al_iters A = al_iters A'.
    Hypothesis EQ : plain_res (run t period A 0 w) = run t period A' 0 (plain_world w).
    Lemma lift_step k w' : In (CStep k w') (r_calls (run t period A 0 w)) -> In (CStep k (plain_world w')) (r_calls (run t period A' 0 (plain_world w))).
    Proof. intro H. rewrite <- EQ. cbn [plain_res r_calls]. exact (in_map plain_call _ _ H). Qed.
    Lemma lift_cb k w' : In (CCallback k w') (r_calls (run t period A 0 w)) -> In (CCallback k (plain_world w')) (r_calls (run t period A' 0 (plain_world w))).
    Proof. intro H. rewrite <- EQ. cbn [plain_res r_calls]. exact (in_map plain_call _ _ H). Qed.
    Lemma lift_world : r_world (run t period A' 0 (plain_world w)) = plain_world (r_world (run t period A 0 w)).
    Proof. rewrite <- EQ. reflexivity. Qed.
    Lemma lift_out : r_out (run t period A' 0 (plain_world w)) = r_out (run t period A 0 w).
    Proof. rewrite <- EQ. reflexivity. Qed.
    Lemma lift_traj X : trajectory t period A' (plain_world w) X -> strajectory t period A w X.
    Proof.
      intros (T0 & T1 & T2 & T3). rewrite lift_out in T0. rewrite lift_world in T3. split; [exact T0|]. split; [|split].
      - intros k w' H. exact (T1 k _ (lift_step k w' H)).
      - intros k w' H. exact (T2 k _ (lift_cb k w' H)).
      - rewrite IT. exact T3.
    Qed.
    Lemma lift_aux key X : aux_trajectory t period A' (plain_world w) key X -> saux_trajectory t period A w key X.
    Proof.
      intros (T1 & T2 & T3). rewrite lift_world in T3. split; [|split].
      - intros k w' H. exact (T1 k _ (lift_step k w' H)).
      - intros k w' H. exact (T2 k _ (lift_cb k w' H)).
      - rewrite IT. exact T3.
    Qed.
  End Lift.

  (** ** Fixed points *)
  Variables (xs : vec) (G : agent_id -> vec).
  Hypothesis GR : forall n i, In i nodes -> grad n i xs = G i.
  Lemma da_const i : DA (fun _ => xs) i = vzero.
  Proof.
    apply functional_extensionality. intro c. unfold disagreement, vzero. induction (t_adj t i) as [|j l IH]; cbn [map]; rewrite ?rsum_nil, ?rsum_cons; lra.
  Qed.
  Lemma da_ext X X' i : In i nodes -> (forall j, In j nodes -> X j = X' j) -> DA X i = DA X' i.
  Proof.
    intros Hi H. apply functional_extensionality. intro c. unfold disagreement. f_equal. apply map_ext_in. intros j Hj.
    destruct PT as ((_ & SYM & _) & _). destruct (SYM i j Hj) as (_ & Hj' & _). now rewrite (H i), (H j).
  Qed.
  Lemma dlm_plain_fixed mu rho k d st :
    (forall i, In i nodes -> state_is st i xs /\ aux_is st i "y" (vscal (-1) (G i)) /\ aux_is st i "s" vzero) ->
    exists d' st', do_phases t e (dlm_plain grad mu rho k) (d, step t k st) = ((d', st'), false) /\
      (forall i, In i nodes -> state_is st' i xs /\ aux_is st' i "y" (vscal (-1) (G i)) /\ aux_is st' i "s" vzero).
  Proof.
    intro H. destruct k as [|k].
    - destruct (dlm_step0 t e PT sfaith grad mu rho d st (fun _ => xs) (fun i => vscal (-1) (G i)) (fun _ => vzero) H) as (d' & st' & D & E & DE & Q & _).
      rewrite sall in *. exists d', st'. split; [exact E|]. intros i Hi. destruct (Q i Hi) as (Q1 & Q2 & Q3). rewrite sgathered, da_const in Q3 by auto. auto.
    - destruct (dlm_stepS t e PT sfaith grad mu rho k d st (fun _ => xs) (fun i => vscal (-1) (G i)) (fun _ => vzero) H) as (d' & st' & D & X' & G' & E & DE & Q & _).
      rewrite sall in *. exists d', st'. split; [exact E|].
      assert (HX : forall i, In i nodes -> X' i = xs).
      { intros i Hi. destruct (Q i Hi) as ((n & Q0) & -> & _). rewrite GR in Q0 by auto. rewrite Q0. apply functional_extensionality. intro c. unfold vsub, vscal, vadd, vzero. ring. }
      intros i Hi. destruct (Q i Hi) as (_ & _ & Q2 & Q3 & Q4). rewrite sgathered in Q3, Q4 by auto.
      rewrite (da_ext X' (fun _ => xs)), da_const in Q3, Q4 by auto. rewrite HX in Q2 by auto. split; auto. split; auto.
      unfold aux_is in *. rewrite Q4. do 2 f_equal. apply functional_extensionality. intro c. unfold vadd, vscal, vzero. ring.
  Qed.
  Lemma dinno_plain_fixed a rho B k d st :
    (forall i, In i nodes -> state_is st i xs /\ aux_is st i "p" (vscal (-1) (G i))) ->
    exists d' st', do_phases t e (dinno_plain grad a rho B k) (d, step t k st) = ((d', st'), false) /\
      (forall i, In i nodes -> state_is st' i xs /\ aux_is st' i "p" (vscal (-1) (G i))).
  Proof.
    intro H. destruct (dinno_step t e PT sfaith grad a rho B k d st (fun _ => xs) (fun i => vscal (-1) (G i)) H) as (d' & st' & D & E & DE & Q & _).
    rewrite sall in *. exists d', st'. split; [exact E|]. intros i Hi. destruct (Q i Hi) as (Q1 & z & s & Q2 & Q3).
    rewrite spnew, da_const in Q1, Q2 by auto. rewrite snext in Q2 by auto.
    assert (P0 : vadd (vscal (-1) (G i)) (vscal rho vzero) = vscal (-1) (G i)). { apply functional_extensionality. intro c. unfold vadd, vscal, vzero. ring. }
    rewrite P0 in *. split; auto.
    assert (Z : z = xs); [|subst; auto]. clear Q3.
    assert (FX : forall g, gradient_of grad i xs g -> dinno_next a rho (t_adj t i) (fun _ => xs) i (vscal (-1) (G i)) xs g = xs).
    { intros g (n & ->). rewrite GR by auto. apply functional_extensionality. intro c. unfold dinno_next, vsub, vscal, vadd.
      assert (Z : rsum (map (fun _ : agent_id => xs c - (xs c + xs c) / 2) (t_adj t i)) = 0).
      { clear. induction (t_adj t i) as [|j l IH]; cbn [map]; rewrite ?rsum_nil, ?rsum_cons; lra. }
      rewrite Z. ring. }
    remember (dinno_next a rho (t_adj t i) (fun _ => xs) i (vscal (-1) (G i))) as nx. remember xs as x in Q2 at 1.
    clear - Q2 FX Heqx. induction Q2 as [x|n x g z s Hg Q IH]; auto. subst. apply IH; auto.
  Qed.
End Sync.

(** ** Means *)
Section Mean.
  Variable t : topo.
  Hypothesis PT : p2p_topo t.
  Notation nodes := (t_nodes t).
  Notation T := (total_of t).
  Notation DA := (disagreement t).
  Lemma rsum_app' l m : rsum (l ++ m) = rsum l + rsum m.
  Proof. induction l as [|a l IH]; cbn [app]; rewrite ?rsum_nil, ?rsum_cons; [lra|]. rewrite IH. lra. Qed.
  Lemma rsum_filter {A} (p : A -> bool) (f : A -> R) l : rsum (map f (filter p l)) = rsum (map (fun x => if p x then f x else 0) l).
  Proof. induction l as [|x l IH]; cbn [filter map]; auto. destruct (p x); cbn [map]; rewrite ?rsum_cons, IH; lra. Qed.
  Lemma adj_nodes_sum i (f : agent_id -> R) : rsum (map f (t_adj t i)) = rsum (map (fun j => if memb j (t_adj t i) then f j else 0) nodes).
  Proof.
    rewrite <- rsum_filter. apply rsum_perm, Permutation_map. destruct PT as ((ND & SYM & NDA & _) & _). apply NoDup_Permutation; auto; [now apply NoDup_filter|].
    intro j. rewrite filter_In, memb_In. split; [|tauto]. intro H. split; auto. now destruct (SYM i j H) as (_ & ? & _).
  Qed.
  Lemma total_disagreement v : T (DA v) = vzero.
  Proof.
    apply functional_extensionality. intro c. unfold total_of, disagreement, vzero.
    set (f := fun i j => if memb j (t_adj t i) then v i c - v j c else 0).
    assert (E : rsum (map (fun i => rsum (map (fun j => v i c - v j c) (t_adj t i))) nodes) = rsum (map (fun i => rsum (map (f i) nodes)) nodes)).
    { apply rsum_map_ext. intros i _. apply adj_nodes_sum. }
    rewrite E. assert (AS : forall i j, f j i = - f i j).
    { intros i j. unfold f. destruct PT as ((_ & SYM & _) & _).
      assert (X : memb i (t_adj t j) = memb j (t_adj t i)).
      { apply eq_iff_eq_true. rewrite !memb_In. split; intro H; apply SYM in H; tauto. }
      rewrite X. destruct (memb j (t_adj t i)); lra. }
    assert (SW : rsum (map (fun i => rsum (map (f i) nodes)) nodes) = rsum (map (fun i => rsum (map (fun j => f j i) nodes)) nodes)).
    { exact (rsum_swap f nodes nodes). }
    assert (NG : rsum (map (fun i => rsum (map (fun j => f j i) nodes)) nodes) = - rsum (map (fun i => rsum (map (f i) nodes)) nodes)).
    { assert (N1 : forall (g : agent_id -> R) l, rsum (map (fun i => - g i) l) = - rsum (map g l)).
      { induction l as [|x l IH]; cbn [map]; rewrite ?rsum_nil, ?rsum_cons; lra. }
      rewrite <- N1. apply rsum_map_ext. intros i _. rewrite <- N1. apply rsum_map_ext. intros j _. apply AS. }
    lra.
  Qed.
  Lemma mean_moves mu (X X' G Y : agent_id -> vec) rho (Dv : agent_id -> vec) : T Dv = vzero -> T Y = vzero ->
    (forall i, In i nodes -> X' i = vsub (X i) (vscal mu (vadd (vadd (G i) (vscal rho (Dv i))) (Y i)))) ->
    mean_of t X' = vsub (mean_of t X) (vscal mu (mean_of t G)).
  Proof.
    intros HD HY H. unfold mean_of. rewrite (total_ext t _ _ H), total_sub, total_scal, !total_add, total_scal, HD, HY.
    apply functional_extensionality. intro c. unfold vscal, vsub, vadd, vzero. ring.
  Qed.
End Mean.
