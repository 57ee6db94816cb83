(** Runs of the peer-to-peer algorithms on reliable synchronous networks. *)
From Coq Require Import Reals String List Bool Arith ZArith Lia Lra FunctionalExtensionality Permutation.
From Verif.Model Require Import PyDict History Messages Network Runner Vec P2P.
From Verif.Spec Require Import NetworkSpec P2PSpec.
From Verif.Proofs Require Import PyDictProofs NetworkProofs NetworkInv NetworkMore EmpiricalProofs RunnerProofs P2PLock P2PSteps.
Import ListNotations.
Open Scope R_scope.

Section Trace.
  Variables (t : topo) (period : agent_id -> nat) (A : alg vec nat).
  Context {St : Type} (Inv : nat -> St -> net vec -> Prop) (Rel : nat -> St -> St -> Prop).
  Hypothesis ND : NoDup (t_nodes t).
  Hypothesis STAB : forall k s st st', (forall i, In i (t_nodes t) -> untouched st st' i) -> Inv k s st -> Inv k s st'.
  Hypothesis STEP : forall k s d st, Inv k s st ->
    exists d' st' s', al_step A k (d, step t k st) = ((d', st'), false) /\ Inv (S k) s' st' /\ Rel k s s'.

  Lemma step_untouched k st i : untouched st (step t k st) i.
  Proof. destruct (step_spec vec t k st) as (_ & _ & _ & _ & _ & E). unfold untouched. rewrite E. destruct (memb i (t_nodes t)); auto. Qed.
  Lemma snap_untouched it st i : untouched st (snapshot_all t period A it st) i.
  Proof.
    unfold snapshot_all, untouched. rewrite snapshot_fold by exact ND. destruct (memb i (t_nodes t)); auto.
    destruct (snapshot_frame vec (period i) it (it =? al_iters A)%nat (n_agents st i)) as (_ & _ & _ & _ & -> & ->). auto.
  Qed.

  Lemma loop_trace n : forall k w s, Inv k s (snd w) -> exists sg : nat -> St, sg k = s /\
    (forall j, (k <= j < k + n)%nat -> Rel j (sg j) (sg (S j))) /\
    let r := loop t period A n k w in
    r_out r = Finished /\
    (forall j w', In (CStep j w') (r_calls r) -> Inv j (sg j) (snd w')) /\
    (forall j w', In (CCallback j w') (r_calls r) -> Inv (S j) (sg (S j)) (snd w')) /\
    Inv (k + n) (sg (k + n)%nat) (snd (r_world r)).
  Proof.
    induction n as [|n IH]; intros k [d st] s H.
    - exists (fun _ => s). cbn [loop r_out r_calls r_world]. rewrite Nat.add_0_r. repeat split; auto; try lia; intros; contradiction.
    - cbn [snd] in H. destruct (STEP k s d st H) as (d' & st' & s' & E & H' & R).
      assert (H3 : Inv (k + 1) s' (snapshot_all t period A (k + 1) st')).
      { rewrite Nat.add_1_r in *. eapply STAB; [|exact H']. intros i _. apply snap_untouched. }
      destruct (IH (k + 1)%nat (d', snapshot_all t period A (k + 1) st') s' H3) as (sg & S0 & SR & SO & SS & SC & SW).
      exists (fun j => if Nat.eqb j k then s else sg j). cbn [loop fst snd]. rewrite E. cbn [fst snd r_out r_calls r_world].
      assert (B : forall j w', In (CStep j w') (r_calls (loop t period A n (k + 1) (d', snapshot_all t period A (k + 1) st'))) -> (k < j)%nat).
      { intros j w' I. pose proof (loop_indices vec nat t period A n (k + 1) (d', snapshot_all t period A (k + 1) st')) as (X & _).
        cbn zeta in SO. rewrite SO in X. destruct X as (X & _).
        assert (In j (seq (k + 1) n)). { rewrite <- X. apply in_flat_map. exists (CStep j w'). split; auto. now left. }
        apply in_seq in H0. lia. }
      assert (B' : forall j w', In (CCallback j w') (r_calls (loop t period A n (k + 1) (d', snapshot_all t period A (k + 1) st'))) -> (k < j)%nat).
      { intros j w' I. pose proof (loop_indices vec nat t period A n (k + 1) (d', snapshot_all t period A (k + 1) st')) as (X & _).
        cbn zeta in SO. rewrite SO in X. destruct X as (_ & X).
        assert (In j (seq (k + 1) n)). { rewrite <- X. apply in_flat_map. exists (CCallback j w'). split; auto. now left. }
        apply in_seq in H0. lia. }
      rewrite Nat.eqb_refl. split; [auto|]. split; [|split; [exact SO|split; [|split]]].
      + intros j Hj. destruct (Nat.eqb_spec (S j) k); [lia|]. destruct (Nat.eqb_spec j k).
        * subst j. replace (S k) with (k + 1)%nat by lia. rewrite S0. exact R.
        * apply SR. lia.
      + intros j w' [[= <- <-]|[X|I]]; [|discriminate|].
        * rewrite Nat.eqb_refl. cbn [snd]. eapply STAB; [|exact H]. intros i _. apply step_untouched.
        * specialize (B _ _ I). destruct (Nat.eqb_spec j k); [lia|]. apply SS; auto.
      + intros j w' [X|[[= <- <-]|I]]; [discriminate| |].
        * destruct (Nat.eqb_spec (S k) k); [lia|]. replace (S k) with (k + 1)%nat by lia. rewrite S0. exact H3.
        * specialize (B' _ _ I). destruct (Nat.eqb_spec (S j) k); [lia|]. apply SC; auto.
      + destruct (Nat.eqb_spec (k + S n) k); [lia|]. replace (k + S n)%nat with (k + 1 + n)%nat by lia. exact SW.
  Qed.

  Lemma run_trace w s : Inv 0 s (snd (al_init A w)) -> exists sg : nat -> St, sg 0%nat = s /\
    (forall j, (j < al_iters A)%nat -> Rel j (sg j) (sg (S j))) /\
    let r := run t period A 0 w in
    r_out r = Finished /\
    (forall j w', In (CStep j w') (r_calls r) -> Inv j (sg j) (snd w')) /\
    (forall j w', In (CCallback j w') (r_calls r) -> Inv (S j) (sg (S j)) (snd w')) /\
    Inv (al_iters A) (sg (al_iters A)) (snd (r_world r)).
  Proof.
    intro H. destruct (loop_trace (al_iters A - 0) 0 (al_init A w) s H) as (sg & S0 & SR & SO & SS & SC & SW).
    exists sg. split; auto. split. { intros j Hj. apply SR. lia. }
    unfold run. cbn [Z.ltb Z.compare orb]. replace (Z.of_nat (al_iters A) <? 0)%Z with false by (symmetry; apply Z.ltb_ge; lia).
    cbn [Z.eqb Z.to_nat r_out r_calls r_world]. cbn zeta in *. rewrite Nat.sub_0_r in *. cbn [plus] in SW.
    split; [auto|]. split; [|split; [|auto]].
    - intros j w' [X|I]; [discriminate|]. now apply SS.
    - intros j w' [X|I]; [discriminate|]. now apply SC.
  Qed.
End Trace.

Lemma loop_bound t period (A : alg vec nat) k w' n : forall j w,
  In (CStep k w') (r_calls (loop t period A n j w)) \/ In (CCallback k w') (r_calls (loop t period A n j w)) -> (j <= k < j + n)%nat.
Proof.
  induction n as [|n IH]; intros j w; cbn [loop]; [intros [[]|[]]|].
  destruct (al_step A j (fst w, step t j (snd w))) as [w2 b]. destruct b; cbn [r_calls].
  - intros [[[= <- <-]|[]]|[X|[]]]; [lia|discriminate].
  - intros [[[= <- <-]|[X|I]]|[X|[[= <- <-]|I]]]; try discriminate; try lia.
    + specialize (IH _ _ (or_introl I)). lia.
    + specialize (IH _ _ (or_intror I)). lia.
Qed.
Lemma run_indices_bound t period (A : alg vec nat) w k w' :
  (In (CStep k w') (r_calls (run t period A 0 w)) -> (k < al_iters A)%nat) /\
  (In (CCallback k w') (r_calls (run t period A 0 w)) -> (k < al_iters A)%nat).
Proof.
  assert (E : r_calls (run t period A 0 w) = CInit w :: r_calls (loop t period A (al_iters A) 0 (al_init A w))).
  { unfold run. cbn [Z.ltb Z.compare orb]. replace (Z.of_nat (al_iters A) <? 0)%Z with false by (symmetry; apply Z.ltb_ge; lia).
    cbn [Z.eqb Z.to_nat r_calls]. now rewrite Nat.sub_0_r. }
  rewrite E. split; (intros [X|I]; [discriminate|]); [specialize (loop_bound t period A k w' (al_iters A) 0 _ (or_introl I))|specialize (loop_bound t period A k w' (al_iters A) 0 _ (or_intror I))]; lia.
Qed.

(** initialisation *)
Lemma do_init_spec t init w : p2p_topo t -> forall i, In i (t_nodes t) -> exists n,
  a_x (n_agents (snd (do_init t init w)) i) = Some (fst (fst (init i n))) /\
  a_aux (n_agents (snd (do_init t init w)) i) = snd (fst (init i n)).
Proof.
  intros ((ND & _) & SV & _). unfold do_init. rewrite (agents_nodes t SV).
  assert (G : forall l (w : pworld), NoDup l ->
    let w' := fold_left (fun w i => let '((x, aux), d) := init i (fst w) in (d, upd_agent i (initialize (Some x) aux) (snd w))) l w in
    (forall i, In i l -> exists n, a_x (n_agents (snd w') i) = Some (fst (fst (init i n))) /\ a_aux (n_agents (snd w') i) = snd (fst (init i n))) /\
    (forall i, ~ In i l -> n_agents (snd w') i = n_agents (snd w) i)).
  { induction l as [|b l IH]; intros u NDl; cbn [fold_left]; [split; [intros i []|auto]|]. inversion NDl; subst.
    destruct (init b (fst u)) as [[x ax] d] eqn:E. destruct (IH (d, upd_agent b (initialize (Some x) ax) (snd u)) H2) as (I1 & I2). split.
    - intros i [<-|Hi]; [|auto]. exists (fst u). rewrite E. rewrite I2 by auto. cbn. unfold upd. rewrite Nat.eqb_refl. auto.
    - intros i Hi. rewrite I2 by (intro; apply Hi; now right). cbn. unfold upd. destruct (Nat.eqb_spec i b); auto. exfalso. apply Hi. now left. }
  destruct (G (t_nodes t) w ND) as (G1 & _). exact G1.
Qed.

(** full delivery turns the partial row into the row of the matrix *)
Lemma sync_mix t e M D v i : p2p_topo t -> reliable e -> sparse t M -> delivery t e (t_nodes t) D -> In i (t_nodes t) ->
  mix M (D i) v i = row_of t M v i.
Proof.
  intros ((ND & SYM & _) & _ & LOOP) RE SP DE Hi. destruct (DE i) as (NDD & DI & DR). apply functional_extensionality. intro c.
  unfold mix, row_of.
  assert (G : forall l, NoDup l -> incl (D i) l -> ~ In i (D i) -> In i l ->
    (forall j, In j l -> j <> i -> ~ In j (D i) -> M i j = 0) ->
    M i i * v i c + rsum (map (fun j => M i j * v j c) (D i)) = rsum (map (fun j => M i j * v j c) l)).
  { intros l NDl I NI Il Z.
    assert (P : Permutation l ((i :: D i) ++ filter (fun j => negb (memb j (i :: D i))) l)).
    { apply NoDup_Permutation; auto.
      - assert (N1 : NoDup (i :: D i)) by (constructor; auto).
        assert (N2 : NoDup (filter (fun j => negb (memb j (i :: D i))) l)) by now apply NoDup_filter.
        clear - N1 N2. remember (i :: D i) as q. assert (forall x, In x q -> ~ In x (filter (fun j => negb (memb j q)) l)).
        { intros x Hx F. apply filter_In in F. destruct F as (_ & F). apply memb_In in Hx. rewrite Hx in F. discriminate. }
        generalize dependent (filter (fun j => negb (memb j q)) l). intros f F. clear Heqq.
        induction q as [|y q IH]; cbn; auto. inversion N1; subst. intros H. constructor.
        + intro J. apply in_app_or in J. destruct J; [contradiction|]. apply (H y); [now left|auto].
        + apply IH; auto.
      - intro x. rewrite in_app_iff, filter_In. split.
        + intro Hx. destruct (memb x (i :: D i)) eqn:E; [left; now apply memb_In|right; split; auto; now rewrite E].
        + intros [[<-|Hx]|(Hx & _)]; auto. }
    rewrite (rsum_perm _ _ (Permutation_map _ P)). rewrite map_app. cbn [map app].
    assert (RA : forall a b, rsum (a ++ b) = rsum a + rsum b).
    { induction a as [|z a IH]; intro b; cbn [app]; rewrite ?rsum_nil, ?rsum_cons; [lra|]. rewrite IH. lra. }
    rewrite rsum_cons, RA.
    assert (RZ : rsum (map (fun j => M i j * v j c) (filter (fun j => negb (memb j (i :: D i))) l)) = 0).
    { assert (K : forall q, (forall j, In j q -> M i j = 0) -> rsum (map (fun j => M i j * v j c) q) = 0).
      { induction q as [|j q IH]; intro K; cbn [map]; rewrite ?rsum_nil, ?rsum_cons; auto. rewrite IH by (intros; apply K; now right).
        rewrite (K j) by now left. lra. }
      apply K. intros j Hj. apply filter_In in Hj. destruct Hj as (J1 & J2).
      assert (~ In j (i :: D i)). { intro Q. apply memb_In in Q. rewrite Q in J2. discriminate. }
      apply Z; auto; intro; apply H; [now left|now right]. }
    rewrite RZ. lra. }
  apply G; auto.
  - intros j Hj. apply (proj1 (SYM i j (proj1 (DI j Hj)))) || apply (SYM i j (proj1 (DI j Hj))).
  - intro I. destruct (DI i I) as (I1 & _). now apply (LOOP i).
Qed.

(** totals *)
Section Totals.
  Variable t : topo.
  Notation T := (total_of t).
  Lemma total_ext u v : (forall i, In i (t_nodes t) -> u i = v i) -> T u = T v.
  Proof. intro H. apply functional_extensionality. intro c. unfold total_of. apply rsum_map_ext. intros i Hi. now rewrite H. Qed.
  Lemma total_add u v : T (fun i => vadd (u i) (v i)) = vadd (T u) (T v).
  Proof. apply functional_extensionality. intro c. unfold total_of, vadd. apply rsum_map_add. Qed.
  Lemma total_scal a v : T (fun i => vscal a (v i)) = vscal a (T v).
  Proof. apply functional_extensionality. intro c. unfold total_of, vscal. apply rsum_map_scal. Qed.
  Lemma total_sub u v : T (fun i => vsub (u i) (v i)) = vsub (T u) (T v).
  Proof.
    apply functional_extensionality. intro c. unfold total_of, vsub.
    rewrite (rsum_map_ext (fun i => u i c - v i c) (fun i => u i c + (-1) * v i c)) by (intros; lra).
    rewrite rsum_map_add, rsum_map_scal. lra.
  Qed.
  Lemma total_zero : T (fun _ => vzero) = vzero.
  Proof. apply functional_extensionality. intro c. unfold total_of, vzero. induction (t_nodes t); cbn [map]; rewrite ?rsum_cons, ?rsum_nil; lra. Qed.
  Lemma rsum_swap {A B} (f : A -> B -> R) l m : rsum (map (fun i => rsum (map (fun j => f i j) m)) l) = rsum (map (fun j => rsum (map (fun i => f i j) l)) m).
  Proof.
    induction l as [|i l IH]; cbn [map]; rewrite ?rsum_nil, ?rsum_cons.
    - induction m; cbn [map]; rewrite ?rsum_nil, ?rsum_cons; lra.
    - rewrite IH, <- rsum_map_add. apply rsum_map_ext. intros j _. now rewrite rsum_cons.
  Qed.
  Lemma total_row_gen M q v : (forall j, In j (t_nodes t) -> rsum (map (fun i => M i j) (t_nodes t)) = q) -> T (row_of t M v) = vscal q (T v).
  Proof.
    intro H. apply functional_extensionality. intro c. unfold total_of, row_of, vscal. rewrite rsum_swap.
    rewrite <- rsum_map_scal. apply rsum_map_ext. intros j Hj.
    rewrite (rsum_map_ext (fun i => M i j * v j c) (fun i => v j c * M i j)) by (intros; lra). rewrite rsum_map_scal, H by auto. lra.
  Qed.
  Lemma vscal1 v : vscal 1 v = v. Proof. apply functional_extensionality. intro c. unfold vscal. lra. Qed.
  Lemma vscal0 v : vscal 0 v = vzero. Proof. apply functional_extensionality. intro c. unfold vscal, vzero. lra. Qed.
  Lemma total_row M v : col_stochastic t M -> T (row_of t M v) = T v.
  Proof. intro H. rewrite (total_row_gen M 1) by exact H. apply vscal1. Qed.
End Totals.

(** derived matrices *)
Lemma eye_col t j : NoDup (t_nodes t) -> In j (t_nodes t) -> rsum (map (fun i => eye i j) (t_nodes t)) = 1.
Proof.
  induction 1 as [|a l Ha ND IH]; intros []; cbn [map]; rewrite rsum_cons.
  - subst. unfold eye at 1. rewrite Nat.eqb_refl.
    assert (rsum (map (fun i => eye i j) l) = 0); [|lra].
    clear - Ha. induction l as [|b l IH]; cbn [map]; rewrite ?rsum_nil, ?rsum_cons; auto.
    rewrite IH by (intro; apply Ha; now right). unfold eye. destruct (Nat.eqb_spec b j); [|lra]. subst. exfalso. apply Ha. now left.
  - rewrite IH by auto. unfold eye. destruct (Nat.eqb_spec a j); [|lra]. subst. contradiction.
Qed.
Lemma eye_sparse t : sparse t eye.
Proof. intros i j N _. unfold eye. destruct (Nat.eqb_spec i j); congruence. Qed.
Lemma halfW_sparse t W : sparse t W -> sparse t (halfW W).
Proof. intros H i j N A. unfold halfW. rewrite (H i j N A), (eye_sparse t i j N A). lra. Qed.
Lemma weK_sparse t W : sparse t W -> sparse t (weK W).
Proof. intros H i j N A. unfold weK. rewrite (H i j N A), (eye_sparse t i j N A). lra. Qed.
Lemma psW_sparse t W chi : sparse t W -> sparse t (psW W chi).
Proof. intros H i j N A. unfold psW. rewrite (H i j N A), (eye_sparse t i j N A). lra. Qed.
Lemma halfW_col t W : NoDup (t_nodes t) -> col_stochastic t W -> col_stochastic t (halfW W).
Proof. intros ND H j Hj. unfold halfW. rewrite rsum_map_scal, rsum_map_add, (eye_col t j), H; auto. lra. Qed.
Lemma rsum_map_sub {A} (f g : A -> R) l : rsum (map (fun x => f x - g x) l) = rsum (map f l) - rsum (map g l).
Proof. induction l; cbn [map]; rewrite ?rsum_cons, ?rsum_nil; [lra|]. rewrite IHl. lra. Qed.
Lemma weK_col t W : NoDup (t_nodes t) -> col_stochastic t W -> forall j, In j (t_nodes t) -> rsum (map (fun i => weK W i j) (t_nodes t)) = 0.
Proof. intros ND H j Hj. unfold weK. rewrite rsum_map_scal, rsum_map_sub, (eye_col t j), H; auto. lra. Qed.
Lemma psW_col t W chi : NoDup (t_nodes t) -> col_stochastic t W -> col_stochastic t (psW W chi).
Proof. intros ND H j Hj. unfold psW. rewrite rsum_map_sub, rsum_map_scal, rsum_map_sub, (eye_col t j), H; auto. lra. Qed.

Section Runs.
  Variables (t : topo) (e : env vec).
  Hypothesis PT : p2p_topo t.
  Hypothesis SY : synchronous e.
  Variable W : agent_id -> agent_id -> R.
  Hypothesis SP : sparse t W.
  Variable grad : nat -> agent_id -> vec -> vec.
  Variable prox : nat -> agent_id -> vec -> R -> vec.
  Variables (period : agent_id -> nat) (N : nat) (w : world vec nat).
  Notation nodes := (t_nodes t).
  Notation row := (row_of t).

  Lemma RE : reliable e. Proof. apply SY. Qed.
  Lemma FA : faithful e. Proof. destruct RE as (_ & A & B). split; auto. Qed.
  Lemma NDn : NoDup nodes. Proof. apply PT. Qed.
  Lemma active_all k st : active_at t e k st = nodes.
  Proof. destruct (step_cfg t e (WF t PT) (SV t PT) k st) as (? & _ & _ & _ & _ & _ & _ & X). apply X, SY. Qed.
  Lemma smix M D v i : sparse t M -> delivery t e nodes D -> In i nodes -> mix M (D i) v i = row M v i.
  Proof. intros. apply (sync_mix t e); auto. apply RE. Qed.
  Lemma smem D i j : delivery t e nodes D -> In i nodes -> In j (t_adj t i) -> memb j (D i) = true.
  Proof.
    intros DE Hi Hj. apply memb_In. destruct (DE i) as (_ & _ & X). apply X; auto; [apply RE|]. now destruct (proj1 (proj2 (WF t PT)) i j Hj) as (_ & ? & _).
  Qed.
  Lemma rows_ext i (z z' : agent_id -> vec) : (forall j, In j (t_adj t i) -> z j = z' j) -> rows t i z = rows t i z'.
  Proof. intro H. unfold rows. apply map_ext_in. intros j Hj. now rewrite H. Qed.

  Ltac stab := intros; unfold state_is, aux_is, auxmap_is in *;
    match goal with U : forall i, In i nodes -> untouched _ _ i |- _ => 
      repeat match goal with H : context [n_agents _ _] |- _ => idtac end;
      intros; match goal with Hi : In ?i nodes |- _ => let A := fresh in let B := fresh in destruct (U i Hi) as (A & B); rewrite ?A, ?B; auto end
    end.
  (** the initial world *)
  Ltac init := intros; match goal with A := p2p _ _ _ _ _ |- _ => subst A | _ => idtac end; cbn [al_init p2p snd fst] in *;
    match goal with i : agent_id, Hi : In ?i nodes |- context [do_init t ?f ?u] =>
      let n := fresh "n" in let A := fresh in let B := fresh in
      destruct (do_init_spec t f u PT i Hi) as (n & A & B);
      unfold state_is, aux_is, auxmap_is; rewrite ?A, ?B; cbn end.


  Definition fam := agent_id -> vec.
  Definition slots (l : list fam) : nat -> fam := fun n => nth n l (fun _ => vzero).
  Notation sl l := (slots l).
  Lemma halfW_eq : halfW W = half_plus W.
  Proof. do 2 (apply functional_extensionality; intro). unfold halfW, half_plus, eye, ident. field. Qed.
  Lemma weK_eq : weK W = half_minus W.
  Proof. do 2 (apply functional_extensionality; intro). unfold weK, half_minus, eye, ident. field. Qed.
  Lemma psW_eq chi : psW W chi = damped W chi.
  Proof. do 2 (apply functional_extensionality; intro). unfold psW, damped, eye, ident, Rdiv. ring. Qed.
  Lemma HP : sparse t (half_plus W). Proof. rewrite <- halfW_eq. now apply halfW_sparse. Qed.
  Lemma HM : sparse t (half_minus W). Proof. rewrite <- weK_eq. now apply weK_sparse. Qed.
  Lemma DW chi : sparse t (damped W chi). Proof. rewrite <- psW_eq. now apply psW_sparse. Qed.

  Ltac sfin sg := cbn [slots nth] in *;
    repeat match goal with |- _ /\ _ => split | |- trajectory _ _ _ _ _ => split; [assumption|split; [|split]] | |- aux_trajectory _ _ _ _ _ _ => split; [|split] end.

  Theorem dgd_run a x0 : let A := p2p t e N (dgd_init x0) (dgd W grad a) in
    exists X G, trajectory t period A w X /\ (forall i, X 0%nat i = x0 i) /\
      forall k i, (k < N)%nat -> In i nodes -> gradient_of grad i (X k i) (G k i) /\
        X (S k) i = vsub (row W (X k) i) (vscal a (G k i)).
  Proof.
    intro A.
    destruct (run_trace t period A (fun _ s st => forall i, In i nodes -> state_is st i (s 0%nat i))
      (fun _ s s' => forall i, In i nodes -> gradient_of grad i (s 0%nat i) (s' 1%nat i) /\ s' 0%nat i = vsub (row W (s 0%nat) i) (vscal a (s' 1%nat i)))
      NDn ltac:(stab)) with (w := w) (s := sl [x0]) as (sg & S0 & SR & SO & SS & SC & SW).
    - intros k s d st H. destruct (dgd_step t e PT FA W grad a k d st (s 0%nat) H) as (d' & st' & D & E & DE & Q & _).
      rewrite active_all in *. apply (choice_list _ vzero) in Q. destruct Q as (G & Q).
      exists d', st', (sl [fun i => vsub (row W (s 0%nat) i) (vscal a (G i)); G]). cbn [slots nth]. split; [exact E|]. split.
      + intros i Hi. destruct (Q i Hi) as (_ & Q2). rewrite (smix W) in Q2; auto.
      + intros i Hi. split; [apply Q; auto|reflexivity].
    - init. reflexivity.
    - exists (fun k => sg k 0%nat), (fun k => sg (S k) 1%nat). split; [split; auto|]. split; [intro; now rewrite S0|]. intros k i Hk Hi. apply (SR k); auto.
  Qed.

  Theorem atc_run a x0 : let A := p2p t e N (atc_init x0) (atc W grad a) in
    exists X G, trajectory t period A w X /\ (forall i, X 0%nat i = x0 i) /\
      forall k i, (k < N)%nat -> In i nodes -> gradient_of grad i (X k i) (G k i) /\
        X (S k) i = vadd (row W (fun j => vsub (X k j) (vscal a (G k j))) i) (vscal (W i i * a) (G k i)).
  Proof.
    intro A.
    destruct (run_trace t period A (fun _ s st => forall i, In i nodes -> state_is st i (s 0%nat i))
      (fun _ s s' => forall i, In i nodes -> gradient_of grad i (s 0%nat i) (s' 1%nat i) /\
         s' 0%nat i = vadd (row W (fun j => vsub (s 0%nat j) (vscal a (s' 1%nat j))) i) (vscal (W i i * a) (s' 1%nat i)))
      NDn ltac:(stab)) with (w := w) (s := sl [x0]) as (sg & S0 & SR & SO & SS & SC & SW).
    - intros k s d st H. destruct (atc_step t e PT FA W grad a k d st (s 0%nat) H) as (d' & st' & D & Y & E & DE & Q & _).
      rewrite active_all in *. apply (choice_list _ vzero) in Q. destruct Q as (G & Q).
      set (Z := fun j => vsub (s 0%nat j) (vscal a (G j))).
      exists d', st', (sl [fun i => vadd (row W Z i) (vscal (W i i * a) (G i)); G]). cbn [slots nth]. split; [exact E|]. split.
      + intros i Hi. destruct (Q i Hi) as (_ & _ & Q2). rewrite <- (smix W D) by auto. unfold state_is in *. rewrite Q2. f_equal.
        apply functional_extensionality. intro c. unfold mix, vadd, vscal.
        rewrite (rsum_map_ext (fun j => W i j * Y j c) (fun j => W i j * Z j c) (D i)).
        * unfold Z, vsub, vscal. ring.
        * intros j Hj. destruct (DE i) as (_ & DI & _). destruct (DI j Hj) as (_ & Hj'). destruct (Q j Hj') as (_ & -> & _). reflexivity.
      + intros i Hi. split; [apply Q; auto|reflexivity].
    - init. reflexivity.
    - exists (fun k => sg k 0%nat), (fun k => sg (S k) 1%nat). split; [split; auto|]. split; [intro; now rewrite S0|]. intros k i Hk Hi. apply (SR k); auto.
  Qed.

  Theorem simple_gt_run a x0 : let A := p2p t e N (simple_gt_init x0) (simple_gt W grad a) in
    exists X Y G, trajectory t period A w X /\ aux_trajectory t period A w "y" Y /\
      (forall i, X 0%nat i = x0 i /\ Y 0%nat i = x0 i) /\
      forall k i, (k < N)%nat -> In i nodes -> gradient_of grad i (X k i) (G k i) /\
        Y (S k) i = vsub (X k i) (vscal a (G k i)) /\
        X (S k) i = vadd (vsub (Y (S k) i) (Y k i)) (row W (X k) i).
  Proof.
    intro A.
    destruct (run_trace t period A (fun _ s st => forall i, In i nodes -> state_is st i (s 0%nat i) /\ aux_is st i "y" (s 1%nat i))
      (fun _ s s' => forall i, In i nodes -> gradient_of grad i (s 0%nat i) (s' 2%nat i) /\
         s' 1%nat i = vsub (s 0%nat i) (vscal a (s' 2%nat i)) /\ s' 0%nat i = vadd (vsub (s' 1%nat i) (s 1%nat i)) (row W (s 0%nat) i))
      NDn ltac:(stab)) with (w := w) (s := sl [x0; x0]) as (sg & S0 & SR & SO & SS & SC & SW).
    - intros k s d st H. destruct (simple_gt_step t e PT FA W grad a k d st (s 0%nat) (s 1%nat) H) as (d' & st' & D & E & DE & Q & _).
      rewrite active_all in *. apply (choice_list _ vzero) in Q. destruct Q as (G & Q).
      exists d', st', (sl [fun i => vadd (vsub (vsub (s 0%nat i) (vscal a (G i))) (s 1%nat i)) (row W (s 0%nat) i); fun i => vsub (s 0%nat i) (vscal a (G i)); G]).
      cbn [slots nth]. split; [exact E|]. split.
      + intros i Hi. destruct (Q i Hi) as (_ & Q2 & Q3). rewrite (smix W) in Q2; auto.
      + intros i Hi. split; [apply Q; auto|split; reflexivity].
    - init. auto.
    - exists (fun k => sg k 0%nat), (fun k => sg k 1%nat), (fun k => sg (S k) 2%nat). split; [|split; [|split]].
      + split; auto. split; [|split]; intros; [eapply SS|eapply SC|eapply SW]; eauto.
      + split; [|split]; intros; [eapply SS|eapply SC|eapply SW]; eauto.
      + intro; rewrite S0; auto.
      + intros k i Hk Hi. apply (SR k); auto.
  Qed.

  Ltac traj SS SC SW := match goal with
    | |- trajectory _ _ _ _ _ => split; [assumption|split; [|split]]; intros; [eapply SS|eapply SC|eapply SW]; eauto
    | |- aux_trajectory _ _ _ _ _ _ => split; [|split]; intros; [eapply SS|eapply SC|eapply SW]; eauto
    | |- rows_trajectory _ _ _ _ _ _ => split; [|split]; intros; [eapply SS|eapply SC|eapply SW]; eauto
    end.

  (** initial gradients: the value drawn by each agent *)
  Lemma init_choice (init : agent_id -> nat -> (vec * list (string * auxv vec)) * nat) (P : agent_id -> vec -> Prop) :
    (forall i, In i nodes -> exists n, P i (grad n i (fst (fst (init i n)))) ) -> exists G, forall i, In i nodes -> P i (G i).
  Proof. intro H. apply (choice_list P vzero). intros i Hi. destruct (H i Hi) as (n & Hn). eauto. Qed.

  Lemma track_init_ok x0 (w0 : world vec nat) : exists G, forall i, In i nodes ->
    gradient_of grad i (x0 i) (G i) /\ state_is (snd (do_init t (track_init grad x0) w0)) i (x0 i) /\
    aux_is (snd (do_init t (track_init grad x0) w0)) i "y" (G i) /\ aux_is (snd (do_init t (track_init grad x0) w0)) i "g" (G i).
  Proof.
    apply (choice_list (fun i g => gradient_of grad i (x0 i) g /\ state_is (snd (do_init t (track_init grad x0) w0)) i (x0 i) /\
      aux_is (snd (do_init t (track_init grad x0) w0)) i "y" g /\ aux_is (snd (do_init t (track_init grad x0) w0)) i "g" g) vzero).
    intros i Hi. destruct (do_init_spec t (track_init grad x0) w0 PT i Hi) as (n & E1 & E2). exists (grad n i (x0 i)).
    split; [exists n; reflexivity|]. unfold state_is, aux_is. rewrite E1, E2. cbn. auto.
  Qed.

  Theorem atct_run a x0 : let A := p2p t e N (track_init grad x0) (atct W grad a) in
    exists X Y G, trajectory t period A w X /\ aux_trajectory t period A w "y" Y /\ aux_trajectory t period A w "g" G /\
      (forall i, In i nodes -> X 0%nat i = x0 i /\ Y 0%nat i = G 0%nat i) /\
      (forall k i, (k <= N)%nat -> In i nodes -> gradient_of grad i (X k i) (G k i)) /\
      forall k i, (k < N)%nat -> In i nodes -> 
        X (S k) i = row W (fun j => vsub (X k j) (vscal a (Y k j))) i /\
        Y (S k) i = vsub (vadd (row W (Y k) i) (G (S k) i)) (G k i).
  Proof.
    intro A. destruct (track_init_ok x0 w) as (G0 & I0).
    destruct (run_trace t period A (fun _ s st => forall i, In i nodes -> state_is st i (s 0%nat i) /\ aux_is st i "y" (s 1%nat i) /\ aux_is st i "g" (s 2%nat i))
      (fun _ s s' => forall i, In i nodes -> gradient_of grad i (s' 0%nat i) (s' 2%nat i) /\
         s' 0%nat i = row W (fun j => vsub (s 0%nat j) (vscal a (s 1%nat j))) i /\
         s' 1%nat i = vsub (vadd (row W (s 1%nat) i) (s' 2%nat i)) (s 2%nat i))
      NDn ltac:(stab)) with (w := w) (s := sl [x0; G0; G0]) as (sg & S0 & SR & SO & SS & SC & SW).
    - intros k s d st H. destruct (atct_step t e PT FA W grad a k d st (s 0%nat) (s 1%nat) (s 2%nat) H) as (d' & st' & D1 & D2 & G & E & DE1 & DE2 & Q & _).
      rewrite active_all in *.
      exists d', st', (sl [row W (fun j => vsub (s 0%nat j) (vscal a (s 1%nat j))); fun i => vsub (vadd (row W (s 1%nat) i) (G i)) (s 2%nat i); G]).
      cbn [slots nth]. split; [exact E|]. split.
      + intros i Hi. destruct (Q i Hi) as (_ & Q2 & Q3 & Q4). rewrite (smix W) in Q2, Q3 by auto. auto.
      + intros i Hi. destruct (Q i Hi) as (Q1 & _). rewrite (smix W) in Q1 by auto. auto.
    - intros i Hi. destruct (I0 i Hi) as (_ & I). exact I.
    - exists (fun k => sg k 0%nat), (fun k => sg k 1%nat), (fun k => sg k 2%nat).
      split; [traj SS SC SW|]. split; [traj SS SC SW|]. split; [traj SS SC SW|]. split; [|split].
      + intros i Hi; rewrite S0; auto.
      + intros [|k] i Hk Hi; [rewrite S0; apply I0; auto|]. apply (SR k); auto.
      + intros k i Hk Hi. apply (SR k); auto.
  Qed.

  Theorem aug_dgm_run a x0 : let A := p2p t e N (track_init grad x0) (aug_dgm W grad a) in
    exists X Y G, trajectory t period A w X /\ aux_trajectory t period A w "y" Y /\ aux_trajectory t period A w "g" G /\
      (forall i, In i nodes -> X 0%nat i = x0 i /\ Y 0%nat i = G 0%nat i) /\
      (forall k i, (k <= N)%nat -> In i nodes -> gradient_of grad i (X k i) (G k i)) /\
      forall k i, (k < N)%nat -> In i nodes -> 
        X (S k) i = row W (fun j => vsub (X k j) (vscal a (Y k j))) i /\
        Y (S k) i = row W (fun j => vsub (vadd (Y k j) (G (S k) j)) (G k j)) i.
  Proof.
    intro A. destruct (track_init_ok x0 w) as (G0 & I0).
    destruct (run_trace t period A (fun _ s st => forall i, In i nodes -> state_is st i (s 0%nat i) /\ aux_is st i "y" (s 1%nat i) /\ aux_is st i "g" (s 2%nat i))
      (fun _ s s' => forall i, In i nodes -> gradient_of grad i (s' 0%nat i) (s' 2%nat i) /\
         s' 0%nat i = row W (fun j => vsub (s 0%nat j) (vscal a (s 1%nat j))) i /\
         s' 1%nat i = row W (fun j => vsub (vadd (s 1%nat j) (s' 2%nat j)) (s 2%nat j)) i)
      NDn ltac:(stab)) with (w := w) (s := sl [x0; G0; G0]) as (sg & S0 & SR & SO & SS & SC & SW).
    - intros k s d st H. destruct (aug_dgm_step t e PT FA W grad a k d st (s 0%nat) (s 1%nat) (s 2%nat) H) as (d' & st' & D1 & D2 & G & E & DE1 & DE2 & Q & _).
      rewrite active_all in *.
      exists d', st', (sl [row W (fun j => vsub (s 0%nat j) (vscal a (s 1%nat j))); row W (fun j => vsub (vadd (s 1%nat j) (G j)) (s 2%nat j)); G]).
      cbn [slots nth]. split; [exact E|]. split.
      + intros i Hi. destruct (Q i Hi) as (_ & Q2 & Q3 & Q4). rewrite (smix W) in Q2, Q3 by auto. auto.
      + intros i Hi. destruct (Q i Hi) as (Q1 & _). rewrite (smix W) in Q1 by auto. auto.
    - intros i Hi. destruct (I0 i Hi) as (_ & I). exact I.
    - exists (fun k => sg k 0%nat), (fun k => sg k 1%nat), (fun k => sg k 2%nat).
      split; [traj SS SC SW|]. split; [traj SS SC SW|]. split; [traj SS SC SW|]. split; [|split].
      + intros i Hi; rewrite S0; auto.
      + intros [|k] i Hk Hi; [rewrite S0; apply I0; auto|]. apply (SR k); auto.
      + intros k i Hk Hi. apply (SR k); auto.
  Qed.

  Theorem extra_run a x0 : let A := p2p t e N (extra_init x0) (extra W grad a) in
    exists X G G', trajectory t period A w X /\ (forall i, X 0%nat i = x0 i) /\
      (forall k i, (k < N)%nat -> In i nodes -> gradient_of grad i (X k i) (G k i)) /\
      (forall k i, (S k < N)%nat -> In i nodes -> gradient_of grad i (X k i) (G' k i)) /\
      (forall i, (0 < N)%nat -> In i nodes -> X 1%nat i = vsub (row W (X 0%nat) i) (vscal a (G 0%nat i))) /\
      forall k i, (S k < N)%nat -> In i nodes ->
        X (S (S k)) i = vsub (vsub (vadd (X (S k) i) (row W (X (S k)) i)) (vscal (1/2) (vadd (X k i) (row W (X k) i))))
                             (vscal a (vsub (G (S k) i) (G' k i))).
  Proof.
    intro A.
    destruct (run_trace t period A (fun _ s st => forall i, In i nodes -> state_is st i (s 0%nat i) /\ aux_is st i "x_old" (s 1%nat i) /\ aux_is st i "x_cons" (s 2%nat i))
      (fun k s s' => forall i, In i nodes -> gradient_of grad i (s 0%nat i) (s' 3%nat i) /\ s' 1%nat i = s 0%nat i /\ s' 2%nat i = row W (s 0%nat) i /\
         match k with 
         | O => s' 0%nat i = vsub (row W (s 0%nat) i) (vscal a (s' 3%nat i))
         | S _ => gradient_of grad i (s 1%nat i) (s' 4%nat i) /\ 
                  s' 0%nat i = vsub (vsub (vsub (vadd (s 0%nat i) (row W (s 0%nat) i)) (vscal (1/2) (s 1%nat i))) (vscal (1/2) (s 2%nat i))) (vscal a (vsub (s' 3%nat i) (s' 4%nat i)))
         end)
      NDn ltac:(stab)) with (w := w) (s := sl [x0; x0]) as (sg & S0 & SR & SO & SS & SC & SW).
    - intros [|k] s d st H.
      + destruct (extra_step0 t e PT FA W grad a d st (s 0%nat)) as (d' & st' & D & E & DE & Q & _); [intros; apply H; auto|].
        rewrite active_all in *. apply (choice_list _ vzero) in Q. destruct Q as (G & Q).
        exists d', st', (sl [fun i => vsub (row W (s 0%nat) i) (vscal a (G i)); s 0%nat; row W (s 0%nat); G]).
        cbn [slots nth]. split; [exact E|]. split.
        * intros i Hi. destruct (Q i Hi) as (_ & Q2 & Q3 & Q4). rewrite (smix W) in Q2, Q4 by auto. auto.
        * intros i Hi. split; [apply Q; auto|auto].
      + destruct (extra_stepS t e PT FA W grad a k d st (s 0%nat) (s 1%nat) (s 2%nat)) as (d' & st' & D & E & DE & Q & _); [intros; apply H; auto|].
        rewrite active_all in *. apply (choice_list _ vzero) in Q. destruct Q as (G & Q). apply (choice_list _ vzero) in Q. destruct Q as (Go & Q).
        exists d', st', (sl [fun i => vsub (vsub (vsub (vadd (s 0%nat i) (row W (s 0%nat) i)) (vscal (1/2) (s 1%nat i))) (vscal (1/2) (s 2%nat i))) (vscal a (vsub (G i) (Go i))); s 0%nat; row W (s 0%nat); G; Go]).
        cbn [slots nth]. split; [exact E|]. split.
        * intros i Hi. destruct (Q i Hi) as (_ & _ & Q2 & Q3 & Q4). rewrite (smix W) in Q2, Q4 by auto. auto.
        * intros i Hi. destruct (Q i Hi) as (Q1 & Q2 & _). auto.
    - init. auto.
    - exists (fun k => sg k 0%nat), (fun k => sg (S k) 3%nat), (fun k => sg (S (S k)) 4%nat).
      split; [traj SS SC SW|]. split; [intro; rewrite S0; auto|]. split; [|split; [|split]].
      + intros k i Hk Hi. apply (SR k); auto.
      + intros k i Hk Hi. destruct (SR (S k) Hk i Hi) as (_ & _ & _ & Q & _).
        destruct (SR k ltac:(cbn in *; lia) i Hi) as (_ & Q2 & _). now rewrite Q2 in Q.
      + intros i Hk Hi. destruct (SR 0%nat Hk i Hi) as (_ & _ & _ & Q). exact Q.
      + intros k i Hk Hi. destruct (SR (S k) Hk i Hi) as (_ & _ & _ & _ & Q). 
        destruct (SR k ltac:(cbn in *; lia) i Hi) as (_ & Q2 & Q3 & _). rewrite Q2, Q3 in Q. rewrite Q.
        apply functional_extensionality. intro c. unfold vsub, vadd, vscal. ring.
  Qed.

  Theorem nids_run a x0 : let A := p2p t e N (nids_init x0) (nids W grad a) in
    exists X G, trajectory t period A w X /\ (forall i, X 0%nat i = x0 i) /\
      (forall k i, (k < N)%nat -> In i nodes -> gradient_of grad i (X k i) (G k i)) /\
      (forall i, (0 < N)%nat -> In i nodes -> X 1%nat i = vsub (X 0%nat i) (vscal a (G 0%nat i))) /\
      forall k i, (S k < N)%nat -> In i nodes ->
        X (S (S k)) i = row (half_plus W) (fun j => vsub (vsub (vscal 2 (X (S k) j)) (X k j)) (vscal a (vsub (G (S k) j) (G k j)))) i.
  Proof.
    intro A.
    destruct (run_trace t period A (fun k s st => forall i, In i nodes -> state_is st i (s 0%nat i) /\ aux_is st i "x_old" (s 1%nat i) /\ aux_is st i "g" (s 2%nat i) /\ (k = 0%nat -> s 1%nat i = s 0%nat i))
      (fun k s s' => forall i, In i nodes -> gradient_of grad i (s 0%nat i) (s' 2%nat i) /\ s' 1%nat i = s 0%nat i /\
         match k with 
         | O => s' 0%nat i = vsub (s 0%nat i) (vscal a (s' 2%nat i))
         | S _ => s' 0%nat i = row (half_plus W) (fun j => vadd (vsub (vsub (vscal 2 (s 0%nat j)) (s 1%nat j)) (vscal a (s' 2%nat j))) (vscal a (s 2%nat j))) i
         end)
      NDn ltac:(stab)) with (w := w) (s := sl [x0; x0]) as (sg & S0 & SR & SO & SS & SC & SW).
    - intros [|k] s d st H.
      + destruct (nids_step0 t e PT W grad a d st (s 0%nat) (s 1%nat)) as (d' & st' & E & Q & _); [intros i Hi; destruct (H i Hi) as (? & ? & _); auto|].
        rewrite active_all in *. apply (choice_list _ vzero) in Q. destruct Q as (G & Q).
        exists d', st', (sl [fun i => vsub (s 0%nat i) (vscal a (G i)); s 0%nat; G]).
        cbn [slots nth]. split; [exact E|]. split.
        * intros i Hi. destruct (Q i Hi) as (_ & Q2 & Q3 & Q4). destruct (H i Hi) as (_ & _ & _ & H'). rewrite H' in Q2, Q4 by auto. repeat split; auto. discriminate.
        * intros i Hi. split; [apply Q; auto|auto].
      + destruct (nids_stepS t e PT FA W grad a k d st (s 0%nat) (s 1%nat) (s 2%nat)) as (d' & st' & D & G & E & DE & Q & _); [intros i Hi; destruct (H i Hi) as (? & ? & ? & _); auto|].
        rewrite active_all in *. rewrite halfW_eq in Q.
        exists d', st', (sl [row (half_plus W) (fun j => vadd (vsub (vsub (vscal 2 (s 0%nat j)) (s 1%nat j)) (vscal a (G j))) (vscal a (s 2%nat j))); s 0%nat; G]).
        cbn [slots nth]. split; [exact E|]. split.
        * intros i Hi. destruct (Q i Hi) as (_ & Q2 & Q3 & Q4). rewrite (smix (half_plus W)) in Q2 by (auto; apply HP). repeat split; auto. discriminate.
        * intros i Hi. destruct (Q i Hi) as (Q1 & _). auto.
    - init. auto.
    - exists (fun k => sg k 0%nat), (fun k => sg (S k) 2%nat).
      split; [traj SS SC SW|]. split; [intro; rewrite S0; auto|]. split; [|split].
      + intros k i Hk Hi. apply (SR k); auto.
      + intros i Hk Hi. destruct (SR 0%nat Hk i Hi) as (_ & _ & Q). exact Q.
      + intros k i Hk Hi. destruct (SR (S k) Hk i Hi) as (_ & _ & Q). rewrite Q.
        apply functional_extensionality. intro c. unfold row_of. apply rsum_map_ext. intros j Hj.
        destruct (SR k ltac:(cbn in *; lia) j Hj) as (_ & Q2 & _). unfold vsub, vadd, vscal. rewrite Q2. ring.
  Qed.

  Theorem ed_run a x0 : let A := p2p t e N (ed_init grad a x0) (ed W grad a) in
    exists X Y G, trajectory t period A w X /\ aux_trajectory t period A w "y" Y /\ aux_trajectory t period A w "y_new" (fun k => Y (S k)) /\
      (forall i, X 0%nat i = x0 i /\ Y 0%nat i = x0 i) /\
      forall k i, (k <= N)%nat -> In i nodes -> gradient_of grad i (X k i) (G k i) /\
        Y (S k) i = vsub (X k i) (vscal a (G k i)) /\
        ((k < N)%nat -> X (S k) i = row (half_plus W) (fun j => vsub (vadd (Y (S k) j) (X k j)) (Y k j)) i).
  Proof.
    intro A.
    assert (I0 : exists G0, forall i, In i nodes -> gradient_of grad i (x0 i) (G0 i) /\
      let st := snd (do_init t (ed_init grad a x0) w) in state_is st i (x0 i) /\ aux_is st i "y" (x0 i) /\ aux_is st i "y_new" (vsub (x0 i) (vscal a (G0 i)))).
    { apply (choice_list (fun i g => gradient_of grad i (x0 i) g /\
      let st := snd (do_init t (ed_init grad a x0) w) in state_is st i (x0 i) /\ aux_is st i "y" (x0 i) /\ aux_is st i "y_new" (vsub (x0 i) (vscal a g))) vzero).
      intros i Hi. destruct (do_init_spec t (ed_init grad a x0) w PT i Hi) as (n & E1 & E2). exists (grad n i (x0 i)).
      split; [exists n; reflexivity|]. unfold state_is, aux_is. cbn zeta. rewrite E1, E2. cbn. auto. }
    destruct I0 as (G0 & I0).
    destruct (run_trace t period A (fun _ s st => forall i, In i nodes -> state_is st i (s 0%nat i) /\ aux_is st i "y" (s 1%nat i) /\ aux_is st i "y_new" (s 2%nat i))
      (fun k s s' => forall i, In i nodes -> gradient_of grad i (s' 0%nat i) (s' 3%nat i) /\ s' 1%nat i = s 2%nat i /\ 
         s' 2%nat i = vsub (s' 0%nat i) (vscal a (s' 3%nat i)) /\
         s' 0%nat i = row (half_plus W) (fun j => vsub (vadd (s 0%nat j) (s 2%nat j)) (s 1%nat j)) i)
      NDn ltac:(stab)) with (w := w) (s := sl [x0; x0; fun i => vsub (x0 i) (vscal a (G0 i)); G0]) as (sg & S0 & SR & SO & SS & SC & SW).
    - intros k s d st H. 
      destruct (ed_step t e PT FA W grad a k d st (s 0%nat) (s 1%nat) (s 2%nat) H) as (d' & st' & D & E & DE & Q & _).
      rewrite active_all in *. rewrite halfW_eq in Q. apply (choice_list _ vzero) in Q. destruct Q as (G & Q).
      set (X' := row (half_plus W) (fun j => vsub (vadd (s 0%nat j) (s 2%nat j)) (s 1%nat j))).
      exists d', st', (sl [X'; s 2%nat; fun i => vsub (X' i) (vscal a (G i)); G]).
      cbn [slots nth]. split; [exact E|]. split.
      + intros i Hi. destruct (Q i Hi) as (_ & Q2 & Q3 & Q4). rewrite (smix (half_plus W)) in Q2, Q4 by (auto; apply HP). auto.
      + intros i Hi. destruct (Q i Hi) as (Q1 & _). rewrite (smix (half_plus W)) in Q1 by (auto; apply HP). auto.
    - intros i Hi. destruct (I0 i Hi) as (_ & I). exact I.
    - exists (fun k => sg k 0%nat), (fun k => match k with O => x0 | S j => sg j 2%nat end), (fun k => sg k 3%nat).
      assert (Y1 : forall k i, (k <= N)%nat -> In i nodes -> match k with O => x0 | S j => sg j 2%nat end i = sg k 1%nat i).
      { intros [|k] i Hk Hi; [now rewrite S0|]. destruct (SR k Hk i Hi) as (_ & Q & _). now rewrite Q. }
      assert (BS : forall k w', In (CStep k w') (r_calls (run t period A 0 w)) -> (k <= N)%nat).
      { intros k w' I. destruct (run_indices_bound t period A w k w') as (B & _). specialize (B I). cbn in B. lia. }
      assert (BC : forall k w', In (CCallback k w') (r_calls (run t period A 0 w)) -> (S k <= N)%nat).
      { intros k w' I. destruct (run_indices_bound t period A w k w') as (_ & B). specialize (B I). cbn in B. lia. }
      split; [traj SS SC SW|]. split; [|split; [traj SS SC SW|split]].
      + split; [|split].
        * intros k w' I i Hi. rewrite Y1 by eauto. eapply SS; eauto.
        * intros k w' I i Hi. rewrite (Y1 (S k)) by eauto. eapply SC; eauto.
        * intros i Hi. change (al_iters A) with N. rewrite Y1 by auto. eapply SW; eauto.
      + intro; rewrite S0; auto.
      + intros k i Hk Hi. split; [|split].
        * destruct k as [|k]; [rewrite S0; apply I0; auto|]. apply (SR k); auto.
        * destruct k as [|k]; [rewrite S0; reflexivity|]. destruct (SR k Hk i Hi) as (_ & _ & Q & _). exact Q.
        * intro Hk'. destruct (SR k Hk' i Hi) as (_ & _ & _ & Q). rewrite Q.
          apply functional_extensionality. intro c. unfold row_of. apply rsum_map_ext. intros j Hj.
          rewrite Y1 by auto. unfold vsub, vadd. ring.
  Qed.

  Theorem wang_elia_run a x0 : let A := p2p t e N (we_init x0) (wang_elia W grad a) in
    exists X Z G, trajectory t period A w X /\ aux_trajectory t period A w "z" Z /\
      (forall i, X 0%nat i = x0 i /\ Z 0%nat i = vzero) /\
      forall k i, (k < N)%nat -> In i nodes -> gradient_of grad i (X k i) (G k i) /\
        X (S k) i = vsub (vsub (X k i) (row (half_minus W) (fun j => vadd (X k j) (Z k j)) i)) (vscal a (G k i)) /\
        Z (S k) i = vadd (Z k i) (row (half_minus W) (X k) i).
  Proof.
    intro A.
    destruct (run_trace t period A (fun _ s st => forall i, In i nodes -> state_is st i (s 0%nat i) /\ aux_is st i "z" (s 1%nat i))
      (fun _ s s' => forall i, In i nodes -> gradient_of grad i (s 0%nat i) (s' 2%nat i) /\
         s' 0%nat i = vsub (vsub (s 0%nat i) (row (half_minus W) (fun j => vadd (s 0%nat j) (s 1%nat j)) i)) (vscal a (s' 2%nat i)) /\
         s' 1%nat i = vadd (s 1%nat i) (row (half_minus W) (s 0%nat) i))
      NDn ltac:(stab)) with (w := w) (s := sl [x0; fun _ => vzero]) as (sg & S0 & SR & SO & SS & SC & SW).
    - intros k s d st H. destruct (wang_elia_step t e PT FA W grad a k d st (s 0%nat) (s 1%nat) H) as (d' & st' & D1 & D2 & E & DE1 & DE2 & Q & _).
      rewrite active_all in *. rewrite weK_eq in Q. apply (choice_list _ vzero) in Q. destruct Q as (G & Q).
      exists d', st', (sl [fun i => vsub (vsub (s 0%nat i) (row (half_minus W) (fun j => vadd (s 0%nat j) (s 1%nat j)) i)) (vscal a (G i));
                           fun i => vadd (s 1%nat i) (row (half_minus W) (s 0%nat) i); G]).
      cbn [slots nth]. split; [exact E|]. split.
      + intros i Hi. destruct (Q i Hi) as (_ & Q2 & Q3 & _). rewrite (smix (half_minus W)) in Q2, Q3 by (auto; apply HM). auto.
      + intros i Hi. split; [apply Q; auto|split; reflexivity].
    - init. auto.
    - exists (fun k => sg k 0%nat), (fun k => sg k 1%nat), (fun k => sg (S k) 2%nat).
      split; [traj SS SC SW|]. split; [traj SS SC SW|]. split.
      + intro; rewrite S0; auto.
      + intros k i Hk Hi. apply (SR k); auto.
  Qed.

  Theorem led_run tau a b x0 : let A := p2p t e N (led_init x0) (led W grad tau a b) in
    exists X Y Phi Sg, trajectory t period A w X /\ aux_trajectory t period A w "y" Y /\
      (forall i, X 0%nat i = x0 i /\ Y 0%nat i = vzero) /\
      forall k i, (k < N)%nat -> In i nodes ->
        local_steps grad i (fun phi g => vsub phi (vadd (vscal a g) (vscal b (Y k i)))) tau (X k i) (Phi k i) (Sg k i) /\
        X (S k) i = row W (Phi k) i /\
        Y (S k) i = vadd (Y k i) (vsub (Phi k i) (X (S k) i)).
  Proof.
    intro A.
    destruct (run_trace t period A (fun _ s st => forall i, In i nodes -> state_is st i (s 0%nat i) /\ aux_is st i "y" (s 1%nat i))
      (fun _ s s' => forall i, In i nodes -> 
         local_steps grad i (fun phi g => vsub phi (vadd (vscal a g) (vscal b (s 1%nat i)))) tau (s 0%nat i) (s' 2%nat i) (s' 3%nat i) /\
         s' 0%nat i = row W (s' 2%nat) i /\ s' 1%nat i = vadd (s 1%nat i) (vsub (s' 2%nat i) (s' 0%nat i)))
      NDn ltac:(stab)) with (w := w) (s := sl [x0; fun _ => vzero]) as (sg & S0 & SR & SO & SS & SC & SW).
    - intros k s d st H. destruct (led_step t e PT FA W grad tau a b k d st (s 0%nat) (s 1%nat) H) as (d' & st' & D & Phi & E & DE & Q & _).
      rewrite active_all in *.
      assert (Q1 : exists Sg, forall i, In i nodes -> local_steps grad i (fun phi g => vsub phi (vadd (vscal a g) (vscal b (s 1%nat i)))) tau (s 0%nat i) (Phi i) (Sg i)).
      { apply (choice_list (fun i sg => local_steps grad i (fun phi g => vsub phi (vadd (vscal a g) (vscal b (s 1%nat i)))) tau (s 0%nat i) (Phi i) sg) vzero).
        intros i Hi. apply (Q i Hi). }
      destruct Q1 as (Sg & Q1).
      exists d', st', (sl [row W Phi; fun i => vadd (s 1%nat i) (vsub (Phi i) (row W Phi i)); Phi; Sg]).
      cbn [slots nth]. split; [exact E|]. split.
      + intros i Hi. destruct (Q i Hi) as (_ & Q2 & Q3). rewrite (smix W) in Q2, Q3 by auto. auto.
      + intros i Hi. split; [apply Q1; auto|split; reflexivity].
    - init. auto.
    - exists (fun k => sg k 0%nat), (fun k => sg k 1%nat), (fun k => sg (S k) 2%nat), (fun k => sg (S k) 3%nat).
      split; [traj SS SC SW|]. split; [traj SS SC SW|]. split.
      + intro; rewrite S0; auto.
      + intros k i Hk Hi. apply (SR k); auto.
  Qed.

  Theorem kgt_run kk a b x0 : let A := p2p t e N (kgt_init x0) (kgt W grad kk a b) in
    exists X C XK Sg, trajectory t period A w X /\ aux_trajectory t period A w "c" C /\
      (forall i, X 0%nat i = x0 i /\ C 0%nat i = vzero) /\
      forall k i, (k < N)%nat -> In i nodes ->
        let Z := fun j => vscal (/ (INR kk * a)) (vsub (X k j) (XK k j)) in
        local_steps grad i (fun x g => vsub x (vscal a (vadd g (C k i)))) kk (X k i) (XK k i) (Sg k i) /\
        X (S k) i = row W (fun j => vsub (X k j) (vscal (INR kk * b * a) (Z j))) i /\
        C (S k) i = vadd (vsub (C k i) (Z i)) (row W Z i).
  Proof.
    intro A.
    destruct (run_trace t period A (fun _ s st => forall i, In i nodes -> state_is st i (s 0%nat i) /\ aux_is st i "c" (s 1%nat i))
      (fun _ s s' => forall i, In i nodes -> let Z := fun j => vscal (/ (INR kk * a)) (vsub (s 0%nat j) (s' 2%nat j)) in
         local_steps grad i (fun x g => vsub x (vscal a (vadd g (s 1%nat i)))) kk (s 0%nat i) (s' 2%nat i) (s' 3%nat i) /\
         s' 0%nat i = row W (fun j => vsub (s 0%nat j) (vscal (INR kk * b * a) (Z j))) i /\ 
         s' 1%nat i = vadd (vsub (s 1%nat i) (Z i)) (row W Z i))
      NDn ltac:(stab)) with (w := w) (s := sl [x0; fun _ => vzero]) as (sg & S0 & SR & SO & SS & SC & SW).
    - intros k s d st H. destruct (kgt_step t e PT FA W grad prox kk a b k d st (s 0%nat) (s 1%nat) H) as (d' & st' & D & XK & E & DE & Q & _).
      cbn zeta in Q. rewrite active_all in *.
      assert (Q1 : exists Sg, forall i, In i nodes -> local_steps grad i (fun x g => vsub x (vscal a (vadd g (s 1%nat i)))) kk (s 0%nat i) (XK i) (Sg i)).
      { apply (choice_list (fun i sg => local_steps grad i (fun x g => vsub x (vscal a (vadd g (s 1%nat i)))) kk (s 0%nat i) (XK i) sg) vzero).
        intros i Hi. apply (Q i Hi). }
      destruct Q1 as (Sg & Q1). set (Z := fun j => vscal (/ (INR kk * a)) (vsub (s 0%nat j) (XK j))) in *.
      exists d', st', (sl [row W (fun j => vsub (s 0%nat j) (vscal (INR kk * b * a) (Z j))); fun i => vadd (vsub (s 1%nat i) (Z i)) (row W Z i); XK; Sg]).
      cbn [slots nth]. split; [exact E|]. split.
      + intros i Hi. destruct (Q i Hi) as (_ & Q2 & Q3). rewrite (smix W) in Q2 by auto. rewrite (smix W) in Q3 by auto. auto.
      + intros i Hi. cbn zeta. split; [apply Q1; auto|split; reflexivity].
    - init. auto.
    - exists (fun k => sg k 0%nat), (fun k => sg k 1%nat), (fun k => sg (S k) 2%nat), (fun k => sg (S k) 3%nat).
      split; [traj SS SC SW|]. split; [traj SS SC SW|]. split.
      + intro; rewrite S0; auto.
      + intros k i Hk Hi. apply (SR k); auto.
  Qed.

  Theorem prox_skip_run coin chi a b x0 : let A := p2p t e N (ps_init x0) (prox_skip W grad coin chi a b) in
    exists X Y G, trajectory t period A w X /\ aux_trajectory t period A w "y" Y /\
      (forall i, X 0%nat i = x0 i /\ Y 0%nat i = vzero) /\
      forall k i, (k < N)%nat -> In i nodes -> let Z := fun j => vsub (vsub (X k j) (vscal a (G k j))) (Y k j) in
        gradient_of grad i (X k i) (G k i) /\
        X (S k) i = (if coin k then row (damped W chi) Z i else Z i) /\
        Y (S k) i = (if coin k then vadd (Y k i) (vscal b (vsub (Z i) (X (S k) i))) else Y k i).
  Proof.
    intro A.
    destruct (run_trace t period A (fun _ s st => forall i, In i nodes -> state_is st i (s 0%nat i) /\ aux_is st i "y" (s 1%nat i))
      (fun k s s' => forall i, In i nodes -> let Z := fun j => vsub (vsub (s 0%nat j) (vscal a (s' 2%nat j))) (s 1%nat j) in
         gradient_of grad i (s 0%nat i) (s' 2%nat i) /\
         s' 0%nat i = (if coin k then row (damped W chi) Z i else Z i) /\
         s' 1%nat i = (if coin k then vadd (s 1%nat i) (vscal b (vsub (Z i) (s' 0%nat i))) else s 1%nat i))
      NDn ltac:(stab)) with (w := w) (s := sl [x0; fun _ => vzero]) as (sg & S0 & SR & SO & SS & SC & SW).
    - intros k s d st H. destruct (prox_skip_step t e PT FA W grad coin chi a b k d st (s 0%nat) (s 1%nat) H) as (d' & st' & D & Z' & E & DE & Q & _).
      rewrite active_all in *. rewrite psW_eq in Q. apply (choice_list _ vzero) in Q. destruct Q as (G & Q).
      set (Z := fun j => vsub (vsub (s 0%nat j) (vscal a (G j))) (s 1%nat j)).
      assert (ZE : forall i, In i nodes -> Z' i = Z i) by (intros i Hi; apply (Q i Hi)).
      assert (RW : forall i, row (damped W chi) Z' i = row (damped W chi) Z i).
      { intro i. apply functional_extensionality. intro c. unfold row_of. apply rsum_map_ext. intros j Hj. now rewrite ZE. }
      exists d', st', (sl [fun i => if coin k then row (damped W chi) Z i else Z i;
           fun i => if coin k then vadd (s 1%nat i) (vscal b (vsub (Z i) (row (damped W chi) Z i))) else s 1%nat i; G]).
      cbn [slots nth]. split; [exact E|]. split.
      + intros i Hi. destruct (Q i Hi) as (_ & _ & Q2). destruct (coin k).
        * rewrite (smix (damped W chi)), RW, ZE in Q2 by (auto; apply DW). auto.
        * rewrite ZE in Q2 by auto. auto.
      + intros i Hi. cbn zeta. split; [apply Q; auto|]. destruct (coin k); auto.
    - init. auto.
    - exists (fun k => sg k 0%nat), (fun k => sg k 1%nat), (fun k => sg (S k) 2%nat).
      split; [traj SS SC SW|]. split; [traj SS SC SW|]. split.
      + intro; rewrite S0; auto.
      + intros k i Hk Hi. apply (SR k); auto.
  Qed.

  Ltac mstab := intros k s st st' U H i Hi; specialize (H i Hi); destruct (U i Hi) as (U1 & U2); unfold state_is, aux_is, auxmap_is in *; rewrite ?U1, ?U2; exact H.
  Lemma stack_rows i z : stack t i z = rows t i (fun _ => z). Proof. reflexivity. Qed.

  Theorem admm_run rho al x0 z0 : let A := p2p t e N (admm_init t prox rho x0 z0) (admm t prox rho al) in
    exists X Z, trajectory t period A w X /\ rows_trajectory t period A w "z" Z /\
      (forall i, In i nodes -> (match x0 with Some x0 => X 0%nat i = x0 i
         | None => exists n, X 0%nat i = prox n i (vscal (/ rho) (z0 i)) (/ (rho * deg t i)) end) /\ forall j, Z 0%nat i j = z0 i) /\
      forall k i, (k < N)%nat -> In i nodes ->
        (exists n, X (S k) i = prox n i (vscal (/ (rho * deg t i)) (vsum (map (Z k i) (t_adj t i)))) (/ (rho * deg t i))) /\
        (forall j, In j (t_adj t i) -> Z (S k) i j = vsub (vscal (1 - al) (Z k i j)) (vscal al (vsub (Z k j i) (vscal (2 * rho) (X (S k) j))))).
  Proof.
    intro A.
    assert (I0 : exists X0, forall i, In i nodes -> (match x0 with Some x0 => X0 i = x0 i
         | None => exists n, X0 i = prox n i (vscal (/ rho) (z0 i)) (/ (rho * deg t i)) end) /\
       state_is (snd (al_init A w)) i (X0 i) /\ auxmap_is (snd (al_init A w)) i "z" (rows t i (fun _ => z0 i))).
    { apply (choice_list (fun i x => (match x0 with Some x0 => x = x0 i
         | None => exists n, x = prox n i (vscal (/ rho) (z0 i)) (/ (rho * deg t i)) end) /\
       state_is (snd (al_init A w)) i x /\ auxmap_is (snd (al_init A w)) i "z" (rows t i (fun _ => z0 i))) vzero).
      intros i Hi. subst A. cbn [al_init p2p]. destruct (do_init_spec t (admm_init t prox rho x0 z0) w PT i Hi) as (n & E1 & E2).
      unfold state_is, auxmap_is. rewrite E1, E2. unfold admm_init. destruct x0 as [x0|]; cbn; eexists; split; eauto. }
    destruct I0 as (X0 & I0).
    destruct (run_trace t period A (fun _ (s : fam * (agent_id -> fam)) st => forall i, In i nodes -> state_is st i (fst s i) /\ auxmap_is st i "z" (rows t i (snd s i)))
      (fun k s s' => forall i, In i nodes -> 
        (exists n, fst s' i = prox n i (vscal (/ (rho * deg t i)) (vsum (map (snd s i) (t_adj t i)))) (/ (rho * deg t i))) /\
        (forall j, In j (t_adj t i) -> snd s' i j = vsub (vscal (1 - al) (snd s i j)) (vscal al (vsub (snd s j i) (vscal (2 * rho) (fst s' j))))))
      NDn ltac:(mstab)) with (w := w) (s := (X0, fun (i _ : agent_id) => z0 i)) as (sg & S0 & SR & SO & SS & SC & SW).
    - intros k [X Z] d st H. cbn [fst snd] in *. destruct (admm_step t e PT FA prox rho al k d st X Z H) as (d' & st' & D & X' & E & DE & Q & _).
      rewrite active_all in *.
      exists d', st', (X', fun i j => vsub (vscal (1 - al) (Z i j)) (vscal al (vsub (Z j i) (vscal (2 * rho) (X' j))))).
      cbn [fst snd]. split; [exact E|]. split.
      + intros i Hi. destruct (Q i Hi) as (_ & Q2 & Q3). split; auto. erewrite rows_ext in Q3; [exact Q3|]. intros j Hj. cbn beta. now rewrite smem.
      + intros i Hi. split; [apply (Q i Hi)|auto].
    - intros i Hi. apply (I0 i Hi).
    - exists (fun k => fst (sg k)), (fun k => snd (sg k)).
      split; [traj SS SC SW|]. split; [traj SS SC SW|]. split.
      + intros i Hi; rewrite S0; cbn [fst snd]; split; [apply (I0 i Hi)|auto].
      + intros k i Hk Hi. apply (SR k); auto.
  Qed.

  Theorem lt_admm_run tau ga be rho al x0 : let A := p2p t e N (lt_admm_init t x0) (lt_admm t grad tau ga be rho al) in
    exists X Z Sg, trajectory t period A w X /\ rows_trajectory t period A w "z_i" Z /\
      (forall i, X 0%nat i = x0 i /\ forall j, Z 0%nat i j = x0 i) /\
      forall k i, (k < N)%nat -> In i nodes ->
        local_steps grad i (fun phi g => vsub phi (vadd (vscal ga g) (vscal be (vsub (vscal (rho * deg t i) (X k i)) (vsum (map (Z k i) (t_adj t i)))))))
          tau (X k i) (X (S k) i) (Sg k i) /\
        (forall j, In j (t_adj t i) -> Z (S k) i j = vsub (vscal (1 - al) (Z k i j)) (vscal al (vsub (Z k j i) (vscal (2 * rho) (X (S k) j))))).
  Proof.
    intro A.
    destruct (run_trace t period A (fun _ (s : fam * (agent_id -> fam) * fam) st => forall i, In i nodes -> state_is st i (fst (fst s) i) /\ auxmap_is st i "z_i" (rows t i (snd (fst s) i)))
      (fun k s s' => forall i, In i nodes -> let X := fst (fst s) in let Z := snd (fst s) in let X' := fst (fst s') in
        local_steps grad i (fun phi g => vsub phi (vadd (vscal ga g) (vscal be (vsub (vscal (rho * deg t i) (X i)) (vsum (map (Z i) (t_adj t i)))))))
          tau (X i) (X' i) (snd s' i) /\
        (forall j, In j (t_adj t i) -> snd (fst s') i j = vsub (vscal (1 - al) (Z i j)) (vscal al (vsub (Z j i) (vscal (2 * rho) (X' j))))))
      NDn ltac:(mstab)) with (w := w) (s := (x0, (fun (i _ : agent_id) => x0 i), x0)) as (sg & S0 & SR & SO & SS & SC & SW).
    - intros k [[X Z] sg0] d st H. cbn [fst snd] in *. destruct (lt_admm_step t e PT FA grad tau ga be rho al k d st X Z H) as (d' & st' & D & X' & E & DE & Q & _).
      rewrite active_all in *.
      assert (Q1 : exists Sg, forall i, In i nodes -> local_steps grad i (fun phi g => vsub phi (vadd (vscal ga g) (vscal be (vsub (vscal (rho * deg t i) (X i)) (vsum (map (Z i) (t_adj t i))))))) tau (X i) (X' i) (Sg i)).
      { apply (choice_list (fun i sg => local_steps grad i (fun phi g => vsub phi (vadd (vscal ga g) (vscal be (vsub (vscal (rho * deg t i) (X i)) (vsum (map (Z i) (t_adj t i))))))) tau (X i) (X' i) sg) vzero).
        intros i Hi. apply (Q i Hi). }
      destruct Q1 as (Sg & Q1).
      exists d', st', (X', (fun i j => vsub (vscal (1 - al) (Z i j)) (vscal al (vsub (Z j i) (vscal (2 * rho) (X' j))))), Sg).
      cbn [fst snd]. split; [exact E|]. split.
      + intros i Hi. destruct (Q i Hi) as (_ & Q2 & Q3). split; auto. erewrite rows_ext in Q3; [exact Q3|]. intros j Hj. cbn beta. now rewrite smem.
      + intros i Hi. split; [apply (Q1 i Hi)|auto].
    - init. auto.
    - exists (fun k => fst (fst (sg k))), (fun k => snd (fst (sg k))), (fun k => snd (sg (S k))).
      split; [traj SS SC SW|]. split; [traj SS SC SW|]. split.
      + intros i; rewrite S0; cbn [fst snd]; auto.
      + intros k i Hk Hi. apply (SR k); auto.
  Qed.

  Theorem atg_run rho al ga de x0 z0 : let A := p2p t e N (atg_init t x0 z0) (atg t grad rho al ga de) in
    exists X ZY ZS G, trajectory t period A w X /\ rows_trajectory t period A w "z_y" ZY /\ rows_trajectory t period A w "z_s" ZS /\
      (forall i, X 0%nat i = x0 i /\ forall j, ZY 0%nat i j = z0 i /\ ZS 0%nat i j = z0 i) /\
      forall k i, (k < N)%nat -> In i nodes ->
        let Y := fun i => vscal (/ (1 + rho * deg t i)) (vadd (X k i) (vsum (map (ZY k i) (t_adj t i)))) in
        let S' := fun i => vscal (/ (1 + rho * deg t i)) (vadd (G k i) (vsum (map (ZS k i) (t_adj t i)))) in
        gradient_of grad i (X k i) (G k i) /\
        X (S k) i = vadd (vscal (1 - ga) (X k i)) (vscal ga (vsub (Y i) (vscal de (S' i)))) /\
        (forall j, In j (t_adj t i) ->
           ZY (S k) i j = vadd (vscal (1 - al) (ZY k i j)) (vscal al (vsub (vscal (2 * rho) (Y j)) (ZY k j i))) /\
           ZS (S k) i j = vadd (vscal (1 - al) (ZS k i j)) (vscal al (vsub (vscal (2 * rho) (S' j)) (ZS k j i)))).
  Proof.
    intro A.
    destruct (run_trace t period A (fun _ (s : fam * (agent_id -> fam) * (agent_id -> fam) * fam) st => forall i, In i nodes ->
        state_is st i (fst (fst (fst s)) i) /\ auxmap_is st i "z_y" (rows t i (snd (fst (fst s)) i)) /\ auxmap_is st i "z_s" (rows t i (snd (fst s) i)))
      (fun k s s' => forall i, In i nodes -> let X := fst (fst (fst s)) in let ZY := snd (fst (fst s)) in let ZS := snd (fst s) in let G := snd s' in
        let Y := fun i => vscal (/ (1 + rho * deg t i)) (vadd (X i) (vsum (map (ZY i) (t_adj t i)))) in
        let S' := fun i => vscal (/ (1 + rho * deg t i)) (vadd (G i) (vsum (map (ZS i) (t_adj t i)))) in
        gradient_of grad i (X i) (G i) /\
        fst (fst (fst s')) i = vadd (vscal (1 - ga) (X i)) (vscal ga (vsub (Y i) (vscal de (S' i)))) /\
        (forall j, In j (t_adj t i) ->
           snd (fst (fst s')) i j = vadd (vscal (1 - al) (ZY i j)) (vscal al (vsub (vscal (2 * rho) (Y j)) (ZY j i))) /\
           snd (fst s') i j = vadd (vscal (1 - al) (ZS i j)) (vscal al (vsub (vscal (2 * rho) (S' j)) (ZS j i)))))
      NDn ltac:(mstab)) with (w := w) (s := (x0, (fun (i _ : agent_id) => z0 i), (fun (i _ : agent_id) => z0 i), x0)) as (sg & S0 & SR & SO & SS & SC & SW).
    - intros k [[[X ZY] ZS] g0] d st H. cbn [fst snd] in *. destruct (atg_step t e PT FA W grad prox rho al ga de k d st X ZY ZS H) as (d' & st' & D & G & E & DE & Q & _).
      rewrite active_all in *.
      set (Y := fun i => vscal (/ (1 + rho * deg t i)) (vadd (X i) (vsum (map (ZY i) (t_adj t i))))) in *.
      set (S' := fun i => vscal (/ (1 + rho * deg t i)) (vadd (G i) (vsum (map (ZS i) (t_adj t i))))) in *.
      exists d', st', ((fun i => vadd (vscal (1 - ga) (X i)) (vscal ga (vsub (Y i) (vscal de (S' i))))),
        (fun i j => vadd (vscal (1 - al) (ZY i j)) (vscal al (vsub (vscal (2 * rho) (Y j)) (ZY j i)))),
        (fun i j => vadd (vscal (1 - al) (ZS i j)) (vscal al (vsub (vscal (2 * rho) (S' j)) (ZS j i)))), G).
      assert (VE : forall u v, vadd (vscal (-1) u) v = vsub v u) by (intros; apply functional_extensionality; intro c; unfold vadd, vscal, vsub; ring).
      cbn [fst snd]. split; [exact E|]. split.
      + intros i Hi. destruct (Q i Hi) as (_ & Q2 & Q3 & Q4). split; [exact Q2|]. split.
        * erewrite rows_ext in Q3; [exact Q3|]. intros j Hj. cbn beta. rewrite smem, VE by auto. reflexivity.
        * erewrite rows_ext in Q4; [exact Q4|]. intros j Hj. cbn beta. rewrite smem, VE by auto. reflexivity.
      + intros i Hi. cbn zeta. split; [apply (Q i Hi)|]. split; auto.
    - init. auto.
    - exists (fun k => fst (fst (fst (sg k)))), (fun k => snd (fst (fst (sg k)))), (fun k => snd (fst (sg k))), (fun k => snd (sg (S k))).
      split; [traj SS SC SW|]. split; [traj SS SC SW|]. split; [traj SS SC SW|]. split.
      + intros i; rewrite S0; cbn [fst snd]; auto.
      + intros k i Hk Hi. apply (SR k); auto.
  Qed.
End Runs.
