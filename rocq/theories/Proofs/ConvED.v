(** Linear convergence of exact diffusion (ED) and NIDS. *)
From Coq Require Import Reals String List Lra Lia Arith FunctionalExtensionality.
From Verif.Model Require Import PyDict History Messages Network Runner Vec P2P.
From Verif.Spec Require Import CostSpec NetworkSpec P2PSpec ConvSpec.
From Verif.Proofs Require Import CostProofs VecProofs EmpiricalProofs P2PRuns P2PFixed ConvStack ConvSolve.
Import ListNotations.
Open Scope R_scope.

Lemma p2p_edges t : p2p_topo t -> forall i j, In j (t_adj t i) -> In i (t_nodes t) /\ In j (t_nodes t).
Proof. intros ((_ & E & _) & _) i j J. destruct (E i j J) as (A & B & _). auto. Qed.
Lemma p2p_nodup t : p2p_topo t -> NoDup (t_nodes t).
Proof. intros ((N & _) & _). exact N. Qed.

Section Lyapunov.
  Variables (t : topo) (n : nat) (W : agent_id -> agent_id -> R) (lam : R).
  Hypothesis ND : NoDup (t_nodes t).
  Hypothesis MX : mixing t W.
  Notation nodes := (t_nodes t).
  Notation ip := (ip nodes n).
  Notation A := (Ah t W).
  Notation "X == Y" := (seq_ nodes n X Y) (at level 70).
  Hypothesis L1 : lam <= 1.
  Hypothesis GAP : forall X, lam * ip X (A X) <= ip (A X) (A X).
  Variables (F : agent_id -> vec -> R) (G : agent_id -> vec -> vec) (m L a : R) (xs : vec) (qs : stk).
  Hypothesis SC : forall i, In i nodes -> smooth_strongly_convex n (F i) (G i) m L.
  Hypothesis MP : 0 < m.
  Hypothesis LP : 0 < L.
  Hypothesis AP : 0 < a.
  Hypothesis AL : a * L <= 2.
  Hypothesis QS : A qs == (fun i => vscal (- a) (G i xs)).
  Definition zof (x : stk) : stk := fun i => vsub (x i) (vscal a (G i (x i))).
  Definition dist (x : stk) : stk := fun i => vsub (x i) xs.
  Definition Ly (x q : stk) : R := ip (dist x) (dist x) + ip (ssub q qs) (A (ssub q qs)).
  Definition rate : R := Rmax (1 - a * m * (2 - a * L)) (1 - lam).

  Lemma Ly_step x q phi x' : phi == ssub (zof x) (A q) -> x' == ssub phi (A phi) -> Ly x' (sadd q phi) <= rate * Ly x q.
  Proof.
    intros EP EX. set (zt := fun i => vsub (zof x i) (vsub xs (vscal a (G i xs)))). set (qt := ssub q qs). set (e := ssub zt (A qt)).
    assert (Ee : dist phi == e).
    { intros i I c C. unfold e, zt, qt. rewrite Ah_sub. unfold dist, ssub, vsub. rewrite (EP i I c C).
      pose proof (QS i I c C) as Q. unfold ssub, vsub, vscal in *. rewrite Q. lra. }
    assert (Ex : dist x' == ssub e (A e)).
    { intros i I c C. unfold dist, ssub, vsub. rewrite (EX i I c C). unfold ssub, vsub.
      assert (H1 : A e i c = A phi i c).
      { rewrite <- (Ah_ext t n W (dist phi) e Ee i I c C). change (dist phi) with (ssub phi (fun _ => xs)). rewrite Ah_sub. unfold ssub, vsub.
        rewrite (Ah_const t W ND MX xs i I). unfold vzero. lra. }
      rewrite H1. pose proof (Ee i I c C) as H2. unfold dist, vsub in H2. lra. }
    assert (Eq : ssub (sadd q phi) qs == sadd qt (sadd e (fun _ => xs))).
    { intros i I c C. pose proof (Ee i I c C) as H2. unfold qt, dist, ssub, sadd, vadd, vsub in *. lra. }
    unfold Ly. rewrite (ip_ext nodes n _ _ _ _ Ex Ex).
    set (u := sadd qt e).
    assert (EA : A (ssub (sadd q phi) qs) == A u).
    { intros i I c C. rewrite (Ah_ext t n W _ _ Eq i I c C). unfold u. rewrite !Ah_add. unfold sadd, vadd. rewrite (Ah_const t W ND MX xs i I). unfold vzero. lra. }
    assert (E2 : ip (ssub (sadd q phi) qs) (A (ssub (sadd q phi) qs)) = ip u (A u)).
    { rewrite (ip_ext nodes n _ _ _ _ Eq EA). rewrite <- (Ah_sym t n W MX (sadd qt (sadd e (fun _ => xs))) u).
      rewrite <- (Ah_sym t n W MX u u). apply ip_ext; [|intros i I c C; reflexivity].
      intros i I c C. unfold u. rewrite !Ah_add. unfold sadd, vadd. rewrite (Ah_const t W ND MX xs i I). unfold vzero. lra. }
    rewrite E2. unfold u. rewrite Ah_add, !ip_add_l, !ip_add_r, ip_sub_l, !ip_sub_r.
    pose proof (Ah_sq t n W ND MX e) as SQ. pose proof (GAP qt) as GQ. pose proof (Ah_psd t n W ND MX qt) as PQ.
    assert (S1 : ip qt (A e) = ip e (A qt)) by (rewrite <- Ah_sym by auto; apply ip_sym).
    assert (S2 : ip (A e) e = ip e (A e)) by apply ip_sym.
    assert (KE : ip e e + 2 * ip e (A qt) = ip zt zt - ip (A qt) (A qt)).
    { unfold e. rewrite !ip_sub_l, !ip_sub_r, (ip_sym _ _ (A qt) zt). lra. }
    assert (Z : ip zt zt <= (1 - a * m * (2 - a * L)) * ip (dist x) (dist x)).
    { unfold ConvStack.ip. rewrite <- rsum_map_scal. apply rs_le. intros i I. unfold zt, zof, dist.
      apply (step_contracts n (F i) (G i) m L (SC i I) ltac:(lra) LP a (x i) xs ltac:(lra) AL). }
    pose proof (ip_pos nodes n (dist x)) as PX.
    assert (R1 : (1 - a * m * (2 - a * L)) * ip (dist x) (dist x) <= rate * ip (dist x) (dist x)) by (apply Rmult_le_compat_r; auto; apply Rmax_l).
    assert (R2 : (1 - lam) * ip qt (A qt) <= rate * ip qt (A qt)) by (apply Rmult_le_compat_r; auto; apply Rmax_r).
    fold qt. lra.
  Qed.
  Lemma Ly_error x q : sq_error nodes n x xs <= Ly x q.
  Proof. unfold Ly. pose proof (Ah_psd t n W ND MX (ssub q qs)). change (sq_error nodes n x xs) with (ip (dist x) (dist x)). lra. Qed.
  Lemma Ly_start x : 0 < lam -> Ly x (fun _ => vzero) <= sq_error nodes n x xs + a * a / lam * rsum (map (fun i => nrm2 n (G i xs)) nodes).
  Proof.
    intro L0. unfold Ly. change (ip (dist x) (dist x)) with (sq_error nodes n x xs).
    assert (E : ip (ssub (fun _ => vzero) qs) (A (ssub (fun _ => vzero) qs)) = ip qs (A qs)).
    { rewrite (ip_ext nodes n (ssub (fun _ => vzero) qs) (sscal (-1) qs) _ (sscal (-1) (A qs))).
      - rewrite ip_scal_l, ip_scal_r. lra.
      - intros i I c C. unfold ssub, sscal, vsub, vscal, vzero. lra.
      - intros i I c C. rewrite <- Ah_scal. apply Ah_ext with (n := n); auto. intros j J d D. unfold ssub, sscal, vsub, vscal, vzero. lra. }
    rewrite E. pose proof (GAP qs) as H.
    assert (E2 : ip (A qs) (A qs) = a * a * rsum (map (fun i => nrm2 n (G i xs)) nodes)).
    { rewrite (ip_ext nodes n _ _ _ _ QS QS). unfold ConvStack.ip. rewrite <- rsum_map_scal. apply rsum_map_ext. intros i _.
      rewrite dot_scal_l, dot_scal_r. unfold nrm2. lra. }
    rewrite E2 in H. apply Rplus_le_compat_l. apply Rmult_le_reg_l with lam; auto.
    replace (lam * (a * a / lam * rsum (map (fun i => nrm2 n (G i xs)) nodes))) with (a * a * rsum (map (fun i => nrm2 n (G i xs)) nodes)) by (field; lra). exact H.
  Qed.
  Lemma rate_nonneg : 0 <= rate.
  Proof. unfold rate. eapply Rle_trans; [|apply Rmax_r]. lra. Qed.
  Lemma rate_lt : 0 < lam -> a * L < 2 -> rate < 1.
  Proof.
    intros L0 AL'. unfold rate. apply Rmax_lub_lt; [|lra]. assert (0 < a * m * (2 - a * L)) by (repeat apply Rmult_lt_0_compat; lra). lra.
  Qed.
End Lyapunov.

Section Runs.
  Variables (t : topo) (n : nat) (W : agent_id -> agent_id -> R).
  Hypothesis PT : p2p_topo t.
  Hypothesis CN : connected t.
  Hypothesis MX : mixing t W.
  Notation nodes := (t_nodes t).
  Notation A := (Ah t W).

  Lemma dual_exists F G m L a xs : 0 < L -> (forall i, In i nodes -> smooth_strongly_convex n (F i) (G i) m L) -> minimises nodes F xs ->
    exists qs, seq_ nodes n (A qs) (fun i => vscal (- a) (G i xs)).
  Proof.
    intros LP SC MIN. exists (sol t W (fun i => vscal (- a) (G i xs))). intros i I c C.
    apply (sol_ok t n W (p2p_nodup t PT) MX CN (p2p_edges t PT)); auto.
    intros c' C'. unfold vscal. rewrite rsum_map_scal. rewrite (stationary n nodes F G L xs LP); auto; [lra|]. intros; eauto.
  Qed.

  Theorem ed_converges : exists lam, 0 < lam <= 1 /\ forall F G grad m L a xs x0 e period N w,
    (forall i, In i nodes -> smooth_strongly_convex n (F i) (G i) m L) -> 0 < m -> 0 < L -> exact_gradients grad G ->
    0 < a -> a * L < 2 -> minimises nodes F xs -> synchronous e ->
    0 <= rate lam m L a < 1 /\
    exists X, trajectory t period (p2p t e N (ed_init grad a x0) (ed W grad a)) w X /\ (forall i, X 0%nat i = x0 i) /\
      forall k, (k <= N)%nat -> sq_error nodes n (X k) xs <=
        (sq_error nodes n x0 xs + a * a / lam * rsum (map (fun i => nrm2 n (G i xs)) nodes)) * rate lam m L a ^ k.
  Proof.
    pose proof (p2p_nodup t PT) as ND. destruct (gap t n W ND MX CN (p2p_edges t PT)) as (lam & (L0 & L1) & GAP & _). exists lam. split; [lra|].
    intros F G grad m L a xs x0 e period N w SC MP LP EG AP AL MIN SY.
    split. { split; [now apply rate_nonneg|now apply rate_lt]. }
    destruct (dual_exists F G m L a xs LP SC MIN) as (qs & QS).
    destruct (ed_run t e PT SY W ltac:(apply MX) grad period N w a x0) as (X & Y & Gk & TR & _ & _ & X0 & ST).
    exists X. split; [exact TR|]. split; [apply X0|].
    set (C0 := sq_error nodes n x0 xs + a * a / lam * rsum (map (fun i => nrm2 n (G i xs)) nodes)).
    assert (INV : forall k, (k <= N)%nat -> exists q, seq_ nodes n (fun i => vsub (X k i) (Y k i)) (sscal (-1) (A q)) /\ Ly t n W xs qs (X k) q <= C0 * rate lam m L a ^ k).
    { induction k as [|k IH]; intro K.
      - exists (fun _ => vzero). split.
        + intros i I c C. destruct (X0 i) as (E1 & E2). rewrite E1, E2. unfold vsub, sscal, vscal.
          rewrite (Ah_const t W ND MX vzero i I). unfold vzero. lra.
        + cbn [pow]. rewrite Rmult_1_r. unfold C0.
          assert (EX0 : Ly t n W xs qs (X 0%nat) (fun _ => vzero) = Ly t n W xs qs x0 (fun _ => vzero)).
          { unfold Ly. f_equal. apply ip_ext; intros i I c C; unfold dist; now rewrite (proj1 (X0 i)). }
          rewrite EX0. apply Ly_start; auto.
      - destruct IH as (q & EQ & B); [lia|]. set (phi := fun j => vsub (vadd (Y (S k) j) (X k j)) (Y k j)).
        exists (sadd q phi).
        assert (EZ : forall i, In i nodes -> Y (S k) i = zof G a (X k) i).
        { intros i I. destruct (ST k i ltac:(lia) I) as ((d & E1) & E2 & _). rewrite E2, E1, EG. reflexivity. }
        assert (EP : seq_ nodes n phi (ssub (zof G a (X k)) (A q))).
        { intros i I c C. specialize (EQ i I c C). unfold phi. rewrite EZ by auto. unfold vsub, vadd, sscal, ssub, vscal in *; unfold vsub, vadd, vscal in *. lra. }
        assert (EX : seq_ nodes n (X (S k)) (ssub phi (A phi))).
        { intros i I c C. destruct (ST k i ltac:(lia) I) as (_ & _ & E3). rewrite E3 by lia. rewrite (half_plus_Ah t W ND) by auto. reflexivity. }
        split.
        + intros i I c C. rewrite EZ by auto. pose proof (EP i I c C) as H1. pose proof (EX i I c C) as H2. rewrite Ah_add. unfold ssub, sadd, sscal, vsub, vadd, vscal in *. lra.
        + cbn [pow]. eapply Rle_trans; [apply (Ly_step t n W lam ND MX GAP F G m L a xs qs SC MP LP AP ltac:(lra) QS (X k) q phi (X (S k)) EP EX)|].
          replace (C0 * (rate lam m L a * rate lam m L a ^ k)) with (rate lam m L a * (C0 * rate lam m L a ^ k)) by ring.
          apply Rmult_le_compat_l; auto. now apply rate_nonneg. }
    intros k K. destruct (INV k K) as (q & _ & B). eapply Rle_trans; [|exact B]. now apply Ly_error.
  Qed.

  Theorem nids_converges : exists lam, 0 < lam <= 1 /\ forall F G grad m L a xs x0 e period N w,
    (forall i, In i nodes -> smooth_strongly_convex n (F i) (G i) m L) -> 0 < m -> 0 < L -> exact_gradients grad G ->
    0 < a -> a * L < 2 -> minimises nodes F xs -> synchronous e ->
    0 <= rate lam m L a < 1 /\
    exists X, trajectory t period (p2p t e N (nids_init x0) (nids W grad a)) w X /\ (forall i, X 0%nat i = x0 i) /\
      forall k, (k < N)%nat -> sq_error nodes n (X (S k)) xs <=
        (sq_error nodes n (fun i => vsub (x0 i) (vscal a (G i (x0 i)))) xs + a * a / lam * rsum (map (fun i => nrm2 n (G i xs)) nodes)) * rate lam m L a ^ k.
  Proof.
    pose proof (p2p_nodup t PT) as ND. destruct (gap t n W ND MX CN (p2p_edges t PT)) as (lam & (L0 & L1) & GAP & _). exists lam. split; [lra|].
    intros F G grad m L a xs x0 e period N w SC MP LP EG AP AL MIN SY.
    split. { split; [now apply rate_nonneg|now apply rate_lt]. }
    destruct (dual_exists F G m L a xs LP SC MIN) as (qs & QS).
    destruct (nids_run t e PT SY W ltac:(apply MX) grad period N w a x0) as (X & Gk & TR & X0 & GR & S0 & ST).
    exists X. split; [exact TR|]. split; [apply X0|].
    set (C0 := sq_error nodes n (fun i => vsub (x0 i) (vscal a (G i (x0 i)))) xs + a * a / lam * rsum (map (fun i => nrm2 n (G i xs)) nodes)).
    assert (GE : forall k i, (k < N)%nat -> In i nodes -> Gk k i = G i (X k i)).
    { intros k i K I. destruct (GR k i K I) as (d & ->). apply EG. }
    assert (INV : forall k, (k < N)%nat -> exists q, seq_ nodes n (X (S k)) (ssub (zof G a (X k)) (A q)) /\ Ly t n W xs qs (X (S k)) q <= C0 * rate lam m L a ^ k).
    { induction k as [|k IH]; intro K.
      - assert (E1 : forall i, In i nodes -> X 1%nat i = zof G a x0 i).
        { intros i I. rewrite S0 by (auto; lia). rewrite GE by auto. unfold zof. now rewrite X0. }
        exists (fun _ => vzero). split.
        + intros i I c C. rewrite E1 by auto. unfold ssub, vsub. rewrite (Ah_const t W ND MX vzero i I). unfold zof. rewrite X0. unfold vsub, vzero. lra.
        + cbn [pow]. rewrite Rmult_1_r. unfold C0.
          assert (EX0 : Ly t n W xs qs (X 1%nat) (fun _ => vzero) = Ly t n W xs qs (zof G a x0) (fun _ => vzero)).
          { unfold Ly. f_equal. apply ip_ext; intros i I c C; unfold dist; now rewrite E1. }
          rewrite EX0. apply (Ly_start t n W lam GAP G a xs qs QS (zof G a x0)); auto.
      - destruct IH as (q & EQ & B); [lia|].
        set (phi := fun j => vsub (vsub (vscal 2 (X (S k) j)) (X k j)) (vscal a (vsub (Gk (S k) j) (Gk k j)))).
        exists (sadd q phi).
        assert (EP : seq_ nodes n phi (ssub (zof G a (X (S k))) (A q))).
        { intros i I c C. specialize (EQ i I c C). unfold phi. rewrite !GE by (auto; lia). unfold zof, vsub, vadd, sscal, ssub, vscal in *. unfold vsub, vscal in *. lra. }
        assert (EX : seq_ nodes n (X (S (S k))) (ssub phi (A phi))).
        { intros i I c C. rewrite ST by (auto; lia). rewrite (half_plus_Ah t W ND) by auto. reflexivity. }
        split.
        + intros i I c C. pose proof (EP i I c C) as H1. pose proof (EX i I c C) as H2. rewrite Ah_add. unfold ssub, sadd, sscal, vsub, vadd, vscal in *. lra.
        + cbn [pow]. eapply Rle_trans; [apply (Ly_step t n W lam ND MX GAP F G m L a xs qs SC MP LP AP ltac:(lra) QS (X (S k)) q phi (X (S (S k))) EP EX)|].
          replace (C0 * (rate lam m L a * rate lam m L a ^ k)) with (rate lam m L a * (C0 * rate lam m L a ^ k)) by ring.
          apply Rmult_le_compat_l; auto. now apply rate_nonneg. }
    intros k K. destruct (INV k K) as (q & _ & B). eapply Rle_trans; [|exact B]. now apply Ly_error.
  Qed.
End Runs.
