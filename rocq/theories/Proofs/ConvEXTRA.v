(** Linear convergence of EXTRA. *)
From Coq Require Import Reals String List Bool Lra Lia Arith FunctionalExtensionality.
From Verif.Model Require Import PyDict History Messages Network Runner Vec P2P.
From Verif.Spec Require Import CostSpec NetworkSpec P2PSpec ConvSpec.
From Verif.Proofs Require Import NetworkProofs CostProofs VecProofs EmpiricalProofs P2PRuns P2PMean P2PFixed ConvStack ConvSolve ConvMetropolis ConvED.
Import ListNotations.
Open Scope R_scope.

Lemma metropolis_diag t : p2p_topo t -> forall i, In i (t_nodes t) -> / (1 + INR (length (t_adj t i))) <= metropolis t i i.
Proof.
  intros PT i I. set (d := INR (length (t_adj t i))). assert (DP : 0 <= d) by apply pos_INR. assert (IP : 0 < / (1 + d)) by (apply Rinv_0_lt_compat; lra).
  rewrite (metropolis_eq t PT). rewrite Nat.eqb_refl. assert (M : memb i (t_nodes t) = true) by now apply memb_In. rewrite M. cbn [andb].
  assert (B : rsum (map (fun b => if memb b (t_adj t i) then 1 / (1 + INR (Nat.max (length (t_adj t i)) (length (t_adj t b)))) else 0) (t_nodes t)) <= d * / (1 + d)).
  { apply rsum_le_count; [apply PT|lra| |].
    - intro b. destruct (memb b (t_adj t i)); [|lra]. unfold Rdiv. rewrite Rmult_1_l. apply Rinv_le_contravar; [lra|]. apply Rplus_le_compat_l, le_INR. lia.
    - intros b B. destruct (memb b (t_adj t i)) eqn:E; [apply memb_In in E; contradiction|lra]. }
  assert (E : d * / (1 + d) = 1 - / (1 + d)) by (field; lra). rewrite E in B.
  match goal with |- _ <= 1 - ?u => assert (u <= 1 - / (1 + d)); [|lra] end. exact B.
Qed.

Section Step.
  Variables (t : topo) (n : nat) (W : agent_id -> agent_id -> R) (lam w0 : R).
  Hypothesis ND : NoDup (t_nodes t).
  Hypothesis MX : mixing t W.
  Notation nodes := (t_nodes t).
  Notation ip := (ip nodes n).
  Notation A := (Ah t W).
  Notation "X == Y" := (seq_ nodes n X Y) (at level 70).
  Hypothesis L0 : 0 < lam.
  Hypothesis GAP : forall X, lam * ip X (A X) <= ip (A X) (A X).
  Hypothesis W0 : 0 < w0.
  Hypothesis DG : forall i, In i nodes -> w0 <= W i i.
  Lemma lazy X : w0 * ip X X <= ip X X - ip X (A X).
  Proof.
    rewrite ip_Ah by auto. pose proof (energy_eq t n W MX 1 X ltac:(lra)) as E.
    assert (H : 4 * (w0 * ip X X) <= energy t n W 1 X).
    { unfold energy, ConvStack.ip. rewrite <- !rsum_map_scal. apply rs_le. intros i I. destruct MX as (_ & NN & _).
      eapply Rle_trans; [|apply (rs_in (fun j => W i j * nrm2 n (vadd (X i) (vscal 1 (X j)))) nodes i I)].
      - rewrite nrm2_add, nrm2_scal, dot_scal_r. unfold nrm2. pose proof (nrm2_nonneg n (X i)) as P. unfold nrm2 in P.
        assert (w0 * dot n (X i) (X i) <= W i i * dot n (X i) (X i)) by (apply Rmult_le_compat_r; auto). lra.
      - intros j _. apply Rmult_le_pos; [apply NN|apply nrm2_nonneg]. }
    lra.
  Qed.
  Variables (F : agent_id -> vec -> R) (G : agent_id -> vec -> vec) (m L a : R) (xs : vec) (qs : stk).
  Hypothesis SC : forall i, In i nodes -> smooth_strongly_convex n (F i) (G i) m L.
  Hypothesis MP : 0 < m.
  Hypothesis LP : 0 < L.
  Hypothesis AP : 0 < a.
  Hypothesis AL : a * L < 2 * w0.
  Hypothesis QS : A qs == (fun i => vscal (- a) (G i xs)).
  Definition dst (x : stk) : stk := fun i => vsub (x i) xs.
  Definition Le (x q : stk) : R := (ip (dst x) (dst x) - ip (dst x) (A (dst x))) + ip (ssub q qs) (A (ssub q qs)).
  Definition th : R := (1 + a * L / (2 * w0)) / 2.
  Definition c1 : R := 2 * a * (1 - th) * m.
  Definition c2 : R := w0 - a * L / (2 * th).
  Definition Kk : R := 2 + 2 * (1 + a * a * (L * L)) / lam.
  Definition gam : R := Rmin c1 c2 / Kk.
  Lemma b_lt : 0 < a * L / (2 * w0) < 1.
  Proof.
    assert (0 < a * L) by now apply Rmult_lt_0_compat. split; [apply Rdiv_lt_0_compat; lra|].
    apply Rmult_lt_reg_r with (2 * w0); [lra|]. unfold Rdiv. rewrite Rmult_assoc, Rinv_l by lra. lra.
  Qed.
  Lemma th_range : 0 < th < 1. Proof. unfold th. pose proof b_lt. lra. Qed.
  Lemma c1_pos : 0 < c1. Proof. unfold c1. pose proof th_range. repeat apply Rmult_lt_0_compat; lra. Qed.
  Lemma c2_pos : 0 < c2.
  Proof.
    unfold c2. pose proof b_lt. pose proof th_range as T. assert (B : a * L / (2 * w0) < th) by (unfold th; lra).
    apply Rmult_lt_reg_r with (2 * th); [lra|]. rewrite Rmult_0_l. replace ((w0 - a * L / (2 * th)) * (2 * th)) with (2 * w0 * (th - a * L / (2 * w0))) by (field; lra).
    apply Rmult_lt_0_compat; lra.
  Qed.
  Lemma Kk_pos : 0 < Kk.
  Proof. unfold Kk. assert (0 <= a * a * (L * L)) by (apply Rmult_le_pos; apply Rle_0_sqr). assert (0 <= 2 * (1 + a * a * (L * L)) / lam) by (apply Rmult_le_pos; [lra|left; now apply Rinv_0_lt_compat]). lra. Qed.
  Lemma gam_pos : 0 < gam.
  Proof. unfold gam. apply Rdiv_lt_0_compat; [|apply Kk_pos]. apply Rmin_glb_lt; [apply c1_pos|apply c2_pos]. Qed.

  Lemma Le_step x q x' : x' == ssub (ssub (ssub x (A x)) (fun i => vscal a (G i (x i)))) (A q) -> (1 + gam) * Le x' (sadd q x') <= Le x q.
  Proof.
    intro EX. set (e := dst x). set (D := ssub x' x). set (qt := ssub q qs). set (g := fun i => vsub (G i (x i)) (G i xs)).
    set (e' := sadd e D). set (q' := sadd qt e').
    assert (Ee : dst x' == e'). { intros i I c C. unfold dst, e', e, D, sadd, ssub, dst, vadd, vsub. lra. }
    assert (AE : A (dst x') == A e') by now apply Ah_ext.
    assert (Aq : A (ssub (sadd q x') qs) == A q').
    { intros i I c C. rewrite (Ah_ext t n W (ssub (sadd q x') qs) (sadd q' (fun _ => xs))); auto.
      - rewrite Ah_add. unfold sadd, vadd. rewrite (Ah_const t W ND MX xs i I). unfold vzero. lra.
      - intros j J d DD. specialize (Ee j J d DD). unfold q', qt, sadd, ssub, dst, vadd, vsub in *. lra. }
    assert (Qq : ip (ssub (sadd q x') qs) (A (ssub (sadd q x') qs)) = ip q' (A q')).
    { rewrite (ip_ext nodes n (ssub (sadd q x') qs) (sadd q' (fun _ => xs)) _ (A q')).
      - rewrite ip_add_l. assert (Z : ip (fun _ => xs) (A q') = 0); [|lra]. rewrite <- (Ah_sym t n W MX (fun _ => xs) q').
        rewrite (ip_ext nodes n (A (fun _ => xs)) (sscal 0 q') q' q'); [rewrite ip_scal_l; lra| |intros i I c C; reflexivity].
        intros i I c C. rewrite (Ah_const t W ND MX xs i I). unfold sscal, vscal, vzero. lra.
      - intros j J d DD. specialize (Ee j J d DD). unfold q', qt, sadd, ssub, dst, vadd, vsub in *. lra.
      - exact Aq. }
    assert (AX : A x == A e).
    { intros i I c C. change e with (ssub x (fun _ => xs)). rewrite Ah_sub. unfold ssub, vsub. rewrite (Ah_const t W ND MX xs i I). unfold vzero. lra. }
    (* the relation *)
    assert (RL : ssub D (A D) == ssub (sscal (- a) g) (A q')).
    { intros i I c C. pose proof (EX i I c C) as E. pose proof (QS i I c C) as Q. pose proof (AX i I c C) as X1.
      assert (E2 : A q' i c = A q i c - A qs i c + A e i c + A D i c) by (unfold q', qt, e'; rewrite !Ah_add, Ah_sub; unfold sadd, ssub, vadd, vsub; lra).
      unfold ssub, vsub in *. rewrite E2. unfold D at 1. unfold ssub, vsub, sscal, vscal, g in *. unfold vsub. rewrite Q, E, X1. lra. }
    assert (S2 : ip (ssub D (A D)) e' = ip (ssub (sscal (- a) g) (A q')) e') by (apply ip_ext; [exact RL|intros i I c C; reflexivity]).
    assert (S3 : ip (ssub D (A D)) (ssub D (A D)) = ip (ssub (sscal (- a) g) (A q')) (ssub (sscal (- a) g) (A q'))) by (apply ip_ext; exact RL).
    assert (S4 : ip (A q') (A q') = ip (ssub (sscal (- a) g) (ssub D (A D))) (ssub (sscal (- a) g) (ssub D (A D)))).
    { apply ip_ext; intros i I c C; specialize (RL i I c C); unfold ssub, vsub in *; lra. }
    unfold Le. rewrite Qq, (ip_ext nodes n (dst x') e' (dst x') e' Ee Ee), (ip_ext nodes n (dst x') e' (A (dst x')) (A e') Ee AE). fold e qt.
    (* inequalities about the costs *)
    assert (CO : ip g g <= L * ip g e).
    { unfold ConvStack.ip. rewrite <- rsum_map_scal. apply rs_le. intros i I. apply (coercive n (F i) (G i) m L (SC i I) ltac:(lra) LP). }
    assert (ST : m * ip e e <= ip g e).
    { unfold ConvStack.ip. rewrite <- rsum_map_scal. apply rs_le. intros i I. apply (strongly_monotone n (F i) (G i) m L (SC i I)). }
    pose proof th_range as TH. pose proof (ip_pos nodes n g) as Pg. pose proof (ip_pos nodes n e) as Pe. pose proof (ip_pos nodes n D) as PD.
    assert (YG : ip g g <= L * L * ip e e).
    { pose proof (ip_young nodes n g e (/ L) ltac:(now apply Rinv_0_lt_compat)) as Y. rewrite Rinv_inv in Y.
      apply Rmult_le_compat_l with (r := L) in Y; [|lra]. rewrite Rmult_plus_distr_l, <- !Rmult_assoc, Rinv_r, Rmult_1_l in Y by lra. lra. }
    assert (YD : - (2 * ip g D) <= 2 * th / L * ip g g + L / (2 * th) * ip D D).
    { pose proof (ip_young nodes n g (sscal (-1) D) (2 * th / L) ltac:(apply Rdiv_lt_0_compat; lra)) as Y. rewrite !ip_scal_r, !ip_scal_l in Y.
      replace (/ (2 * th / L)) with (L / (2 * th)) in Y by (field; lra). lra. }
    assert (SY1 : ip D (A e) = ip e (A D)) by (rewrite <- (Ah_sym t n W MX); apply ip_sym).
    assert (SY2 : ip qt (A e') = ip e' (A qt)) by (rewrite <- (Ah_sym t n W MX); apply ip_sym).
    (* the main identity *)
    assert (ID : ip e' e' - ip e' (A e') + ip q' (A q') + (ip D D - ip D (A D)) + ip e' (A e') = ip e e - ip e (A e) + ip qt (A qt) - 2 * a * ip g e - 2 * a * ip g D).
    { rewrite !ip_sub_l, ip_scal_l in S2.
      assert (T1 : ip (A q') e' = ip e' (A qt) + ip e' (A e')) by (rewrite ip_sym; unfold q'; rewrite Ah_add, ip_add_r; reflexivity).
      assert (T2 : ip q' (A q') = ip qt (A qt) + 2 * ip e' (A qt) + ip e' (A e')).
      { unfold q'. rewrite Ah_add, !ip_add_l, !ip_add_r. rewrite SY2. lra. }
      assert (T3 : ip (A D) e' = ip e (A D) + ip D (A D)).
      { rewrite ip_sym. unfold e'. rewrite ip_add_l. reflexivity. }
      assert (T4 : ip D e' = ip e D + ip D D) by (unfold e'; rewrite ip_add_r, (ip_sym nodes n D e); reflexivity).
      assert (T5 : ip g e' = ip g e + ip g D) by (unfold e'; apply ip_add_r).
      assert (T6 : ip e' e' = ip e e + 2 * ip e D + ip D D) by (unfold e'; rewrite !ip_add_l, !ip_add_r, (ip_sym nodes n D e); lra).
      assert (T7 : ip e' (A e') = ip e (A e) + 2 * ip e (A D) + ip D (A D)) by (unfold e'; rewrite Ah_add, !ip_add_l, !ip_add_r, SY1; lra).
      rewrite T1, T3, T4, T5 in S2. rewrite T2. rewrite T6. lra. }
    pose proof (lazy D) as LZ. pose proof (Ah_psd t n W ND MX e') as PSe.
    (* decrease *)
    assert (DEC : ip e' e' - ip e' (A e') + ip q' (A q') + c1 * ip e e + c2 * ip D D <= ip e e - ip e (A e) + ip qt (A qt)).
    { assert (U1 : 2 * a * (1 - th) * (m * ip e e) <= 2 * a * (1 - th) * ip g e) by (apply Rmult_le_compat_l; auto; apply Rmult_le_pos; lra).
      assert (U2 : 2 * a * th / L * ip g g <= 2 * a * th * ip g e).
      { replace (2 * a * th * ip g e) with (2 * a * th / L * (L * ip g e)) by (field; lra). apply Rmult_le_compat_l; auto.
        apply Rmult_le_pos; [apply Rmult_le_pos; lra|left; now apply Rinv_0_lt_compat]. }
      apply Rmult_le_compat_l with (r := a) in YD; [|lra].
      replace (a * (2 * th / L * ip g g + L / (2 * th) * ip D D)) with (2 * a * th / L * ip g g + a * L / (2 * th) * ip D D) in YD by (field; lra).
      unfold c1, c2. lra. }
    (* V' is controlled by the decrease *)
    assert (B1 : ip e' e' <= 2 * ip e e + 2 * ip D D).
    { pose proof (ip_pos nodes n (ssub e D)) as P. rewrite ip_sub_l, !ip_sub_r in P. unfold e'. rewrite !ip_add_l, !ip_add_r. rewrite (ip_sym nodes n D e) in *. lra. }
    assert (B2 : ip (ssub D (A D)) (ssub D (A D)) <= ip D D).
    { rewrite ip_sub_l, !ip_sub_r, (ip_sym nodes n (A D) D). pose proof (Ah_sq t n W ND MX D). pose proof (Ah_psd t n W ND MX D). lra. }
    assert (B3 : ip (A q') (A q') <= 2 * (a * a * (L * L)) * ip e e + 2 * ip D D).
    { rewrite S4. pose proof (ip_pos nodes n (sadd (sscal (- a) g) (ssub D (A D)))) as P. set (u := ssub D (A D)) in *.
      rewrite ip_add_l, !ip_add_r in P. rewrite ip_sub_l, !ip_sub_r.
      assert (V1 : ip (sscal (- a) g) (sscal (- a) g) <= a * a * (L * L) * ip e e).
      { rewrite ip_scal_l, ip_scal_r. replace (- a * (- a * ip g g)) with (a * a * ip g g) by lra. rewrite (Rmult_assoc (a * a)). apply Rmult_le_compat_l; [apply Rle_0_sqr|lra]. }
      rewrite (ip_sym nodes n u (sscal (- a) g)) in *. lra. }
    assert (B4 : ip q' (A q') <= 2 * (1 + a * a * (L * L)) / lam * (ip e e + ip D D)).
    { apply Rmult_le_reg_l with lam; auto. eapply Rle_trans; [apply GAP|].
      replace (lam * (2 * (1 + a * a * (L * L)) / lam * (ip e e + ip D D))) with (2 * (1 + a * a * (L * L)) * (ip e e + ip D D)) by (field; lra).
      assert (0 <= a * a * (L * L)) by (apply Rmult_le_pos; apply Rle_0_sqr).
      assert (0 <= a * a * (L * L) * ip D D) by now apply Rmult_le_pos. lra. }
    set (V' := ip e' e' - ip e' (A e') + ip q' (A q')) in *.
    assert (B5 : V' <= Kk * (ip e e + ip D D)) by (unfold Kk, V'; lra).
    assert (B6 : gam * V' <= c1 * ip e e + c2 * ip D D).
    { pose proof Kk_pos as KP. pose proof gam_pos as GP. apply Rle_trans with (Rmin c1 c2 * (ip e e + ip D D)).
      - replace (Rmin c1 c2 * (ip e e + ip D D)) with (gam * (Kk * (ip e e + ip D D))) by (unfold gam; field; lra). apply Rmult_le_compat_l; lra.
      - assert (Rmin c1 c2 * ip e e <= c1 * ip e e) by (apply Rmult_le_compat_r; auto; apply Rmin_l).
        assert (Rmin c1 c2 * ip D D <= c2 * ip D D) by (apply Rmult_le_compat_r; auto; apply Rmin_r). lra. }
    lra.
  Qed.
  Lemma Le_error x q : w0 * sq_error nodes n x xs <= Le x q.
  Proof. unfold Le. pose proof (Ah_psd t n W ND MX (ssub q qs)). pose proof (lazy (dst x)) as H1. change (sq_error nodes n x xs) with (ip (dst x) (dst x)). lra. Qed.
End Step.

Section Run.
  Variables (t : topo) (n : nat) (W : agent_id -> agent_id -> R) (w0 : R).
  Hypothesis PT : p2p_topo t.
  Hypothesis CN : connected t.
  Hypothesis MX : mixing t W.
  Hypothesis W0 : 0 < w0.
  Hypothesis DG : forall i, In i (t_nodes t) -> w0 <= W i i.
  Notation nodes := (t_nodes t).
  Notation A := (Ah t W).

  Theorem extra_converges F G grad m L a xs :
    (forall i, In i nodes -> smooth_strongly_convex n (F i) (G i) m L) -> 0 < m -> 0 < L -> exact_gradients grad G ->
    0 < a -> a * L < 2 * w0 -> minimises nodes F xs ->
    exists q, 0 <= q < 1 /\ forall x0, exists C, forall e period N w, synchronous e ->
      exists X, trajectory t period (p2p t e N (extra_init x0) (extra W grad a)) w X /\ (forall i, X 0%nat i = x0 i) /\
        forall k, (k <= N)%nat -> sq_error nodes n (X k) xs <= C * q ^ k.
  Proof.
    intros SC MP LP EG AP AL MIN. pose proof (p2p_nodup t PT) as ND. destruct (gap t n W ND MX CN (p2p_edges t PT)) as (lam & (L0 & _) & GAP & _).
    destruct (dual_exists t n W PT CN MX F G m L a xs LP SC MIN) as (qs & QS).
    pose proof (gam_pos lam w0 L0 W0 m L a MP LP AP AL) as GP. set (ga := gam lam w0 m L a) in *.
    exists (/ (1 + ga)). assert (QP : 0 < / (1 + ga)) by (apply Rinv_0_lt_compat; lra).
    split. { split; [lra|]. rewrite <- (Rinv_r (1 + ga)) at 2 by lra. rewrite <- (Rmult_1_l (/ (1 + ga))) at 1. apply Rmult_lt_compat_r; lra. }
    intro x0. exists (Le t n W xs qs x0 x0 / w0). intros e period N w SY.
    destruct (extra_run t e PT SY W ltac:(apply MX) grad period N w a x0) as (X & Gk & Gk' & TR & X0 & GR & GR' & S0 & ST).
    exists X. split; [exact TR|]. split; [exact X0|].
    assert (GE : forall k i, (k < N)%nat -> In i nodes -> Gk k i = G i (X k i)) by (intros k i K I; destruct (GR k i K I) as (d & ->); apply EG).
    assert (GE' : forall k i, (S k < N)%nat -> In i nodes -> Gk' k i = G i (X k i)) by (intros k i K I; destruct (GR' k i K I) as (d & ->); apply EG).
    assert (INV : forall k, (k <= N)%nat -> exists q,
      ((k < N)%nat -> seq_ nodes n (X (S k)) (ssub (ssub (ssub (X k) (A (X k))) (fun i => vscal a (G i (X k i)))) (A q))) /\
      Le t n W xs qs (X k) q <= Le t n W xs qs x0 x0 * (/ (1 + ga)) ^ k).
    { induction k as [|k IH]; intro K.
      - exists x0. split.
        + intros KN i I c C. rewrite S0, GE by auto. rewrite (row_W_Ah t W ND) by auto. unfold ssub, vsub, vscal.
          assert (E : A (X 0%nat) i c = A x0 i c) by (apply (Ah_ext t n W); auto; intros j J d D; now rewrite X0). rewrite E, X0. lra.
        + cbn [pow]. rewrite Rmult_1_r. right. unfold Le. f_equal. f_equal.
          * apply ip_ext; intros i I c C; unfold dst; now rewrite X0.
          * apply ip_ext; [intros i I c C; unfold dst; now rewrite X0|]. apply Ah_ext. intros i I c C; unfold dst; now rewrite X0.
      - destruct IH as (q & EQ & B); [lia|]. specialize (EQ ltac:(lia)). exists (sadd q (X (S k))). split.
        + intros KN i I c C. specialize (EQ i I c C). rewrite ST by auto. rewrite GE, GE' by (auto; lia). rewrite !(row_W_Ah t W ND) by auto.
          rewrite Ah_add. unfold ssub, sadd, vsub, vadd, vscal in *. lra.
        + cbn [pow]. pose proof (Le_step t n W lam w0 ND MX L0 GAP W0 DG F G m L a xs qs SC MP LP AP AL QS (X k) q (X (S k)) EQ) as H. fold ga in H.
          apply Rmult_le_reg_l with (1 + ga); [lra|]. eapply Rle_trans; [exact H|]. eapply Rle_trans; [exact B|]. right.
          rewrite <- (Rmult_assoc _ (/ (1 + ga))), (Rmult_comm _ (/ (1 + ga))), <- !Rmult_assoc, Rinv_r by lra. lra. }
    intros k K. destruct (INV k K) as (q & _ & B). pose proof (Le_error t n W w0 ND MX DG xs qs (X k) q) as H.
    apply Rmult_le_reg_l with w0; auto. eapply Rle_trans; [exact H|]. eapply Rle_trans; [exact B|]. right. field; lra.
  Qed.
End Run.
