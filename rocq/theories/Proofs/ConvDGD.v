(** DGD reaches a neighbourhood of the minimiser whose size is proportional to
    the step size. *)
From Coq Require Import Reals String List Bool Lra Lia Arith FunctionalExtensionality.
From Verif.Model Require Import PyDict History Messages Network Runner Vec P2P.
From Verif.Spec Require Import CostSpec NetworkSpec P2PSpec ConvSpec.
From Verif.Proofs Require Import NetworkProofs CostProofs VecProofs EmpiricalProofs P2PRuns P2PMean P2PFixed ConvStack ConvSolve ConvMetropolis ConvED ConvEXTRA.
Import ListNotations.
Open Scope R_scope.

Section Step.
  Variables (t : topo) (n : nat) (W : agent_id -> agent_id -> R) (w0 : R).
  Hypothesis ND : NoDup (t_nodes t).
  Hypothesis MX : mixing t W.
  Notation nodes := (t_nodes t).
  Notation ip := (ip nodes n).
  Notation A := (Ah t W).
  Notation "X == Y" := (seq_ nodes n X Y) (at level 70).
  Hypothesis W0 : 0 < w0.
  Hypothesis DG : forall i, In i nodes -> w0 <= W i i.
  Variables (F : agent_id -> vec -> R) (G : agent_id -> vec -> vec) (m L a : R).
  Hypothesis SC : forall i, In i nodes -> smooth_strongly_convex n (F i) (G i) m L.
  Hypothesis MP : 0 < m.
  Hypothesis LP : 0 < L.
  Hypothesis AP : 0 < a.
  Hypothesis AL : a * L <= w0.
  Lemma A_top b X : 0 < b -> 1 - w0 <= b -> ip (A X) (A X) <= b * ip X (A X).
  Proof.
    intros B BW. pose proof (Ah_psd t n W ND MX (ssub X (sscal (/ b) (A X)))) as H.
    rewrite Ah_sub, Ah_scal, ip_sub_l, !ip_sub_r, !ip_scal_l, !ip_scal_r in H.
    pose proof (lazy t n W w0 ND MX DG (A X)) as LZ. pose proof (ip_pos nodes n (A X)) as P. rewrite <- (Ah_sym t n W MX X (A X)) in H.
    assert (LB : ip (A X) (A (A X)) <= b * ip (A X) (A X)).
    { apply Rle_trans with ((1 - w0) * ip (A X) (A X)); [lra|]. now apply Rmult_le_compat_r. }
    assert (IB : 0 < / b) by now apply Rinv_0_lt_compat.
    apply Rmult_le_compat_l with (r := / b * / b) in LB; [|apply Rmult_le_pos; lra].
    replace (/ b * / b * (b * ip (A X) (A X))) with (/ b * ip (A X) (A X)) in LB by (field; lra).
    apply Rmult_le_reg_l with (/ b); auto. replace (/ b * (b * ip X (A X))) with (ip X (A X)) by (field; lra). lra.
  Qed.
  Definition kap : R := a * m * w0 / 4.
  Lemma kap_pos : 0 < kap. Proof. unfold kap. assert (0 < a * m * w0) by (repeat apply Rmult_lt_0_compat; lra). lra. Qed.
  Definition gst (x : stk) : stk := fun i => G i (x i).
  Lemma dgd_contract x y : let d := ssub x y in let g := ssub (gst x) (gst y) in
    ip (ssub (ssub d (sscal 2 (A d))) (sscal a g)) (ssub (ssub d (sscal 2 (A d))) (sscal a g)) <= (1 - 2 * kap) * ip d d.
  Proof.
    intros d g.
    assert (CO : ip g g <= L * ip g d).
    { unfold ConvStack.ip. rewrite <- rsum_map_scal. apply rs_le. intros i I. apply (coercive n (F i) (G i) m L (SC i I) ltac:(lra) LP). }
    assert (ST : m * ip d d <= ip g d).
    { unfold ConvStack.ip. rewrite <- rsum_map_scal. apply rs_le. intros i I. apply (strongly_monotone n (F i) (G i) m L (SC i I)). }
    pose proof (ip_pos nodes n d) as Pd. pose proof (ip_pos nodes n g) as Pg. pose proof (Ah_psd t n W ND MX d) as PA.
    assert (nodes = [] \/ exists i, In i nodes) as [E|(i0 & I0)] by (destruct nodes as [|i l]; [now left|right; exists i; now left]).
    { unfold ConvStack.ip. rewrite E. cbn [map]. rewrite rsum_nil. lra. }
    assert (W1 : w0 <= 1).
    { destruct MX as (_ & NN & RS & _). pose proof (DG i0 I0). pose proof (rs_in (fun j => W i0 j) nodes i0 I0 ltac:(intros; apply NN)) as H1. rewrite (RS i0 I0) in H1. lra. }
    set (b := 2 - a * L - w0 / 2). assert (AL0 : 0 < a * L) by now apply Rmult_lt_0_compat. assert (BP : 0 < b) by (unfold b; lra).
    pose proof (A_top (b / 2) d ltac:(lra) ltac:(unfold b; lra)) as TA.
    set (p := sscal 2 (A d)). set (r := sscal a g).
    assert (Pp : ip p p <= b * ip p d) by (unfold p; rewrite !ip_scal_l, ip_scal_r, (ip_sym nodes n (A d) d); lra).
    assert (Pr : ip r r <= a * L * ip r d).
    { unfold r. rewrite !ip_scal_l, ip_scal_r. apply Rmult_le_compat_l with (r := a * a) in CO; [|apply Rle_0_sqr]. lra. }
    pose proof (ip_young nodes n p r (a * L / b) ltac:(apply Rdiv_lt_0_compat; lra)) as Y. replace (/ (a * L / b)) with (b / (a * L)) in Y by (field; lra).
    assert (Y1 : (1 + a * L / b) * ip p p <= (b + a * L) * ip p d).
    { replace ((b + a * L) * ip p d) with ((1 + a * L / b) * (b * ip p d)) by (field; lra). apply Rmult_le_compat_l; auto.
      assert (0 < a * L / b) by (apply Rdiv_lt_0_compat; lra). lra. }
    assert (Y2 : (1 + b / (a * L)) * ip r r <= (b + a * L) * ip r d).
    { replace ((b + a * L) * ip r d) with ((1 + b / (a * L)) * (a * L * ip r d)) by (field; lra). apply Rmult_le_compat_l; auto.
      assert (0 < b / (a * L)) by (apply Rdiv_lt_0_compat; lra). lra. }
    assert (GD : a * (m * ip d d) <= ip p d + ip r d).
    { unfold p, r. rewrite !ip_scal_l, (ip_sym nodes n (A d) d). apply Rmult_le_compat_l with (r := a) in ST; lra. }
    assert (E1 : ip (ssub (ssub d p) r) (ssub (ssub d p) r) = ip d d - 2 * (ip p d + ip r d) + (ip p p + 2 * ip p r + ip r r)).
    { rewrite !ip_sub_l, !ip_sub_r, (ip_sym nodes n d p), (ip_sym nodes n d r), (ip_sym nodes n r p). lra. }
    rewrite E1. replace (b + a * L) with (2 - w0 / 2) in Y1, Y2 by (unfold b; lra).
    apply Rmult_le_compat_l with (r := w0 / 2) in GD; [|lra]. unfold kap. lra.
  Qed.

  Variables (xs : vec) (qs : stk).
  Hypothesis QS : A qs == (fun i => vscal (- (1/2)) (G i xs)).
  (** the point DGD would stop at if the gradients did not change around [xs] *)
  Definition spt : stk := fun i => vadd xs (vscal a (qs i)).
  Definition Qn : R := ip qs qs.
  Lemma kap_le : nodes <> [] -> m <= L -> kap <= 1.
  Proof.
    intros NE MLe. assert (exists i, In i nodes) as (i & I) by (destruct nodes as [|i l]; [congruence|exists i; now left]).
    assert (W1 : w0 <= 1).
    { destruct MX as (_ & NN & RS & _). pose proof (DG i I). pose proof (rs_in (fun j => W i j) nodes i I ltac:(intros; apply NN)) as H1. rewrite (RS i I) in H1. lra. }
    assert (a * m <= a * L) by (apply Rmult_le_compat_l; lra). assert (0 < a * m) by now apply Rmult_lt_0_compat.
    assert (a * m * w0 <= 1 * 1) by (apply Rmult_le_compat; lra). unfold kap. lra.
  Qed.
  Lemma dgd_step x x' : kap <= 1 -> x' == ssub (ssub x (sscal 2 (A x))) (sscal a (gst x)) ->
    ip (ssub x' spt) (ssub x' spt) <= (1 - kap) * ip (ssub x spt) (ssub x spt) + 2 / kap * (a * a * (a * a) * (L * L) * Qn).
  Proof.
    intros K1 EX. pose proof kap_pos as KP. set (d := ssub x spt). set (g := ssub (gst x) (gst spt)).
    set (u := ssub (ssub d (sscal 2 (A d))) (sscal a g)). set (v := sscal a (ssub (gst (fun _ => xs)) (gst spt))).
    assert (E : ssub x' spt == sadd u v).
    { intros i I c C. unfold ssub at 1. unfold vsub. rewrite (EX i I c C).
      assert (E1 : A spt i c = a * (- (1/2) * G i xs c)).
      { change spt with (sadd (fun _ => xs) (sscal a qs)). rewrite Ah_add, Ah_scal. unfold sadd, sscal, vadd. rewrite (Ah_const t W ND MX xs i I). unfold vscal at 1.
        rewrite (QS i I c C). unfold vscal, vzero. lra. }
      assert (E2 : A d i c = A x i c - A spt i c) by (unfold d; rewrite Ah_sub; reflexivity).
      unfold u, v, sadd, ssub, sscal, vadd, vsub, vscal. unfold vsub. rewrite E2, E1. unfold d, g, gst, ssub, vsub. lra. }
    rewrite (ip_ext nodes n _ _ _ _ E E), !ip_add_l, !ip_add_r, (ip_sym nodes n v u).
    pose proof (ip_young nodes n u v kap KP) as Y. pose proof (dgd_contract x spt) as CT. cbv zeta in CT. fold d g u in CT.
    assert (VV : ip v v <= a * a * (a * a) * (L * L) * Qn).
    { unfold v. rewrite ip_scal_l, ip_scal_r. set (h := ssub (gst (fun _ => xs)) (gst spt)).
      assert (HH : ip h h <= L * L * (a * a * Qn)).
      { set (z := ssub (fun _ => xs) spt). assert (CO : ip h h <= L * ip h z).
        { unfold ConvStack.ip. rewrite <- rsum_map_scal. apply rs_le. intros i I. apply (coercive n (F i) (G i) m L (SC i I) ltac:(lra) LP). }
        assert (ZZ : ip z z = a * a * Qn).
        { rewrite (ip_ext nodes n z (sscal (- a) qs) z (sscal (- a) qs)); [rewrite ip_scal_l, ip_scal_r; unfold Qn; lra| |];
            intros i I c C; unfold z, spt, ssub, sscal, vsub, vadd, vscal; lra. }
        rewrite <- ZZ. pose proof (ip_young nodes n h z (/ L) ltac:(now apply Rinv_0_lt_compat)) as Y'. rewrite Rinv_inv in Y'.
        apply Rmult_le_compat_l with (r := L) in Y'; [|lra]. rewrite Rmult_plus_distr_l, <- !Rmult_assoc, Rinv_r, Rmult_1_l in Y' by lra. lra. }
      apply Rmult_le_compat_l with (r := a * a) in HH; [|apply Rle_0_sqr]. lra. }
    pose proof (ip_pos nodes n d) as Pd. pose proof (ip_pos nodes n v) as Pv.
    assert (C1 : (1 + kap) * ip u u <= (1 - kap) * ip d d).
    { apply Rle_trans with ((1 + kap) * ((1 - 2 * kap) * ip d d)); [apply Rmult_le_compat_l; lra|]. rewrite <- Rmult_assoc. apply Rmult_le_compat_r; auto.
      assert (0 <= kap * kap) by apply Rle_0_sqr. lra. }
    assert (C2 : (1 + / kap) * ip v v <= 2 / kap * (a * a * (a * a) * (L * L) * Qn)).
    { assert (IK : 1 <= / kap) by (rewrite <- Rinv_1; apply Rinv_le_contravar; lra). apply Rmult_le_compat; auto; unfold Rdiv; lra. }
    lra.
  Qed.
End Step.

Section Run.
  Variables (t : topo) (n : nat) (W : agent_id -> agent_id -> R) (w0 : R).
  Hypothesis PT : p2p_topo t.
  Hypothesis CN : connected t.
  Hypothesis MX : mixing t W.
  Hypothesis W0 : 0 < w0.
  Hypothesis DG : forall i, In i (t_nodes t) -> w0 <= W i i.
  Notation nodes := (t_nodes t).
  Notation ip := (ip nodes n).
  Notation A := (Ah t W).

  Theorem dgd_neighbourhood F G grad m L xs :
    (forall i, In i nodes -> smooth_strongly_convex n (F i) (G i) m L) -> 0 < m <= L -> exact_gradients grad G -> minimises nodes F xs ->
    exists B, 0 <= B /\ forall a x0 e period N w, 0 < a -> a * L <= w0 -> synchronous e ->
      exists X, trajectory t period (p2p t e N (dgd_init x0) (dgd W grad a)) w X /\ (forall i, X 0%nat i = x0 i) /\
        forall k, (k <= N)%nat -> sq_error nodes n (X k) xs <= 4 * sq_error nodes n x0 xs * (1 - a * m * w0 / 4) ^ k + B * (a * a).
  Proof.
    intros SC (MP & ML) EG MIN. assert (LP : 0 < L) by lra. pose proof (p2p_nodup t PT) as ND.
    destruct (dual_exists t n W PT CN MX F G m L (1/2) xs LP SC MIN) as (qs & QS).
    set (Q := ip qs qs). assert (QP : 0 <= Q) by apply ip_pos.
    assert (MW : 0 < m * w0) by now apply Rmult_lt_0_compat.
    set (B := Q * (6 + 64 * (L * L) / ((m * w0) * (m * w0)))).
    assert (RP : 0 <= 64 * (L * L) / ((m * w0) * (m * w0))).
    { apply Rmult_le_pos; [pose proof (Rle_0_sqr L) as H; unfold Rsqr in H; lra|left; apply Rinv_0_lt_compat; now apply Rmult_lt_0_compat]. }
    exists B. split; [apply Rmult_le_pos; lra|]. intros a x0 e period N w AP AL SY.
    destruct (dgd_run t e PT SY W ltac:(apply MX) grad period N w a x0) as (X & Gk & TR & X0 & ST). exists X. split; [exact TR|]. split; [exact X0|].
    assert (NIL : nodes = [] \/ nodes <> []) by (destruct nodes; [now left|right; discriminate]). destruct NIL as [NIL|NE].
    { intros k _. unfold sq_error. rewrite NIL. cbn [map]. rewrite rsum_nil. assert (0 <= B * (a * a)); [|lra]. apply Rmult_le_pos; [apply Rmult_le_pos; lra|apply Rle_0_sqr]. }
    set (s := spt a xs qs). set (rh := fun k => ip (ssub (X k) s) (ssub (X k) s)). set (ka := kap w0 m a).
    pose proof (kap_pos w0 W0 m a MP AP) as KP. fold ka in KP. assert (K1 : ka <= 1) by (eapply kap_le; eauto).
    set (T := 2 / ka * (a * a * (a * a) * (L * L) * Q)).
    assert (TP : 0 <= T).
    { unfold T. apply Rmult_le_pos; [apply Rmult_le_pos; [lra|left; now apply Rinv_0_lt_compat]|]. apply Rmult_le_pos; auto. apply Rmult_le_pos; [apply Rmult_le_pos; apply Rle_0_sqr|apply Rle_0_sqr]. }
    assert (REC : forall k, (k < N)%nat -> rh (S k) <= (1 - ka) * rh k + T).
    { intros k K. apply (dgd_step t n W w0 ND MX W0 DG F G m L a SC MP LP AP AL xs qs QS (X k) (X (S k)) K1).
      intros i I c C. destruct (ST k i K I) as ((d & GE) & ->). rewrite GE, EG, (row_W_Ah t W ND) by auto. unfold ssub, sscal, gst, vsub, vscal. lra. }
    assert (BD : forall k, (k <= N)%nat -> rh k <= rh 0%nat * (1 - ka) ^ k + T / ka).
    { induction k as [|k IH]; intro K.
      - cbn [pow]. assert (0 <= T / ka) by (apply Rmult_le_pos; [auto|left; now apply Rinv_0_lt_compat]). lra.
      - specialize (IH ltac:(lia)). specialize (REC k ltac:(lia)). apply Rmult_le_compat_l with (r := 1 - ka) in IH; [|lra]. cbn [pow].
        replace ((1 - ka) * (rh 0%nat * (1 - ka) ^ k + T / ka)) with (rh 0%nat * ((1 - ka) * (1 - ka) ^ k) + T / ka - T) in IH by (field; lra). lra. }
    assert (DEV : forall x : stk, sq_error nodes n x xs <= 2 * ip (ssub x s) (ssub x s) + 2 * (a * a * Q) /\ ip (ssub x s) (ssub x s) <= 2 * sq_error nodes n x xs + 2 * (a * a * Q)).
    { intro x. change (sq_error nodes n x xs) with (ip (ssub x (fun _ => xs)) (ssub x (fun _ => xs))).
      set (y := ssub x (fun _ => xs)). set (z := ssub x s). set (q := sscal a qs).
      assert (E : seq_ nodes n z (ssub y q)) by (intros i I c C; unfold z, y, q, s, spt, ssub, sscal, vsub, vadd, vscal; lra).
      rewrite (ip_ext nodes n _ _ _ _ E E). assert (QQ : ip q q = a * a * Q) by (unfold q; rewrite ip_scal_l, ip_scal_r; unfold Q; lra). rewrite <- QQ.
      rewrite ip_sub_l, !ip_sub_r, (ip_sym nodes n q y).
      pose proof (ip_pos nodes n (sadd y q)) as P1. rewrite ip_add_l, !ip_add_r, (ip_sym nodes n q y) in P1.
      pose proof (ip_pos nodes n (ssub y (sscal 2 q))) as P2. rewrite ip_sub_l, !ip_sub_r, !ip_scal_l, !ip_scal_r, (ip_sym nodes n q y) in P2. lra. }
    intros k K. destruct (DEV (X k)) as (D1 & _). destruct (DEV (X 0%nat)) as (_ & D0). specialize (BD k K). fold (rh k) in D1. fold (rh 0%nat) in D0.
    assert (SE : sq_error nodes n (X 0%nat) xs = sq_error nodes n x0 xs) by (unfold sq_error; apply rsum_map_ext; intros i _; now rewrite X0). rewrite SE in D0.
    assert (PW : 0 <= (1 - ka) ^ k <= 1).
    { split; [apply pow_le; lra|]. pose proof (pow_incr (1 - ka) 1 k ltac:(split; lra)) as H. rewrite pow1 in H. exact H. }
    assert (RB : rh 0%nat * (1 - ka) ^ k <= 2 * sq_error nodes n x0 xs * (1 - ka) ^ k + 2 * (a * a * Q)).
    { apply Rmult_le_compat_r with (r := (1 - ka) ^ k) in D0; [|lra]. assert (0 <= a * a * Q) by (apply Rmult_le_pos; auto; apply Rle_0_sqr).
      assert (2 * (a * a * Q) * (1 - ka) ^ k <= 2 * (a * a * Q) * 1) by (apply Rmult_le_compat_l; lra). lra. }
    assert (TE : T / ka = a * a * (Q * (32 * (L * L) / ((m * w0) * (m * w0))))).
    { unfold T, ka, kap. field. repeat split; lra. }
    change (a * m * w0 / 4) with ka. unfold B.
    replace (Q * (6 + 64 * (L * L) / (m * w0 * (m * w0))) * (a * a)) with (6 * (a * a * Q) + 2 * (a * a * (Q * (32 * (L * L) / ((m * w0) * (m * w0)))))) by (field; lra).
    rewrite <- TE. lra.
  Qed.
End Run.
