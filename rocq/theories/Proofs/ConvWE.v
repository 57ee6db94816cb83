(** Linear convergence of the Wang-Elia method. *)
From Coq Require Import Reals String List Bool Lra Lia Arith FunctionalExtensionality.
From Verif.Model Require Import PyDict History Messages Network Runner Vec P2P.
From Verif.Spec Require Import CostSpec NetworkSpec P2PSpec ConvSpec.
From Verif.Proofs Require Import NetworkProofs CostProofs VecProofs EmpiricalProofs P2PRuns P2PMean P2PFixed ConvStack ConvSolve ConvMetropolis ConvED ConvEXTRA ConvDGD ConvGT.
Import ListNotations.
Open Scope R_scope.

Section Step.
  Variables (t : topo) (n : nat) (W : agent_id -> agent_id -> R) (del : R).
  Hypothesis ND : NoDup (t_nodes t).
  Hypothesis MX : mixing t W.
  Notation nodes := (t_nodes t).
  Hypothesis NE : nodes <> [].
  Notation ip := (ip nodes n).
  Notation A := (Ah t W).
  Notation Mn := (Mnx nodes).
  Notation dev := (dev t).
  Notation "X == Y" := (seq_ nodes n X Y) (at level 70).
  Definition zs (X : stk) : Prop := forall c, (c < n)%nat -> rsum (map (fun i => X i c) nodes) = 0.
  Hypothesis D0 : 0 < del <= 1.
  Hypothesis CT : forall X, zs X -> del * ip X X <= ip X (A X) - ip (A X) (A X).
  Definition Vw (x z : stk) : R := ip x x + ip x z + ip z z.
  Lemma Vw_x x z : ip x x <= 2 * Vw x z.
  Proof. unfold Vw. pose proof (ip_pos nodes n (sadd x z)) as H. rewrite ip_add_l, !ip_add_r, (ip_sym nodes n z x) in H. pose proof (ip_pos nodes n z). lra. Qed.
  Lemma Vw_pos x z : 0 <= Vw x z.
  Proof. pose proof (Vw_x x z). pose proof (ip_pos nodes n x). lra. Qed.
  Lemma Vw_ext x x' z z' : x == x' -> z == z' -> Vw x z = Vw x' z'.
  Proof. intros H K. unfold Vw. rewrite (ip_ext nodes n x x' x x' H H), (ip_ext nodes n x x' z z' H K), (ip_ext nodes n z z' z z' K K). reflexivity. Qed.
  Lemma zs_add X Y : zs X -> zs Y -> zs (sadd X Y).
  Proof. intros H K c C. unfold sadd, vadd. rewrite rsum_map_add, H, K by auto. lra. Qed.
  Lemma zs_sub X Y : zs X -> zs Y -> zs (ssub X Y).
  Proof. intros H K c C. unfold ssub, vsub. rewrite rsum_map_sub, H, K by auto. lra. Qed.
  Lemma zs_A X : zs (A X).
  Proof. intros c C. apply (Ah_total t W ND MX). Qed.
  Lemma zs_dev X : zs (dev X).
  Proof. intros c C. apply (dev_tot nodes NE X c). Qed.
  Lemma we_contract x z : zs x -> zs z -> Vw (ssub x (A (sadd x z))) (sadd z (A x)) <= (1 - del) * Vw x z.
  Proof.
    intros ZX ZZ. pose proof (CT x ZX) as Q1. pose proof (CT z ZZ) as Q2. pose proof (CT (sadd x z) (zs_add x z ZX ZZ)) as Q3.
    unfold Vw. rewrite Ah_add in *. rewrite !ip_sub_l, !ip_add_l, !ip_sub_r, !ip_add_r in *. rewrite ?ip_sub_l, ?ip_add_l in *.
    rewrite (ip_sym nodes n z x), (ip_sym nodes n (A x) x), (ip_sym nodes n (A z) z), (ip_sym nodes n (A z) x), (ip_sym nodes n (A x) z), (ip_sym nodes n (A z) (A x)) in *.
    rewrite <- (Ah_sym t n W MX z x), (ip_sym nodes n (A z) x) in *.
    lra.
  Qed.
  Lemma Vw_pert x p z s : 0 < s -> Vw (sadd x p) z <= (1 + s) * Vw x z + (1 + / s) * ip p p.
  Proof.
    intro S. pose proof (ip_young nodes n (sadd (sscal 2 x) z) p (s / 2) ltac:(lra)) as Y. replace (/ (s / 2)) with (2 * / s) in Y by (field; lra).
    unfold Vw. rewrite !ip_add_l, !ip_add_r, !ip_scal_l, !ip_scal_r in *. rewrite (ip_sym nodes n z x), (ip_sym nodes n p x), (ip_sym nodes n p z) in *.
    pose proof (ip_pos nodes n z) as PZ. assert (0 <= s * ip z z) by (apply Rmult_le_pos; lra). lra.
  Qed.

  Variables (F : agent_id -> vec -> R) (G : agent_id -> vec -> vec) (m L a : R) (xs : vec) (Zs : stk).
  Hypothesis SC : forall i, In i nodes -> smooth_strongly_convex n (F i) (G i) m L.
  Hypothesis MP : 0 < m <= L.
  Hypothesis AP : 0 < a.
  Hypothesis MIN : minimises nodes F xs.
  Hypothesis A1 : a * L <= del / 5.
  Hypothesis A2 : a * (L * L) <= m * del / 24.
  Hypothesis ZZ : zs Zs.
  Hypothesis ZE : A Zs == (fun i => vscal (- a) (G i xs)).
  Notation gst := (gst G).
  Notation cs := (fun _ : agent_id => xs).
  Notation Pe := (Pe t n xs).
  Notation Ce := (Ce t n).
  Lemma AL1 : a * L <= 1. Proof. lra. Qed.
  Definition cw : R := 48 * a * (L * L) / (m * del).
  Definition wrate : R := Rmin (a * m / 4) (del / 8).
  Definition Ww (x z : stk) : R := Pe x + cw * Vw (dev x) (ssub z Zs).
  Lemma cw_pos : 0 < cw.
  Proof. unfold cw. assert (0 < L * L) by (apply Rmult_lt_0_compat; lra). apply Rdiv_lt_0_compat; [|apply Rmult_lt_0_compat; lra]. apply Rmult_lt_0_compat; lra. Qed.
  Lemma we_step x z x' z' : zs z -> x' == ssub (ssub x (A (sadd x z))) (sscal a (gst x)) -> z' == sadd z (A x) ->
    Ww x' z' <= (1 - wrate) * Ww x z.
  Proof.
    intros Z0 EX EZ. set (zt := ssub z Zs). set (xt := dev x). set (g := ssub (gst x) (gst cs)).
    assert (AX : A x == A xt).
    { intros i I c C. unfold xt, ConvGT.dev. rewrite Ah_sub. pose proof (A_Mn t n W ND MX x i I c C) as H. unfold ssub, vsub, sscal, vscal in *. lra. }
    assert (MA : forall X i c, Mn (A X) i c = 0) by (intros X i c; unfold Mnx, tot; rewrite (Ah_total t W ND MX X c); lra).
    assert (E1 : dev x' == sadd (ssub xt (A (sadd xt zt))) (sscal (- a) (dev g))).
    { intros i I c C. rewrite dev_at, (Mn_ext nodes n _ _ EX i I c C), (EX i I c C). pose proof (ZE i I c C) as HZ. pose proof (AX i I c C) as HA.
      pose proof (g_star t n F G m L xs SC MP MIN i I c C) as GS. pose proof (MA (sadd x z) i c) as M0.
      assert (DGE : dev g i c = gst x i c - G i xs c - Mn (gst x) i c).
      { rewrite dev_at. unfold g. rewrite Mn_sub. unfold ssub, vsub. rewrite GS. unfold ConvDGD.gst, sscal, vscal. lra. }
      assert (AE : A (sadd x z) i c = A (sadd xt zt) i c + - a * G i xs c).
      { unfold zt. rewrite !Ah_add, Ah_sub. unfold sadd, ssub, vadd, vsub. rewrite HZ, HA. unfold vscal. lra. }
      assert (XE : xt i c = x i c - Mn x i c) by reflexivity.
      rewrite !Mn_sub, !Mn_scal. change (x i c - A (sadd x z) i c - a * gst x i c - (Mn x i c - Mn (A (sadd x z)) i c - a * Mn (gst x) i c) = xt i c - A (sadd xt zt) i c + - a * dev g i c).
      rewrite M0, AE, DGE, XE. lra. }
    assert (E2 : ssub z' Zs == sadd zt (A xt)).
    { intros i I c C. unfold ssub at 1, vsub at 1. rewrite (EZ i I c C). unfold sadd at 1, vadd at 1. rewrite (AX i I c C). unfold zt, sadd, ssub, vadd, vsub. lra. }
    assert (ME : Mn x' == ssub (Mn x) (sscal a (Mn (gst x)))).
    { intros i I c C. rewrite (Mn_ext nodes n _ _ EX i I c C), !Mn_sub, Mn_scal. unfold ssub, vsub. rewrite MA. lra. }
    pose proof (mean_step' t n NE F G m L a xs SC MP AP MIN AL1 x x' ME) as H1.
    unfold Ww. rewrite (Vw_ext _ _ _ _ E1 E2). fold zt xt.
    pose proof (Vw_pert (ssub xt (A (sadd xt zt))) (sscal (- a) (dev g)) (sadd zt (A xt)) (del / 2) ltac:(lra)) as H2.
    pose proof (we_contract xt zt (zs_dev x) (zs_sub z Zs Z0 ZZ)) as H3.
    assert (H4 : ip (sscal (- a) (dev g)) (sscal (- a) (dev g)) <= a * a * (L * L * (Ce x + Pe x))).
    { rewrite ip_scal_l, ip_scal_r. pose proof (dev_le nodes n NE g) as K1. fold (dev g) in K1. pose proof (g_lip t n F G m L SC MP x cs) as K2. cbv zeta in K2. fold g in K2.
      rewrite (err_split t n NE xs x) in K2. assert (a * (a * ip (dev g) (dev g)) <= a * (a * (L * L * (Ce x + Pe x)))); [|lra]. apply Rmult_le_compat_l; [lra|]. apply Rmult_le_compat_l; lra. }
    pose proof (Vw_x xt zt) as H5. change (ip xt xt) with (Ce x) in H5.
    set (V := Vw xt zt) in *. assert (V0 : 0 <= V) by apply Vw_pos. set (V1 := Vw (ssub xt (A (sadd xt zt))) (sadd zt (A xt))) in *.
    set (V' := Vw (sadd (ssub xt (A (sadd xt zt))) (sscal (- a) (dev g))) (sadd zt (A xt))) in *.
    set (pp := ip (sscal (- a) (dev g)) (sscal (- a) (dev g))) in *. set (P := Pe x) in *. set (P' := Pe x') in *. set (C := Ce x) in *.
    assert (C0 : 0 <= C) by apply ip_pos. assert (P0 : 0 <= P) by apply ip_pos. assert (PP0 : 0 <= pp) by apply ip_pos.
    assert (ID : 1 <= / del) by (rewrite <- Rinv_1; apply Rinv_le_contravar; lra).
    assert (LL : 0 < L * L) by (apply Rmult_lt_0_compat; lra). pose proof cw_pos as K.
    apply Rmult_le_compat_l with (r := 1 + del / 2) in H3; [|lra].
    assert (H6 : (1 + del / 2) * ((1 - del) * V) <= (1 - del / 2) * V).
    { rewrite <- Rmult_assoc. apply Rmult_le_compat_r; auto. assert (0 <= del * del) by (apply Rmult_le_pos; lra). lra. }
    assert (H7 : (1 + / (del / 2)) * pp <= 3 / del * (a * a * (L * L * (2 * V + P)))).
    { apply Rmult_le_compat; auto; [replace (/ (del / 2)) with (2 * / del) by (field; lra); lra|replace (/ (del / 2)) with (2 * / del) by (field; lra); unfold Rdiv; lra|].
      eapply Rle_trans; [exact H4|]. apply Rmult_le_compat_l; [apply Rmult_le_pos; lra|]. apply Rmult_le_compat_l; lra. }
    assert (H8 : V' <= (1 - del / 2) * V + 3 / del * (a * a * (L * L * (2 * V + P)))) by lra.
    assert (KC : 3 * a * (L * L) / m * C <= cw * (del / 8) * V).
    { replace (cw * (del / 8) * V) with (3 * a * (L * L) / m * (2 * V)) by (unfold cw; field; lra). apply Rmult_le_compat_l; auto.
      left. apply Rdiv_lt_0_compat; [|lra]. apply Rmult_lt_0_compat; lra. }
    assert (AA : a * L * (a * L) <= del / 5 * (del / 5)) by (assert (0 < a * L) by (apply Rmult_lt_0_compat; lra); apply Rmult_le_compat; lra).
    assert (KV : 3 / del * (a * a * (L * L * (2 * V))) <= del / 4 * V).
    { replace (3 / del * (a * a * (L * L * (2 * V)))) with (6 * (a * L * (a * L)) * / del * V) by (field; lra). apply Rmult_le_compat_r; auto.
      apply Rmult_le_compat_r with (r := / del) in AA; [|lra]. replace (del / 5 * (del / 5) * / del) with (del / 25) in AA by (field; lra). lra. }
    assert (KP : cw * (3 / del * (a * a * (L * L * P))) <= a * m / 4 * P).
    { replace (cw * (3 / del * (a * a * (L * L * P)))) with (144 * (a / m) * / (del * del) * (a * (L * L) * (a * (L * L))) * P) by (unfold cw; field; lra).
      apply Rmult_le_compat_r; auto. assert (0 < a * (L * L)) by (apply Rmult_lt_0_compat; lra).
      assert (BB : a * (L * L) * (a * (L * L)) <= m * del / 24 * (m * del / 24)) by (apply Rmult_le_compat; lra).
      assert (0 < 144 * (a / m) * / (del * del)).
      { apply Rmult_lt_0_compat; [apply Rmult_lt_0_compat; [lra|apply Rdiv_lt_0_compat; lra]|]. apply Rinv_0_lt_compat, Rmult_lt_0_compat; lra. }
      apply Rmult_le_compat_l with (r := 144 * (a / m) * / (del * del)) in BB; [|lra].
      replace (144 * (a / m) * / (del * del) * (m * del / 24 * (m * del / 24))) with (a * m / 4) in BB by (field; lra). exact BB. }
    apply Rmult_le_compat_l with (r := cw) in H8; [|lra]. apply Rmult_le_compat_l with (r := cw) in KV; [|lra].
    assert (R1 : wrate <= a * m / 4) by apply Rmin_l. assert (R2 : wrate <= del / 8) by apply Rmin_r.
    assert (F1 : wrate * P <= a * m / 4 * P) by now apply Rmult_le_compat_r.
    assert (F2 : wrate * (cw * V) <= del / 8 * (cw * V)) by (apply Rmult_le_compat_r; auto; apply Rmult_le_pos; lra).
    lra.
  Qed.
End Step.

Section Run.
  Variables (t : topo) (n : nat) (W : agent_id -> agent_id -> R) (w0 : R).
  Hypothesis PT : p2p_topo t.
  Hypothesis CN : connected t.
  Hypothesis MX : mixing t W.
  Hypothesis W0 : 0 < w0.
  Hypothesis DG : forall i, In i (t_nodes t) -> w0 <= W i i.
  Notation nodes := (t_nodes t).
  Notation ip := (ip nodes n).
  Notation A := (Ah t W).
  Lemma gap2 : exists del, 0 < del <= 1 /\ forall X, zs t n X -> del * ip X X <= ip X (A X) - ip (A X) (A X).
  Proof.
    pose proof (p2p_nodup t PT) as ND. destruct (gap t n W ND MX CN (p2p_edges t PT)) as (lam & (L0 & L1) & _ & GAP).
    set (w := Rmin w0 (1/2)). assert (WP : 0 < w) by (apply Rmin_glb_lt; lra). assert (WH : w <= 1/2) by apply Rmin_r. assert (WW : w <= w0) by apply Rmin_l.
    assert (DW : forall i, In i nodes -> w <= W i i) by (intros i I; specialize (DG i I); lra).
    exists (w * lam). split.
    { split; [now apply Rmult_lt_0_compat|]. assert (w * lam <= 1 * 1) by (apply Rmult_le_compat; lra). lra. }
    intros X Z. pose proof (GAP X Z) as H1. pose proof (A_top t n W w ND MX DW (1 - w) X ltac:(lra) ltac:(lra)) as H2.
    apply Rmult_le_compat_l with (r := w) in H1; [|lra]. lra.
  Qed.
  Theorem wang_elia_converges : exists del, 0 < del <= 1 /\ forall F G grad m L a xs,
    (forall i, In i nodes -> smooth_strongly_convex n (F i) (G i) m L) -> 0 < m <= L -> exact_gradients grad G -> minimises nodes F xs ->
    0 < a -> a * L <= del / 5 -> a * (L * L) <= m * del / 24 ->
    let q := 1 - Rmin (a * m / 4) (del / 8) in 0 <= q < 1 /\
    forall x0, exists C, forall e period N w, synchronous e ->
      exists X, trajectory t period (p2p t e N (we_init x0) (wang_elia W grad a)) w X /\ (forall i, X 0%nat i = x0 i) /\
        forall k, (k <= N)%nat -> sq_error nodes n (X k) xs <= C * q ^ k.
  Proof.
    pose proof (p2p_nodup t PT) as ND. destruct gap2 as (del & D0 & CT). exists del. split; [exact D0|].
    intros F G grad m L a xs SC MP EG MIN AP A1 A2 q. change q with (1 - wrate del m a).
    assert (RQ : 0 < wrate del m a <= 1).
    { unfold wrate. split; [apply Rmin_glb_lt; [|lra]; assert (0 < a * m) by (apply Rmult_lt_0_compat; lra); lra|]. eapply Rle_trans; [apply Rmin_r|lra]. }
    split; [lra|]. intro x0.
    assert (nodes = [] \/ nodes <> []) as [E|NE] by (destruct nodes; [now left|right; discriminate]).
    { exists 0. intros e period N w SY. destruct (wang_elia_run t e PT SY W ltac:(apply MX) grad period N w a x0) as (X & Z & Gk & TR & _ & X0 & _).
      exists X. split; [exact TR|]. split; [intro i; apply X0|]. intros k _. unfold sq_error. rewrite E. cbn [map]. rewrite rsum_nil. lra. }
    destruct (dual_exists t n W PT CN MX F G m L a xs ltac:(lra) SC MIN) as (qs & QS).
    set (Zs := dev t qs). assert (ZZ : zs t n Zs) by (apply zs_dev; auto).
    assert (ZE : seq_ nodes n (A Zs) (fun i => vscal (- a) (G i xs))).
    { intros i I c C. rewrite <- (QS i I c C). unfold Zs, dev. rewrite Ah_sub. pose proof (A_Mn t n W ND MX qs i I c C) as H. unfold ssub, vsub, sscal, vscal in *. lra. }
    set (k1 := cw del m L a). pose proof (cw_pos del D0 m L a MP AP) as K1. fold k1 in K1.
    set (V0 := Ww t n del m L a xs Zs x0 (fun _ => vzero)). exists ((1 + 2 * / k1) * V0). intros e period N w SY.
    destruct (wang_elia_run t e PT SY W ltac:(apply MX) grad period N w a x0) as (X & Z & Gk & TR & _ & X0 & ST).
    exists X. split; [exact TR|]. split; [intro i; apply X0|].
    assert (INV : forall k, (k <= N)%nat -> zs t n (Z k) /\ Ww t n del m L a xs Zs (X k) (Z k) <= V0 * (1 - wrate del m a) ^ k).
    { induction k as [|k IH]; intro K.
      - assert (EX : X 0%nat = x0) by (apply functional_extensionality; intro i; apply X0). assert (EZ : Z 0%nat = fun _ => vzero) by (apply functional_extensionality; intro i; apply X0).
        rewrite EX, EZ. split.
        + intros c _. unfold vzero. rewrite rs_const. lra.
        + cbn [pow]. unfold V0. lra.
      - destruct (IH ltac:(lia)) as (ZK & HV).
        assert (EX : seq_ nodes n (X (S k)) (ssub (ssub (X k) (A (sadd (X k) (Z k)))) (sscal a (gst G (X k))))).
        { intros i I c C. destruct (ST k i ltac:(lia) I) as ((d & GE) & -> & _). rewrite GE, EG. reflexivity. }
        assert (EZ : seq_ nodes n (Z (S k)) (sadd (Z k) (A (X k)))).
        { intros i I c C. destruct (ST k i ltac:(lia) I) as (_ & _ & ->). reflexivity. }
        split.
        + intros c C. rewrite (rsum_map_ext _ (fun i => Z k i c + A (X k) i c)) by (intros i I; apply EZ; auto). rewrite rsum_map_add, ZK by auto. rewrite (Ah_total t W ND MX). lra.
        + pose proof (we_step t n W del ND MX NE D0 CT F G m L a xs Zs SC MP AP MIN A1 A2 ZZ ZE (X k) (Z k) (X (S k)) (Z (S k)) ZK EX EZ) as H.
          cbn [pow]. apply Rmult_le_compat_l with (r := 1 - wrate del m a) in HV; [|lra]. lra. }
    intros k K. destruct (INV k K) as (_ & HV).
    change (sq_error nodes n (X k) xs) with (ip (ssub (X k) (fun _ => xs)) (ssub (X k) (fun _ => xs))). rewrite (err_split t n NE xs (X k)).
    unfold Ww in HV. fold k1 in HV. pose proof (Vw_x t n (dev t (X k)) (ssub (Z k) Zs)) as HX. change (ip (dev t (X k)) (dev t (X k))) with (Ce t n (X k)) in HX.
    set (P := Pe t n xs (X k)) in *. set (C := Ce t n (X k)) in *. set (V := Vw t n (dev t (X k)) (ssub (Z k) Zs)) in *.
    assert (C0 : 0 <= C) by apply ip_pos. assert (P0 : 0 <= P) by apply ip_pos.
    set (B := V0 * (1 - wrate del m a) ^ k) in *. assert (IK : 0 < / k1) by now apply Rinv_0_lt_compat.
    assert (VB : V <= / k1 * B). { replace V with (/ k1 * (k1 * V)) by (field; lra). apply Rmult_le_compat_l; lra. }
    assert (0 <= k1 * V) by (apply Rmult_le_pos; lra).
    rewrite Rmult_assoc. fold B. lra.
  Qed.
End Run.
