(** Linear convergence of the gradient tracking methods (ATC tracking, AugDGM). *)
From Coq Require Import Reals String List Bool Lra Lia Arith FunctionalExtensionality.
From Verif.Model Require Import PyDict History Messages Network Runner Vec P2P.
From Verif.Spec Require Import CostSpec NetworkSpec P2PSpec ConvSpec.
From Verif.Proofs Require Import NetworkProofs CostProofs VecProofs EmpiricalProofs P2PRuns P2PMean P2PFixed ConvStack ConvSolve ConvMetropolis ConvED ConvEXTRA ConvDGD.
Import ListNotations.
Open Scope R_scope.

Section MeanStack.
  Variables (nodes : list agent_id) (n : nat).
  Notation ip := (ip nodes n).
  Notation "X == Y" := (seq_ nodes n X Y) (at level 70).
  Definition tot (X : stk) : vec := fun c => rsum (map (fun i => X i c) nodes).
  Definition Mnx (X : stk) : stk := fun _ c => / INR (length nodes) * tot X c.
  Hypothesis NE : nodes <> [].
  Lemma NN0 : 0 < INR (length nodes).
  Proof. apply lt_0_INR. destruct nodes; [congruence|cbn; lia]. Qed.
  Lemma seq_refl X : X == X. Proof. intros i I c C; reflexivity. Qed.
  Lemma Mn_add X Y : Mnx (sadd X Y) = sadd (Mnx X) (Mnx Y).
  Proof. apply functional_extensionality; intro i. apply functional_extensionality; intro c. unfold Mnx, tot, sadd, vadd. rewrite rsum_map_add. lra. Qed.
  Lemma Mn_sub X Y : Mnx (ssub X Y) = ssub (Mnx X) (Mnx Y).
  Proof. apply functional_extensionality; intro i. apply functional_extensionality; intro c. unfold Mnx, tot, ssub, vsub. rewrite rsum_map_sub. lra. Qed.
  Lemma Mn_scal a X : Mnx (sscal a X) = sscal a (Mnx X).
  Proof. apply functional_extensionality; intro i. apply functional_extensionality; intro c. unfold Mnx, tot, sscal, vscal. rewrite rsum_map_scal. lra. Qed.
  Lemma Mn_ext X Y : X == Y -> Mnx X == Mnx Y.
  Proof. intros H i I c C. unfold Mnx, tot. f_equal. apply rsum_map_ext. intros j J. apply H; auto. Qed.
  Lemma tot_const v c : tot (fun _ => v) c = INR (length nodes) * v c.
  Proof. unfold tot. rewrite rs_const. reflexivity. Qed.
  Lemma tot_Mn X c : tot (Mnx X) c = tot X c.
  Proof. unfold Mnx. rewrite (tot_const (fun c => / INR (length nodes) * tot X c)). pose proof NN0. field. lra. Qed.
  Lemma Mn_const v i : Mnx (fun _ => v) i = v.
  Proof. apply functional_extensionality; intro c. unfold Mnx. rewrite tot_const. pose proof NN0. field. lra. Qed.
  Lemma ip_const v Y : ip (fun _ => v) Y = dot n v (tot Y).
  Proof.
    rewrite ip_sym, dot_sym. unfold ConvStack.ip, tot.
    pose proof (dot_rsum n Y (fun _ => 1) nodes v) as H. rewrite (rsum_map_ext _ (fun j => dot n (Y j) v)) in H by (intros; lra). rewrite <- H.
    apply dot_ext; auto. intros i _. apply rsum_map_ext. intros; lra.
  Qed.
  Lemma Mn_orth X Y : ip (Mnx X) (Mnx Y) = ip (Mnx X) Y.
  Proof. unfold Mnx at 1 3. rewrite !ip_const. apply dot_ext; auto. intros; apply tot_Mn. Qed.
  Lemma Mn_pyth X : ip X X = ip (ssub X (Mnx X)) (ssub X (Mnx X)) + ip (Mnx X) (Mnx X).
  Proof. rewrite ip_sub_l, !ip_sub_r, (ip_sym nodes n X (Mnx X)), <- Mn_orth. lra. Qed.
  Lemma Mn_le X : ip (Mnx X) (Mnx X) <= ip X X.
  Proof. rewrite (Mn_pyth X). pose proof (ip_pos nodes n (ssub X (Mnx X))). lra. Qed.
  Lemma dev_le X : ip (ssub X (Mnx X)) (ssub X (Mnx X)) <= ip X X.
  Proof. rewrite (Mn_pyth X). pose proof (ip_pos nodes n (Mnx X)). lra. Qed.
  Lemma dev_tot X c : tot (ssub X (Mnx X)) c = 0.
  Proof. pose proof (tot_Mn X c) as H. unfold tot in *. unfold ssub at 1, vsub at 1. rewrite rsum_map_sub. lra. Qed.
End MeanStack.

Section Step.
  Variables (t : topo) (n : nat) (W : agent_id -> agent_id -> R) (del : R).
  Hypothesis ND : NoDup (t_nodes t).
  Hypothesis MX : mixing t W.
  Notation nodes := (t_nodes t).
  Hypothesis NE : nodes <> [].
  Notation ip := (ip nodes n).
  Notation A := (Ah t W).
  Notation Mn := (Mnx nodes).
  Notation "X == Y" := (seq_ nodes n X Y) (at level 70).
  (** W X *)
  Definition Wx (X : stk) : stk := ssub X (sscal 2 (A X)).
  Hypothesis D0 : 0 < del <= 1.
  Hypothesis CT : forall X, (forall c, (c < n)%nat -> rsum (map (fun i => X i c) nodes) = 0) -> ip (Wx X) (Wx X) <= (1 - del) * ip X X.
  Definition dev (X : stk) : stk := ssub X (Mn X).
  Lemma dev_at X i c : dev X i c = X i c - Mn X i c. Proof. reflexivity. Qed.
  Lemma Wx_add X Y : Wx (sadd X Y) == sadd (Wx X) (Wx Y).
  Proof. intros i I c C. unfold Wx. rewrite Ah_add. unfold ssub, sscal, sadd, vsub, vscal, vadd. lra. Qed.
  Lemma Wx_le X : ip (Wx X) (Wx X) <= ip X X.
  Proof.
    unfold Wx. rewrite ip_sub_l, !ip_sub_r, !ip_scal_l, !ip_scal_r, (ip_sym nodes n (A X) X).
    pose proof (Ah_sq t n W ND MX X). lra.
  Qed.
  Lemma Mn_A X : Mn (A X) == sscal 0 X.
  Proof. intros i I c C. unfold Mnx, tot. rewrite (Ah_total t W ND MX X c). unfold sscal, vscal. lra. Qed.
  Lemma A_Mn X : A (Mn X) == sscal 0 X.
  Proof. intros i I c C. unfold Mnx. rewrite (Ah_const t W ND MX _ i I). unfold vzero, sscal, vscal. lra. Qed.
  Lemma Mn_Wx X : Mn (Wx X) == Mn X.
  Proof. intros i I c C. unfold Wx. rewrite Mn_sub, Mn_scal. pose proof (Mn_A X i I c C) as H. unfold ssub, sscal, vsub, vscal in *. lra. Qed.
  Lemma dev_Wx X : dev (Wx X) == Wx (dev X).
  Proof.
    intros i I c C. unfold dev. pose proof (Mn_Wx X i I c C) as H. pose proof (A_Mn X i I c C) as H2.
    unfold Wx at 3. rewrite Ah_sub. unfold ssub, sscal, vsub, vscal in *. rewrite H. unfold Wx, ssub, sscal, vsub, vscal. lra.
  Qed.
  Lemma sq_add X Y s : 0 < s -> ip (sadd X Y) (sadd X Y) <= (1 + s) * ip X X + (1 + / s) * ip Y Y.
  Proof. intro S. rewrite !ip_add_l, !ip_add_r, (ip_sym nodes n Y X). pose proof (ip_young nodes n X Y s S). lra. Qed.
  Lemma inv_del : 1 <= / del.
  Proof. rewrite <- Rinv_1. apply Rinv_le_contravar; lra. Qed.
  (** mixing after or before a perturbation brings the deviations down *)
  Lemma mix_pert u d y : u == sadd (Wx y) d \/ u == Wx (sadd y d) ->
    ip (dev u) (dev u) <= (1 - del / 2) * ip (dev y) (dev y) + 3 / del * ip d d.
  Proof.
    intro H. pose proof inv_del as ID.
    assert (exists p, dev u == sadd (Wx (dev y)) p /\ ip p p <= ip d d) as (p & EP & PP).
    { destruct H as [H|H].
      - exists (dev d). split; [|apply dev_le; auto]. intros i I c C. rewrite dev_at, (Mn_ext nodes n _ _ H i I c C), (H i I c C), Mn_add.
        pose proof (dev_Wx y i I c C) as H2. rewrite dev_at in H2. unfold sadd, vadd. rewrite (dev_at d). lra.
      - exists (Wx (dev d)). split.
        + intros i I c C. rewrite <- (Wx_add (dev y) (dev d) i I c C). rewrite dev_at, (Mn_ext nodes n _ _ H i I c C), (H i I c C).
          pose proof (dev_Wx (sadd y d) i I c C) as H2. rewrite dev_at in H2. rewrite H2. unfold dev. rewrite Mn_add.
          replace (ssub (sadd y d) (sadd (Mn y) (Mn d))) with (sadd (ssub y (Mn y)) (ssub d (Mn d))); [reflexivity|].
          apply functional_extensionality; intro j. apply functional_extensionality; intro k. unfold sadd, ssub, vadd, vsub. lra.
        + eapply Rle_trans; [apply Wx_le|]. apply dev_le; auto. }
    rewrite (ip_ext nodes n _ _ _ _ EP EP). eapply Rle_trans; [apply (sq_add _ _ (del / 2)); lra|].
    pose proof (CT (dev y)) as C1. specialize (C1 ltac:(intros c _; apply (dev_tot nodes NE y c))).
    set (T := ip (dev y) (dev y)) in *. assert (TP : 0 <= T) by apply ip_pos. pose proof (ip_pos nodes n p) as P0. pose proof (ip_pos nodes n d) as Pd.
    apply Rmult_le_compat_l with (r := 1 + del / 2) in C1; [|lra].
    assert (C2 : (1 + del / 2) * ((1 - del) * T) <= (1 - del / 2) * T).
    { rewrite <- Rmult_assoc. apply Rmult_le_compat_r; auto. assert (0 <= del * del) by (apply Rmult_le_pos; lra). lra. }
    assert (C3 : (1 + / (del / 2)) * ip p p <= 3 / del * ip d d).
    { apply Rmult_le_compat; auto; [|]; replace (/ (del / 2)) with (2 * / del) by (field; lra); unfold Rdiv; lra. }
    lra.
  Qed.
  Variables (F : agent_id -> vec -> R) (G : agent_id -> vec -> vec) (m L a : R) (xs : vec).
  Hypothesis SC : forall i, In i nodes -> smooth_strongly_convex n (F i) (G i) m L.
  Hypothesis MP : 0 < m <= L.
  Hypothesis AP : 0 < a.
  Hypothesis MIN : minimises nodes F xs.
  Hypothesis AL : a * L <= 1.
  Notation gst := (gst G).
  Notation cs := (fun _ : agent_id => xs).
  Lemma Lp : 0 < L. Proof. lra. Qed.
  Lemma am1 : 0 < a * m <= 1. Proof. assert (a * m <= a * L) by (apply Rmult_le_compat_l; lra). split; [apply Rmult_lt_0_compat|]; lra. Qed.
  Lemma g_coercive x y : let d := ssub x y in let g := ssub (gst x) (gst y) in ip g g <= L * ip g d.
  Proof. intros d g. unfold ConvStack.ip. rewrite <- rsum_map_scal. apply rs_le. intros i I. apply (coercive n (F i) (G i) m L (SC i I) ltac:(lra) Lp). Qed.
  Lemma g_mono x y : let d := ssub x y in let g := ssub (gst x) (gst y) in m * ip d d <= ip g d.
  Proof. intros d g. unfold ConvStack.ip. rewrite <- rsum_map_scal. apply rs_le. intros i I. apply (strongly_monotone n (F i) (G i) m L (SC i I)). Qed.
  Lemma g_lip x y : let d := ssub x y in let g := ssub (gst x) (gst y) in ip g g <= L * L * ip d d.
  Proof.
    intros d g. pose proof (g_coercive x y) as CO. cbv zeta in CO. fold d g in CO. pose proof Lp.
    pose proof (ip_young nodes n g d (/ L) ltac:(now apply Rinv_0_lt_compat)) as Y. rewrite Rinv_inv in Y.
    apply Rmult_le_compat_l with (r := L) in Y; [|lra]. rewrite Rmult_plus_distr_l, <- !Rmult_assoc, Rinv_r, Rmult_1_l in Y by lra. lra.
  Qed.
  Lemma g_star : Mn (gst cs) == sscal 0 cs.
  Proof. intros i I c C. unfold Mnx, tot, ConvDGD.gst. rewrite (stationary n nodes F G L xs Lp ltac:(eauto) MIN c C). unfold sscal, vscal. lra. Qed.

  Definition Pe (x : stk) : R := ip (ssub (Mn x) cs) (ssub (Mn x) cs).
  Definition Ce (x : stk) : R := ip (dev x) (dev x).
  Lemma err_split x : ip (ssub x cs) (ssub x cs) = Ce x + Pe x.
  Proof.
    rewrite (Mn_pyth nodes n NE (ssub x cs)). rewrite Mn_sub.
    f_equal; apply ip_ext; intros i I c C; unfold dev, ssub, vsub; rewrite (Mn_const nodes NE xs i); lra.
  Qed.
  Lemma mean_step' x x' : Mn x' == ssub (Mn x) (sscal a (Mn (gst x))) -> Pe x' <= (1 - a * m / 2) * Pe x + 3 * a * (L * L) / m * Ce x.
  Proof.
    intros HX. set (e := ssub (Mn x) cs). set (h := ssub (gst (Mn x)) (gst cs)). set (r := ssub (gst x) (gst (Mn x))).
    pose proof am1 as AM.
    assert (E : ssub (Mn x') cs == sadd (ssub e (sscal a (Mn h))) (sscal (- a) (Mn r))).
    { intros i I c C. unfold ssub at 1, vsub at 1. rewrite (HX i I c C). pose proof (g_star i I c C) as H2. unfold e, h, r. rewrite !Mn_sub. unfold ssub, sadd, sscal, vsub, vadd, vscal in *. rewrite H2. lra. }
    unfold Pe. rewrite (ip_ext nodes n _ _ _ _ E E). fold e.
    eapply Rle_trans; [apply (sq_add _ _ (a * m / 2)); lra|].
    assert (EH : ip e (Mn h) = ip h e).
    { assert (EE : e == Mn (ssub x cs)) by (intros i I c C; unfold e; rewrite Mn_sub; unfold ssub, vsub; rewrite (Mn_const nodes NE xs i); lra).
      rewrite (ip_ext nodes n e (Mn (ssub x cs)) (Mn h) (Mn h) EE (seq_refl nodes n _)), Mn_orth by auto.
      rewrite ip_sym. apply ip_ext; [apply seq_refl|]. intros i I c C. symmetry. apply EE; auto. }
    assert (CO : ip h h <= L * ip h e) by apply (g_coercive (Mn x) cs).
    assert (ST : m * ip e e <= ip h e) by apply (g_mono (Mn x) cs).
    assert (B1 : ip (ssub e (sscal a (Mn h))) (ssub e (sscal a (Mn h))) <= (1 - a * m) * ip e e).
    { rewrite ip_sub_l, !ip_sub_r, !ip_scal_l, !ip_scal_r, (ip_sym nodes n (Mn h) e), EH. pose proof (Mn_le nodes n NE h) as ML.
      pose proof (ip_pos nodes n e). assert (HE : 0 <= ip h e) by (assert (0 <= m * ip e e) by (apply Rmult_le_pos; lra); lra).
      assert (X1 : a * (a * ip (Mn h) (Mn h)) <= a * (a * L * ip h e)) by (apply Rmult_le_compat_l; [lra|]; rewrite Rmult_assoc; apply Rmult_le_compat_l; lra).
      assert (X2 : a * (a * L * ip h e) <= a * (1 * ip h e)) by (apply Rmult_le_compat_l; [lra|]; apply Rmult_le_compat_r; lra).
      assert (X3 : a * (m * ip e e) <= a * ip h e) by (apply Rmult_le_compat_l; lra). lra. }
    assert (B2 : ip (sscal (- a) (Mn r)) (sscal (- a) (Mn r)) <= a * a * (L * L * Ce x)).
    { rewrite ip_scal_l, ip_scal_r. pose proof (Mn_le nodes n NE r) as ML. pose proof (g_lip x (Mn x)) as GL. cbv zeta in GL. fold r in GL. fold (dev x) in GL. fold (Ce x) in GL.
      assert (a * (a * ip (Mn r) (Mn r)) <= a * (a * (L * L * Ce x))); [|lra]. apply Rmult_le_compat_l; [lra|]. apply Rmult_le_compat_l; lra. }
    assert (CP : 0 <= Ce x) by apply ip_pos. pose proof (ip_pos nodes n e) as Pe0.
    apply Rmult_le_compat_l with (r := 1 + a * m / 2) in B1; [|lra].
    assert (B3 : (1 + a * m / 2) * ((1 - a * m) * ip e e) <= (1 - a * m / 2) * ip e e).
    { rewrite <- Rmult_assoc. apply Rmult_le_compat_r; auto. assert (0 <= a * m * (a * m)) by (apply Rmult_le_pos; lra). lra. }
    assert (IA : 0 < / (a * m)) by (apply Rinv_0_lt_compat; lra).
    assert (IA1 : 1 <= / (a * m)) by (rewrite <- Rinv_1; apply Rinv_le_contravar; lra).
    assert (B4 : (1 + / (a * m / 2)) * ip (sscal (- a) (Mn r)) (sscal (- a) (Mn r)) <= 3 * / (a * m) * (a * a * (L * L * Ce x))).
    { apply Rmult_le_compat; auto; [|apply ip_pos|]; replace (/ (a * m / 2)) with (2 * / (a * m)) by (field; lra); lra. }
    replace (3 * / (a * m) * (a * a * (L * L * Ce x))) with (3 * a * (L * L) / m * Ce x) in B4 by (field; lra). lra.
  Qed.
  Lemma mean_step x x' y : Mn y == Mn (gst x) -> x' == Wx (ssub x (sscal a y)) -> Pe x' <= (1 - a * m / 2) * Pe x + 3 * a * (L * L) / m * Ce x.
  Proof.
    intros HY HX. apply mean_step'. intros i I c C. rewrite (Mn_ext nodes n _ _ HX i I c C), (Mn_Wx _ i I c C), Mn_sub, Mn_scal.
    pose proof (HY i I c C) as H1. unfold ssub, sscal, vsub, vscal. now rewrite H1.
  Qed.
  Lemma cons_step x x' y : x' == Wx (ssub x (sscal a y)) -> Ce x' <= (1 - del / 2) * Ce x + 3 / del * (a * a * ip (dev y) (dev y)).
  Proof.
    intro HX. unfold Ce. 
    assert (E : dev x' == Wx (sadd (dev x) (sscal (- a) (dev y)))).
    { intros i I c C. rewrite dev_at, (Mn_ext nodes n _ _ HX i I c C), (HX i I c C).
      pose proof (dev_Wx (ssub x (sscal a y)) i I c C) as H2. rewrite dev_at in H2. rewrite H2. unfold dev. rewrite Mn_sub, Mn_scal.
      replace (ssub (ssub x (sscal a y)) (ssub (Mn x) (sscal a (Mn y)))) with (sadd (ssub x (Mn x)) (sscal (- a) (ssub y (Mn y)))); [reflexivity|].
      apply functional_extensionality; intro j. apply functional_extensionality; intro k. unfold sadd, ssub, sscal, vadd, vsub, vscal. lra. }
    rewrite (ip_ext nodes n _ _ _ _ E E). set (v := sadd (dev x) (sscal (- a) (dev y))).
    pose proof (CT v) as C1. specialize (C1 ltac:(intros c _; unfold v; replace (sadd (dev x) (sscal (- a) (dev y))) with (dev (sadd x (sscal (- a) y))); [apply (dev_tot nodes NE _ c)|unfold dev; rewrite Mn_add, Mn_scal; apply functional_extensionality; intro j; apply functional_extensionality; intro k; unfold sadd, ssub, sscal, vadd, vsub, vscal; lra])).
    pose proof (sq_add (dev x) (sscal (- a) (dev y)) (del / 2) ltac:(lra)) as C2. fold v in C2. rewrite ip_scal_l, ip_scal_r in C2.
    pose proof inv_del as ID. pose proof (ip_pos nodes n (dev x)) as P1. pose proof (ip_pos nodes n (dev y)) as P2.
    set (c0 := ip (dev x) (dev x)) in *. set (t0 := ip (dev y) (dev y)) in *.
    replace (/ (del / 2)) with (2 * / del) in C2 by (field; lra).
    apply Rmult_le_compat_l with (r := 1 - del) in C2; [|lra].
    assert (C3 : (1 - del) * (1 + del / 2) * c0 <= (1 - del / 2) * c0) by (apply Rmult_le_compat_r; auto; assert (0 <= del * del) by (apply Rmult_le_pos; lra); lra).
    assert (AT : 0 <= a * a * t0) by (apply Rmult_le_pos; auto; apply Rmult_le_pos; lra).
    assert (C4 : (1 - del) * (1 + 2 * / del) * (a * a * t0) <= 3 / del * (a * a * t0)).
    { apply Rmult_le_compat_r; auto. unfold Rdiv. apply Rle_trans with (1 * (1 + 2 * / del)); [apply Rmult_le_compat_r; lra|lra]. }
    lra.
  Qed.
  (** how far the agents move *)
  Lemma move x x' y : Mn y == Mn (gst x) -> x' == Wx (ssub x (sscal a y)) ->
    ip (ssub x' x) (ssub x' x) <= 10 * Ce x + 2 * (a * a) * ip (dev y) (dev y) + 2 * (a * a * (L * L)) * Pe x.
  Proof.
    intros HY HX. 
    assert (E : ssub x' x == sadd (sscal (-2) (A (dev x))) (sscal (- a) (Wx y))).
    { intros i I c C. unfold ssub at 1, vsub at 1. rewrite (HX i I c C). unfold Wx at 1. rewrite Ah_sub, Ah_scal. unfold dev. rewrite Ah_sub.
      pose proof (A_Mn x i I c C) as H. unfold Wx, sadd, ssub, sscal, vadd, vsub, vscal in *. lra. }
    rewrite (ip_ext nodes n _ _ _ _ E E). eapply Rle_trans; [apply (sq_add _ _ 1); lra|]. rewrite Rinv_1.
    rewrite !ip_scal_l, !ip_scal_r. pose proof (Ah_sq t n W ND MX (dev x)) as H1. pose proof (Ah_le t n W ND MX (dev x)) as H2. fold (Ce x) in H2.
    pose proof (Wx_le y) as H3. rewrite (Mn_pyth nodes n NE y) in H3. fold (dev y) in H3.
    assert (H4 : ip (Mn y) (Mn y) <= L * L * (Ce x + Pe x)).
    { rewrite <- err_split. eapply Rle_trans; [|apply (g_lip x cs)]. set (g := ssub (gst x) (gst cs)).
      rewrite (ip_ext nodes n (Mn y) (Mn g) (Mn y) (Mn g)); [apply Mn_le; auto| |]; intros i I c C; unfold g; rewrite Mn_sub; unfold ssub, vsub; rewrite (HY i I c C), (g_star i I c C); unfold sscal, vscal; lra. }
    assert (CP : 0 <= Ce x) by apply ip_pos. assert (PP : 0 <= Pe x) by apply ip_pos. 
    assert (AA : 0 <= a * a) by (apply Rmult_le_pos; lra).
    apply Rmult_le_compat_l with (r := a * a) in H3; auto. apply Rmult_le_compat_l with (r := a * a) in H4; auto.
    assert (AC : a * a * (L * L) * Ce x <= 1 * Ce x).
    { apply Rmult_le_compat_r; auto. replace (a * a * (L * L)) with ((a * L) * (a * L)) by lra. pose proof Lp. assert (0 < a * L) by (apply Rmult_lt_0_compat; lra).
      assert ((a * L) * (a * L) <= 1 * 1) by (apply Rmult_le_compat; lra). lra. }
    lra.
  Qed.
  Hypothesis A1 : a * L <= del * del / 48.
  Hypothesis A2 : a * (L * L) <= m / 2.
  Definition c1 : R := 12 * a * (L * L) / (m * del).
  Definition c2 : R := c1 * (del * del) / (240 * (L * L)).
  Definition Vt (x y : stk) : R := Pe x + c1 * Ce x + c2 * ip (dev y) (dev y).
  Definition rate : R := Rmin (a * m / 4) (del / 8).
  Lemma c1_pos : 0 < c1.
  Proof. pose proof Lp. unfold c1. apply Rdiv_lt_0_compat; [|apply Rmult_lt_0_compat; lra]. apply Rmult_lt_0_compat; [lra|apply Rmult_lt_0_compat; lra]. Qed.
  Lemma c2_pos : 0 < c2.
  Proof.
    pose proof Lp. unfold c2. pose proof c1_pos. assert (0 < L * L) by (apply Rmult_lt_0_compat; lra).
    apply Rdiv_lt_0_compat; [|lra]. apply Rmult_lt_0_compat; [lra|apply Rmult_lt_0_compat; lra].
  Qed.
  Lemma Vt_step x x' y y' : Mn y == Mn (gst x) -> x' == Wx (ssub x (sscal a y)) ->
    (y' == sadd (Wx y) (ssub (gst x') (gst x)) \/ y' == Wx (sadd y (ssub (gst x') (gst x)))) ->
    Mn y' == Mn (gst x') /\ Vt x' y' <= (1 - rate) * Vt x y.
  Proof.
    intros HY HX HZ. split.
    { intros i I c C. pose proof (HY i I c C) as H. destruct HZ as [HZ|HZ]; rewrite (Mn_ext nodes n _ _ HZ i I c C).
      - rewrite Mn_add, Mn_sub. pose proof (Mn_Wx y i I c C) as H2. unfold sadd, ssub, vadd, vsub. lra.
      - rewrite (Mn_Wx _ i I c C), Mn_add, Mn_sub. unfold sadd, ssub, vadd, vsub. lra. }
    pose proof (mean_step x x' y HY HX) as H1. pose proof (cons_step x x' y HX) as H2. pose proof (mix_pert _ _ _ HZ) as H3.
    pose proof (g_lip x' x) as H4. cbv zeta in H4. pose proof (move x x' y HY HX) as H5.
    set (dd := ip (ssub (gst x') (gst x)) (ssub (gst x') (gst x))) in *. set (T := ip (dev y) (dev y)) in *. set (T' := ip (dev y') (dev y')) in *.
    set (P := Pe x) in *. set (C := Ce x) in *. unfold Vt. fold P C T T'. set (P' := Pe x') in *. set (C' := Ce x') in *.
    assert (T0 : 0 <= T) by apply ip_pos. assert (C0 : 0 <= C) by apply ip_pos. assert (P0 : 0 <= P) by apply ip_pos.
    pose proof Lp as LP. pose proof c1_pos as K1. pose proof c2_pos as K2. pose proof inv_del as ID. pose proof am1 as AM.
    assert (LL : 0 < L * L) by (apply Rmult_lt_0_compat; lra).
    apply Rmult_le_compat_l with (r := L * L) in H5; [|lra].
    assert (H6 : T' <= (1 - del / 2) * T + 3 / del * (L * L * (10 * C + 2 * (a * a) * T + 2 * (a * a * (L * L)) * P))).
    { eapply Rle_trans; [exact H3|]. apply Rplus_le_compat_l. apply Rmult_le_compat_l; [unfold Rdiv; lra|]. eapply Rle_trans; eauto. }
    apply Rmult_le_compat_l with (r := c2) in H6; [|lra]. apply Rmult_le_compat_l with (r := c1) in H2; [|lra].
    assert (R1 : rate <= a * m / 4) by apply Rmin_l. assert (R2 : rate <= del / 8) by apply Rmin_r.
    (* coefficients *)
    assert (KP : c2 * (3 / del * (L * L * (2 * (a * a * (L * L))))) <= a * m / 4).
    { replace (c2 * (3 / del * (L * L * (2 * (a * a * (L * L)))))) with (3/10 * (a / m) * ((a * (L * L)) * (a * (L * L)))) by (unfold c2, c1; field; lra).
      assert (Q : (a * (L * L)) * (a * (L * L)) <= (m / 2) * (m / 2)) by (apply Rmult_le_compat; try lra; apply Rmult_le_pos; lra).
      assert (AM' : 0 < a / m) by (apply Rdiv_lt_0_compat; lra).
      apply Rmult_le_compat_l with (r := 3/10 * (a / m)) in Q; [|lra]. replace (3/10 * (a / m) * (m / 2 * (m / 2))) with (3/40 * (a * m)) in Q by (field; lra). lra. }
    assert (KC : 3 * a * (L * L) / m = c1 * (del / 4)) by (unfold c1; field; lra).
    assert (KC2 : c2 * (3 / del * (L * L * 10)) = c1 * (del / 8)) by (unfold c2; field; lra).
    assert (AD : a * L * (a * L) <= (del * del / 48) * (del * del / 48)) by (assert (0 < a * L) by (apply Rmult_lt_0_compat; lra); apply Rmult_le_compat; lra).
    assert (D3 : 0 < / (del * del * del)) by (apply Rinv_0_lt_compat; repeat apply Rmult_lt_0_compat; lra).
    assert (KT : c1 * (3 / del * (a * a)) + c2 * (3 / del * (L * L * (2 * (a * a)))) <= c2 * (3 / 8 * del) ).
    { replace (c1 * (3 / del * (a * a))) with (c2 * (720 * (a * L * (a * L)) * / (del * del * del))) by (unfold c2; field; lra).
      replace (c2 * (3 / del * (L * L * (2 * (a * a))))) with (c2 * (6 * (a * L * (a * L)) * / del)) by (field; lra).
      rewrite <- Rmult_plus_distr_l. apply Rmult_le_compat_l; [lra|].
      assert (J1 : 720 * (a * L * (a * L)) * / (del * del * del) <= 720 * ((del * del / 48) * (del * del / 48)) * / (del * del * del)) by (apply Rmult_le_compat_r; lra).
      replace (720 * ((del * del / 48) * (del * del / 48)) * / (del * del * del)) with (5 / 16 * del) in J1 by (field; lra).
      assert (J2 : 6 * (a * L * (a * L)) * / del <= 6 * ((del * del / 48) * (del * del / 48)) * / del) by (apply Rmult_le_compat_r; lra).
      replace (6 * ((del * del / 48) * (del * del / 48)) * / del) with (del * (del * del) / 384) in J2 by (field; lra).
      assert (J3 : del * (del * del) <= del * (1 * 1)) by (apply Rmult_le_compat_l; [lra|]; apply Rmult_le_compat; lra). lra. }
    assert (FP : (1 - a * m / 2) * P + c2 * (3 / del * (L * L * (2 * (a * a * (L * L))))) * P <= (1 - rate) * P).
    { rewrite <- Rmult_plus_distr_r. apply Rmult_le_compat_r; auto. lra. }
    assert (FC : 3 * a * (L * L) / m * C + c1 * (1 - del / 2) * C + c2 * (3 / del * (L * L * 10)) * C <= (1 - rate) * (c1 * C)).
    { rewrite KC, KC2. replace (c1 * (del / 4) * C + c1 * (1 - del / 2) * C + c1 * (del / 8) * C) with ((1 - del / 8) * (c1 * C)) by lra.
      apply Rmult_le_compat_r; [apply Rmult_le_pos; lra|lra]. }
    assert (FT : c2 * (1 - del / 2) * T + (c1 * (3 / del * (a * a)) + c2 * (3 / del * (L * L * (2 * (a * a))))) * T <= (1 - rate) * (c2 * T)).
    { rewrite <- Rmult_plus_distr_r. rewrite <- (Rmult_assoc (1 - rate)). apply Rmult_le_compat_r; auto.
      assert (rate * c2 <= del / 8 * c2) by (apply Rmult_le_compat_r; lra). lra. }
    lra.
  Qed.
End Step.

Section Run.
  Variables (t : topo) (n : nat) (W : agent_id -> agent_id -> R) (w0 : R).
  Hypothesis PT : p2p_topo t.
  Hypothesis CN : connected t.
  Hypothesis MX : mixing t W.
  Hypothesis W0 : 0 < w0.
  Hypothesis DG : forall i, In i (t_nodes t) -> w0 <= W i i.
  Notation nodes := (t_nodes t).
  Notation ip := (ip nodes n).
  Lemma contract : exists del, 0 < del <= 1 /\
    forall X, (forall c, (c < n)%nat -> rsum (map (fun i => X i c) nodes) = 0) -> ip (Wx t W X) (Wx t W X) <= (1 - del) * ip X X.
  Proof.
    pose proof (p2p_nodup t PT) as ND. destruct (gap t n W ND MX CN (p2p_edges t PT)) as (lam & (L0 & L1) & _ & GAP).
    set (w := Rmin w0 (1/2)). assert (WP : 0 < w) by (apply Rmin_glb_lt; lra). assert (WH : w <= 1/2) by apply Rmin_r. assert (WW : w <= w0) by apply Rmin_l.
    assert (DW : forall i, In i nodes -> w <= W i i) by (intros i I; specialize (DG i I); lra).
    exists (w * lam). split.
    { split; [now apply Rmult_lt_0_compat|]. assert (w * lam <= 1 * 1) by (apply Rmult_le_compat; lra). lra. }
    intros X Z. pose proof (GAP X Z) as H1. pose proof (A_top t n W w ND MX DW (1 - w) X ltac:(lra) ltac:(lra)) as H2.
    unfold Wx. rewrite ip_sub_l, !ip_sub_r, !ip_scal_l, !ip_scal_r, (ip_sym nodes n (Ah t W X) X). pose proof (ip_pos nodes n X) as P.
    apply Rmult_le_compat_l with (r := w) in H1; [|lra]. assert (0 <= w * lam * ip X X) by (apply Rmult_le_pos; [apply Rmult_le_pos; lra|auto]). lra.
  Qed.
  (** any iteration of the two forms *)
  Lemma track_converges : exists del, 0 < del <= 1 /\ forall F G m L a xs,
    (forall i, In i nodes -> smooth_strongly_convex n (F i) (G i) m L) -> 0 < m <= L -> 0 < a -> minimises nodes F xs ->
    a * L <= del * del / 48 -> a * (L * L) <= m / 2 ->
    let q := 1 - Rmin (a * m / 4) (del / 8) in 0 <= q < 1 /\
    forall x0, exists C, forall N (X Y : nat -> stk),
      (forall i, In i nodes -> X 0%nat i = x0 i /\ Y 0%nat i = G i (x0 i)) ->
      (forall k i, (k < N)%nat -> In i nodes -> X (S k) i = row_of t W (fun j => vsub (X k j) (vscal a (Y k j))) i) ->
      ((forall k i, (k < N)%nat -> In i nodes -> Y (S k) i = vsub (vadd (row_of t W (Y k) i) (G i (X (S k) i))) (G i (X k i))) \/
       (forall k i, (k < N)%nat -> In i nodes -> Y (S k) i = row_of t W (fun j => vsub (vadd (Y k j) (G j (X (S k) j))) (G j (X k j))) i)) ->
      forall k, (k <= N)%nat -> sq_error nodes n (X k) xs <= C * q ^ k.
  Proof.
    pose proof (p2p_nodup t PT) as ND. destruct contract as (del & D0 & CT). exists del. split; [exact D0|].
    intros F G m L a xs SC MP AP MIN A1 A2 q. change q with (1 - rate del m a).
    assert (AL : a * L <= 1) by (assert (del * del <= 1 * 1) by (apply Rmult_le_compat; lra); lra).
    assert (RQ : 0 < rate del m a <= 1).
    { unfold rate. split; [apply Rmin_glb_lt; [|lra]; assert (0 < a * m) by (apply Rmult_lt_0_compat; lra); lra|]. eapply Rle_trans; [apply Rmin_r|lra]. }
    split; [lra|]. intro x0.
    assert (nodes = [] \/ nodes <> []) as [E|NE] by (destruct nodes; [now left|right; discriminate]).
    { exists 0. intros N X Y _ _ _ k _. unfold sq_error. rewrite E. cbn [map]. rewrite rsum_nil. lra. }
    set (k1 := c1 del m L a). pose proof (c1_pos del D0 m L a MP AP) as K1. fold k1 in K1. pose proof (c2_pos del D0 m L a MP AP) as K2.
    set (V0 := Vt t n del m L a xs x0 (gst G x0)). exists ((1 + / k1) * V0). intros N X Y I0 IX IY.
    assert (EX0 : seq_ nodes n (X 0%nat) x0) by (intros i I c C; now rewrite (proj1 (I0 i I))).
    assert (EY0 : seq_ nodes n (Y 0%nat) (gst G x0)) by (intros i I c C; now rewrite (proj2 (I0 i I))).
    assert (EM : forall X Y : stk, seq_ nodes n X Y -> seq_ nodes n (dev t X) (dev t Y)) by (intros X1 Y1 H i I c C; rewrite !dev_at, (Mn_ext nodes n _ _ H i I c C), (H i I c C); reflexivity).
    assert (ROW : forall Z i, In i nodes -> row_of t W Z i = Wx t W Z i) by (intros Z i I; rewrite (row_W_Ah t W ND) by auto; reflexivity).
    assert (INV : forall k, (k <= N)%nat -> seq_ nodes n (Mnx nodes (Y k)) (Mnx nodes (gst G (X k))) /\ Vt t n del m L a xs (X k) (Y k) <= V0 * (1 - rate del m a) ^ k).
    { induction k as [|k IH]; intro K.
      - split.
        + apply Mn_ext. intros i I c C. rewrite (proj2 (I0 i I)). unfold gst. now rewrite (proj1 (I0 i I)).
        + cbn [pow]. rewrite Rmult_1_r. right. unfold V0, Vt, Pe, Ce. f_equal; [f_equal; [|f_equal]|f_equal]; apply ip_ext; try (apply EM; assumption);
            intros i I c C; unfold ssub, vsub; now rewrite (Mn_ext nodes n _ _ EX0 i I c C).
      - destruct (IH ltac:(lia)) as (HM & HV).
        destruct (Vt_step t n W del ND MX NE D0 CT F G m L a xs SC MP AP MIN AL A1 A2 (X k) (X (S k)) (Y k) (Y (S k)) HM) as (HM' & HV').
        + intros i I c C. rewrite IX, ROW by auto. reflexivity.
        + destruct IY as [IY|IY]; [left|right]; intros i I c C; rewrite IY by auto; rewrite ROW by auto.
          * unfold sadd, ssub, gst, vadd, vsub. lra.
          * match goal with |- Wx t W ?u i c = Wx t W ?v i c => replace u with v; [reflexivity|] end.
            apply functional_extensionality; intro j. apply functional_extensionality; intro d. unfold sadd, ssub, gst, vadd, vsub. lra.
        + split; [exact HM'|]. cbn [pow]. apply Rmult_le_compat_l with (r := 1 - rate del m a) in HV; [|lra]. lra. }
    intros k K. destruct (INV k K) as (_ & HV).
    change (sq_error nodes n (X k) xs) with (ip (ssub (X k) (fun _ => xs)) (ssub (X k) (fun _ => xs))). rewrite (err_split t n NE xs (X k)).
    unfold Vt in HV. fold k1 in HV. set (P := Pe t n xs (X k)) in *. set (C := Ce t n (X k)) in *. set (T := ip (dev t (Y k)) (dev t (Y k))) in *.
    assert (T0 : 0 <= T) by apply ip_pos. assert (C0 : 0 <= C) by apply ip_pos. assert (P0 : 0 <= P) by apply ip_pos.
    assert (T1 : 0 <= c2 del m L a * T) by (apply Rmult_le_pos; lra). assert (C1 : 0 <= k1 * C) by (apply Rmult_le_pos; lra).
    set (B := V0 * (1 - rate del m a) ^ k) in *. assert (IK : 0 < / k1) by now apply Rinv_0_lt_compat.
    assert (CB : C <= / k1 * B). { replace C with (/ k1 * (k1 * C)) by (field; lra). apply Rmult_le_compat_l; lra. }
    rewrite Rmult_assoc. fold B. lra.
  Qed.

  Theorem atct_converges : exists del, 0 < del <= 1 /\ forall F G grad m L a xs,
    (forall i, In i nodes -> smooth_strongly_convex n (F i) (G i) m L) -> 0 < m <= L -> exact_gradients grad G -> minimises nodes F xs ->
    0 < a -> a * L <= del * del / 48 -> a * (L * L) <= m / 2 ->
    let q := 1 - Rmin (a * m / 4) (del / 8) in 0 <= q < 1 /\
    forall x0, exists C, forall e period N w, synchronous e ->
      exists X, trajectory t period (p2p t e N (track_init grad x0) (atct W grad a)) w X /\ (forall i, In i nodes -> X 0%nat i = x0 i) /\
        forall k, (k <= N)%nat -> sq_error nodes n (X k) xs <= C * q ^ k.
  Proof.
    destruct track_converges as (del & D0 & H). exists del. split; [exact D0|]. intros F G grad m L a xs SC MP EG MIN AP A1 A2 q.
    destruct (H F G m L a xs SC MP AP MIN A1 A2) as (Q & HC). split; [exact Q|]. intro x0. destruct (HC x0) as (C & HC'). exists C.
    intros e period N w SY. destruct (atct_run t e PT SY W ltac:(apply MX) grad period N w a x0) as (X & Y & Gk & TR & _ & _ & I0 & GR & ST).
    exists X. split; [exact TR|]. split; [intros i I; apply I0, I|].
    assert (GE : forall k i, (k <= N)%nat -> In i nodes -> Gk k i = G i (X k i)) by (intros k i K I; destruct (GR k i K I) as (d & ->); apply EG).
    apply (HC' N X Y).
    - intros i I. destruct (I0 i I) as (E1 & E2). split; auto. rewrite E2, GE, E1 by (auto; lia). reflexivity.
    - intros k i K I. apply ST; auto.
    - left. intros k i K I. rewrite (proj2 (ST k i K I)), !GE by (auto; lia). reflexivity.
  Qed.
  Theorem aug_dgm_converges : exists del, 0 < del <= 1 /\ forall F G grad m L a xs,
    (forall i, In i nodes -> smooth_strongly_convex n (F i) (G i) m L) -> 0 < m <= L -> exact_gradients grad G -> minimises nodes F xs ->
    0 < a -> a * L <= del * del / 48 -> a * (L * L) <= m / 2 ->
    let q := 1 - Rmin (a * m / 4) (del / 8) in 0 <= q < 1 /\
    forall x0, exists C, forall e period N w, synchronous e ->
      exists X, trajectory t period (p2p t e N (track_init grad x0) (aug_dgm W grad a)) w X /\ (forall i, In i nodes -> X 0%nat i = x0 i) /\
        forall k, (k <= N)%nat -> sq_error nodes n (X k) xs <= C * q ^ k.
  Proof.
    destruct track_converges as (del & D0 & H). exists del. split; [exact D0|]. intros F G grad m L a xs SC MP EG MIN AP A1 A2 q.
    destruct (H F G m L a xs SC MP AP MIN A1 A2) as (Q & HC). split; [exact Q|]. intro x0. destruct (HC x0) as (C & HC'). exists C.
    intros e period N w SY. destruct (aug_dgm_run t e PT SY W ltac:(apply MX) grad period N w a x0) as (X & Y & Gk & TR & _ & _ & I0 & GR & ST).
    exists X. split; [exact TR|]. split; [intros i I; apply I0, I|].
    assert (GE : forall k i, (k <= N)%nat -> In i nodes -> Gk k i = G i (X k i)) by (intros k i K I; destruct (GR k i K I) as (d & ->); apply EG).
    apply (HC' N X Y).
    - intros i I. destruct (I0 i I) as (E1 & E2). split; auto. rewrite E2, GE, E1 by (auto; lia). reflexivity.
    - intros k i K I. apply ST; auto.
    - right. intros k i K I. rewrite (proj2 (ST k i K I)). unfold row_of. apply functional_extensionality; intro c. apply rsum_map_ext. intros j J. now rewrite !GE by (auto; lia).
  Qed.
End Run.
