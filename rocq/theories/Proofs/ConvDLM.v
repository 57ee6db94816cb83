(** DLM is EXTRA with the weights I - 2 mu rho L, L the Laplacian of the graph. *)
From Coq Require Import Reals String List Bool Lra Lia Arith FunctionalExtensionality.
From Verif.Model Require Import PyDict History Messages Network Runner Vec P2P P2PShared.
From Verif.Spec Require Import CostSpec NetworkSpec P2PSpec P2PSharedSpec ConvSpec.
From Verif.Proofs Require Import NetworkProofs CostProofs VecProofs EmpiricalProofs P2PRuns P2PMean P2PFixed P2PSharedSync ConvStack ConvSolve ConvED ConvEXTRA.
Import ListNotations.
Open Scope R_scope.

Definition lapw (t : topo) (ep : R) (i j : agent_id) : R :=
  if Nat.eqb i j then 1 - ep * INR (length (t_adj t i)) else if memb j (t_adj t i) then ep else 0.
Section Lap.
  Variables (t : topo) (ep : R).
  Hypothesis PT : p2p_topo t.
  Hypothesis EP : 0 < ep.
  Hypothesis DG : forall i, In i (t_nodes t) -> ep * INR (length (t_adj t i)) <= 1.
  Notation nodes := (t_nodes t).
  Lemma adj_sym i j : memb j (t_adj t i) = memb i (t_adj t j).
  Proof. destruct PT as ((_ & SYM & _) & _). apply eq_iff_eq_true. rewrite !memb_In. split; intro H; apply SYM in H; tauto. Qed.
  Lemma adj_irr i : memb i (t_adj t i) = false.
  Proof. destruct (memb i (t_adj t i)) eqn:E; auto. apply memb_In in E. destruct PT as (_ & _ & H). now apply H in E. Qed.
  Lemma lap_row i (f : agent_id -> R) : In i nodes ->
    rsum (map (fun j => lapw t ep i j * f j) nodes) = f i - ep * rsum (map (fun j => f i - f j) (t_adj t i)).
  Proof.
    intro I. rewrite (rsum_point (fun j => lapw t ep i j * f j) (fun j => if memb j (t_adj t i) then ep * f j else 0) i nodes ((1 - ep * INR (length (t_adj t i))) * f i)).
    - rewrite <- (adj_nodes_sum t PT i (fun j => ep * f j)), rsum_map_scal, rsum_map_sub, rs_const. lra.
    - apply PT.
    - exact I.
    - intros j NE. unfold lapw. destruct (Nat.eqb_spec i j) as [->|_]; [congruence|]. destruct (memb j (t_adj t i)); lra.
    - unfold lapw. rewrite Nat.eqb_refl, adj_irr. lra.
  Qed.
  Lemma lap_mixing : mixing t (lapw t ep).
  Proof.
    split; [|split; [|split; [|split]]].
    - intros i j. unfold lapw. rewrite (Nat.eqb_sym j i). destruct (Nat.eqb_spec i j) as [->|_]; [reflexivity|]. now rewrite adj_sym.
    - intros i j. unfold lapw. destruct (Nat.eqb_spec i j) as [_|_].
      + destruct (t_adj t i) as [|b l] eqn:E; [cbn; lra|]. destruct PT as ((_ & SYM & _) & _). destruct (SYM i b) as (I & _); [rewrite E; now left|]. specialize (DG i I). rewrite E in DG. lra.
      + destruct (memb j (t_adj t i)); lra.
    - intros i I. pose proof (lap_row i (fun _ => 1) I) as H. rewrite rsum_map_sub in H. rewrite (rsum_map_ext _ (fun j => lapw t ep i j * 1)) by (intros; lra). lra.
    - intros i j NE NI. unfold lapw. destruct (Nat.eqb_spec i j) as [->|_]; [congruence|]. destruct (memb j (t_adj t i)) eqn:E; auto. apply memb_In in E. contradiction.
    - intros i j J. unfold lapw. destruct (Nat.eqb_spec i j) as [->|_]; [destruct PT as (_ & _ & H); now apply H in J|]. apply memb_In in J. rewrite J. lra.
  Qed.
  Lemma lap_Ah X i c : In i nodes -> Ah t (lapw t ep) X i c = ep / 2 * disagreement t X i c.
  Proof.
    intro I. rewrite (Ah_W t (lapw t ep) (p2p_nodup t PT) X i I). unfold vscal, vsub, Wm, row_of. rewrite (lap_row i (fun j => X j c) I). unfold disagreement. lra.
  Qed.
End Lap.

Section Run.
  Variables (t : topo) (n : nat).
  Hypothesis PT : p2p_topo t.
  Hypothesis CN : connected t.
  Notation nodes := (t_nodes t).
  Lemma dlm_seq F G m L mu rho w0 xs : (forall i, In i nodes -> smooth_strongly_convex n (F i) (G i) m L) -> 0 < m -> 0 < L ->
    0 < mu -> 0 < rho -> 0 < w0 -> (forall i, In i nodes -> 2 * mu * rho * INR (length (t_adj t i)) <= 1 - w0) -> mu * L < 2 * w0 -> minimises nodes F xs ->
    exists q, 0 <= q < 1 /\ forall x0, exists C, forall N (X Y : nat -> stk),
      (forall i, In i nodes -> (0 < N)%nat -> X 1%nat i = x0 i /\ Y 1%nat i = vzero) ->
      (forall k i, (0 < k < N)%nat -> In i nodes ->
        X (S k) i = vsub (X k i) (vscal mu (vadd (vadd (G i (X k i)) (vscal rho (disagreement t (X k) i))) (Y k i))) /\
        Y (S k) i = vadd (Y k i) (vscal rho (disagreement t (X (S k)) i))) ->
      forall k, (k < N)%nat -> sq_error nodes n (X (S k)) xs <= C * q ^ k.
  Proof.
    intros SC MP LP MU RH W0 DG AL MIN. set (ep := 2 * mu * rho). assert (EP : 0 < ep) by (unfold ep; apply Rmult_lt_0_compat; lra).
    set (W := lapw t ep). assert (MX : mixing t W) by (apply lap_mixing; auto; intros i I; specialize (DG i I); unfold ep; lra).
    assert (DW : forall i, In i nodes -> w0 <= W i i) by (intros i I; unfold W, lapw; rewrite Nat.eqb_refl; specialize (DG i I); unfold ep; lra).
    pose proof (p2p_nodup t PT) as ND. destruct (gap t n W ND MX CN (p2p_edges t PT)) as (lam & (L0 & _) & GAP & _).
    destruct (dual_exists t n W PT CN MX F G m L mu xs LP SC MIN) as (qs & QS).
    pose proof (gam_pos lam w0 L0 W0 m L mu MP LP MU AL) as GP. set (ga := gam lam w0 m L mu) in *.
    exists (/ (1 + ga)). assert (QP : 0 < / (1 + ga)) by (apply Rinv_0_lt_compat; lra).
    split. { split; [lra|]. rewrite <- (Rinv_r (1 + ga)) at 2 by lra. rewrite <- (Rmult_1_l (/ (1 + ga))) at 1. apply Rmult_lt_compat_r; lra. }
    intro x0. set (z0 := fun _ : agent_id => vzero). exists (Le t n W xs qs x0 z0 / w0). intros N X Y I0 ST.
    assert (AE : forall Z i c, In i nodes -> Ah t W Z i c = mu * (rho * disagreement t Z i c)) by (intros Z i c I; unfold W; rewrite lap_Ah by auto; unfold ep; lra).
    assert (INV : forall k, (k < N)%nat -> exists q, (forall i c, In i nodes -> mu * Y (S k) i c = Ah t W q i c) /\ Le t n W xs qs (X (S k)) q <= Le t n W xs qs x0 z0 * (/ (1 + ga)) ^ k).
    { induction k as [|k IH]; intro K.
      - exists z0. split.
        + intros i c I. rewrite (proj2 (I0 i I K)). rewrite AE by auto. unfold z0, disagreement, vzero. rewrite (rsum_map_ext _ (fun j => 0 * 0)) by (intros; lra). rewrite rsum_map_scal. lra.
        + cbn [pow]. rewrite Rmult_1_r. right. unfold Le.
          assert (E : seq_ nodes n (dst xs (X 1%nat)) (dst xs x0)) by (intros i I c C; unfold dst; now rewrite (proj1 (I0 i I K))).
          rewrite (ip_ext nodes n _ _ _ _ E E), (ip_ext nodes n _ _ _ _ E (Ah_ext t n W _ _ E)). reflexivity.
      - destruct (IH ltac:(lia)) as (q & EQ & B). exists (sadd q (X (S (S k)))). split.
        + intros i c I. rewrite (proj2 (ST (S k) i ltac:(lia) I)). unfold vadd, vscal. rewrite Ah_add. unfold sadd, vadd. rewrite <- (EQ i c I), AE by auto. lra.
        + assert (EX : seq_ nodes n (X (S (S k))) (ssub (ssub (ssub (X (S k)) (Ah t W (X (S k)))) (fun i => vscal mu (G i (X (S k) i)))) (Ah t W q))).
          { intros i I c C. rewrite (proj1 (ST (S k) i ltac:(lia) I)). unfold ssub, vsub. rewrite <- (EQ i c I), AE by auto. unfold vscal, vadd, vscal. lra. }
          cbn [pow]. pose proof (Le_step t n W lam w0 ND MX L0 GAP W0 DW F G m L mu xs qs SC MP LP MU AL QS (X (S k)) q (X (S (S k))) EX) as H. fold ga in H.
          apply Rmult_le_reg_l with (1 + ga); [lra|]. eapply Rle_trans; [exact H|]. eapply Rle_trans; [exact B|]. right.
          rewrite <- (Rmult_assoc _ (/ (1 + ga))), (Rmult_comm _ (/ (1 + ga))), <- !Rmult_assoc, Rinv_r by lra. lra. }
    intros k K. destruct (INV k K) as (q & _ & B). pose proof (Le_error t n W w0 ND MX DW xs qs (X (S k)) q) as H.
    apply Rmult_le_reg_l with w0; auto. eapply Rle_trans; [exact H|]. eapply Rle_trans; [exact B|]. right. field; lra.
  Qed.
End Run.
