(** The default (Metropolis) weights are mixing weights. *)
From Coq Require Import Reals List Bool Arith Lia Lra.
From Verif.Model Require Import PyDict History Messages Network Vec P2P.
From Verif.Spec Require Import NetworkSpec P2PSpec ConvSpec.
From Verif.Proofs Require Import NetworkProofs EmpiricalProofs P2PRuns P2PMean ConvStack.
Import ListNotations.
Open Scope R_scope.

Lemma rsum_le_count (f : agent_id -> R) (l q : list agent_id) (c : R) : NoDup l -> 0 <= c ->
  (forall j, f j <= c) -> (forall j, ~ In j q -> f j <= 0) -> rsum (map f l) <= INR (length q) * c.
Proof.
  intros ND C B Z.
  assert (H : rsum (map f l) <= rsum (map (fun _ => c) (filter (fun j => memb j q) l))).
  { clear ND. induction l as [|j l IH]; [cbn; lra|]. cbn [map filter]. rewrite rsum_cons. destruct (memb j q) eqn:E.
    - cbn [map]. rewrite rsum_cons. specialize (B j). lra.
    - assert (~ In j q) by (intro I; apply memb_In in I; congruence). specialize (Z j H). lra. }
  eapply Rle_trans; [exact H|]. rewrite rs_const. apply Rmult_le_compat_r; auto. apply le_INR.
  apply NoDup_incl_length; [now apply NoDup_filter|]. intros j J. apply filter_In in J. destruct J as (_ & J). now apply memb_In.
Qed.

Lemma metropolis_mixing t : p2p_topo t -> mixing t (metropolis t).
Proof.
  intro PT. split; [now apply metropolis_sym|]. split; [|split; [now apply metropolis_row|split; [now apply metropolis_sparse|]]].
  - assert (QP : forall i j, 0 <= 1 / (1 + INR (Nat.max (length (t_adj t i)) (length (t_adj t j)))) <= / (1 + INR (length (t_adj t i)))).
    { intros i j. pose proof (pos_INR (length (t_adj t i))). assert (INR (length (t_adj t i)) <= INR (Nat.max (length (t_adj t i)) (length (t_adj t j)))) by (apply le_INR; lia).
      unfold Rdiv. rewrite Rmult_1_l. split; [left; apply Rinv_0_lt_compat; lra|]. apply Rinv_le_contravar; lra. }
    intros i j. rewrite (metropolis_eq t PT). destruct (Nat.eqb i j && memb i (t_nodes t)).
    + assert (rsum (map (fun b => if memb i (t_nodes t) && memb b (t_adj t i) then 1 / (1 + INR (Nat.max (length (t_adj t i)) (length (t_adj t b)))) else 0) (t_nodes t))
        <= INR (length (t_adj t i)) * / (1 + INR (length (t_adj t i)))).
      { pose proof (pos_INR (length (t_adj t i))). assert (0 <= / (1 + INR (length (t_adj t i)))) by (left; apply Rinv_0_lt_compat; lra).
        apply rsum_le_count; auto; [apply PT| |].
        - intro b. destruct (memb i (t_nodes t) && memb b (t_adj t i)); auto. apply QP.
        - intros b B. destruct (memb b (t_adj t i)) eqn:E; [apply memb_In in E; contradiction|]. rewrite andb_false_r. lra. }
      pose proof (pos_INR (length (t_adj t i))). assert (INR (length (t_adj t i)) * / (1 + INR (length (t_adj t i))) <= 1).
      { apply Rmult_le_reg_r with (1 + INR (length (t_adj t i))); [lra|]. rewrite Rmult_assoc, Rinv_l by lra. lra. }
      lra.
    + destruct (memb i (t_nodes t) && memb j (t_adj t i)); [apply QP|lra].
  - intros i j J. rewrite (metropolis_edge t PT i j J). pose proof (pos_INR (Nat.max (length (t_adj t i)) (length (t_adj t j)))).
    unfold Rdiv. rewrite Rmult_1_l. apply Rinv_0_lt_compat. lra.
Qed.
