(** Convergence of FedProx and FedNova with one local step; clients' states at the
    end of a round (for C91 and C102). *)
From Coq Require Import Reals String List Lra Lia Arith FunctionalExtensionality.
From Verif.Model Require Import PyDict History Messages Network Runner Vec P2P Fed.
From Verif.Spec Require Import CostSpec NetworkSpec P2PSpec FedSpec ConvSpec.
From Verif.Proofs Require Import CostProofs VecProofs EmpiricalProofs P2PRuns FedLock FedRuns FedRuns2 FedRuns3 FedRuns4 FedDerived FedReduce FedDerived2 ConvStack ConvSolve ConvFed.
Import ListNotations.
Open Scope R_scope.

(** the proximal term vanishes in the first local step *)
Lemma fedprox_one grad a mu : fedprox_alg grad 1 a mu = fedavg_alg grad 1 a.
Proof.
  unfold fedprox_alg, fedavg_alg. f_equal. apply functional_extensionality. intro i. apply functional_extensionality. intro b. cbn [ltimes]. f_equal.
  f_equal. f_equal. apply functional_extensionality. intro g. f_equal. f_equal. f_equal. apply functional_extensionality. intro c. unfold vadd, vscal, vsub. lra.
Qed.

(** weighted costs *)
Section Weighted.
  Variables (n : nat) (l : list agent_id) (F : agent_id -> vec -> R) (G : agent_id -> vec -> vec) (m L : R) (p : agent_id -> R).
  Hypothesis SC : forall i, In i l -> smooth_strongly_convex n (F i) (G i) m L.
  Hypothesis P0 : forall i, In i l -> 0 < p i.
  Definition wsum (G : agent_id -> vec -> vec) : vec -> vec := fun x c => rsum (map (fun i => p i * G i x c) l).
  Lemma weighted_smooth : rsum (map p l) = 1 -> smooth_strongly_convex n (fun x => rsum (map (fun i => p i * F i x) l)) (wsum G) m L.
  Proof.
    intros P1 x h. unfold wsum. rewrite (dot_rsum n (fun i => G i x) p l h). rewrite <- !rsum_map_sub.
    assert (E : forall c : R, c = rsum (map (fun i => p i * c) l)) by (intro; rewrite rs_scal_r, P1; lra).
    rewrite (E (m / 2 * nrm2 n h)), (E (L / 2 * nrm2 n h)).
    split; apply rs_le; intros i I; specialize (SC i I x h); specialize (P0 i I); rewrite <- !Rmult_minus_distr_l; apply Rmult_le_compat_l; lra.
  Qed.
  Lemma scaled_smooth i : In i l -> 0 < L -> smooth_strongly_convex n (fun x => p i * F i x) (fun x => vscal (p i) (G i x)) (p i * m) (rsum (map (fun i => p i * L) l)).
  Proof.
    intros I LP x h. specialize (SC i I x h). pose proof (P0 i I) as PP. rewrite dot_scal_l.
    assert (B : p i * L <= rsum (map (fun i => p i * L) l)). { apply (rs_in (fun i => p i * L)); auto. intros j J. apply Rmult_le_pos; [|lra]. apply Rlt_le, P0, J. }
    pose proof (nrm2_nonneg n h) as H0. destruct SC as [S1 S2].
    apply Rmult_le_compat_l with (r := p i) in S1; [|lra]. apply Rmult_le_compat_l with (r := p i) in S2; [|lra].
    assert (p i * L * nrm2 n h <= rsum (map (fun i => p i * L) l) * nrm2 n h) by (apply Rmult_le_compat_r; auto). split; lra.
  Qed.
End Weighted.
Lemma weighted_stationary n l F G m L p xs : l <> [] -> 0 < L -> (forall i, In i l -> smooth_strongly_convex n (F i) (G i) m L) -> (forall i, In i l -> 0 < p i) ->
  minimises l (fun i x => p i * F i x) xs -> forall c, (c < n)%nat -> rsum (map (fun i => p i * G i xs c) l) = 0.
Proof.
  intros NE LP SC P0 MIN c C.
  assert (PS : 0 < rsum (map (fun i => p i * L) l)).
  { destruct l as [|i l']; [congruence|]. assert (0 < p i * L) by (apply Rmult_lt_0_compat; auto; apply P0; now left).
    assert (p i * L <= rsum (map (fun i => p i * L) (i :: l'))); [|lra]. apply (rs_in (fun i => p i * L)); [now left|]. intros j J. apply Rmult_le_pos; [|lra]. apply Rlt_le, P0, J. }
  refine (stationary n l (fun i x => p i * F i x) (fun i x => vscal (p i) (G i x)) _ xs PS _ MIN c C).
  intros i I. exists (p i * m). now apply scaled_smooth.
Qed.

Section Fed2.
  Variables (t : topo) (e : env vec) (sv : agent_id).
  Hypothesis NET : fed_net t e sv.
  Notation clients := (agents t).
  Hypothesis NE : clients <> [].
  Variables (period : agent_id -> nat) (N : nat) (w : world vec nat).
  Variables (n : nat) (F : agent_id -> vec -> R) (G : agent_id -> vec -> vec) (grad : nat -> agent_id -> vec -> vec) (m L a : R) (xs : vec).
  Hypothesis SC : forall i, In i clients -> smooth_strongly_convex n (F i) (G i) m L.
  Hypothesis M0 : 0 <= m.
  Hypothesis LP : 0 < L.
  Hypothesis EG : exact_gradients grad G.
  Hypothesis A0 : 0 <= a.

  Lemma fednova_linear count x0 : (forall i, In i clients -> 0 < count i) -> a * L <= 2 -> minimises clients (fun i x => count i * F i x) xs -> synchronous e ->
    exists X, throughout t period (fed N (fedavg_init t sv x0) (fed_round t e sv (fednova_alg grad (fun _ => 1%nat) count a None None None) None)) w
      (fun k st => state_is st sv (X k)) /\ X 0%nat = x0 sv /\
      forall k, (k <= N)%nat -> nrm2 n (vsub (X k) xs) <= (1 - a * m * (2 - a * L)) ^ k * nrm2 n (vsub (x0 sv) xs).
  Proof.
    intros C0 AL MIN SY. destruct (fednova_average t e sv NET period N w grad None 1 count a x0 proper_none (reliable_faithful e (proj1 SY)) ltac:(lia) C0) as (X & T & X0 & ST).
    exists (fun k => X k sv). split. { apply (throughout_mono t period _ w _ _) with (2 := T). intros k st H. apply H; eapply sv_node; eauto. }
    split; [apply X0|]. intros k K. rewrite <- X0.
    set (tot := rsum (map count clients)). set (p := fun i => count i / tot).
    assert (TP : 0 < tot).
    { unfold tot. destruct clients as [|i l]; [congruence|]. assert (0 < count i) by (apply C0; now left).
      assert (count i <= rsum (map count (i :: l))); [|lra]. apply (rs_in count); [now left|]. intros j J. apply Rlt_le, C0, J. }
    assert (PP : forall i, In i clients -> 0 < p i) by (intros i I; apply Rdiv_lt_0_compat; auto).
    assert (PS : rsum (map p clients) = 1). { unfold p, Rdiv. rewrite (rs_scal_r count). fold tot. field. lra. }
    apply (gd_rate n _ _ m L a xs (fun k => X k sv) N (weighted_smooth n clients F G m L p SC PP PS) M0 LP A0 AL); auto.
    - intros c C. unfold wsum. rewrite (rsum_map_ext _ (fun i => / tot * (count i * G i xs c))) by (intros; unfold p, Rdiv; ring).
      rewrite rsum_map_scal, (weighted_stationary n clients F G m L count xs NE LP SC C0 MIN c C). ring.
    - intros j J c CC. destruct (ST j J) as (P & Q & PA & LO & _ & _ & AV). destruct (sync_part t e P Q SY PA) as (-> & ->). rewrite (AV NE).
      fold tot. unfold wsum, vsub, vscal.
      rewrite (rsum_map_ext _ (fun i => p i * X j sv c - a * (p i * G i (X j sv) c))).
      + rewrite rsum_map_sub, (rs_scal_r p), PS, rsum_map_scal. ring.
      + intros i I. destruct (LO i I) as (s & LS). destruct (local_one grad i _ _ _ _ LS) as (g & (d & ->) & ->). fold (p i). unfold vsub, vscal. rewrite EG. ring.
  Qed.

  (** where the clients are at the end of a round *)
  Lemma fedavg_states x0 : a * L <= 2 -> minimises clients F xs -> synchronous e ->
    exists X, throughout t period (fed N (fedavg_init t sv x0) (fed_round t e sv (fedavg_alg grad 1 a) None)) w (fun k st => forall i, In i (t_nodes t) -> state_is st i (X k i)) /\
      (forall k, (k <= N)%nat -> nrm2 n (vsub (X k sv) xs) <= (1 - a * m * (2 - a * L)) ^ k * nrm2 n (vsub (x0 sv) xs)) /\
      (forall k, (k < N)%nat -> X (S k) sv = mean_over clients (X (S k)) /\ forall i, In i clients -> X (S k) i = vsub (X k sv) (vscal a (G i (X k sv)))).
  Proof.
    intros AL MIN SY. destruct (fedavg_run t e sv NET period N w grad None 1 a x0 proper_none (reliable_faithful e (proj1 SY))) as (X & T & X0 & ST).
    assert (LOC : forall k, (k < N)%nat -> X (S k) sv = mean_over clients (X (S k)) /\ forall i, In i clients -> X (S k) i = vsub (X k sv) (vscal a (G i (X k sv)))).
    { intros k K. destruct (ST k K) as (P & Q & PA & LO & _ & _ & AV). destruct (sync_part t e P Q SY PA) as (-> & ->). split; [now apply AV|].
      intros i I. destruct (LO i I) as (s & LS). destruct (local_one grad i _ _ _ _ LS) as (g & (d & ->) & ->). now rewrite EG. }
    exists X. split; [exact T|]. split; [|exact LOC]. intros k K. rewrite <- X0.
    apply (gd_rate n _ _ m L a xs (fun k => X k sv) N (mean_smooth n clients F G m L NE SC) M0 LP A0 AL (mean_stationary n clients F G m L xs NE LP SC MIN)); auto.
    intros j J c C. destruct (LOC j J) as (-> & LO). rewrite (mean_ext clients _ (fun i => vsub (X j sv) (vscal a (G i (X j sv))))) by exact LO. now rewrite mean_affine.
  Qed.
  Lemma nrm2_sum3 (u v z : vec) : nrm2 n (vadd u (vadd v z)) <= 3 * (nrm2 n u + nrm2 n v + nrm2 n z).
  Proof.
    pose proof (nrm2_nonneg n (vsub u v)) as A1. pose proof (nrm2_nonneg n (vsub u z)) as A2. pose proof (nrm2_nonneg n (vsub v z)) as A3.
    rewrite nrm2_sub in A1, A2, A3. rewrite !nrm2_add, dot_add_r. lra.
  Qed.
  Lemma nrm2_sub2 (u v : vec) : nrm2 n (vsub u v) <= 2 * (nrm2 n u + nrm2 n v).
  Proof. pose proof (nrm2_nonneg n (vadd u v)) as A1. rewrite nrm2_add in A1. rewrite nrm2_sub. lra. Qed.
  Lemma nrm2_scal_sq c u : nrm2 n (vscal c u) = c * c * nrm2 n u.
  Proof. unfold nrm2. rewrite dot_scal_l, dot_sym, dot_scal_l. ring. Qed.
  Lemma lipschitz i x y : In i clients -> nrm2 n (vsub (G i x) (G i y)) <= L * L * nrm2 n (vsub x y).
  Proof.
    intro I. pose proof (coercive n (F i) (G i) m L (SC i I) M0 LP x y) as C. pose proof (nrm2_nonneg n (vsub (vsub (G i x) (G i y)) (vscal L (vsub x y)))) as Q.
    rewrite nrm2_sub, nrm2_scal_sq in Q. rewrite (dot_sym n (vsub (G i x) (G i y)) (vscal _ _)), dot_scal_l, (dot_sym n (vsub x y)) in Q. lra.
  Qed.
  Lemma scaffold_states eta x0 c0 : 0 < a -> 0 <= eta -> eta * a * L <= 2 -> c0 sv = mean_over clients c0 -> minimises clients F xs -> synchronous e ->
    exists X D, throughout t period (fed N (scaffold_init t sv x0 c0) (fed_round t e sv (scaffold_alg t grad 1 a eta) None)) w (fun k st => forall i, In i (t_nodes t) -> state_is st i (X k i)) /\
      (forall k, D k = nrm2 n (vsub (X k sv) xs)) /\
      (forall k, (k <= N)%nat -> D k <= (1 - eta * a * m * (2 - eta * a * L)) ^ k * nrm2 n (vsub (x0 sv) xs)) /\
      (forall k, (S k < N)%nat -> forall i, In i clients -> nrm2 n (vsub (X (S (S k)) i) xs) <= 3 * (D (S k) + a * a * (L * L) * (2 * (D (S k) + D k)) + a * a * (L * L) * D k)).
  Proof.
    intros AP E0 AL CM MIN SY. assert (NA : a <> 0) by lra.
    destruct (scaffold_run t e sv NET period N w grad None 1 a eta x0 c0 proper_none (reliable_faithful e (proj1 SY))) as (X & C & T & I & R).
    assert (DZ : forall k, (k <= N)%nat -> drift t sv C k = vzero).
    { apply (drift_zero t e sv NET NE N C None (proj1 SY)).
      - apply mean_drift with (c0 := c0); auto. intro; apply I.
      - intros k Hk. destruct (R k Hk) as (P & Q & PA & LO & OU & _ & _ & SU). exists P, Q. split; auto. split; auto. intros i Hi Ni. now apply OU. }
    assert (CS : forall k, (k <= N)%nat -> C k sv = mean_over clients (C k)).
    { intros k K. specialize (DZ k K). unfold drift in DZ. apply functional_extensionality. intro c. assert (E := f_equal (fun f : vec => f c) DZ). unfold vsub, vzero in E. lra. }
    assert (LOC : forall k, (k < N)%nat -> (forall i, In i clients -> X (S k) i = vsub (X k sv) (vscal a (vadd (vsub (G i (X k sv)) (C k i)) (C k sv))) /\ C (S k) i = G i (X k sv)) /\
        X (S k) sv = vsub (X k sv) (vscal (eta * a) (mean_over clients (fun i => G i (X k sv))))).
    { intros k K. destruct (R k K) as (P & Q & PA & LO & _ & _ & M & _). destruct (sync_part t e P Q SY PA) as (-> & ->). specialize (M NE).
      assert (L1 : forall i, In i clients -> X (S k) i = vsub (X k sv) (vscal a (vadd (vsub (G i (X k sv)) (C k i)) (C k sv)))).
      { intros i Hi. destruct (LO i Hi) as ((s & LS) & _). destruct (local_one grad i _ _ _ _ LS) as (g & (d & ->) & ->). now rewrite EG. }
      split.
      - intros i Hi. split; [now apply L1|]. destruct (LO i Hi) as (_ & ->). rewrite (L1 i Hi). apply functional_extensionality. intro c. unfold vadd, vsub, vscal. cbn [INR]. field. auto.
      - apply (scaffold_one t sv X C (fun i => G i (X k sv)) a eta k NA NE); auto. apply DZ. lia. }
    exists X, (fun k => nrm2 n (vsub (X k sv) xs)). split; [apply (throughout_mono t period _ w _ _) with (2 := T); intros k st (H & _); exact H|]. split; [reflexivity|]. split.
    - intros k K. rewrite <- (proj1 (I sv)).
      apply (gd_rate n _ _ m L (eta * a) xs (fun k => X k sv) N (mean_smooth n clients F G m L NE SC) M0 LP ltac:(apply Rmult_le_pos; lra) AL (mean_stationary n clients F G m L xs NE LP SC MIN)); auto.
      intros j J c CC. now rewrite (proj2 (LOC j J)).
    - intros k K i Hi. destruct (LOC (S k) K) as (L1 & _). destruct (L1 i Hi) as (-> & _). destruct (LOC k ltac:(lia)) as (L0 & _). destruct (L0 i Hi) as (_ & ->). rewrite (CS (S k) ltac:(lia)).
      rewrite (mean_ext clients (C (S k)) (fun j => G j (X k sv))) by (intros j J; apply L0, J).
      set (x := X (S k) sv). set (y := X k sv). set (h := mean_over clients (fun j => G j y)).
      rewrite (nrm2_ext n _ (vadd (vsub x xs) (vadd (vscal (- a) (vsub (G i x) (G i y))) (vscal (- a) (vsub h (mean_over clients (fun j => G j xs))))))).
      2:{ intros c CC. unfold vadd, vsub, vscal. rewrite (mean_stationary n clients F G m L xs NE LP SC MIN c CC). ring. }
      eapply Rle_trans; [apply nrm2_sum3|]. rewrite !nrm2_scal_sq.
      pose proof (lipschitz i x y Hi) as Q1.
      assert (Q2 : nrm2 n (vsub x y) <= 2 * (nrm2 n (vsub x xs) + nrm2 n (vsub y xs))).
      { rewrite (nrm2_ext n (vsub x y) (vsub (vsub x xs) (vsub y xs))) by (intros; unfold vsub; ring). apply nrm2_sub2. }
      assert (Q3 : nrm2 n (vsub h (mean_over clients (fun j => G j xs))) <= L * L * nrm2 n (vsub y xs)).
      { unfold h. rewrite <- (Rplus_0_r (nrm2 n _)). set (v := fun j => G j y). set (u := fun j => G j xs).
        assert (E : vsub (mean_over clients v) (mean_over clients u) = vsub (mean_over clients (fun j => vsub (v j) (u j))) vzero).
        { apply functional_extensionality. intro c. unfold mean_over, vsub, vzero. rewrite rsum_map_sub. ring. }
        rewrite E, Rplus_0_r. apply nrm2_mean; auto. intros j J. rewrite (nrm2_ext n _ (vsub (G j y) (G j xs))) by (intros; unfold v, u, vsub, vzero; ring). now apply lipschitz. }
      assert (AA : 0 <= a * a) by nra. assert (LL : 0 <= L * L) by nra.
      assert (B1 : - a * - a * nrm2 n (vsub (G i x) (G i y)) <= a * a * (L * L * (2 * (nrm2 n (vsub x xs) + nrm2 n (vsub y xs))))).
      { replace (- a * - a) with (a * a) by ring. apply Rmult_le_compat_l; auto. eapply Rle_trans; [exact Q1|]. now apply Rmult_le_compat_l. }
      assert (B2 : - a * - a * nrm2 n (vsub h (mean_over clients (fun j => G j xs))) <= a * a * (L * L * nrm2 n (vsub y xs))).
      { replace (- a * - a) with (a * a) by ring. now apply Rmult_le_compat_l. }
      lra.
  Qed.
End Fed2.
