(** Convergence of ADMM. *)
From Coq Require Import Reals String List Lra Lia Arith FunctionalExtensionality.
From Verif.Model Require Import PyDict History Messages Network Runner Vec P2P.
From Verif.Spec Require Import CostSpec NetworkSpec P2PSpec ConvSpec.
From Verif.Proofs Require Import NetworkProofs CostProofs VecProofs EmpiricalProofs P2PRuns P2PFixed P2PMean FedRuns ConvStack ConvSolve ConvMetropolis ConvFed ConvED.
Import ListNotations.
Open Scope R_scope.

(** ** optimality of the proximal point *)
Lemma prox_optimal n F G m L r x p : smooth_strongly_convex n F G m L -> 0 < L -> 0 < r -> is_prox n F r x p ->
  forall c, (c < n)%nat -> G p c = (x c - p c) / r.
Proof.
  intros SC LP RP PX c C.
  assert (IR : 0 < / r) by now apply Rinv_0_lt_compat.
  assert (S2 : smooth_strongly_convex n (fun z => F z + nrm2 n (vsub z x) / (2 * r)) (fun z => vadd (G z) (vscal (/ r) (vsub z x))) (m + / r) (L + / r)).
  { intros z h. destruct (SC z h) as (B1 & B2). rewrite dot_add_l, dot_scal_l.
    assert (E : nrm2 n (vsub (vadd z h) x) = nrm2 n (vsub z x) + 2 * dot n (vsub z x) h + nrm2 n h).
    { rewrite <- nrm2_add. apply nrm2_ext. intros. unfold vadd, vsub. lra. }
    rewrite E. replace ((nrm2 n (vsub z x) + 2 * dot n (vsub z x) h + nrm2 n h) / (2 * r)) with
      (nrm2 n (vsub z x) / (2 * r) + / r * dot n (vsub z x) h + / r / 2 * nrm2 n h) by (field; lra). lra. }
  pose proof (single_point n _ _ (L + / r) (m + / r) p ltac:(lra) S2 (fun z => proj1 (PX z)) c C) as H.
  unfold vadd, vscal, vsub in H. replace ((x c - p c) / r) with (- (/ r * (p c - x c))) by (field; lra). lra.
Qed.

(** ** sums over directed edges *)
Section Edges.
  Variables (t : topo) (n : nat).
  Hypothesis PT : p2p_topo t.
  Notation nodes := (t_nodes t).
  Definition esum (f : agent_id -> agent_id -> R) : R := rsum (map (fun i => rsum (map (f i) (t_adj t i))) nodes).
  Lemma esum_ext f g : (forall i j, In i nodes -> In j (t_adj t i) -> f i j = g i j) -> esum f = esum g.
  Proof. intro H. apply rsum_map_ext. intros i I. apply rsum_map_ext. intros j J. auto. Qed.
  Lemma esum_add f g : esum (fun i j => f i j + g i j) = esum f + esum g.
  Proof. unfold esum. rewrite <- rsum_map_add. apply rsum_map_ext. intros i _. apply rsum_map_add. Qed.
  Lemma esum_sub f g : esum (fun i j => f i j - g i j) = esum f - esum g.
  Proof. unfold esum. rewrite <- rsum_map_sub. apply rsum_map_ext. intros i _. apply rsum_map_sub. Qed.
  Lemma esum_scal c f : esum (fun i j => c * f i j) = c * esum f.
  Proof. unfold esum. rewrite <- rsum_map_scal. apply rsum_map_ext. intros i _. apply rsum_map_scal. Qed.
  Lemma esum_nonneg f : (forall i j, 0 <= f i j) -> 0 <= esum f.
  Proof. intro H. apply rs_nonneg. intros i _. apply rs_nonneg. intros j _. apply H. Qed.
  Lemma esum_full f : esum f = rsum (map (fun i => rsum (map (fun j => if memb j (t_adj t i) then f i j else 0) nodes)) nodes).
  Proof.
    apply rsum_map_ext. intros i _. destruct PT as ((ND & SYM & NA & _) & _). apply (rsum_sub (f i)); auto. intros j J. now destruct (SYM i j J) as (_ & ? & _).
  Qed.
  Lemma esum_swap f : esum f = esum (fun i j => f j i).
  Proof.
    rewrite !esum_full. rewrite rsum_swap. apply rsum_map_ext. intros i I. apply rsum_map_ext. intros j J.
    destruct PT as ((ND & SYM & _) & _).
    destruct (memb i (t_adj t j)) eqn:E1, (memb j (t_adj t i)) eqn:E2; auto.
    - apply memb_In in E1. apply SYM in E1. destruct E1 as (_ & _ & E1). apply memb_In in E1. congruence.
    - apply memb_In in E2. apply SYM in E2. destruct E2 as (_ & _ & E2). apply memb_In in E2. congruence.
  Qed.
  Definition fam2 := agent_id -> agent_id -> vec.
  Definition e2 (Z : fam2) : R := esum (fun i j => nrm2 n (Z i j)).
  Definition edot (Z Y : fam2) : R := esum (fun i j => dot n (Z i j) (Y i j)).
  Definition fsub (Z Y : fam2) : fam2 := fun i j => vsub (Z i j) (Y i j).
  Definition fadd (Z Y : fam2) : fam2 := fun i j => vadd (Z i j) (Y i j).
  Lemma e2_pos Z : 0 <= e2 Z. Proof. apply esum_nonneg. intros; apply nrm2_nonneg. Qed.
  Lemma e2_ext Z Y : (forall i j c, In i nodes -> In j (t_adj t i) -> (c < n)%nat -> Z i j c = Y i j c) -> e2 Z = e2 Y.
  Proof. intro H. apply esum_ext. intros. apply nrm2_ext. auto. Qed.
  Lemma edot_cs Z Y : edot Z Y * edot Z Y <= e2 Z * e2 Y.
  Proof.
    set (d := edot Z Y). pose proof (e2_pos Z) as PZ. pose proof (e2_pos Y) as PY.
    assert (H : forall s, 0 <= e2 Z - 2 * s * d + s * s * e2 Y).
    { intro s. pose proof (e2_pos (fun i j => vsub (Z i j) (vscal s (Y i j)))) as P.
      replace (e2 (fun i j => vsub (Z i j) (vscal s (Y i j)))) with (e2 Z - 2 * s * d + s * s * e2 Y) in P; auto.
      unfold e2, d, edot. rewrite <- !esum_scal, <- esum_sub, <- esum_add. apply esum_ext. intros. rewrite nrm2_sub, dot_scal_r, nrm2_scal. lra. }
    destruct (Rle_lt_or_eq_dec 0 (e2 Y) PY) as [P|P].
    - specialize (H (d / e2 Y)). apply Rmult_le_compat_r with (r := e2 Y) in H; [|lra]. rewrite Rmult_0_l in H.
      replace ((e2 Z - 2 * (d / e2 Y) * d + d / e2 Y * (d / e2 Y) * e2 Y) * e2 Y) with (e2 Z * e2 Y - d * d) in H by (field; lra). lra.
    - rewrite <- P in *. assert (d = 0); [|rewrite H0; lra]. 
      destruct (Req_dec d 0) as [|ND]; auto. specialize (H ((e2 Z + 1) / (2 * d))).
      replace (e2 Z - 2 * ((e2 Z + 1) / (2 * d)) * d + (e2 Z + 1) / (2 * d) * ((e2 Z + 1) / (2 * d)) * 0) with (-1) in H by (field; lra). lra.
  Qed.
  Lemma e2_diff Z Y : e2 Z - e2 Y = edot (fsub Z Y) (fadd Z Y).
  Proof. unfold e2, edot. rewrite <- esum_sub. apply esum_ext. intros. unfold fsub, fadd, nrm2. rewrite dot_sub_l, !dot_add_r, (dot_sym n (Y i j) (Z i j)). lra. Qed.
  Lemma e2_add_le Z Y : e2 (fadd Z Y) <= 2 * e2 Z + 2 * e2 Y.
  Proof.
    pose proof (e2_pos (fsub Z Y)) as P. assert (E : e2 (fadd Z Y) + e2 (fsub Z Y) = 2 * e2 Z + 2 * e2 Y); [|lra].
    unfold e2. rewrite <- !esum_scal, <- !esum_add. apply esum_ext. intros. unfold fadd, fsub. rewrite nrm2_add, nrm2_sub. lra.
  Qed.
  (** weighted row: sums over the neighbours *)
  Lemma adj_sum (W : agent_id -> agent_id -> R) (h : agent_id -> R) i : sparse t W -> In i nodes -> h i = 0 ->
    rsum (map (fun j => W i j * h j) nodes) = rsum (map (fun j => W i j * h j) (t_adj t i)).
  Proof.
    intros SP I H. destruct PT as ((ND & SYM & NA & _) & _). rewrite (rsum_sub (fun j => W i j * h j) nodes (t_adj t i)); auto.
    - apply rsum_map_ext. intros j J. destruct (memb j (t_adj t i)) eqn:E; auto. destruct (Nat.eq_dec j i) as [-> |NE]; [rewrite H; lra|].
      rewrite SP; [lra|auto|]. intro K. apply memb_In in K. congruence.
    - intros j J. now destruct (SYM i j J) as (_ & ? & _).
  Qed.
End Edges.

Section Step.
  Variables (t : topo) (n : nat).
  Hypothesis PT : p2p_topo t.
  Notation nodes := (t_nodes t).
  Variables (F : agent_id -> vec -> R) (G : agent_id -> vec -> vec) (m L rho al : R).
  Hypothesis SC : forall i, In i nodes -> smooth_strongly_convex n (F i) (G i) m L.
  Definition arel (Z : fam2) (X : agent_id -> vec) (Z' : fam2) : Prop :=
    (forall i c, In i nodes -> (c < n)%nat -> G i (X i) c = rsum (map (fun j => Z i j c) (t_adj t i)) - rho * deg t i * X i c) /\
    (forall i j c, In i nodes -> In j (t_adj t i) -> (c < n)%nat -> Z' i j c = (1 - al) * Z i j c - al * (Z j i c - 2 * rho * X j c)).
  Definition mono (X U : agent_id -> vec) : R := rsum (map (fun i => dot n (vsub (G i (X i)) (G i (U i))) (vsub (X i) (U i))) nodes).

  Lemma arel_two Z X Z' Y U Y' : arel Z X Z' -> arel Y U Y' ->
    let D := fsub Z Y in let ex := fun i => vsub (X i) (U i) in
    e2 t n (fsub Z' Y') + al * (1 - al) * e2 t n (fun i j => vsub (D i j) (vsub (vscal (2 * rho) (ex j)) (D j i))) + 4 * al * rho * mono X U = e2 t n D.
  Proof.
    intros (R1 & R2) (Q1 & Q2) D ex. set (v := fun i j => vsub (vscal (2 * rho) (ex j)) (D j i)).
    assert (E1 : e2 t n (fsub Z' Y') = e2 t n (fun i j => vadd (vscal (1 - al) (D i j)) (vscal al (v i j)))).
    { apply e2_ext. intros i j c I J C. unfold fsub, vadd, vscal, vsub. rewrite (R2 i j c I J C), (Q2 i j c I J C).
      unfold v, D, ex, fsub; unfold vsub, vscal; lra. }
    assert (E2 : e2 t n (fun i j => vadd (vscal (1 - al) (D i j)) (vscal al (v i j))) + al * (1 - al) * e2 t n (fun i j => vsub (D i j) (v i j)) =
      (1 - al) * e2 t n D + al * e2 t n v).
    { unfold e2. rewrite <- !esum_scal, <- !esum_add. apply esum_ext. intros i j _ _. rewrite nrm2_add, nrm2_sub, !nrm2_scal, dot_scal_l, dot_scal_r. lra. }
    assert (E3 : e2 t n v = e2 t n D - 4 * rho * mono X U).
    { unfold e2 at 1. rewrite (esum_swap t PT). unfold v. unfold mono.
      rewrite <- rsum_map_scal. unfold e2, esum. rewrite <- rsum_map_sub. apply rsum_map_ext. intros i I.
      assert (EG : dot n (vsub (G i (X i)) (G i (U i))) (ex i) = rsum (map (fun j => dot n (D i j) (ex i)) (t_adj t i)) - rho * deg t i * nrm2 n (ex i)).
      { rewrite (dot_ext n _ (vsub (fun c => rsum (map (fun j => 1 * D i j c) (t_adj t i))) (vscal (rho * deg t i) (ex i))) (ex i) (ex i)); auto.
        - rewrite dot_sub_l, dot_scal_l, (dot_rsum n (D i) (fun _ => 1)). unfold nrm2. f_equal. apply rsum_map_ext. intros; lra.
        - intros c C. unfold vsub, vscal. rewrite (R1 i c I C), (Q1 i c I C). unfold ex, D, fsub, vsub.
          rewrite (rsum_map_ext (fun j => 1 * (Z i j c - Y i j c)) (fun j => Z i j c - Y i j c)) by (intros; lra). rewrite rsum_map_sub. lra. }
      fold (ex i). rewrite EG.
      rewrite (rsum_map_ext (fun j => nrm2 n (vsub (vscal (2 * rho) (ex i)) (D i j))) (fun j => (nrm2 n (D i j) - 4 * rho * dot n (D i j) (ex i)) + 4 * rho * rho * nrm2 n (ex i))).
      - rewrite (rsum_map_add (fun j => nrm2 n (D i j) - 4 * rho * dot n (D i j) (ex i))), rsum_map_sub, rsum_map_scal, rs_const. unfold deg. lra.
      - intros j _. rewrite nrm2_sub, nrm2_scal, dot_scal_l, (dot_sym n (ex i)). lra. }
    fold (v). rewrite E1. rewrite E3 in E2. unfold v in *. lra.
  Qed.
  Hypothesis MP : 0 <= m.
  Hypothesis RP : 0 < rho.
  Hypothesis AL : 0 < al <= 1.
  Lemma mono_ge X U : m * rsum (map (fun i => nrm2 n (vsub (X i) (U i))) nodes) <= mono X U.
  Proof. rewrite <- rsum_map_scal. apply rs_le. intros i I. apply (strongly_monotone n (F i) (G i) m L (SC i I)). Qed.
  Lemma mono_pos X U : 0 <= mono X U.
  Proof. eapply Rle_trans; [|apply mono_ge]. apply Rmult_le_pos; auto. apply rs_nonneg. intros; apply nrm2_nonneg. Qed.
  Lemma arel_nonexp Z X Z' Y U Y' : arel Z X Z' -> arel Y U Y' -> e2 t n (fsub Z' Y') <= e2 t n (fsub Z Y).
  Proof.
    intros H1 H2. pose proof (arel_two _ _ _ _ _ _ H1 H2) as E. cbv zeta in E. rewrite <- E.
    match goal with |- context [al * (1 - al) * ?u] => assert (0 <= u) by apply e2_pos end.
    assert (0 <= al * (1 - al)) by (apply Rmult_le_pos; lra). pose proof (mono_pos X U).
    assert (0 <= 4 * al * rho) by (repeat apply Rmult_le_pos; lra).
    match goal with |- context [al * (1 - al) * ?u] => assert (0 <= al * (1 - al) * u) by now apply Rmult_le_pos end.
    assert (0 <= 4 * al * rho * mono X U) by now apply Rmult_le_pos. lra.
  Qed.
  (** comparison with a fixed point *)
  Lemma arel_fixed Z X Z' Y U : arel Z X Z' -> arel Y U Y ->
    e2 t n (fsub Z' Y) + (1 - al) / al * e2 t n (fsub Z Z') + 4 * al * rho * mono X U = e2 t n (fsub Z Y).
  Proof.
    intros H1 H2. pose proof (arel_two _ _ _ _ _ _ H1 H2) as E. cbv zeta in E. rewrite <- E. f_equal. f_equal. symmetry.
    rewrite (e2_ext t n _ (fun i j => vscal (/ al) (fsub Z Z' i j))).
    - assert (S1 : e2 t n (fun i j => vscal (/ al) (fsub Z Z' i j)) = / al * / al * e2 t n (fsub Z Z')).
      { unfold e2. rewrite <- esum_scal. apply esum_ext. intros. apply nrm2_scal. }
      rewrite S1. field. lra.
    - intros i j c I J C. destruct H1 as (_ & R2). destruct H2 as (_ & Q2). specialize (R2 i j c I J C). specialize (Q2 i j c I J C).
      unfold fsub, vsub, vscal in *. rewrite R2. unfold vsub. apply Rmult_eq_reg_l with al; [|lra]. rewrite <- Rmult_assoc, Rinv_r by lra. lra.
  Qed.
End Step.

Section Run.
  Variables (t : topo) (n : nat).
  Hypothesis PT : p2p_topo t.
  Hypothesis CN : connected t.
  Hypothesis NB : forall i, In i (t_nodes t) -> t_adj t i <> [].
  Notation nodes := (t_nodes t).
  Variables (F : agent_id -> vec -> R) (G : agent_id -> vec -> vec) (m L rho : R) (xs : vec).
  Hypothesis SC : forall i, In i nodes -> smooth_strongly_convex n (F i) (G i) m L.
  Hypothesis MP : 0 < m.
  Hypothesis LP : 0 < L.
  Hypothesis RP : 0 < rho.
  Hypothesis MIN : minimises nodes F xs.
  Variable prox : nat -> agent_id -> vec -> R -> vec.
  Hypothesis EX : forall k i x r, In i nodes -> 0 < r -> is_prox n (F i) r x (prox k i x r).

  Lemma deg_pos i : In i nodes -> 0 < deg t i.
  Proof. intro I. unfold deg. apply len_pos, NB, I. Qed.
  Lemma flow_exists : exists Y : fam2, forall al, arel t n G rho al Y (fun _ => xs) Y.
  Proof.
    set (W := metropolis t). pose proof (metropolis_mixing t PT) as MX. pose proof (p2p_nodup t PT) as ND.
    set (q := sol t W (fun i => G i xs)).
    assert (QS : forall i c, In i nodes -> (c < n)%nat -> Ah t W q i c = G i xs c).
    { intros i c I C. apply (sol_ok t n W ND MX CN (p2p_edges t PT)); auto.
      intros c' C'. apply (stationary n nodes F G L xs LP); eauto. }
    exists (fun i j => vadd (vscal rho xs) (vscal (W i j / 2) (vsub (q i) (q j)))). intro al. split.
    - intros i c I C. rewrite <- (QS i c I C). rewrite (Ah_W t W ND q i I). unfold Wm, row_of, vadd, vscal, vsub.
      rewrite (rsum_map_add (fun _ => rho * xs c)), rs_const. fold (deg t i).
      assert (E : rsum (map (fun x => W i x / 2 * (q i c - q x c)) (t_adj t i)) = 1/2 * (q i c - rsum (map (fun j => W i j * q j c) nodes))).
      { rewrite (rsum_map_ext _ (fun x => 1/2 * (W i x * (q i c - q x c)))) by (intros; field). rewrite rsum_map_scal. f_equal.
        rewrite <- (adj_sum t PT W (fun x => q i c - q x c) i); [|apply MX|auto|lra].
        rewrite (rsum_map_ext _ (fun x => W i x * q i c - W i x * q x c)) by (intros; lra). rewrite rsum_map_sub. f_equal.
        rewrite rs_scal_r. destruct MX as (_ & _ & RS & _). match goal with |- rsum ?u * _ = _ => replace (rsum u) with 1 by (symmetry; apply (RS i I)) end. lra. }
      rewrite E. unfold deg. lra.
    - intros i j c I J C. unfold vadd, vscal, vsub. destruct MX as (SY & _). fold W in SY. rewrite (SY j i). lra.
  Qed.

  Theorem admm_converges z0 : exists C, 0 <= C /\ forall al x0 e period N w, 0 < al <= 1 -> synchronous e ->
    exists X, trajectory t period (p2p t e N (admm_init t prox rho x0 z0) (admm t prox rho al)) w X /\
      rsum (map (fun k => sq_error nodes n (X (S k)) xs) (seq 0 N)) <= C / (4 * al * rho * m) /\
      (al < 1 -> forall k, (k < N)%nat -> INR (S k) * (sq_error nodes n (X (S k)) xs * sq_error nodes n (X (S k)) xs) <= C * C / (4 * al * (1 - al) * (rho * m) * (rho * m))).
  Proof.
    destruct flow_exists as (Y & FY). set (C := e2 t n (fsub (fun i _ => z0 i) Y)). exists C. split; [apply e2_pos|].
    intros al x0 e period N w AL SY. destruct (admm_run t e PT SY prox period N w rho al x0 z0) as (X & Z & TR & _ & I0 & ST).
    exists X. split; [exact TR|].
    assert (RE : forall k, (k < N)%nat -> arel t n G rho al (Z k) (X (S k)) (Z (S k))).
    { intros k K. split.
      - intros i c I C'. destruct (ST k i K I) as ((d & E) & _). pose proof (deg_pos i I) as DP.
        assert (P : 0 < rho * deg t i) by now apply Rmult_lt_0_compat.
        rewrite (prox_optimal n (F i) (G i) m L (/ (rho * deg t i)) (vscal (/ (rho * deg t i)) (vsum (map (Z k i) (t_adj t i)))) (X (S k) i) (SC i I) LP); auto.
        + unfold vscal. rewrite vsum_at, map_map. field. lra.
        + now apply Rinv_0_lt_compat.
        + rewrite E. apply EX; auto. now apply Rinv_0_lt_compat.
      - intros i j c I J C'. destruct (ST k i K I) as (_ & E). rewrite (E j J). unfold vsub, vscal. lra. }
    set (V := fun k => e2 t n (fsub (Z k) Y)). set (De := fun k => e2 t n (fsub (Z k) (Z (S k)))).
    set (er := fun k => sq_error nodes n (X (S k)) xs).
    assert (E0 : V 0%nat = C).
    { unfold V, C. apply e2_ext. intros i j c I J C'. unfold fsub, vsub. rewrite (proj2 (I0 i I)). reflexivity. }
    assert (ERP : forall k, 0 <= er k) by (intro; apply rs_nonneg; intros; apply nrm2_nonneg).
    assert (VP : forall k, 0 <= V k) by (intro; apply e2_pos). assert (DPo : forall k, 0 <= De k) by (intro; apply e2_pos).
    assert (ARP : 0 < 4 * al * rho) by (repeat apply Rmult_lt_0_compat; lra).
    assert (RT : 0 <= (1 - al) / al) by (apply Rmult_le_pos; [lra|left; apply Rinv_0_lt_compat; lra]).
    assert (DEC : forall k, (k < N)%nat -> V (S k) + (1 - al) / al * De k + 4 * al * rho * (m * er k) <= V k).
    { intros k K. unfold V, De. rewrite <- (arel_fixed t n PT G rho al AL (Z k) (X (S k)) (Z (S k)) Y (fun _ => xs) (RE k K) (FY al)).
      apply Rplus_le_compat_l. apply Rmult_le_compat_l; [lra|]. apply (mono_ge t n F G m L SC). }
    assert (TOT : forall K, (K <= N)%nat -> V K + (1 - al) / al * rsum (map De (seq 0 K)) + 4 * al * rho * m * rsum (map er (seq 0 K)) <= C).
    { induction K as [|K IH]; intro KN; [cbn [seq map]; rewrite !rsum_nil, E0; lra|]. specialize (IH ltac:(lia)). specialize (DEC K ltac:(lia)).
      rewrite seq_S, !map_app, !rsum_app. cbn [map]. rewrite !rsum_cons, !rsum_nil. cbn [Nat.add]. lra. }
    assert (MPA : 0 < 4 * al * rho * m) by now apply Rmult_lt_0_compat.
    assert (DS : forall K, 0 <= (1 - al) / al * rsum (map De (seq 0 K))) by (intro; apply Rmult_le_pos; auto; apply rs_nonneg; auto).
    assert (ES : forall K, 0 <= 4 * al * rho * m * rsum (map er (seq 0 K))) by (intro; apply Rmult_le_pos; [lra|]; apply rs_nonneg; auto).
    split.
    - specialize (TOT N (le_n N)). specialize (DS N). specialize (VP N).
      apply Rmult_le_reg_l with (4 * al * rho * m); auto.
      replace (4 * al * rho * m * (C / (4 * al * rho * m))) with C by (field; repeat split; lra). lra.
    - intros A1 k K.
      assert (VC : forall j, (j <= N)%nat -> V j <= C) by (intros j J; specialize (TOT j J); specialize (DS j); specialize (ES j); lra).
      assert (MON : forall j d, (j + d < N)%nat -> De (j + d)%nat <= De j).
      { intros j d. induction d as [|d IH]; intro H; [rewrite Nat.add_0_r; lra|]. rewrite Nat.add_succ_r. eapply Rle_trans; [|apply IH; lia].
        apply (arel_nonexp t n PT F G m L rho al SC ltac:(lra) RP AL _ (X (S (j + d))) _ _ (X (S (S (j + d))))); apply RE; lia. }
      assert (DK : INR (S k) * De k <= rsum (map De (seq 0 (S k)))).
      { replace (INR (S k)) with (INR (length (seq 0 (S k)))) by now rewrite seq_length. rewrite <- rs_const. apply rs_le.
        intros j J. apply in_seq in J. replace k with (j + (k - j))%nat at 1 by lia. apply MON. lia. }
      assert (D1 : (1 - al) / al * (INR (S k) * De k) <= C).
      { pose proof (TOT (S k) ltac:(lia)) as T1. pose proof (ES (S k)). pose proof (VP (S k)).
        apply Rmult_le_compat_l with (r := (1 - al) / al) in DK; auto. lra. }
      assert (D2 : INR (S k) * De k <= C * (al / (1 - al))).
      { apply Rmult_le_reg_l with ((1 - al) / al); [apply Rdiv_lt_0_compat; lra|]. replace ((1 - al) / al * (C * (al / (1 - al)))) with C by (field; lra). exact D1. }
      assert (P1 : 4 * al * rho * m * er k <= V k - V (S k)).
      { specialize (DEC k K). assert (0 <= (1 - al) / al * De k) by (apply Rmult_le_pos; auto). lra. }
      assert (P2 : (V k - V (S k)) * (V k - V (S k)) <= De k * (4 * C)).
      { unfold V. rewrite e2_diff. eapply Rle_trans; [apply edot_cs|]. apply Rmult_le_compat.
        - apply e2_pos. - apply e2_pos.
        - right. apply e2_ext. intros. unfold fsub, vsub. lra.
        - eapply Rle_trans; [apply e2_add_le|]. pose proof (VC k ltac:(lia)) as B1. pose proof (VC (S k) ltac:(lia)) as B2. unfold V in B1, B2. lra. }
      assert (P3 : (4 * al * rho * m * er k) * (4 * al * rho * m * er k) <= De k * (4 * C)).
      { eapply Rle_trans; [|exact P2]. specialize (ERP k). assert (0 <= 4 * al * rho * m * er k) by (apply Rmult_le_pos; lra). now apply Rmult_le_compat. }
      fold (er k). set (s := INR (S k)) in *. assert (SP : 0 <= s) by apply pos_INR.
      assert (CP : 0 <= C) by apply e2_pos.
      assert (P4 : s * ((4 * al * rho * m * er k) * (4 * al * rho * m * er k)) <= C * (al / (1 - al)) * (4 * C)).
      { apply Rmult_le_compat_l with (r := s) in P3; auto. eapply Rle_trans; [exact P3|]. rewrite <- Rmult_assoc. apply Rmult_le_compat_r; lra. }
      apply Rmult_le_reg_l with ((4 * al * rho * m) * (4 * al * rho * m)); [now apply Rmult_lt_0_compat|].
      replace (4 * al * rho * m * (4 * al * rho * m) * (C * C / (4 * al * (1 - al) * (rho * m) * (rho * m)))) with (C * (al / (1 - al)) * (4 * C)) by (field; repeat split; lra).
      lra.
  Qed.
End Run.
