(** C90: exact diffusion, NIDS, EXTRA, ATC tracking, AugDGM and Wang-Elia converge to the minimiser of the sum of
    the costs, at a linear rate, on every connected undirected network.
    C92: ADMM converges.  C93: DGD ends in a neighbourhood proportional to its
    step size. *)
From Coq Require Import Reals String List Lra Lia Arith.
From Verif.Model Require Import PyDict History Messages Network Runner Vec P2P.
From Verif.Spec Require Import CostSpec NetworkSpec P2PSpec ConvSpec.
From Verif.Proofs Require Import CostProofs VecProofs EmpiricalProofs P2PRuns ConvStack ConvSolve ConvED ConvMetropolis ConvADMM ConvEXTRA ConvDGD ConvGT ConvWE.
From Verif.Props Require Import P2PProps.
Import ListNotations.
Open Scope R_scope.

(** The weights the network computes by default are mixing weights. *)
Theorem C90_default_weights_mix t : p2p_topo t -> mixing t (metropolis t).
Proof. exact (metropolis_mixing t). Qed.

Section C90.
  Variables (t : topo) (n : nat) (W : agent_id -> agent_id -> R).
  Hypothesis PT : p2p_topo t.
  Hypothesis CN : connected t.
  Hypothesis MX : mixing t W.
  Notation nodes := (t_nodes t).

  (** [lam] depends on the network and the weights only.  At every observation
      point of the run the error is below a geometric sequence. *)
  Theorem C90_ed_linear : exists lam, 0 < lam <= 1 /\ forall F G grad m L a xs x0 e period N w,
    (forall i, In i nodes -> smooth_strongly_convex n (F i) (G i) m L) -> 0 < m -> 0 < L -> exact_gradients grad G ->
    0 < a -> a * L < 2 -> minimises nodes F xs -> synchronous e ->
    let q := Rmax (1 - a * m * (2 - a * L)) (1 - lam) in
    0 <= q < 1 /\
    exists X, trajectory t period (p2p t e N (ed_init grad a x0) (ed W grad a)) w X /\ (forall i, X 0%nat i = x0 i) /\
      forall k, (k <= N)%nat -> sq_error nodes n (X k) xs <=
        (sq_error nodes n x0 xs + a * a / lam * rsum (map (fun i => nrm2 n (G i xs)) nodes)) * q ^ k.
  Proof. exact (ed_converges t n W PT CN MX). Qed.

  Theorem C90_nids_linear : exists lam, 0 < lam <= 1 /\ forall F G grad m L a xs x0 e period N w,
    (forall i, In i nodes -> smooth_strongly_convex n (F i) (G i) m L) -> 0 < m -> 0 < L -> exact_gradients grad G ->
    0 < a -> a * L < 2 -> minimises nodes F xs -> synchronous e ->
    let q := Rmax (1 - a * m * (2 - a * L)) (1 - lam) in
    0 <= q < 1 /\
    exists X, trajectory t period (p2p t e N (nids_init x0) (nids W grad a)) w X /\ (forall i, X 0%nat i = x0 i) /\
      forall k, (k < N)%nat -> sq_error nodes n (X (S k)) xs <=
        (sq_error nodes n (fun i => vsub (x0 i) (vscal a (G i (x0 i)))) xs + a * a / lam * rsum (map (fun i => nrm2 n (G i xs)) nodes)) * q ^ k.
  Proof. exact (nids_converges t n W PT CN MX). Qed.

  (** However small the tolerance, from some number of iterations on every agent
      ends within it of the minimiser, whatever the observation period and
      whatever state the network was in. *)
  Lemma geometric C q eps : 0 <= q < 1 -> 0 < eps -> exists K, forall N, (K <= N)%nat -> C * q ^ N <= eps.
  Proof.
    intros Q E. destruct (Rle_or_lt C 0) as [H|H].
    - exists 0%nat. intros N _. pose proof (pow_le q N (proj1 Q)). assert (C * q ^ N <= 0 * q ^ N) by (apply Rmult_le_compat_r; auto). lra.
    - destruct (pow_lt_1_zero q ltac:(rewrite Rabs_pos_eq; lra) (eps / C) ltac:(apply Rdiv_lt_0_compat; lra)) as (K & HK).
      exists K. intros N HN. specialize (HK N HN). rewrite Rabs_pos_eq in HK by (apply pow_le; lra).
      apply Rlt_le in HK. apply Rmult_le_compat_l with (r := C) in HK; [|lra]. replace (C * (eps / C)) with eps in HK by (field; lra). exact HK.
  Qed.
  Lemma error_each X xs i : In i nodes -> nrm2 n (vsub (X i) xs) <= sq_error nodes n X xs.
  Proof. intro I. apply (rs_in (fun i => nrm2 n (vsub (X i) xs)) nodes i I). intros; apply nrm2_nonneg. Qed.

  Theorem C90_ed_reaches F G grad m L a xs x0 eps :
    (forall i, In i nodes -> smooth_strongly_convex n (F i) (G i) m L) -> 0 < m -> 0 < L -> exact_gradients grad G ->
    0 < a -> a * L < 2 -> minimises nodes F xs -> 0 < eps ->
    exists K, forall N e period w, (K <= N)%nat -> synchronous e ->
      let r := run t period (p2p t e N (ed_init grad a x0) (ed W grad a)) 0 w in
      r_out r = Finished /\ forall i, In i nodes -> exists x, state_is (snd (r_world r)) i x /\ nrm2 n (vsub x xs) <= eps.
  Proof.
    intros SC MP LP EG AP AL MIN EP. destruct C90_ed_linear as (lam & _ & H).
    assert (Q : 0 <= Rmax (1 - a * m * (2 - a * L)) (1 - lam) < 1).
    { destruct (H F G grad m L a xs x0 sync_env (fun _ => 1%nat) 0%nat blank SC MP LP EG AP AL MIN sync_ok) as (Q & _). exact Q. }
    destruct (geometric (sq_error nodes n x0 xs + a * a / lam * rsum (map (fun i => nrm2 n (G i xs)) nodes)) _ eps Q EP) as (K & HK).
    exists K. intros N e period w KN SY. destruct (H F G grad m L a xs x0 e period N w SC MP LP EG AP AL MIN SY) as (_ & X & (FI & _ & _ & LAST) & _ & B).
    split; [exact FI|]. intros i I. exists (X N i). split; [exact (LAST i I)|].
    eapply Rle_trans; [apply (error_each (X N) xs i I)|]. eapply Rle_trans; [apply (B N (le_n N))|]. apply HK, KN.
  Qed.
  Theorem C90_nids_reaches F G grad m L a xs x0 eps :
    (forall i, In i nodes -> smooth_strongly_convex n (F i) (G i) m L) -> 0 < m -> 0 < L -> exact_gradients grad G ->
    0 < a -> a * L < 2 -> minimises nodes F xs -> 0 < eps ->
    exists K, forall N e period w, (K <= N)%nat -> synchronous e ->
      let r := run t period (p2p t e N (nids_init x0) (nids W grad a)) 0 w in
      r_out r = Finished /\ forall i, In i nodes -> exists x, state_is (snd (r_world r)) i x /\ nrm2 n (vsub x xs) <= eps.
  Proof.
    intros SC MP LP EG AP AL MIN EP. destruct C90_nids_linear as (lam & _ & H).
    assert (Q : 0 <= Rmax (1 - a * m * (2 - a * L)) (1 - lam) < 1).
    { destruct (H F G grad m L a xs x0 sync_env (fun _ => 1%nat) 0%nat blank SC MP LP EG AP AL MIN sync_ok) as (Q & _). exact Q. }
    destruct (geometric (sq_error nodes n (fun i => vsub (x0 i) (vscal a (G i (x0 i)))) xs + a * a / lam * rsum (map (fun i => nrm2 n (G i xs)) nodes)) _ eps Q EP) as (K & HK).
    exists (S K). intros [|N] e period w KN SY; [lia|]. destruct (H F G grad m L a xs x0 e period (S N) w SC MP LP EG AP AL MIN SY) as (_ & X & (FI & _ & _ & LAST) & _ & B).
    split; [exact FI|]. intros i I. exists (X (S N) i). split; [exact (LAST i I)|].
    eapply Rle_trans; [apply (error_each (X (S N)) xs i I)|]. eapply Rle_trans; [apply (B N (le_n (S N)))|]. apply HK. lia.
  Qed.

  (** EXTRA: step sizes up to twice the smallest self-weight over L. *)
  Theorem C90_extra_linear w0 F G grad m L a xs : 0 < w0 -> (forall i, In i nodes -> w0 <= W i i) ->
    (forall i, In i nodes -> smooth_strongly_convex n (F i) (G i) m L) -> 0 < m -> 0 < L -> exact_gradients grad G ->
    0 < a -> a * L < 2 * w0 -> minimises nodes F xs ->
    exists q, 0 <= q < 1 /\ forall x0, exists C, forall e period N w, synchronous e ->
      exists X, trajectory t period (p2p t e N (extra_init x0) (extra W grad a)) w X /\ (forall i, X 0%nat i = x0 i) /\
        forall k, (k <= N)%nat -> sq_error nodes n (X k) xs <= C * q ^ k.
  Proof. intros W0 DG. exact (extra_converges t n W w0 PT CN MX W0 DG F G grad m L a xs). Qed.
  Theorem C90_extra_reaches w0 F G grad m L a xs x0 eps : 0 < w0 -> (forall i, In i nodes -> w0 <= W i i) ->
    (forall i, In i nodes -> smooth_strongly_convex n (F i) (G i) m L) -> 0 < m -> 0 < L -> exact_gradients grad G ->
    0 < a -> a * L < 2 * w0 -> minimises nodes F xs -> 0 < eps ->
    exists K, forall N e period w, (K <= N)%nat -> synchronous e ->
      let r := run t period (p2p t e N (extra_init x0) (extra W grad a)) 0 w in
      r_out r = Finished /\ forall i, In i nodes -> exists x, state_is (snd (r_world r)) i x /\ nrm2 n (vsub x xs) <= eps.
  Proof.
    intros W0 DG SC MP LP EG AP AL MIN EP. destruct (C90_extra_linear w0 F G grad m L a xs W0 DG SC MP LP EG AP AL MIN) as (q & Q & H).
    destruct (H x0) as (C & HC). destruct (geometric C q eps Q EP) as (K & HK). exists K. intros N e period w KN SY.
    destruct (HC e period N w SY) as (X & (FI & _ & _ & LAST) & _ & B).
    split; [exact FI|]. intros i I. exists (X N i). split; [exact (LAST i I)|].
    eapply Rle_trans; [apply (error_each (X N) xs i I)|]. eapply Rle_trans; [apply (B N (le_n N))|]. apply HK, KN.
  Qed.

  (** Gradient tracking: [del] depends on the network and the weights only; step
      sizes below a bound set by it and by the costs give a linear rate. *)
  Lemma step_small del m L : 0 < del <= 1 -> 0 < m <= L -> exists a0, 0 < a0 /\ forall a, 0 < a <= a0 -> a * L <= del * del / 48 /\ a * (L * L) <= m / 2.
  Proof.
    intros D ML. assert (DD : 0 < del * del) by (apply Rmult_lt_0_compat; lra). assert (LL : 0 < L * L) by (apply Rmult_lt_0_compat; lra).
    exists (Rmin (del * del / 48 / L) (m / 2 / (L * L))). split; [apply Rmin_glb_lt; apply Rdiv_lt_0_compat; lra|]. intros a (AP & AB).
    assert (A1 : a <= del * del / 48 / L) by (eapply Rle_trans; [exact AB|apply Rmin_l]). assert (A2 : a <= m / 2 / (L * L)) by (eapply Rle_trans; [exact AB|apply Rmin_r]).
    apply Rmult_le_compat_r with (r := L) in A1; [|lra]. apply Rmult_le_compat_r with (r := L * L) in A2; [|lra].
    replace (del * del / 48 / L * L) with (del * del / 48) in A1 by (field; lra). replace (m / 2 / (L * L) * (L * L)) with (m / 2) in A2 by (field; lra). auto.
  Qed.
  Theorem C90_atct_linear w0 : 0 < w0 -> (forall i, In i nodes -> w0 <= W i i) ->
    exists del, 0 < del <= 1 /\ forall F G grad m L a xs,
    (forall i, In i nodes -> smooth_strongly_convex n (F i) (G i) m L) -> 0 < m <= L -> exact_gradients grad G -> minimises nodes F xs ->
    0 < a -> a * L <= del * del / 48 -> a * (L * L) <= m / 2 ->
    let q := 1 - Rmin (a * m / 4) (del / 8) in 0 <= q < 1 /\
    forall x0, exists C, forall e period N w, synchronous e ->
      exists X, trajectory t period (p2p t e N (track_init grad x0) (atct W grad a)) w X /\ (forall i, In i nodes -> X 0%nat i = x0 i) /\
        forall k, (k <= N)%nat -> sq_error nodes n (X k) xs <= C * q ^ k.
  Proof. intros W0 DG. exact (atct_converges t n W w0 PT CN MX W0 DG). Qed.
  Theorem C90_atct_reaches w0 F G grad m L xs : 0 < w0 -> (forall i, In i nodes -> w0 <= W i i) ->
    (forall i, In i nodes -> smooth_strongly_convex n (F i) (G i) m L) -> 0 < m <= L -> exact_gradients grad G -> minimises nodes F xs ->
    exists a0, 0 < a0 /\ forall a x0 eps, 0 < a <= a0 -> 0 < eps ->
    exists K, forall N e period w, (K <= N)%nat -> synchronous e ->
      let r := run t period (p2p t e N (track_init grad x0) (atct W grad a)) 0 w in
      r_out r = Finished /\ forall i, In i nodes -> exists x, state_is (snd (r_world r)) i x /\ nrm2 n (vsub x xs) <= eps.
  Proof.
    intros W0 DG SC ML EG MIN. destruct (C90_atct_linear w0 W0 DG) as (del & D0 & H). destruct (step_small del m L D0 ML) as (a0 & A0 & AB).
    exists a0. split; [exact A0|]. intros a x0 eps AP EP. destruct (AB a AP) as (B1 & B2). destruct (H F G grad m L a xs SC ML EG MIN ltac:(lra) B1 B2) as (Q & HC).
    destruct (HC x0) as (C & HC'). destruct (geometric C _ eps Q EP) as (K & HK). exists K. intros N e period w KN SY.
    destruct (HC' e period N w SY) as (X & (FI & _ & _ & LAST) & _ & B).
    split; [exact FI|]. intros i I. exists (X N i). split; [exact (LAST i I)|].
    eapply Rle_trans; [apply (error_each (X N) xs i I)|]. eapply Rle_trans; [apply (B N (le_n N))|]. apply HK, KN.
  Qed.
  Theorem C90_aug_dgm_linear w0 : 0 < w0 -> (forall i, In i nodes -> w0 <= W i i) ->
    exists del, 0 < del <= 1 /\ forall F G grad m L a xs,
    (forall i, In i nodes -> smooth_strongly_convex n (F i) (G i) m L) -> 0 < m <= L -> exact_gradients grad G -> minimises nodes F xs ->
    0 < a -> a * L <= del * del / 48 -> a * (L * L) <= m / 2 ->
    let q := 1 - Rmin (a * m / 4) (del / 8) in 0 <= q < 1 /\
    forall x0, exists C, forall e period N w, synchronous e ->
      exists X, trajectory t period (p2p t e N (track_init grad x0) (aug_dgm W grad a)) w X /\ (forall i, In i nodes -> X 0%nat i = x0 i) /\
        forall k, (k <= N)%nat -> sq_error nodes n (X k) xs <= C * q ^ k.
  Proof. intros W0 DG. exact (aug_dgm_converges t n W w0 PT CN MX W0 DG). Qed.
  Theorem C90_aug_dgm_reaches w0 F G grad m L xs : 0 < w0 -> (forall i, In i nodes -> w0 <= W i i) ->
    (forall i, In i nodes -> smooth_strongly_convex n (F i) (G i) m L) -> 0 < m <= L -> exact_gradients grad G -> minimises nodes F xs ->
    exists a0, 0 < a0 /\ forall a x0 eps, 0 < a <= a0 -> 0 < eps ->
    exists K, forall N e period w, (K <= N)%nat -> synchronous e ->
      let r := run t period (p2p t e N (track_init grad x0) (aug_dgm W grad a)) 0 w in
      r_out r = Finished /\ forall i, In i nodes -> exists x, state_is (snd (r_world r)) i x /\ nrm2 n (vsub x xs) <= eps.
  Proof.
    intros W0 DG SC ML EG MIN. destruct (C90_aug_dgm_linear w0 W0 DG) as (del & D0 & H). destruct (step_small del m L D0 ML) as (a0 & A0 & AB).
    exists a0. split; [exact A0|]. intros a x0 eps AP EP. destruct (AB a AP) as (B1 & B2). destruct (H F G grad m L a xs SC ML EG MIN ltac:(lra) B1 B2) as (Q & HC).
    destruct (HC x0) as (C & HC'). destruct (geometric C _ eps Q EP) as (K & HK). exists K. intros N e period w KN SY.
    destruct (HC' e period N w SY) as (X & (FI & _ & _ & LAST) & _ & B).
    split; [exact FI|]. intros i I. exists (X N i). split; [exact (LAST i I)|].
    eapply Rle_trans; [apply (error_each (X N) xs i I)|]. eapply Rle_trans; [apply (B N (le_n N))|]. apply HK, KN.
  Qed.

  (** Wang-Elia. *)
  Theorem C90_wang_elia_linear w0 : 0 < w0 -> (forall i, In i nodes -> w0 <= W i i) ->
    exists del, 0 < del <= 1 /\ forall F G grad m L a xs,
    (forall i, In i nodes -> smooth_strongly_convex n (F i) (G i) m L) -> 0 < m <= L -> exact_gradients grad G -> minimises nodes F xs ->
    0 < a -> a * L <= del / 5 -> a * (L * L) <= m * del / 24 ->
    let q := 1 - Rmin (a * m / 4) (del / 8) in 0 <= q < 1 /\
    forall x0, exists C, forall e period N w, synchronous e ->
      exists X, trajectory t period (p2p t e N (we_init x0) (wang_elia W grad a)) w X /\ (forall i, X 0%nat i = x0 i) /\
        forall k, (k <= N)%nat -> sq_error nodes n (X k) xs <= C * q ^ k.
  Proof. intros W0 DG. exact (wang_elia_converges t n W w0 PT CN MX W0 DG). Qed.
  Theorem C90_wang_elia_reaches w0 F G grad m L xs : 0 < w0 -> (forall i, In i nodes -> w0 <= W i i) ->
    (forall i, In i nodes -> smooth_strongly_convex n (F i) (G i) m L) -> 0 < m <= L -> exact_gradients grad G -> minimises nodes F xs ->
    exists a0, 0 < a0 /\ forall a x0 eps, 0 < a <= a0 -> 0 < eps ->
    exists K, forall N e period w, (K <= N)%nat -> synchronous e ->
      let r := run t period (p2p t e N (we_init x0) (wang_elia W grad a)) 0 w in
      r_out r = Finished /\ forall i, In i nodes -> exists x, state_is (snd (r_world r)) i x /\ nrm2 n (vsub x xs) <= eps.
  Proof.
    intros W0 DG SC ML EG MIN. destruct (C90_wang_elia_linear w0 W0 DG) as (del & D0 & H).
    assert (LL : 0 < L * L) by (apply Rmult_lt_0_compat; lra). assert (MD : 0 < m * del) by (apply Rmult_lt_0_compat; lra).
    exists (Rmin (del / 5 / L) (m * del / 24 / (L * L))). split; [apply Rmin_glb_lt; apply Rdiv_lt_0_compat; lra|]. intros a x0 eps (AP & AB) EP.
    assert (A1 : a <= del / 5 / L) by (eapply Rle_trans; [exact AB|apply Rmin_l]). assert (A2 : a <= m * del / 24 / (L * L)) by (eapply Rle_trans; [exact AB|apply Rmin_r]).
    apply Rmult_le_compat_r with (r := L) in A1; [|lra]. apply Rmult_le_compat_r with (r := L * L) in A2; [|lra].
    replace (del / 5 / L * L) with (del / 5) in A1 by (field; lra). replace (m * del / 24 / (L * L) * (L * L)) with (m * del / 24) in A2 by (field; lra).
    destruct (H F G grad m L a xs SC ML EG MIN AP A1 A2) as (Q & HC).
    destruct (HC x0) as (C & HC'). destruct (geometric C _ eps Q EP) as (K & HK). exists K. intros N e period w KN SY.
    destruct (HC' e period N w SY) as (X & (FI & _ & _ & LAST) & _ & B).
    split; [exact FI|]. intros i I. exists (X N i). split; [exact (LAST i I)|].
    eapply Rle_trans; [apply (error_each (X N) xs i I)|]. eapply Rle_trans; [apply (B N (le_n N))|]. apply HK, KN.
  Qed.

  (** ** C93: DGD *)
  (** [B] depends on the network and the costs only, not on the step size [a]. *)
  Theorem C93_dgd_neighbourhood w0 F G grad m L xs : 0 < w0 -> (forall i, In i nodes -> w0 <= W i i) ->
    (forall i, In i nodes -> smooth_strongly_convex n (F i) (G i) m L) -> 0 < m <= L -> exact_gradients grad G -> minimises nodes F xs ->
    exists B, 0 <= B /\ forall a x0 e period N w, 0 < a -> a * L <= w0 -> synchronous e ->
      exists X, trajectory t period (p2p t e N (dgd_init x0) (dgd W grad a)) w X /\ (forall i, X 0%nat i = x0 i) /\
        forall k, (k <= N)%nat -> sq_error nodes n (X k) xs <= 4 * sq_error nodes n x0 xs * (1 - a * m * w0 / 4) ^ k + B * (a * a).
  Proof. intros W0 DG. exact (dgd_neighbourhood t n W w0 PT CN MX W0 DG F G grad m L xs). Qed.
End C90.

(** The default weights leave every agent a share of at least 1 / (1 + degree). *)
Theorem C90_default_self_weight t : p2p_topo t -> forall i, In i (t_nodes t) -> / (1 + INR (length (t_adj t i))) <= metropolis t i i.
Proof. exact (metropolis_diag t). Qed.

(** ** C92: ADMM *)
(** [C] does not depend on the number of iterations: the errors of all iterations
    add up to at most C / (4 alpha rho m), and with alpha below one the error of
    iteration [k] is at most of order 1 / sqrt k. *)
Theorem C92_admm t n F G m L rho xs prox z0 : p2p_topo t -> connected t -> (forall i, In i (t_nodes t) -> t_adj t i <> []) ->
  (forall i, In i (t_nodes t) -> smooth_strongly_convex n (F i) (G i) m L) -> 0 < m -> 0 < L -> 0 < rho -> minimises (t_nodes t) F xs ->
  (forall k i x r, In i (t_nodes t) -> 0 < r -> is_prox n (F i) r x (prox k i x r)) ->
  exists C, 0 <= C /\ forall al x0 e period N w, 0 < al <= 1 -> synchronous e ->
    exists X, trajectory t period (p2p t e N (admm_init t prox rho x0 z0) (admm t prox rho al)) w X /\
      rsum (map (fun k => sq_error (t_nodes t) n (X (S k)) xs) (seq 0 N)) <= C / (4 * al * rho * m) /\
      (al < 1 -> forall k, (k < N)%nat -> INR (S k) * (sq_error (t_nodes t) n (X (S k)) xs * sq_error (t_nodes t) n (X (S k)) xs) <= C * C / (4 * al * (1 - al) * (rho * m) * (rho * m))).
Proof. intros PT CN NB SC MP LP RP MIN EX. exact (admm_converges t n PT CN NB F G m L rho xs SC MP LP RP MIN prox EX z0). Qed.

Lemma nat_above x : exists K, x < INR K.
Proof.
  destruct (archimed x) as (H & _). exists (Z.to_nat (up x)). rewrite INR_IZR_INZ.
  eapply Rlt_le_trans; [exact H|]. apply IZR_le. lia.
Qed.
Theorem C92_admm_reaches t n F G m L rho al xs prox z0 eps : p2p_topo t -> connected t -> (forall i, In i (t_nodes t) -> t_adj t i <> []) ->
  (forall i, In i (t_nodes t) -> smooth_strongly_convex n (F i) (G i) m L) -> 0 < m -> 0 < L -> 0 < rho -> minimises (t_nodes t) F xs ->
  (forall k i x r, In i (t_nodes t) -> 0 < r -> is_prox n (F i) r x (prox k i x r)) -> 0 < al < 1 -> 0 < eps ->
  exists K, forall N x0 e period w, (K <= N)%nat -> synchronous e ->
    let r := run t period (p2p t e N (admm_init t prox rho x0 z0) (admm t prox rho al)) 0 w in
    r_out r = Finished /\ forall i, In i (t_nodes t) -> exists x, state_is (snd (r_world r)) i x /\ nrm2 n (vsub x xs) <= eps.
Proof.
  intros PT CN NB SC MP LP RP MIN EX AL EP. destruct (C92_admm t n F G m L rho xs prox z0 PT CN NB SC MP LP RP MIN EX) as (C & CP & H).
  set (T := C * C / (4 * al * (1 - al) * (rho * m) * (rho * m))).
  destruct (nat_above (T / (eps * eps))) as (K & HK). exists (S K). intros [|N] x0 e period w KN SY; [lia|].
  destruct (H al x0 e period (S N) w ltac:(lra) SY) as (X & (FI & _ & _ & LAST) & _ & B).
  split; [exact FI|]. intros i I. exists (X (S N) i). split; [exact (LAST i I)|].
  eapply Rle_trans; [apply (error_each t n (X (S N)) xs i I)|]. specialize (B ltac:(lra) N ltac:(lia)). fold T in B. set (s := sq_error (t_nodes t) n (X (S N)) xs) in *.
  destruct (Rle_or_lt s eps) as [|LT]; auto. exfalso.
  assert (KI : INR K <= INR (S N)) by (apply le_INR; lia). assert (EE : 0 < eps * eps) by now apply Rmult_lt_0_compat.
  assert (SS : eps * eps <= s * s) by (apply Rmult_le_compat; lra).
  assert (T < INR (S N) * (eps * eps)).
  { apply Rmult_lt_reg_r with (/ (eps * eps)); [now apply Rinv_0_lt_compat|]. rewrite Rmult_assoc, Rinv_r by lra. unfold Rdiv in HK. lra. }
  assert (INR (S N) * (eps * eps) <= INR (S N) * (s * s)) by (apply Rmult_le_compat_l; [apply pos_INR|auto]). lra.
Qed.


(** The path 0 - 1 - 2 with its default weights and the costs 1/2 |x - b_i|^2,
    b = (3, 0, -3), whose sum is minimal at 0. *)
Definition qcost (i : agent_id) (x : vec) : R := nrm2 1 (vsub x (centre i)) / 2.
Definition qg (i : agent_id) (x : vec) : vec := vsub x (centre i).
Lemma qcost_ok i : smooth_strongly_convex 1 (qcost i) (qg i) 1 1.
Proof.
  intros x h. unfold qcost, qg. rewrite !nrm2_sub, nrm2_add, dot_add_l, dot_sub_l, (dot_sym 1 (centre i) h).
  pose proof (nrm2_nonneg 1 h). lra.
Qed.
Lemma qgrad_ok : exact_gradients qgrad qg.
Proof. intros k i x. reflexivity. Qed.
Lemma path3_connected : connected path3.
Proof.
  assert (H : forall i j, In i (t_nodes path3) -> In j (t_nodes path3) -> In j (t_adj path3 i) -> walk path3 i j) by (intros; eapply walk_step; [now apply walk_refl|auto]).
  assert (A : forall i, In i (t_nodes path3) -> i = 0%nat \/ i = 1%nat \/ i = 2%nat) by (intros i; cbn; intuition).
  intros i j I J. pose proof I as I'. pose proof J as J'. apply A in I'. apply A in J'.
  destruct I' as [-> |[-> | ->]], J' as [-> |[-> | ->]]; try (apply walk_refl; assumption); try (apply H; cbn; auto; fail).
  - eapply walk_step with (j := 1%nat); [apply H; cbn; auto|cbn; auto].
  - eapply walk_step with (j := 1%nat); [apply H; cbn; auto|cbn; auto].
Qed.
Lemma zero_minimises : minimises (t_nodes path3) qcost vzero.
Proof.
  intro z. unfold qcost. cbn [t_nodes path3 map]. rewrite !rsum_cons. rewrite !nrm2_sub. unfold rsum. cbn [fold_left].
  pose proof (nrm2_nonneg 1 z) as P. unfold nrm2, dot, sumn, vzero, centre in *. cbn in *. lra.
Qed.
Example C90_ed_case : exists K, forall N e period w, (K <= N)%nat -> synchronous e ->
  let r := run path3 period (p2p path3 e N (ed_init qgrad (1/2) start) (ed W3 qgrad (1/2))) 0 w in
  r_out r = Finished /\ forall i, In i (t_nodes path3) -> exists x, state_is (snd (r_world r)) i x /\ nrm2 1 (vsub x vzero) <= / 1000.
Proof.
  apply (C90_ed_reaches path3 1 W3 path3_ok path3_connected (C90_default_weights_mix path3 path3_ok) qcost qg qgrad 1 1 (1/2) vzero start (/1000));
    try lra; auto using qgrad_ok, zero_minimises. intros; apply qcost_ok.
Qed.
Example C90_nids_case : exists K, forall N e period w, (K <= N)%nat -> synchronous e ->
  let r := run path3 period (p2p path3 e N (nids_init start) (nids W3 qgrad (1/2))) 0 w in
  r_out r = Finished /\ forall i, In i (t_nodes path3) -> exists x, state_is (snd (r_world r)) i x /\ nrm2 1 (vsub x vzero) <= / 1000.
Proof.
  apply (C90_nids_reaches path3 1 W3 path3_ok path3_connected (C90_default_weights_mix path3 path3_ok) qcost qg qgrad 1 1 (1/2) vzero start (/1000));
    try lra; auto using qgrad_ok, zero_minimises. intros; apply qcost_ok.
Qed.
Lemma W3_self : forall i, In i (t_nodes path3) -> / 3 <= W3 i i.
Proof.
  intros i I. eapply Rle_trans; [|apply (C90_default_self_weight path3 path3_ok i I)]. destruct I as [<-|[<-|[<-|[]]]]; cbn; apply Rinv_le_contravar; lra.
Qed.
Example C90_extra_case : exists K, forall N e period w, (K <= N)%nat -> synchronous e ->
  let r := run path3 period (p2p path3 e N (extra_init start) (extra W3 qgrad (1/2))) 0 w in
  r_out r = Finished /\ forall i, In i (t_nodes path3) -> exists x, state_is (snd (r_world r)) i x /\ nrm2 1 (vsub x vzero) <= / 1000.
Proof.
  apply (C90_extra_reaches path3 1 W3 path3_ok path3_connected (C90_default_weights_mix path3 path3_ok) (/3) qcost qg qgrad 1 1 (1/2) vzero start (/1000));
    try lra; auto using qgrad_ok, zero_minimises, W3_self. intros; apply qcost_ok.
Qed.
Example C90_atct_case : exists a0, 0 < a0 /\ forall a x0 eps, 0 < a <= a0 -> 0 < eps -> exists K, forall N e period w, (K <= N)%nat -> synchronous e ->
  let r := run path3 period (p2p path3 e N (track_init qgrad x0) (atct W3 qgrad a)) 0 w in
  r_out r = Finished /\ forall i, In i (t_nodes path3) -> exists x, state_is (snd (r_world r)) i x /\ nrm2 1 (vsub x vzero) <= eps.
Proof.
  apply (C90_atct_reaches path3 1 W3 path3_ok path3_connected (C90_default_weights_mix path3 path3_ok) (/3) qcost qg qgrad 1 1 vzero);
    try lra; auto using qgrad_ok, zero_minimises, W3_self. intros; apply qcost_ok.
Qed.
Example C90_aug_dgm_case : exists a0, 0 < a0 /\ forall a x0 eps, 0 < a <= a0 -> 0 < eps -> exists K, forall N e period w, (K <= N)%nat -> synchronous e ->
  let r := run path3 period (p2p path3 e N (track_init qgrad x0) (aug_dgm W3 qgrad a)) 0 w in
  r_out r = Finished /\ forall i, In i (t_nodes path3) -> exists x, state_is (snd (r_world r)) i x /\ nrm2 1 (vsub x vzero) <= eps.
Proof.
  apply (C90_aug_dgm_reaches path3 1 W3 path3_ok path3_connected (C90_default_weights_mix path3 path3_ok) (/3) qcost qg qgrad 1 1 vzero);
    try lra; auto using qgrad_ok, zero_minimises, W3_self. intros; apply qcost_ok.
Qed.
Example C90_wang_elia_case : exists a0, 0 < a0 /\ forall a x0 eps, 0 < a <= a0 -> 0 < eps -> exists K, forall N e period w, (K <= N)%nat -> synchronous e ->
  let r := run path3 period (p2p path3 e N (we_init x0) (wang_elia W3 qgrad a)) 0 w in
  r_out r = Finished /\ forall i, In i (t_nodes path3) -> exists x, state_is (snd (r_world r)) i x /\ nrm2 1 (vsub x vzero) <= eps.
Proof.
  apply (C90_wang_elia_reaches path3 1 W3 path3_ok path3_connected (C90_default_weights_mix path3 path3_ok) (/3) qcost qg qgrad 1 1 vzero);
    try lra; auto using qgrad_ok, zero_minimises, W3_self. intros; apply qcost_ok.
Qed.
Example C93_case : exists B, 0 <= B /\ forall a x0 e period N w, 0 < a -> a * 1 <= / 3 -> synchronous e ->
  exists X, trajectory path3 period (p2p path3 e N (dgd_init x0) (dgd W3 qgrad a)) w X /\ (forall i, X 0%nat i = x0 i) /\
    forall k, (k <= N)%nat -> sq_error (t_nodes path3) 1 (X k) vzero <= 4 * sq_error (t_nodes path3) 1 x0 vzero * (1 - a * 1 * / 3 / 4) ^ k + B * (a * a).
Proof.
  apply (C93_dgd_neighbourhood path3 1 W3 path3_ok path3_connected (C90_default_weights_mix path3 path3_ok) (/3) qcost qg qgrad 1 1 vzero);
    try lra; auto using qgrad_ok, zero_minimises, W3_self. intros; apply qcost_ok.
Qed.
(** the proximal operator of 1/2 |x - b_i|^2 *)
Lemma qprox_ok : forall k i x r, In i (t_nodes path3) -> 0 < r -> is_prox 1 (qcost i) r x (qprox k i x r).
Proof.
  intros k i x r _ RP z. unfold qcost, qprox. set (b := centre i). unfold nrm2, dot, sumn, vsub, vscal, vadd. cbn.
  set (p := / (1 + r) * (x 0%nat + r * b 0%nat)).
  assert (E : forall y, ((y - b 0%nat) * (y - b 0%nat) + 0) / 2 + ((y - x 0%nat) * (y - x 0%nat) + 0) / (2 * r) =
    ((p - b 0%nat) * (p - b 0%nat) + 0) / 2 + ((p - x 0%nat) * (p - x 0%nat) + 0) / (2 * r) + (1 + r) / (2 * r) * ((y - p) * (y - p))).
  { intro y. unfold p. field. lra. }
  assert (SP : 0 < (1 + r) / (2 * r)) by (apply Rdiv_lt_0_compat; lra).
  pose proof (E (z 0%nat)) as EZ. pose proof (Rle_0_sqr (z 0%nat - p)) as Q. unfold Rsqr in Q.
  assert (P : 0 <= (1 + r) / (2 * r) * ((z 0%nat - p) * (z 0%nat - p))) by (apply Rmult_le_pos; lra).
  split; [lra|]. intros H [|i'] I; [|lia].
  assert (Z : (1 + r) / (2 * r) * ((z 0%nat - p) * (z 0%nat - p)) = 0) by lra.
  apply Rmult_integral in Z. destruct Z as [Z|Z]; [lra|]. apply Rmult_integral in Z. fold p. lra.
Qed.
Example C92_case : exists K, forall N x0 e period w, (K <= N)%nat -> synchronous e ->
  let r := run path3 period (p2p path3 e N (admm_init path3 qprox 2 x0 start) (admm path3 qprox 2 (1/2))) 0 w in
  r_out r = Finished /\ forall i, In i (t_nodes path3) -> exists x, state_is (snd (r_world r)) i x /\ nrm2 1 (vsub x vzero) <= / 1000.
Proof.
  apply (C92_admm_reaches path3 1 qcost qg 1 1 2 (1/2) vzero qprox start (/1000)); try lra; auto using path3_ok, path3_connected, zero_minimises, qprox_ok.
  - intros i I. destruct I as [<-|[<-|[<-|[]]]]; discriminate.
  - intros; apply qcost_ok.
Qed.
Print Assumptions C90_ed_linear.
Print Assumptions C90_nids_linear.
Print Assumptions C90_ed_reaches.
Print Assumptions C90_nids_reaches.
Print Assumptions C90_default_weights_mix.
Print Assumptions C90_extra_linear.
Print Assumptions C90_extra_reaches.
Print Assumptions C90_default_self_weight.
Print Assumptions C92_admm.
Print Assumptions C92_admm_reaches.
Print Assumptions C93_dgd_neighbourhood.
Print Assumptions C90_atct_linear.
Print Assumptions C90_atct_reaches.
Print Assumptions C90_aug_dgm_linear.
Print Assumptions C90_aug_dgm_reaches.
Print Assumptions C90_wang_elia_linear.
Print Assumptions C90_wang_elia_reaches.
