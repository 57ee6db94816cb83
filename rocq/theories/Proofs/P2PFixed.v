(** Fixed points of the peer-to-peer algorithms. *)
From Coq Require Import Reals String List Bool Arith ZArith Lia Lra FunctionalExtensionality Permutation.
From Verif.Model Require Import PyDict History Messages Network Runner Vec P2P.
From Verif.Spec Require Import NetworkSpec P2PSpec.
From Verif.Proofs Require Import PyDictProofs NetworkProofs EmpiricalProofs P2PLock P2PSteps P2PRuns P2PMean.
Import ListNotations.
Open Scope R_scope.

Lemma ident_row t i : NoDup (t_nodes t) -> In i (t_nodes t) -> rsum (map (fun j => ident i j) (t_nodes t)) = 1.
Proof.
  intros ND Hi. rewrite <- (eye_col t i ND Hi). apply rsum_map_ext. intros j _. unfold ident, eye. now rewrite Nat.eqb_sym.
Qed.
Lemma vsum_at l c : vsum l c = rsum (map (fun v : vec => v c) l).
Proof. 
  unfold vsum, rsum. assert (G : forall q a, fold_left vadd q a c = fold_left Rplus (map (fun v : vec => v c) q) (a c)).
  { induction q as [|v l0 IH]; intro a; cbn; auto. rewrite IH. reflexivity. }
  rewrite G. reflexivity.
Qed.

Section Fixed.
  Variables (t : topo) (e : env vec).
  Hypothesis PT : p2p_topo t.
  Hypothesis SY : synchronous e.
  Variable W : agent_id -> agent_id -> R.
  Hypothesis SP : sparse t W.
  Hypothesis RS : row_stochastic t W.
  Variable grad : nat -> agent_id -> vec -> vec.
  Variable prox : nat -> agent_id -> vec -> R -> vec.
  (** a point and the gradients there *)
  Variables (xs : vec) (G : agent_id -> vec).
  Hypothesis GR : forall i g, In i (t_nodes t) -> gradient_of grad i xs g -> g = G i.
  Notation nodes := (t_nodes t).
  Notation row := (row_of t).

  Lemma row_const_gen M q (v : agent_id -> vec) i : In i nodes -> (forall j, In j nodes -> v j = xs) -> rsum (map (fun j => M i j) nodes) = q -> row M v i = vscal q xs.
  Proof.
    intros Hi Hv E. apply functional_extensionality. intro c. unfold row_of, vscal. rewrite <- E.
    rewrite (rsum_map_ext (fun j => M i j * v j c) (fun j => xs c * M i j)) by (intros j Hj; rewrite Hv by auto; idtac; apply Rmult_comm). rewrite rsum_map_scal. apply Rmult_comm.
  Qed.
  Lemma row_const v i : In i nodes -> (forall j, In j nodes -> v j = xs) -> row W v i = xs.
  Proof. intros Hi Hv. rewrite (row_const_gen W 1 v i); auto. apply vscal1. Qed.
  Lemma hp_row i : In i nodes -> rsum (map (fun j => half_plus W i j) nodes) = 1.
  Proof.
    intro Hi. unfold half_plus. rewrite (rsum_map_ext _ (fun j => 1/2 * (ident i j + W i j))) by (intros; lra).
    rewrite rsum_map_scal, rsum_map_add, ident_row, RS; auto; [lra|apply PT].
  Qed.
  Lemma row_half v i : In i nodes -> (forall j, In j nodes -> v j = xs) -> row (half_plus W) v i = xs.
  Proof. intros Hi Hv. rewrite (row_const_gen _ 1 v i); auto; [apply vscal1|]. now apply hp_row. Qed.
  Lemma hm_row i : In i nodes -> rsum (map (fun j => half_minus W i j) nodes) = 0.
  Proof.
    intro Hi. unfold half_minus. rewrite (rsum_map_ext _ (fun j => 1/2 * (ident i j - W i j))) by (intros; lra).
    rewrite rsum_map_scal, rsum_map_sub, ident_row, RS; auto; [lra|apply PT].
  Qed.
  Lemma row_hm v i : In i nodes -> (forall j, In j nodes -> v j = xs) -> row (half_minus W) v i = vzero.
  Proof. intros Hi Hv. rewrite (row_const_gen _ 0 v i); auto; [apply vscal0|]. now apply hm_row. Qed.
  Lemma row_damped chi v i : In i nodes -> (forall j, In j nodes -> v j = xs) -> row (damped W chi) v i = xs.
  Proof.
    intros Hi Hv. rewrite (row_const_gen _ 1 v i); auto; [apply vscal1|]. unfold damped.
    rewrite (rsum_map_ext _ (fun j => ident i j - / (2 * chi) * (ident i j - W i j))) by (intros; unfold Rdiv; ring).
    rewrite rsum_map_sub, rsum_map_scal, rsum_map_sub, ident_row, RS; auto; [lra|apply PT].
  Qed.
  Lemma row_zero M v i : (forall j, In j nodes -> v j = vzero) -> row M v i = vzero.
  Proof.
    intros Hv. apply functional_extensionality. intro c. unfold row_of.
    rewrite (rsum_map_ext _ (fun j => 0 * v j c)) by (intros j Hj; rewrite Hv; auto; unfold vzero; ring). rewrite rsum_map_scal. unfold vzero. ring.
  Qed.
  Lemma steps_fixed i next n z s : In i nodes -> next xs (G i) = xs -> local_steps grad i next n xs z s -> z = xs.
  Proof.
    intros Hi F H. remember xs as x eqn:E in H. revert E. induction H as [x|n x g z s g0 L IH]; intros ->; auto.
    apply IH. rewrite (GR i g Hi g0). exact F.
  Qed.
  Notation acts := (active_all t e PT SY).
  Notation smx := (smix t e PT SY).
  Notation FAe := (FA e SY).

  Theorem dgd_fixed a k d st : (forall i, In i nodes -> state_is st i xs) ->
    exists d' st', do_phases t e (dgd W grad a k) (d, step t k st) = ((d', st'), false) /\
      ((forall i, In i nodes -> state_is st' i xs) <-> (forall i, In i nodes -> vscal a (G i) = vzero)).
  Proof.
    intro H. destruct (dgd_step t e PT FAe W grad a k d st (fun _ => xs) H) as (d' & st' & D & E & DE & Q & _).
    rewrite acts in *. exists d', st'. split; auto.
    assert (Q' : forall i, In i nodes -> state_is st' i (vsub xs (vscal a (G i)))).
    { intros i Hi. destruct (Q i Hi) as (g & Hg & S). rewrite (smx W), row_const in S by auto. now rewrite (GR i g Hi Hg) in S. }
    split; intros F i Hi; specialize (F i Hi); specialize (Q' i Hi); unfold state_is in *.
    - rewrite F in Q'. injection Q' as Q'. apply functional_extensionality. intro c. assert (xs c = vsub xs (vscal a (G i)) c) by congruence.
      unfold vsub, vscal, vzero in *. lra.
    - rewrite Q', F. f_equal. apply functional_extensionality. intro c. unfold vsub, vzero. lra.
  Qed.

  Theorem simple_gt_fixed a k d st : (forall i, In i nodes -> state_is st i xs /\ aux_is st i "y" (vsub xs (vscal a (G i)))) ->
    exists d' st', do_phases t e (simple_gt W grad a k) (d, step t k st) = ((d', st'), false) /\
      (forall i, In i nodes -> state_is st' i xs /\ aux_is st' i "y" (vsub xs (vscal a (G i)))).
  Proof.
    intro H. destruct (simple_gt_step t e PT FAe W grad a k d st (fun _ => xs) (fun i => vsub xs (vscal a (G i))) H) as (d' & st' & D & E & DE & Q & _).
    rewrite acts in *. exists d', st'. split; auto. intros i Hi. destruct (Q i Hi) as (g & Hg & S1 & S2). rewrite (smx W), row_const in S1 by auto.
    rewrite (GR i g Hi Hg) in *. split; auto. unfold state_is in *. rewrite S1. f_equal. vext. ring.
  Qed.

  Theorem atct_fixed a k d st : (forall i, In i nodes -> state_is st i xs /\ aux_is st i "y" vzero /\ aux_is st i "g" (G i)) ->
    exists d' st', do_phases t e (atct W grad a k) (d, step t k st) = ((d', st'), false) /\
      (forall i, In i nodes -> state_is st' i xs /\ aux_is st' i "y" vzero /\ aux_is st' i "g" (G i)).
  Proof.
    intro H. destruct (atct_step t e PT FAe W grad a k d st (fun _ => xs) (fun _ => vzero) G H) as (d' & st' & D1 & D2 & Gn & E & DE1 & DE2 & Q & _).
    rewrite acts in *. exists d', st'. split; auto. intros i Hi. destruct (Q i Hi) as (Hg & S1 & S2 & S3). cbn zeta in *.
    rewrite (smx W) in Hg, S1 by auto. rewrite row_const in Hg, S1 by (auto; intros; vext; ring). rewrite (smx W) in S2 by auto.
    rewrite row_zero in S2 by auto. rewrite (GR i _ Hi Hg) in *. split; auto. split; auto. unfold aux_is in *. rewrite S2. f_equal. f_equal. vext. ring.
  Qed.
  Theorem aug_dgm_fixed a k d st : (forall i, In i nodes -> state_is st i xs /\ aux_is st i "y" vzero /\ aux_is st i "g" (G i)) ->
    exists d' st', do_phases t e (aug_dgm W grad a k) (d, step t k st) = ((d', st'), false) /\
      (forall i, In i nodes -> state_is st' i xs /\ aux_is st' i "y" vzero /\ aux_is st' i "g" (G i)).
  Proof.
    intro H. destruct (aug_dgm_step t e PT FAe W grad a k d st (fun _ => xs) (fun _ => vzero) G H) as (d' & st' & D1 & D2 & Gn & E & DE1 & DE2 & Q & _).
    rewrite acts in *. exists d', st'. split; auto.
    assert (GN : forall i, In i nodes -> Gn i = G i).
    { intros i Hi. destruct (Q i Hi) as (Hg & _). cbn zeta in *. rewrite (smx W), row_const in Hg by (auto; intros; vext; ring). now apply GR. }
    intros i Hi. destruct (Q i Hi) as (Hg & S1 & S2 & S3). cbn zeta in *.
    rewrite (smx W) in S1 by auto. rewrite row_const in S1 by (auto; intros; vext; ring). rewrite (smx W) in S2 by auto.
    rewrite row_zero in S2 by (intros j Hj; rewrite GN by auto; vext; ring). rewrite GN in S3 by auto. auto.
  Qed.

  Theorem extra_fixed a k d st : (forall i, In i nodes -> state_is st i xs /\ aux_is st i "x_old" xs /\ aux_is st i "x_cons" xs) ->
    exists d' st', do_phases t e (extra W grad a (S k)) (d, step t (S k) st) = ((d', st'), false) /\
      (forall i, In i nodes -> state_is st' i xs /\ aux_is st' i "x_old" xs /\ aux_is st' i "x_cons" xs).
  Proof.
    intro H. destruct (extra_stepS t e PT FAe W grad a k d st (fun _ => xs) (fun _ => xs) (fun _ => xs) H) as (d' & st' & D & E & DE & Q & _).
    rewrite acts in *. exists d', st'. split; auto. intros i Hi. destruct (Q i Hi) as (g & go & Hg & Hgo & S1 & S2 & S3).
    rewrite (smx W), row_const in S1, S3 by auto. rewrite (GR i g Hi Hg), (GR i go Hi Hgo) in *. split; auto. unfold state_is in *. rewrite S1. f_equal. vext. field.
  Qed.

  Theorem nids_fixed a k d st : (forall i, In i nodes -> state_is st i xs /\ aux_is st i "x_old" xs /\ aux_is st i "g" (G i)) ->
    exists d' st', do_phases t e (nids W grad a (S k)) (d, step t (S k) st) = ((d', st'), false) /\
      (forall i, In i nodes -> state_is st' i xs /\ aux_is st' i "x_old" xs /\ aux_is st' i "g" (G i)).
  Proof.
    intro H. destruct (nids_stepS t e PT FAe W grad a k d st (fun _ => xs) (fun _ => xs) G H) as (d' & st' & D & Gn & E & DE & Q & _).
    rewrite acts in *. rewrite halfW_eq in Q. exists d', st'. split; auto.
    assert (GN : forall i, In i nodes -> Gn i = G i) by (intros i Hi; apply GR; auto; apply (Q i Hi)).
    intros i Hi. destruct (Q i Hi) as (_ & S1 & S2 & S3). rewrite (smx (half_plus W)) in S1 by (auto; now apply HP).
    rewrite row_half in S1 by (auto; intros j Hj; rewrite GN by auto; vext; ring). rewrite GN in S2 by auto. auto.
  Qed.

  Theorem ed_fixed a k d st : let y := fun i => vsub xs (vscal a (G i)) in
    (forall i, In i nodes -> state_is st i xs /\ aux_is st i "y" (y i) /\ aux_is st i "y_new" (y i)) ->
    exists d' st', do_phases t e (ed W grad a k) (d, step t k st) = ((d', st'), false) /\
      (forall i, In i nodes -> state_is st' i xs /\ aux_is st' i "y" (y i) /\ aux_is st' i "y_new" (y i)).
  Proof.
    intros y H. destruct (ed_step t e PT FAe W grad a k d st (fun _ => xs) y y H) as (d' & st' & D & E & DE & Q & _).
    rewrite acts in *. rewrite halfW_eq in Q. exists d', st'. split; auto.
    intros i Hi. destruct (Q i Hi) as (g & Hg & S1 & S2 & S3). cbn zeta in *. rewrite (smx (half_plus W)) in Hg, S1, S3 by (auto; now apply HP).
    rewrite row_half in Hg, S1, S3 by (auto; intros j Hj; vext; ring). rewrite (GR i g Hi Hg) in S3. auto.
  Qed.

  Theorem wang_elia_fixed a z k d st : (forall i, In i nodes -> row (half_minus W) z i = vscal (-1) (vscal a (G i))) ->
    (forall i, In i nodes -> state_is st i xs /\ aux_is st i "z" (z i)) ->
    exists d' st', do_phases t e (wang_elia W grad a k) (d, step t k st) = ((d', st'), false) /\
      (forall i, In i nodes -> state_is st' i xs /\ aux_is st' i "z" (z i)).
  Proof.
    intros HZ H. destruct (wang_elia_step t e PT FAe W grad a k d st (fun _ => xs) z H) as (d' & st' & D1 & D2 & E & DE1 & DE2 & Q & _).
    rewrite acts in *. rewrite weK_eq in Q. exists d', st'. split; auto.
    intros i Hi. destruct (Q i Hi) as (g & Hg & S1 & S2 & _). rewrite (smx (half_minus W)) in S1, S2 by (auto; now apply HM).
    rewrite row_hm in S2 by auto. rewrite (GR i g Hi Hg) in *.
    assert (RA : row (half_minus W) (fun j => vadd xs (z j)) i = vadd (row (half_minus W) (fun _ => xs) i) (row (half_minus W) z i)).
    { apply functional_extensionality. intro c. unfold row_of, vadd. rewrite <- rsum_map_add. apply rsum_map_ext. intros; ring. }
    rewrite RA, row_hm, HZ in S1 by auto. unfold state_is, aux_is in *. rewrite S1, S2. split; f_equal; [|f_equal]; vext; ring.
  Qed.

  Theorem led_fixed tau a b y k d st : (forall i, In i nodes -> vscal b (y i) = vscal (-1) (vscal a (G i))) ->
    (forall i, In i nodes -> state_is st i xs /\ aux_is st i "y" (y i)) ->
    exists d' st', do_phases t e (led W grad tau a b k) (d, step t k st) = ((d', st'), false) /\
      (forall i, In i nodes -> state_is st' i xs /\ aux_is st' i "y" (y i)).
  Proof.
    intros HY H. destruct (led_step t e PT FAe W grad tau a b k d st (fun _ => xs) y H) as (d' & st' & D & Phi & E & DE & Q & _).
    rewrite acts in *. exists d', st'. split; auto.
    assert (PH : forall i, In i nodes -> Phi i = xs).
    { intros i Hi. destruct (Q i Hi) as ((s & L) & _). eapply steps_fixed; [exact Hi| |exact L]. rewrite HY by auto. vext. ring. }
    intros i Hi. destruct (Q i Hi) as (_ & S1 & S2). rewrite (smx W), row_const in S1, S2 by auto. rewrite PH in S2 by auto.
    split; auto. unfold aux_is in *. rewrite S2. do 2 f_equal. vext. ring.
  Qed.

  Theorem kgt_fixed kk a b k d st : 
    (forall i, In i nodes -> state_is st i xs /\ aux_is st i "c" (vscal (-1) (G i))) ->
    exists d' st', do_phases t e (kgt W grad kk a b k) (d, step t k st) = ((d', st'), false) /\
      (forall i, In i nodes -> state_is st' i xs /\ aux_is st' i "c" (vscal (-1) (G i))).
  Proof.
    intros H. destruct (kgt_step t e PT FAe W grad prox kk a b k d st (fun _ => xs) (fun i => vscal (-1) (G i)) H) as (d' & st' & D & XK & E & DE & Q & _).
    rewrite acts in *. cbn zeta in Q. exists d', st'. split; auto.
    assert (PH : forall i, In i nodes -> XK i = xs).
    { intros i Hi. destruct (Q i Hi) as ((s & L) & _). eapply steps_fixed; [exact Hi| |exact L]. vext. ring. }
    intros i Hi. destruct (Q i Hi) as (_ & S1 & S2). rewrite (smx W) in S1 by auto. rewrite (smx W) in S2 by auto.
    rewrite row_const in S1 by (auto; intros j Hj; rewrite PH by auto; vext; ring). rewrite row_zero in S2 by (intros j Hj; rewrite PH by auto; vext; ring).
    rewrite PH in S2 by auto. split; auto. unfold aux_is in *. rewrite S2. do 2 f_equal. vext. ring.
  Qed.

  Theorem prox_skip_fixed coin chi a b k d st : 
    (forall i, In i nodes -> state_is st i xs /\ aux_is st i "y" (vscal (-1) (vscal a (G i)))) ->
    exists d' st', do_phases t e (prox_skip W grad coin chi a b k) (d, step t k st) = ((d', st'), false) /\
      (forall i, In i nodes -> state_is st' i xs /\ aux_is st' i "y" (vscal (-1) (vscal a (G i)))).
  Proof.
    intros H. destruct (prox_skip_step t e PT FAe W grad coin chi a b k d st (fun _ => xs) (fun i => vscal (-1) (vscal a (G i))) H) as (d' & st' & D & Z & E & DE & Q & _).
    rewrite acts in *. rewrite psW_eq in Q. exists d', st'. split; auto.
    assert (PH : forall i, In i nodes -> Z i = xs).
    { intros i Hi. destruct (Q i Hi) as (g & Hg & -> & _). rewrite (GR i g Hi Hg). vext. ring. }
    intros i Hi. destruct (Q i Hi) as (g & Hg & _ & S). destruct (coin k).
    - rewrite (smx (damped W chi)) in S by (auto; now apply DW). rewrite row_damped in S by auto. rewrite PH in S by auto. destruct S as (S1 & S2).
      split; auto. unfold aux_is in *. rewrite S2. do 2 f_equal. vext. ring.
    - rewrite PH in S by auto. auto.
  Qed.

  Lemma mem_adj D i j : delivery t e nodes D -> In i nodes -> In j (t_adj t i) -> memb j (D i) = true.
  Proof. apply (smem t e PT SY). Qed.

  Theorem admm_fixed rho al z k d st :
    (forall i, In i nodes -> forall n, prox n i (vscal (/ (rho * deg t i)) (vsum (map (z i) (t_adj t i)))) (/ (rho * deg t i)) = xs) ->
    (forall i j, In j (t_adj t i) -> vadd (z i j) (z j i) = vscal (2 * rho) xs) ->
    (forall i, In i nodes -> state_is st i xs /\ auxmap_is st i "z" (rows t i (z i))) ->
    exists d' st', do_phases t e (admm t prox rho al k) (d, step t k st) = ((d', st'), false) /\
      (forall i, In i nodes -> state_is st' i xs /\ auxmap_is st' i "z" (rows t i (z i))).
  Proof.
    intros HP HZ H. destruct (admm_step t e PT FAe prox rho al k d st (fun _ => xs) z H) as (d' & st' & D & X' & E & DE & Q & _).
    rewrite acts in *. exists d', st'. split; auto.
    assert (PH : forall i, In i nodes -> X' i = xs). { intros i Hi. destruct (Q i Hi) as ((n & ->) & _). now apply HP. }
    intros i Hi. destruct (Q i Hi) as (_ & S1 & S2). rewrite PH in S1 by auto. split; auto. erewrite rows_ext in S2; [exact S2|].
    intros j Hj. cbn beta. rewrite mem_adj by auto. destruct (proj1 (proj2 (WF t PT)) i j Hj) as (_ & Hj' & _). rewrite PH by auto.
    rewrite <- (HZ i j Hj). vext. ring.
  Qed.
  Theorem lt_admm_fixed tau ga be rho al z k d st :
    (forall i, In i nodes -> vscal be (vsub (vscal (rho * deg t i) xs) (vsum (map (z i) (t_adj t i)))) = vscal (-1) (vscal ga (G i))) ->
    (forall i j, In j (t_adj t i) -> vadd (z i j) (z j i) = vscal (2 * rho) xs) ->
    (forall i, In i nodes -> state_is st i xs /\ auxmap_is st i "z_i" (rows t i (z i))) ->
    exists d' st', do_phases t e (lt_admm t grad tau ga be rho al k) (d, step t k st) = ((d', st'), false) /\
      (forall i, In i nodes -> state_is st' i xs /\ auxmap_is st' i "z_i" (rows t i (z i))).
  Proof.
    intros HP HZ H. destruct (lt_admm_step t e PT FAe grad tau ga be rho al k d st (fun _ => xs) z H) as (d' & st' & D & X' & E & DE & Q & _).
    rewrite acts in *. exists d', st'. split; auto.
    assert (PH : forall i, In i nodes -> X' i = xs).
    { intros i Hi. destruct (Q i Hi) as ((s & L) & _). eapply steps_fixed; [exact Hi| |exact L]. rewrite HP by auto. vext. ring. }
    intros i Hi. destruct (Q i Hi) as (_ & S1 & S2). rewrite PH in S1 by auto. split; auto. erewrite rows_ext in S2; [exact S2|].
    intros j Hj. cbn beta. rewrite mem_adj by auto. destruct (proj1 (proj2 (WF t PT)) i j Hj) as (_ & Hj' & _). rewrite PH by auto.
    rewrite <- (HZ i j Hj). vext. ring.
  Qed.

  Theorem atg_fixed rho al ga de zy zs k d st : 0 <= rho ->
    (forall i, In i nodes -> vsum (map (zy i) (t_adj t i)) = vscal (rho * deg t i) xs) ->
    (forall i, In i nodes -> vsum (map (zs i) (t_adj t i)) = vscal (-1) (G i)) ->
    (forall i j, In j (t_adj t i) -> vadd (zy i j) (zy j i) = vscal (2 * rho) xs /\ vadd (zs i j) (zs j i) = vzero) ->
    (forall i, In i nodes -> state_is st i xs /\ auxmap_is st i "z_y" (rows t i (zy i)) /\ auxmap_is st i "z_s" (rows t i (zs i))) ->
    exists d' st', do_phases t e (atg t grad rho al ga de k) (d, step t k st) = ((d', st'), false) /\
      (forall i, In i nodes -> state_is st' i xs /\ auxmap_is st' i "z_y" (rows t i (zy i)) /\ auxmap_is st' i "z_s" (rows t i (zs i))).
  Proof.
    intros HR HY HS HZ H. destruct (atg_step t e PT FAe W grad prox rho al ga de k d st (fun _ => xs) zy zs H) as (d' & st' & D & Gn & E & DE & Q & _).
    rewrite acts in *. exists d', st'. split; auto.
    assert (GN : forall i, In i nodes -> Gn i = G i) by (intros i Hi; apply GR; auto; apply (Q i Hi)).
    assert (NZ : forall i, 1 + rho * deg t i <> 0). { intro i. unfold deg. pose proof (pos_INR (length (t_adj t i))). nra. }
    assert (YE : forall i, In i nodes -> vscal (/ (1 + rho * deg t i)) (vadd xs (vsum (map (zy i) (t_adj t i)))) = xs).
    { intros i Hi. rewrite HY by auto. vext. field. auto. }
    assert (SE : forall i, In i nodes -> vscal (/ (1 + rho * deg t i)) (vadd (Gn i) (vsum (map (zs i) (t_adj t i)))) = vzero).
    { intros i Hi. rewrite GN, HS by auto. vext. ring. }
    intros i Hi. destruct (Q i Hi) as (_ & S1 & S2 & S3). rewrite YE, SE in S1 by auto. split; [|split].
    - unfold state_is in *. rewrite S1. f_equal. vext. ring.
    - erewrite rows_ext in S2; [exact S2|]. intros j Hj. cbn beta. rewrite mem_adj by auto. destruct (proj1 (proj2 (WF t PT)) i j Hj) as (_ & Hj' & _).
      rewrite YE by auto. destruct (HZ i j Hj) as (Z1 & _). rewrite <- Z1. vext. ring.
    - erewrite rows_ext in S3; [exact S3|]. intros j Hj. cbn beta. rewrite mem_adj by auto. destruct (proj1 (proj2 (WF t PT)) i j Hj) as (_ & Hj' & _).
      rewrite SE by auto. destruct (HZ i j Hj) as (_ & Z2). assert (Z3 : forall c, zs i j c + zs j i c = 0) by (intro c; exact (f_equal (fun f => f c) Z2)).
      vext. specialize (Z3 c). replace (zs i j c) with (- zs j i c) by lra. ring.
  Qed.
End Fixed.
