(** Consequences of the runs of the federated algorithms: invariants on reliable
    networks and reductions to FedAvg. *)
From Coq Require Import Reals String List Bool Arith ZArith Lia Lra FunctionalExtensionality.
From Verif.Model Require Import PyDict History Messages Network Runner Vec P2P Fed.
From Verif.Spec Require Import NetworkSpec P2PSpec FedSpec.
From Verif.Proofs Require Import PyDictProofs NetworkProofs RunnerProofs EmpiricalProofs P2PLock P2PRuns FedLock FedSteps FedSteps2 FedRuns FedRuns2 FedRuns3 FedRuns4 FedReduce FedDerived.
Import ListNotations.
Open Scope R_scope.

Lemma local_const (grad : nat -> agent_id -> vec -> vec) (g : vec) i a n x z s : (forall m i x, grad m i x = g) ->
  local_steps grad i (fun y g => vsub y (vscal a g)) n x z s -> z = fun c => x c - INR n * a * g c.
Proof.
  intros G H. induction H as [x|n x h z s (m & ->) H IH].
  - apply vext. intro c. cbn. lra.
  - rewrite IH, G. apply vext. intro c. rewrite S_INR. unfold vsub, vscal. lra.
Qed.

Section Derived.
  Variables (t : topo) (e : env vec) (sv : agent_id).
  Hypothesis NET : fed_net t e sv.
  Notation clients := (agents t).
  Hypothesis NE : clients <> [].
  Variables (period : agent_id -> nat) (N : nat) (w : world vec nat).
  Variable grad : nat -> agent_id -> vec -> vec.
  Variable prox : nat -> agent_id -> vec -> R -> vec.

  Lemma fedopt_identity sch K a eps Phi x0 : proper sch -> faithful e -> eps <> 0 -> (forall v D c, Phi v D c = 0) ->
    exists X, throughout t period (fed N (fedopt_init t sv x0) (fed_round t e sv (fedopt_alg grad K a 0 eps eps Phi) sch)) w (fun k st => forall i, In i (t_nodes t) -> state_is st i (X k i)) /\
      (forall i, X 0%nat i = x0 i) /\
      forall k, (k < N)%nat -> exists P R, participation t e sch P R /\
        (forall i, In i P -> exists s, local_steps grad i (fun y g => vsub y (vscal a g)) K (X k sv) (X (S k) i) s) /\
        (forall i, In i clients -> ~ In i P -> X (S k) i = X k i) /\
        (R = [] -> X (S k) sv = X k sv) /\ (R <> [] -> X (S k) sv = mean_over R (X (S k))).
  Proof using NET.
    intros PR FA EP PH. destruct (fedopt_run t e sv NET period N w grad sch K a 0 eps eps Phi x0 PR FA) as (X & m & v & T & I & _ & _ & R).
    exists X. split; [|split; auto].
    - eapply throughout_mono; [|exact T]. now intros k st (H & _).
    - intros k Hk. destruct (R k Hk) as (P & Q & PA & LO & OU & E0 & E1). exists P, Q. do 3 (split; auto). split; [intro Q0; now apply E0|].
      intro Q1. destruct (E1 Q1) as (M1 & V1 & X1). rewrite X1, M1, V1, <- (mean_shift Q (X k sv) (X (S k))) by auto.
      apply vext. intro c. rewrite PH, sqrt_0. unfold vadd, vscal. cbv beta. set (D := mean_over Q _ c).
      field. auto.
  Qed.
  Lemma fedopt_near sch K a eps Phi x0 : proper sch -> faithful e -> 0 < eps ->
    exists X v, throughout t period (fed N (fedopt_init t sv x0) (fed_round t e sv (fedopt_alg grad K a 0 eps eps Phi) sch)) w
       (fun k st => (forall i, In i (t_nodes t) -> state_is st i (X k i)) /\ aux_is st sv "v" (v k)) /\
      (forall i, X 0%nat i = x0 i) /\ v 0%nat = vzero /\
      forall k, (k < N)%nat -> exists P R, participation t e sch P R /\
        (forall i, In i P -> exists s, local_steps grad i (fun y g => vsub y (vscal a g)) K (X k sv) (X (S k) i) s) /\
        (R <> [] -> forall c, Rabs (X (S k) sv c - mean_over R (X (S k)) c) <= Rabs (mean_over R (X (S k)) c - X k sv c) * (sqrt (v (S k) c) / eps)).
  Proof using NET.
    intros PR FA EP. destruct (fedopt_run t e sv NET period N w grad sch K a 0 eps eps Phi x0 PR FA) as (X & m & v & T & I & _ & V0 & R).
    exists X, v. split; [|split; [auto|split; auto]].
    - eapply throughout_mono; [|exact T]. now intros k st (H & _ & H').
    - intros k Hk. destruct (R k Hk) as (P & Q & PA & LO & OU & E0 & E1). exists P, Q. do 2 (split; auto).
      intros Q1 c. destruct (E1 Q1) as (M1 & _ & X1). rewrite X1, M1, <- (mean_shift Q (X k sv) (X (S k))) by auto. unfold vadd, vscal. cbv beta.
      set (D := mean_over Q _ c). pose proof (sqrt_pos (v (S k) c)) as SP. set (s := sqrt (v (S k) c)) in *.
      replace (X k sv c + eps * (0 * m k c + (1 - 0) * D) / (s + eps) - (X k sv c + D)) with (- (D * (s / (s + eps)))) by (field; lra).
      replace (X k sv c + D - X k sv c) with D by lra. rewrite Rabs_Ropp, Rabs_mult. apply Rmult_le_compat_l; [apply Rabs_pos|].
      rewrite Rabs_pos_eq.
      + apply Rmult_le_compat_l; auto. apply Rinv_le_contravar; lra.
      + apply Rmult_le_pos; auto. left. apply Rinv_0_lt_compat. lra.
  Qed.

  Lemma fednova_average sch K count a x0 : proper sch -> faithful e -> (1 <= K)%nat -> (forall i, In i clients -> 0 < count i) ->
    exists X, throughout t period (fed N (fedavg_init t sv x0) (fed_round t e sv (fednova_alg grad (fun _ => K) count a None None None) sch)) w (fun k st => forall i, In i (t_nodes t) -> state_is st i (X k i)) /\
      (forall i, X 0%nat i = x0 i) /\
      forall k, (k < N)%nat -> exists P R, participation t e sch P R /\
        (forall i, In i P -> exists s, local_steps grad i (fun y g => vsub y (vscal a g)) K (X k sv) (X (S k) i) s) /\
        (forall i, In i clients -> ~ In i P -> X (S k) i = X k i) /\
        (R = [] -> X (S k) sv = X k sv) /\
        (R <> [] -> X (S k) sv = fun c => rsum (map (fun i => count i / rsum (map count R) * X (S k) i c) R)).
  Proof using NET.
    intros PR FA HK CP. assert (KP : 0 < INR K) by (apply lt_0_INR; lia).
    destruct (fednova_run t e sv NET period N w grad sch (fun _ => K) count a None None x0 PR FA) as (X & T & I & R).
    { intros. now rewrite nova_plain. }
    exists X. split; [auto|]. split; [auto|]. intros k Hk. destruct (R k Hk) as (P & Q & PA & LO & OU & E0 & E1). exists P, Q. split; [auto|]. split.
    - intros i Hi. apply nova_path_local with (ref := X k sv) (m := vzero). auto.
    - split; [auto|]. split; [auto|]. intro Q1. rewrite (E1 Q1). apply nova_average with (tau := INR K); [intros; apply nova_plain|lra|].
      destruct PA as (_ & PC & _ & RP & _). assert (QC : forall i, In i Q -> 0 < count i) by (intros; auto).
      destruct Q as [|q Q]; [congruence|]. rewrite map_cons, rsum_cons.
      assert (0 <= rsum (map count Q)). { clear - QC. induction Q as [|p Q IH]; [cbn; unfold rsum; cbn; lra|]. rewrite map_cons, rsum_cons. specialize (QC p) as A. cbn in A.
        assert (0 <= rsum (map count Q)) by (apply IH; cbn; intros; apply QC; cbn; tauto). assert (0 < count p) by (apply QC; cbn; tauto). lra. }
      specialize (QC q (or_introl eq_refl)). lra.
  Qed.
  Lemma fednova_fedavg sch K count q a x0 : proper sch -> faithful e -> (1 <= K)%nat -> 0 < q -> (forall i, In i clients -> count i = q) ->
    exists X, throughout t period (fed N (fedavg_init t sv x0) (fed_round t e sv (fednova_alg grad (fun _ => K) count a None None None) sch)) w (fun k st => forall i, In i (t_nodes t) -> state_is st i (X k i)) /\
      (forall i, X 0%nat i = x0 i) /\
      forall k, (k < N)%nat -> exists P R, participation t e sch P R /\
        (forall i, In i P -> exists s, local_steps grad i (fun y g => vsub y (vscal a g)) K (X k sv) (X (S k) i) s) /\
        (forall i, In i clients -> ~ In i P -> X (S k) i = X k i) /\
        (R = [] -> X (S k) sv = X k sv) /\ (R <> [] -> X (S k) sv = mean_over R (X (S k))).
  Proof using NET.
    intros PR FA HK Q0 CQ. destruct (fednova_average sch K count a x0 PR FA HK) as (X & T & I & R); [intros; now rewrite CQ|].
    exists X. split; [auto|]. split; [auto|]. intros k Hk. destruct (R k Hk) as (P & Q & PA & LO & OU & E0 & E1). exists P, Q. do 4 (split; auto).
    intro Q1. rewrite (E1 Q1). apply equal_counts with (q := q); auto. destruct PA as (_ & PC & _ & RP & _). intros; apply CQ, PC, RP; auto.
  Qed.
  Lemma sync_equal K a x0 (X X' : nat -> agent_id -> vec) : synchronous e -> deterministic grad ->
     (forall i, X 0%nat i = x0 i) -> (forall i, X' 0%nat i = x0 i) ->
     (forall k, (k < N)%nat -> exists P R, participation t e None P R /\
        (forall i, In i P -> exists s, local_steps grad i (fun y g => vsub y (vscal a g)) K (X k sv) (X (S k) i) s) /\
        (forall i, In i clients -> ~ In i P -> X (S k) i = X k i) /\
        (R = [] -> X (S k) sv = X k sv) /\ (R <> [] -> X (S k) sv = mean_over R (X (S k)))) ->
     (forall k, (k < N)%nat -> exists P R, participation t e None P R /\
        (forall i, In i P -> exists s, local_steps grad i (fun y g => vsub y (vscal a g)) K (X' k sv) (X' (S k) i) s) /\
        (forall i, In i clients -> ~ In i P -> X' (S k) i = X' k i) /\
        (R = [] -> X' (S k) sv = X' k sv) /\ (R <> [] -> X' (S k) sv = mean_over R (X' (S k)))) ->
     forall k, (k <= N)%nat -> forall i, In i (t_nodes t) -> X k i = X' k i.
  Proof using NET NE.
    intros SY DE I I' R R'. eapply (average_unique t e sv NET grad (fun _ y g => vsub y (vscal a g)) K N); auto.
    - intros. now rewrite I, I'.
    - intros k Hk. destruct (R k Hk) as (P & Q & PA & LO & _ & _ & M). destruct (sync_part t e P Q SY PA) as (-> & ->). auto.
    - intros k Hk. destruct (R' k Hk) as (P & Q & PA & LO & _ & _ & M). destruct (sync_part t e P Q SY PA) as (-> & ->). auto.
  Qed.

  (** one round from zero of an adaptive method whose first second moment is
      [s^2 D^2] *)
  Lemma adaptive_differs K a b1 eps eta Phi s : synchronous e -> (1 <= K)%nat -> 0 < a -> 0 < eps -> 0 < s ->
    (forall D c, Phi vzero D c = (s * s) * (D c * D c)) -> grad = (fun _ _ _ c => - (INR c + 1) / (INR K * a)) ->
    forall x y, N = 1%nat ->
      state_is (snd (r_world (run t period (fed N (fedopt_init t sv (fun _ => vzero)) (fed_round t e sv (fedopt_alg grad K a b1 eps eta Phi) None)) 0 w))) sv x ->
      state_is (snd (r_world (run t period (fed N (fedavg_init t sv (fun _ => vzero)) (fed_round t e sv (fedavg_alg grad K a) None)) 0 w))) sv y ->
      x <> y.
  Proof using NET NE.
    intros SY HK A0 EP S0 PH GE x y N1 Hx Hy. assert (KP : 0 < INR K) by (apply lt_0_INR; lia).
    destruct (fedopt_run t e sv NET period N w grad None K a b1 eps eta Phi (fun _ => vzero) proper_none (reliable_faithful e (proj1 SY))) as (X & m & v & T & I & M0 & V0 & R).
    destruct (fedavg_run t e sv NET period N w grad None K a (fun _ => vzero) proper_none (reliable_faithful e (proj1 SY))) as (X' & T' & I' & R').
    assert (Isv : In sv (t_nodes t)) by (eapply sv_node; eauto).
    destruct T as (_ & _ & _ & (F & _)). destruct T' as (_ & _ & _ & F'). specialize (F sv Isv). specialize (F' sv Isv). cbn [fed al_iters] in F, F'.
    assert (HX : X N sv = x). { pose proof (eq_trans (eq_sym F) Hx) as Q. now injection Q. }
    assert (HY : X' N sv = y). { pose proof (eq_trans (eq_sym F') Hy) as Q. now injection Q. }
    clear F F' Hx Hy. rewrite N1 in HX, HY.
    destruct (R 0%nat ltac:(lia)) as (P & Q & PA & LO & _ & _ & E). destruct (sync_part t e P Q SY PA) as (-> & ->).
    destruct (R' 0%nat ltac:(lia)) as (P' & Q' & PA' & LO' & _ & _ & E'). destruct (sync_part t e P' Q' SY PA') as (-> & ->).
    destruct (E NE) as (E1 & E2 & E3). specialize (E' NE).
    set (g := fun c => - (INR c + 1) / (INR K * a)) in *.
    assert (Y : forall i, In i clients -> X 1%nat i = fun c => INR c + 1).
    { intros i Hi. destruct (LO i Hi) as (r & LS). apply (local_const grad g) in LS; [|intros; now rewrite GE]. rewrite LS, I. apply vext. intro c. unfold vzero, g. field. lra. }
    assert (Y' : forall i, In i clients -> X' 1%nat i = fun c => INR c + 1).
    { intros i Hi. destruct (LO' i Hi) as (r & LS). apply (local_const grad g) in LS; [|intros; now rewrite GE]. rewrite LS, I'. apply vext. intro c. unfold vzero, g. field. lra. }
    pose proof (len_pos clients NE) as LP.
    assert (MC : forall f : vec, mean_over clients (fun _ => f) = f). { intro f. apply vext. intro c. unfold mean_over. rewrite rsum_const. field. lra. }
    rewrite (mean_ext clients _ (fun _ => fun c => INR c + 1)) in E' by auto. rewrite MC in E'.
    rewrite (mean_ext clients _ (fun _ => fun c => INR c + 1)) in E1, E2 by (intros i Hi; rewrite (Y i Hi), I; apply vext; intro; unfold vsub, vzero; lra).
    rewrite MC in E1, E2. rewrite V0 in E2. rewrite M0 in E1.
    intro EQ. rewrite <- HX, <- HY, E3, E', E1, E2, I in EQ.
    pose proof (f_equal (fun f => f 0%nat) EQ) as Q0. pose proof (f_equal (fun f => f 1%nat) EQ) as Q1. cbv beta in Q0, Q1. rewrite PH in Q0, Q1.
    unfold vadd, vscal, vzero in Q0, Q1. cbn [INR] in Q0, Q1.
    replace (s * s * ((0 + 1) * (0 + 1))) with (s * s) in Q0 by ring. rewrite sqrt_square in Q0 by lra.
    replace (s * s * ((1 + 1) * (1 + 1))) with ((2 * s) * (2 * s)) in Q1 by ring. rewrite sqrt_square in Q1 by lra.
    assert (A1 : eta * (1 - b1) = s + eps). { apply (Rmult_eq_compat_r (s + eps)) in Q0. field_simplify in Q0; [|lra]. lra. }
    assert (A2 : eta * (1 - b1) = 2 * s + eps). { apply (Rmult_eq_compat_r (2 * s + eps)) in Q1. field_simplify in Q1; [|lra]. lra. }
    lra.
  Qed.
End Derived.
