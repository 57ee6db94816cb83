(** Convergence of FedAvg and Scaffold. *)
From Coq Require Import Reals String List Lra Lia Arith FunctionalExtensionality.
From Verif.Model Require Import PyDict History Messages Network Runner Vec P2P Fed.
From Verif.Spec Require Import CostSpec NetworkSpec P2PSpec FedSpec ConvSpec.
From Verif.Proofs Require Import CostProofs VecProofs EmpiricalProofs P2PRuns FedLock FedRuns FedRuns2 FedDerived ConvStack ConvSolve.
Import ListNotations.
Open Scope R_scope.

Lemma dot_mean n l (v : agent_id -> vec) y : dot n (mean_over l v) y = / INR (length l) * rsum (map (fun i => dot n (v i) y) l).
Proof.
  rewrite mean_sum, dot_scal_l. f_equal. unfold sum_over.
  rewrite (dot_ext n (fun c => rsum (map (fun i => v i c) l)) (fun c => rsum (map (fun i => 1 * v i c) l)) y y); auto.
  - rewrite (dot_rsum n v (fun _ => 1) l y). apply rsum_map_ext. intros; lra.
  - intros c _. apply rsum_map_ext. intros; lra.
Qed.
Lemma inv_len {B} (l : list B) : l <> [] -> 0 < / INR (length l).
Proof. intro H. apply Rinv_0_lt_compat. now apply len_pos. Qed.

Lemma mean_smooth n (l : list agent_id) F G m L : l <> [] -> (forall i, In i l -> smooth_strongly_convex n (F i) (G i) m L) ->
  smooth_strongly_convex n (fun x => / INR (length l) * rsum (map (fun i => F i x) l)) (fun x => mean_over l (fun i => G i x)) m L.
Proof.
  intros NE SC x h. pose proof (len_pos l NE) as LP. pose proof (inv_len l NE) as IP. rewrite dot_mean.
  replace (/ INR (length l) * rsum (map (fun i => F i (vadd x h)) l) - / INR (length l) * rsum (map (fun i => F i x) l) - / INR (length l) * rsum (map (fun i => dot n (G i x) h) l))
    with (/ INR (length l) * rsum (map (fun i => F i (vadd x h) - F i x - dot n (G i x) h) l)) by (rewrite !rsum_map_sub; lra).
  assert (E : forall c : R, c = / INR (length l) * rsum (map (fun _ : agent_id => c) l)) by (intro; rewrite rs_const; field; lra).
  rewrite (E (m / 2 * nrm2 n h)), (E (L / 2 * nrm2 n h)). split; (apply Rmult_le_compat_l; [lra|]; apply rs_le; intros i I; apply (SC i I x h)).
Qed.
Lemma mean_stationary n (l : list agent_id) F G m L xs : l <> [] -> 0 < L -> (forall i, In i l -> smooth_strongly_convex n (F i) (G i) m L) -> minimises l F xs ->
  forall c, (c < n)%nat -> mean_over l (fun i => G i xs) c = 0.
Proof. intros NE LP SC MIN c C. unfold mean_over. rewrite (stationary n l F G L xs LP); auto; [lra|]. eauto. Qed.

(** contraction of a gradient step towards a point where the gradient vanishes *)
Lemma gd_contract n F G m L a x xs : smooth_strongly_convex n F G m L -> 0 <= m -> 0 < L -> 0 <= a -> a * L <= 2 -> (forall c, (c < n)%nat -> G xs c = 0) ->
  nrm2 n (vsub (vsub x (vscal a (G x))) xs) <= (1 - a * m * (2 - a * L)) * nrm2 n (vsub x xs).
Proof.
  intros SC M LP A AL Z. pose proof (step_contracts n F G m L SC M LP a x xs A AL) as H.
  rewrite (nrm2_ext n (vsub (vsub x (vscal a (G x))) xs) (vsub (vsub x (vscal a (G x))) (vsub xs (vscal a (G xs))))); auto.
  intros c C. unfold vsub, vscal. rewrite (Z c C). lra.
Qed.
Lemma nrm2_mean n l (v : agent_id -> vec) xs B : l <> [] -> (forall i, In i l -> nrm2 n (vsub (v i) xs) <= B) -> nrm2 n (vsub (mean_over l v) xs) <= B.
Proof.
  intros NE H. pose proof (len_pos l NE) as LP. pose proof (inv_len l NE) as IP.
  set (u := fun i => vsub (v i) xs). assert (E : vsub (mean_over l v) xs = mean_over l u).
  { apply functional_extensionality. intro c. unfold mean_over, u, vsub. rewrite rsum_map_sub, rs_const. field. lra. }
  rewrite E. set (M := mean_over l u).
  (* |M|^2 = mean <u_i, M> <= mean (|u_i|^2 + |M|^2)/2 *)
  assert (D : nrm2 n M = / INR (length l) * rsum (map (fun i => dot n (u i) M) l)) by (unfold nrm2; unfold M at 1; apply dot_mean).
  assert (Y : rsum (map (fun i => dot n (u i) M) l) <= rsum (map (fun _ => (B + nrm2 n M) / 2) l)).
  { apply rs_le. intros i I. specialize (H i I). fold (u i) in H. pose proof (nrm2_nonneg n (vsub (u i) M)) as P. rewrite nrm2_sub in P. lra. }
  rewrite rs_const in Y. apply Rmult_le_compat_l with (r := / INR (length l)) in Y; [|lra]. rewrite <- D in Y.
  replace (/ INR (length l) * (INR (length l) * ((B + nrm2 n M) / 2))) with ((B + nrm2 n M) / 2) in Y by (field; lra). lra.
Qed.
Lemma local_contract n F G m L a xs grad i : smooth_strongly_convex n (F i) (G i) m L -> 0 <= m -> 0 < L -> 0 <= a -> a * L <= 2 ->
  (forall c, (c < n)%nat -> G i xs c = 0) -> exact_gradients grad G -> 0 <= 1 - a * m * (2 - a * L) -> forall K x z s,
  local_steps grad i (fun y g => vsub y (vscal a g)) K x z s -> nrm2 n (vsub z xs) <= (1 - a * m * (2 - a * L)) ^ K * nrm2 n (vsub x xs).
Proof.
  intros SC M LP A AL Z EG Q K x z s H. induction H as [x|K x g z s (d & GE) LS IH]; [cbn [pow]; lra|].
  rewrite EG in GE. subst g. eapply Rle_trans; [exact IH|]. cbn [pow].
  pose proof (gd_contract n (F i) (G i) m L a x xs SC M LP A AL Z) as C.
  apply Rmult_le_compat_l with (r := (1 - a * m * (2 - a * L)) ^ K) in C; [|now apply pow_le]. lra.
Qed.
Lemma single_point n (F : vec -> R) (G : vec -> vec) L m xs : 0 < L -> smooth_strongly_convex n F G m L -> (forall z, F xs <= F z) -> forall c, (c < n)%nat -> G xs c = 0.
Proof.
  intros LP SC MIN c C. pose proof (stationary n [0%nat] (fun _ => F) (fun _ => G) L xs LP) as H.
  assert (E : forall x : R, rsum [x] = x) by (intro; unfold rsum; cbn; lra).
  specialize (H ltac:(intros; exists m; auto)). cbn [map] in H. rewrite <- (E (G xs c)). apply H; auto.
  intro z. cbn [map]. rewrite !E. apply MIN.
Qed.
(** if there is a direction at all, 0 <= rate *)
Lemma rate_pos n F G m L a : (0 < n)%nat -> smooth_strongly_convex n F G m L -> 0 <= m -> 0 < L -> 0 <= a -> a * L <= 2 -> 0 <= 1 - a * m * (2 - a * L).
Proof.
  intros NP SC M LP A AL. destruct (SC vzero (fun c => 1)) as (B1 & B2).
  assert (P : 0 < nrm2 n (fun _ => 1)).
  { pose proof (coord_le n (fun _ => 1) 0 NP) as H. cbv beta in H. rewrite Rabs_R1 in H. rewrite <- norm_sq. assert (0 < norm n (fun _ => 1)) by lra. now apply Rmult_lt_0_compat. }
  assert (m <= L). { apply Rmult_le_reg_r with (nrm2 n (fun _ => 1)); auto. lra. }
  assert (a * m <= a * L) by (apply Rmult_le_compat_l; lra).
  assert (0 <= (a * L - a * m) * (2 - a * L)) by (apply Rmult_le_pos; lra).
  assert (0 <= (1 - a * L) * (1 - a * L)) by apply Rle_0_sqr. lra.
Qed.

Lemma gd_rate n F G m L a xs (x : nat -> vec) N : smooth_strongly_convex n F G m L -> 0 <= m -> 0 < L -> 0 <= a -> a * L <= 2 -> (forall c, (c < n)%nat -> G xs c = 0) ->
  (forall k, (k < N)%nat -> forall c, (c < n)%nat -> x (S k) c = vsub (x k) (vscal a (G (x k))) c) ->
  forall k, (k <= N)%nat -> nrm2 n (vsub (x k) xs) <= (1 - a * m * (2 - a * L)) ^ k * nrm2 n (vsub (x 0%nat) xs).
Proof.
  intros SC M LP A AL Z ST. destruct n as [|n'].
  { intros. unfold nrm2, dot, sumn. cbn. lra. }
  set (n := S n') in *. pose proof (rate_pos n F G m L a ltac:(unfold n; lia) SC M LP A AL) as Q.
  induction k as [|k IH]; intro K; [cbn [pow]; lra|]. specialize (IH ltac:(lia)).
  rewrite (nrm2_ext n _ (vsub (vsub (x k) (vscal a (G (x k)))) xs)) by (intros c C; unfold vsub at 1; rewrite (ST k ltac:(lia) c C); unfold vsub; lra).
  eapply Rle_trans; [apply (gd_contract n F G m L a (x k) xs SC M LP A AL Z)|]. cbn [pow]. set (q := 1 - a * m * (2 - a * L)) in *. rewrite Rmult_assoc. now apply Rmult_le_compat_l.
Qed.

Section FedConv.
  Variables (t : topo) (e : env vec) (sv : agent_id).
  Hypothesis NET : fed_net t e sv.
  Notation clients := (agents t).
  Hypothesis NE : clients <> [].
  Variables (period : agent_id -> nat) (N : nat) (w : world vec nat).
  Variables (n : nat) (F : agent_id -> vec -> R) (G : agent_id -> vec -> vec) (grad : nat -> agent_id -> vec -> vec) (m L a : R) (xs : vec).
  Hypothesis SC : forall i, In i clients -> smooth_strongly_convex n (F i) (G i) m L.
  Hypothesis M0 : 0 <= m.
  Hypothesis LP : 0 < L.
  Hypothesis EG : exact_gradients grad G.
  Hypothesis A0 : 0 <= a.

  Lemma fedavg_linear x0 : a * L <= 2 -> minimises clients F xs -> synchronous e ->
    exists X, throughout t period (fed N (fedavg_init t sv x0) (fed_round t e sv (fedavg_alg grad 1 a) None)) w
      (fun k st => state_is st sv (X k)) /\ X 0%nat = x0 sv /\
      forall k, (k <= N)%nat -> nrm2 n (vsub (X k) xs) <= (1 - a * m * (2 - a * L)) ^ k * nrm2 n (vsub (x0 sv) xs).
  Proof.
    intros AL MIN SY. destruct (fedavg_gd t e sv NET NE period N w grad a x0 SY) as (X & Gk & T & X0 & ST).
    exists (fun k => X k sv). split. { apply (throughout_mono t period _ w _ _) with (2 := T). intros k st H. apply H; eapply sv_node; eauto. }
    split; [apply X0|]. intros k K. rewrite <- X0.
    apply (gd_rate n _ _ m L a xs (fun k => X k sv) N (mean_smooth n clients F G m L NE SC) M0 LP A0 AL (mean_stationary n clients F G m L xs NE LP SC MIN)); auto.
    intros j J c C. destruct (ST j J) as (GR & ->). match goal with |- vsub _ (vscal _ ?u) c = vsub _ (vscal _ ?v) c => cut (u = v); [intros ->; reflexivity|] end. apply mean_ext. intros i I. destruct (GR i I) as (d & ->). apply EG.
  Qed.
  Lemma scaffold_linear eta x0 c0 : 0 <= eta -> eta * a * L <= 2 -> a <> 0 -> c0 sv = mean_over clients c0 -> minimises clients F xs -> synchronous e ->
    exists X, throughout t period (fed N (scaffold_init t sv x0 c0) (fed_round t e sv (scaffold_alg t grad 1 a eta) None)) w
      (fun k st => state_is st sv (X k)) /\ X 0%nat = x0 sv /\
      forall k, (k <= N)%nat -> nrm2 n (vsub (X k) xs) <= (1 - eta * a * m * (2 - eta * a * L)) ^ k * nrm2 n (vsub (x0 sv) xs).
  Proof.
    intros E0 AL NA CM MIN SY. destruct (scaffold_gd t e sv NET NE period N w grad a eta x0 c0 SY NA CM) as (X & C & Gk & T & X0 & ST).
    exists (fun k => X k sv). split. { apply (throughout_mono t period _ w _ _) with (2 := T). intros k st (H & _). apply H; eapply sv_node; eauto. }
    split; [apply X0|]. intros k K. rewrite <- X0.
    apply (gd_rate n _ _ m L (eta * a) xs (fun k => X k sv) N (mean_smooth n clients F G m L NE SC) M0 LP ltac:(now apply Rmult_le_pos) AL (mean_stationary n clients F G m L xs NE LP SC MIN)); auto.
    intros j J c CC. destruct (ST j J) as (GR & ->). match goal with |- vsub _ (vscal _ ?u) c = vsub _ (vscal _ ?v) c => cut (u = v); [intros ->; reflexivity|] end. apply mean_ext. intros i I. destruct (GR i I) as ((d & ->) & _). apply EG.
  Qed.

  (** every client's own cost is minimal at the same point *)
  Lemma fedavg_common sch K x0 : a * L <= 2 -> (forall i, In i clients -> forall z, F i xs <= F i z) -> proper sch -> faithful e ->
    exists X, throughout t period (fed N (fedavg_init t sv x0) (fed_round t e sv (fedavg_alg grad K a) sch)) w (fun k st => state_is st sv (X k)) /\ X 0%nat = x0 sv /\
      forall k, (k < N)%nat -> exists P R, participation t e sch P R /\ (R = [] -> X (S k) = X k) /\
        (R <> [] -> nrm2 n (vsub (X (S k)) xs) <= (1 - a * m * (2 - a * L)) ^ K * nrm2 n (vsub (X k) xs)).
  Proof.
    intros AL MIN PR FA. destruct (fedavg_run t e sv NET period N w grad sch K a x0 PR FA) as (X & T & X0 & ST).
    exists (fun k => X k sv). split. { apply (throughout_mono t period _ w _ _) with (2 := T). intros k st H. apply H; eapply sv_node; eauto. }
    split; [apply X0|]. intros k Kk. destruct (ST k Kk) as (P & Q & PA & LO & _ & E1 & E2). exists P, Q. split; [exact PA|]. split; [exact E1|].
    intro QN. rewrite (E2 QN). destruct (Nat.eq_dec n 0) as [-> |NN]; [unfold nrm2, dot, sumn; cbn; lra|].
    apply nrm2_mean; auto. intros i I. destruct PA as (_ & PC & _ & QP & _). destruct (LO i (QP i I)) as (s & LS).
    assert (IC : In i clients) by apply PC, QP, I.
    eapply local_contract with (6 := single_point n (F i) (G i) L m xs LP (SC i IC) (MIN i IC)); eauto.
    apply (rate_pos n (F i) (G i) m L a); auto; lia.
  Qed.
End FedConv.
