(** C102: the metrics reported for a run of a convergent algorithm tend to zero.
    From the agents' iterates (C90, C92) through the snapshots (C04) to what the
    metrics return (C50). *)
From Coq Require Import Reals String List Lra Lia Arith ZArith Psatz FunctionalExtensionality.
From Verif.Model Require Import PyDict History Messages Network Counting Runner Vec P2P Fed Metrics.
From Verif.Spec Require Import RunnerSpec CostSpec NetworkSpec P2PSpec FedSpec AlgSpec MetricsSpec ConvSpec EndSpec.
From Verif.Proofs Require Import CostProofs VecProofs EmpiricalProofs CountX FedDerived ConvStack ConvSolve ConvFed MetricsProofs.
From Verif.Props Require Import P2PProps RunnerProps AlgProps ConvProps.
Import ListNotations.
Open Scope R_scope.

Lemma F2_map {A B C} (P : B -> C -> Prop) (f : A -> B) (g : A -> C) l : (forall a, In a l -> P (f a) (g a)) -> Forall2 P (map f l) (map g l).
Proof. induction l as [|a l IH]; intro H; cbn; constructor; [apply H; now left|]. apply IH. intros b I. apply H. now right. Qed.
Lemma average_mean l (X : agent_id -> vec) : average (map X l) = mean_over l X.
Proof. apply functional_extensionality. intro c. unfold average, mean_over. rewrite map_map, map_length. unfold Rdiv. ring. Qed.

(** The agents the metrics look at: all but the server. *)
Lemma clients_of_view t cost st cnt : nv_agents (from_network t cost (mkTrial st cnt)) = map (from_agent cost (mkTrial st cnt)) (agents t).
Proof.
  unfold nv_agents, from_network, agents, is_server. cbn [nv_server nv_nodes]. destruct (t_server t) as [s|].
  - induction (t_nodes t) as [|i l IH]; [reflexivity|]. cbn [map filter]. rewrite IH. cbn [from_agent v_id]. destruct (Nat.eqb i s); reflexivity.
  - induction (t_nodes t) as [|i l IH]; [reflexivity|]. cbn [map filter negb] in IH |- *. cbn [map]. f_equal. exact IH.
Qed.
(** What the metrics say about the agents' states [X], [xs] being the optimum:
    the squared x error and the mean squared consensus error add up to the mean
    squared distance to the optimum; the regret and the gradient norm are within
    constant factors of the squared x error and the x error. *)
Theorem C102_metrics_of_agents t n cost F G m L xs st it X : agents t <> [] ->
  costs_are (agents t) cost F G -> (forall i, In i (agents t) -> smooth_strongly_convex n (F i) (G i) m L) -> 0 <= m -> 0 < L ->
  ConvSpec.minimises (agents t) F xs ->
  (forall i, In i (agents t) -> h_get (a_hist (n_agents st i)) it = Ok (X i)) ->
  let mean := mean_over (agents t) X in
  exists rg xe gn ces, reported t n cost xs st it rg xe gn ces /\
    xe = norm n (vsub mean xs) /\ ces = map (fun i => norm n (vsub mean (X i))) (agents t) /\
    xe * xe + rsum (map (fun c => c * c) ces) / INR (List.length (agents t)) = sq_error (agents t) n X xs / INR (List.length (agents t)) /\
    m / 2 * (xe * xe) <= rg <= L / 2 * (xe * xe) /\ m * xe <= gn <= L * xe /\ 0 <= xe /\
    List.length ces = List.length (agents t) /\ Forall (fun c => 0 <= c) ces.
Proof.
  intros NE CA SC M0 LP MIN H mean. subst mean. set (l := agents t) in *.
  set (mu := mean_over l X). set (Gm := mean_over l (fun i => G i mu)).
  set (Fb := fun x => / INR (length l) * rsum (map (fun i => F i x) l)).
  exists (Fb mu - Fb xs), (norm n (vsub mu xs)), (norm n Gm), (map (fun i => norm n (vsub mu (X i))) l).
  pose proof (mean_smooth n l F G m L NE SC) as SM. fold Fb in SM.
  assert (Z : forall c, (c < n)%nat -> mean_over l (fun i => G i xs) c = 0) by (apply (mean_stationary n l F G m L xs NE LP SC MIN)).
  pose proof (INR_pos l NE) as LN.
  split.
  { intros cnt id nv.
    assert (AG : nv_agents nv = map (from_agent cost (mkTrial st cnt)) l) by apply clients_of_view.
    assert (F2 : Forall2 (fun a x => h_get (v_hist a) it = Ok x) (nv_agents nv) (map X l)).
    { rewrite AG. apply F2_map. intros i I. cbn. now apply H. }
    assert (NA : nv_agents nv <> []) by (rewrite AG; destruct l; [congruence|discriminate]).
    assert (XM : x_mean (nv_agents nv) it = Ok mu).
    { apply x_mean_ok. exists (map X l). split; [exact F2|]. split; [exact NA|]. unfold mu. now rewrite average_mean. }
    assert (TC : forall z, total_cost (nv_agents nv) z = rsum (map (fun i => F i z) l)).
    { intro z. unfold total_cost. rewrite AG, map_map. apply rsum_map_ext. intros i I. cbn. apply (CA i I). }
    split; [|split; [|split]]; cbn [m_compute Regret XError GradientNorm ConsensusError].
    - apply rbind_ok. exists (Fb mu - Fb xs). split; [|reflexivity]. apply regret_ok. exists mu. split; [exact XM|].
      rewrite !TC, AG, map_length. unfold Fb. field. lra.
    - unfold x_error. rewrite XM. reflexivity.
    - unfold gradient_norm. rewrite XM. cbn [rbind]. rewrite average_eq.
      replace (map (fun a => c_grad (v_cost a) mu) (nv_agents nv)) with (map (fun i => G i mu) l); [rewrite average_mean; reflexivity|].
      rewrite AG, map_map. apply map_ext_in. intros i I. cbn. symmetry. apply (CA i I).
    - apply rbind_ok. exists (map (fun i => norm n (vsub mu (X i))) l). split; [|reflexivity].
      apply consensus_ok. exists (map X l). split; [exact F2|]. split; [exact NA|]. rewrite map_map, average_mean. reflexivity. }
  assert (DE : sq_error l n X xs = rsum (map (fun i => nrm2 n (vsub mu (X i))) l) + INR (length l) * nrm2 n (vsub mu xs)).
  { unfold sq_error. assert (NX : map X l <> []) by (destruct l; [congruence|discriminate]).
    pose proof (decompose n (map X l) xs NX) as D. rewrite !map_map, map_length, average_mean in D. exact D. }
  assert (GX : forall h, dot n (mean_over l (fun i => G i xs)) h = 0).
  { intro h. rewrite (dot_ext n _ vzero h h); [apply dot_zero_l|exact Z|auto]. }
  split; [reflexivity|]. split; [reflexivity|]. split; [|split; [|split; [|split; [|split]]]].
  - rewrite DE, map_map, norm_sq. rewrite (rsum_map_ext (fun i => norm n (vsub mu (X i)) * norm n (vsub mu (X i))) (fun i => nrm2 n (vsub mu (X i)))) by (intros; apply norm_sq).
    field. lra.
  - rewrite norm_sq. specialize (SM xs (vsub mu xs)). rewrite GX in SM.
    replace (vadd xs (vsub mu xs)) with mu in SM; [lra|]. apply functional_extensionality. intro c. unfold vadd, vsub. ring.
  - pose proof (norm_nonneg n (vsub mu xs)) as X0. pose proof (norm_nonneg n Gm) as G0.
    pose proof (strongly_monotone n _ _ m L SM mu xs) as S1. pose proof (coercive n _ _ m L SM M0 LP mu xs) as C1.
    fold Gm in S1, C1. cbv beta in S1, C1. fold Gm in S1, C1.
    assert (E1 : nrm2 n (vsub Gm (mean_over l (fun i => G i xs))) = nrm2 n Gm) by (apply nrm2_ext; intros c C; unfold vsub; rewrite (Z c C); ring).
    assert (E2 : dot n (vsub Gm (mean_over l (fun i => G i xs))) (vsub mu xs) = dot n Gm (vsub mu xs)) by (rewrite dot_sub_l, GX; ring).
    rewrite E2 in S1. rewrite E1, E2 in C1. rewrite <- norm_sq in S1, C1.
    pose proof (dot_norm n Gm (vsub mu xs)) as CS. pose proof (Rle_abs (dot n Gm (vsub mu xs))) as AB.
    set (g := norm n Gm) in *. set (x := norm n (vsub mu xs)) in *. set (d := dot n Gm (vsub mu xs)) in *.
    split.
    + destruct (Rle_lt_dec x 0) as [Q|Q]; [replace x with 0 by lra; lra|]. apply Rmult_le_reg_r with x; [exact Q|]. nra.
    + destruct (Rle_lt_dec g 0) as [Q|Q]; [assert (0 <= L * x) by (apply Rmult_le_pos; lra); lra|].
      apply Rmult_le_reg_r with g; [exact Q|]. assert (L * d <= L * (g * x)) by (apply Rmult_le_compat_l; lra). nra.
  - apply norm_nonneg.
  - apply map_length.
  - apply Forall_forall. intros c I. apply in_map_iff in I. destruct I as (i & <- & _). apply norm_nonneg.
Qed.

(** What a run of a library algorithm leaves for the metrics: at every iteration in
    which an agent takes a snapshot, its iterate. *)
Theorem C102_snapshots_are_iterates t e period grad prox N A w X k i : p2p_topo t -> p2p_class t e grad prox N A -> trajectory t period A w X ->
  In i (t_nodes t) -> (1 <= k)%nat -> due (period i) (al_iters A) k -> h_get (a_hist (n_agents (snd (r_world (run t period A 0 w))) i)) (Z.of_nat k) = Ok (X k i).
Proof.
  intros (WF & NS & _) CL (FI & _ & CB & _) I K D.
  destruct (C04_peer_to_peer t e period grad prox N A w i (proj1 WF) NS CL I FI) as (_ & _ & S).
  destruct D as (B & D). destruct (S (k - 1)%nat ltac:(lia)) as (w' & v & C & E & H).
  replace (k - 1 + 1)%nat with k in H by lia. rewrite H by (split; auto).
  specialize (CB _ _ C i I). replace (Datatypes.S (k - 1)) with k in CB by lia. unfold state_is in CB. congruence.
Qed.

Lemma sq_le a b : 0 <= a -> 0 <= b -> a * a <= b * b -> a <= b.
Proof. intros A B H. destruct (Rle_or_lt a b) as [Q|Q]; auto. exfalso. nra. Qed.
Lemma rsum_sq_pos l : 0 <= rsum (map (fun c : R => c * c) l).
Proof. apply rs_nonneg. intros x _. exact (Rle_0_sqr x). Qed.
Lemma rsum_in_le l c : In c l -> c * c <= rsum (map (fun c : R => c * c) l).
Proof. intro I. apply (rs_in (fun c : R => c * c) l c I). intros x _. exact (Rle_0_sqr x). Qed.

(** Small errors, small numbers. *)
Lemma small_d L eps : 0 < L -> 0 < eps -> exists d, 0 < d /\ d <= 1 /\ d <= eps /\ L * d <= eps.
Proof.
  intros LP EP. assert (EL : 0 < eps / L) by (apply Rdiv_lt_0_compat; lra). exists (Rmin 1 (Rmin eps (eps / L))). split; [|split; [|split]].
  - repeat apply Rmin_glb_lt; lra.
  - apply Rmin_l.
  - eapply Rle_trans; [apply Rmin_r|apply Rmin_l].
  - apply Rle_trans with (L * (eps / L)); [|right; field; lra]. apply Rmult_le_compat_l; [lra|]. eapply Rle_trans; [apply Rmin_r|apply Rmin_r].
Qed.
Lemma small_mean m L eps d rg xe gn : 0 < m -> 0 < L -> 0 < d -> d <= 1 -> d <= eps -> L * d <= eps ->
  m / 2 * (xe * xe) <= rg <= L / 2 * (xe * xe) -> m * xe <= gn <= L * xe -> 0 <= xe -> xe * xe <= d * d -> Forall (fun v => 0 <= v <= eps) [rg; xe; gn].
Proof.
  intros MP LP D0 D1 D2 D3 RG GN X0 XX. assert (XD : xe <= d) by (apply sq_le; lra). assert (X2 : 0 <= xe * xe) by nra.
  constructor; [|constructor; [|constructor; [|constructor]]].
  - split; [assert (0 <= m / 2 * (xe * xe)) by (apply Rmult_le_pos; lra); lra|].
    assert (d * d <= d) by nra. assert (L / 2 * (xe * xe) <= L / 2 * d) by (apply Rmult_le_compat_l; lra). assert (0 <= L * d) by (apply Rmult_le_pos; lra). lra.
  - lra.
  - split; [assert (0 <= m * xe) by (apply Rmult_le_pos; lra); lra|]. assert (L * xe <= L * d) by (apply Rmult_le_compat_l; lra). lra.
Qed.
Lemma small_states t n cost F G m L xs st it X eps d : agents t <> [] ->
  costs_are (agents t) cost F G -> (forall i, In i (agents t) -> smooth_strongly_convex n (F i) (G i) m L) -> 0 < m -> 0 < L ->
  ConvSpec.minimises (agents t) F xs -> (forall i, In i (agents t) -> h_get (a_hist (n_agents st i)) it = Ok (X i)) ->
  0 < d -> d <= 1 -> d <= eps -> L * d <= eps -> sq_error (agents t) n X xs <= d * d ->
  exists rg xe gn ces, reported t n cost xs st it rg xe gn ces /\ List.length ces = List.length (agents t) /\ Forall (fun v => 0 <= v <= eps) (rg :: xe :: gn :: ces).
Proof.
  intros NE CA SC MP LP MIN H D0 D1 D2 D3 B.
  destruct (C102_metrics_of_agents t n cost F G m L xs st it X NE CA SC ltac:(lra) LP MIN H) as (rg & xe & gn & ces & RP & _ & _ & ID & RG & GN & X0 & LE & CP).
  exists rg, xe, gn, ces. split; [exact RP|]. split; [exact LE|].
  assert (LN : 1 <= INR (List.length (agents t))) by (destruct (agents t); [congruence|]; change 1 with (INR 1); apply le_INR; cbn; lia).
  set (q := INR (List.length (agents t))) in *. set (Sc := rsum (map (fun c => c * c) ces)) in *. set (E := sq_error (agents t) n X xs) in *.
  assert (ID' : q * (xe * xe) + Sc = E) by (apply Rmult_eq_compat_r with (r := q) in ID; replace ((xe * xe + Sc / q) * q) with (q * (xe * xe) + Sc) in ID by (field; lra); replace (E / q * q) with E in ID by (field; lra); exact ID).
  assert (XX : 0 <= xe * xe) by nra. assert (QX : xe * xe <= q * (xe * xe)) by nra.
  assert (SP : 0 <= Sc). { apply rsum_sq_pos. }
  assert (F3 : Forall (fun v => 0 <= v <= eps) [rg; xe; gn]) by (apply (small_mean m L eps d); auto; lra).
  change (rg :: xe :: gn :: ces) with ([rg; xe; gn] ++ ces). apply Forall_app. split; [exact F3|].
  rewrite Forall_forall in CP |- *. intros c I. split; [now apply CP|]. apply Rle_trans with d; [|exact D2]. apply sq_le; [now apply CP|lra|].
  pose proof (rsum_in_le ces c I) as Q. fold Sc in Q. assert (0 <= q * (xe * xe)) by (apply Rmult_le_pos; lra). lra.
Qed.

(** The step from iterates to curves. *)
Lemma vanish t n F G m L xs grad prox A : p2p_topo t -> t_nodes t <> [] ->
  (forall i, In i (t_nodes t) -> smooth_strongly_convex n (F i) (G i) m L) -> 0 < m -> 0 < L -> ConvSpec.minimises (t_nodes t) F xs ->
  (forall e N, p2p_class t e grad prox N (A e N)) -> (forall e N, al_iters (A e N) = N) ->
  (forall eps, 0 < eps -> exists K, forall e period N w, synchronous e -> exists X, trajectory t period (A e N) w X /\
     forall k, (K <= k)%nat -> (1 <= k <= N)%nat -> sq_error (t_nodes t) n (X k) xs <= eps) ->
  curves_vanish t n F G xs A.
Proof.
  intros PT NE SC MP LP MIN CL IT H eps EP. destruct (small_d L eps LP EP) as (d & D0 & D1 & D2 & D3).
  destruct (H (d * d) ltac:(nra)) as (K & HK). exists K. intros e N period w cost SY CA r.
  destruct (HK e period N w SY) as (X & TR & B). split; [exact (proj1 TR)|]. intros k K1 KK DU.
  assert (BN : (1 <= k <= N)%nat).
  { assert (E : exists i, In i (t_nodes t)) by (destruct (t_nodes t) as [|i l]; [congruence|exists i; now left]). destruct E as (i & I). apply (DU i I). }
  specialize (B k KK BN). pose proof (agents_p2p t (proj1 (proj2 PT))) as AE. rewrite <- AE in NE, SC, MIN, CA, B. unfold reported_within. rewrite <- AE.
  apply (small_states t n cost F G m L xs (snd (r_world r)) (Z.of_nat k) (X k) eps d); auto.
  intros i I. rewrite AE in I. apply (C102_snapshots_are_iterates t e period grad prox N (A e N) w X k i PT (CL e N) TR I K1). rewrite IT. now apply DU.
Qed.

Section C102.
  Variables (t : topo) (n : nat) (W : agent_id -> agent_id -> R).
  Hypothesis PT : p2p_topo t.
  Hypothesis NE : t_nodes t <> [].
  Hypothesis CN : connected t.
  Hypothesis MX : mixing t W.
  Variables (F : agent_id -> vec -> R) (G : agent_id -> vec -> vec) (grad : nat -> agent_id -> vec -> vec) (m L : R) (xs : vec).
  Hypothesis SC : forall i, In i (t_nodes t) -> smooth_strongly_convex n (F i) (G i) m L.
  Hypothesis MP : 0 < m.
  Hypothesis LP : 0 < L.
  Hypothesis EG : exact_gradients grad G.
  Hypothesis MIN : ConvSpec.minimises (t_nodes t) F xs.
  Let noprox (k : nat) (i : agent_id) (x : vec) (r : R) : vec := x.

  Theorem C102_ed a x0 : 0 < a -> a * L < 2 -> curves_vanish t n F G xs (fun e N => p2p t e N (ed_init grad a x0) (ed W grad a)).
  Proof.
    intros AP AL. eapply (vanish t n F G m L xs grad noprox); auto; [intros; constructor|].
    intros eps EP. destruct (C90_ed_linear t n W PT CN MX) as (lam & LB & H).
    assert (Q : 0 <= Rmax (1 - a * m * (2 - a * L)) (1 - lam) < 1).
    { destruct (H F G grad m L a xs x0 sync_env (fun _ => 1%nat) 0%nat blank SC MP LP EG AP AL MIN sync_ok) as (Q & _). exact Q. }
    destruct (geometric (sq_error (t_nodes t) n x0 xs + a * a / lam * rsum (map (fun i => nrm2 n (G i xs)) (t_nodes t))) _ eps Q EP) as (K & HK).
    exists K. intros e period N w SY. destruct (H F G grad m L a xs x0 e period N w SC MP LP EG AP AL MIN SY) as (_ & X & TR & _ & B).
    exists X. split; [exact TR|]. intros k KK KN. eapply Rle_trans; [apply B; lia|]. apply HK, KK.
  Qed.
  Theorem C102_nids a x0 : 0 < a -> a * L < 2 -> curves_vanish t n F G xs (fun e N => p2p t e N (nids_init x0) (nids W grad a)).
  Proof.
    intros AP AL. eapply (vanish t n F G m L xs grad noprox); auto; [intros; constructor|].
    intros eps EP. destruct (C90_nids_linear t n W PT CN MX) as (lam & LB & H).
    assert (Q : 0 <= Rmax (1 - a * m * (2 - a * L)) (1 - lam) < 1).
    { destruct (H F G grad m L a xs x0 sync_env (fun _ => 1%nat) 0%nat blank SC MP LP EG AP AL MIN sync_ok) as (Q & _). exact Q. }
    destruct (geometric (sq_error (t_nodes t) n (fun i => vsub (x0 i) (vscal a (G i (x0 i)))) xs + a * a / lam * rsum (map (fun i => nrm2 n (G i xs)) (t_nodes t))) _ eps Q EP) as (K & HK).
    exists (Datatypes.S K). intros e period N w SY. destruct (H F G grad m L a xs x0 e period N w SC MP LP EG AP AL MIN SY) as (_ & X & TR & _ & B).
    exists X. split; [exact TR|]. intros [|k] KK KN; [lia|]. eapply Rle_trans; [apply B; lia|]. apply HK. lia.
  Qed.
  Lemma linear_vanish A C q : (forall e N, p2p_class t e grad noprox N (A e N)) -> (forall e N, al_iters (A e N) = N) -> 0 <= q < 1 ->
    (forall e period N w, synchronous e -> exists X, trajectory t period (A e N) w X /\ forall k, (k <= N)%nat -> sq_error (t_nodes t) n (X k) xs <= C * q ^ k) ->
    curves_vanish t n F G xs A.
  Proof.
    intros CL IT Q H. apply (vanish t n F G m L xs grad noprox); auto. intros eps EP. destruct (geometric C q eps Q EP) as (K & HK). exists K. intros e period N w SY.
    destruct (H e period N w SY) as (X & TR & B). exists X. split; [exact TR|]. intros k KK KN. eapply Rle_trans; [apply B; lia|]. apply HK, KK.
  Qed.
  Lemma drop_start A C q (P : (nat -> agent_id -> vec) -> Prop) : (forall e period N w, synchronous e -> exists X, trajectory t period (A e N) w X /\ P X /\ forall k, (k <= N)%nat -> sq_error (t_nodes t) n (X k) xs <= C * q ^ k) ->
    forall e period N w, synchronous e -> exists X, trajectory t period (A e N) w X /\ forall k, (k <= N)%nat -> sq_error (t_nodes t) n (X k) xs <= C * q ^ k.
  Proof. intros H e period N w SY. destruct (H e period N w SY) as (X & T & _ & B). exists X. auto. Qed.
  Variable w0 : R.
  Hypothesis W0 : 0 < w0.
  Hypothesis SW : forall i, In i (t_nodes t) -> w0 <= W i i.
  Theorem C102_extra a x0 : 0 < a -> a * L < 2 * w0 -> curves_vanish t n F G xs (fun e N => p2p t e N (extra_init x0) (extra W grad a)).
  Proof.
    intros AP AL. destruct (C90_extra_linear t n W PT CN MX w0 F G grad m L a xs W0 SW SC MP LP EG AP AL MIN) as (q & Q & H). destruct (H x0) as (C & HC).
    apply (linear_vanish _ C q); auto; [intros; constructor|]. exact (drop_start _ C q _ HC).
  Qed.
  (** the tracking methods, with any small enough step size *)
  Hypothesis ML : m <= L.
  Theorem C102_atct : exists a0, 0 < a0 /\ forall a x0, 0 < a <= a0 -> curves_vanish t n F G xs (fun e N => p2p t e N (track_init grad x0) (atct W grad a)).
  Proof.
    destruct (C90_atct_linear t n W PT CN MX w0 W0 SW) as (del & D0 & H). destruct (step_small del m L D0 ltac:(lra)) as (a0 & A0 & AB).
    exists a0. split; [exact A0|]. intros a x0 AP. destruct (AB a AP) as (B1 & B2). destruct (H F G grad m L a xs SC ltac:(lra) EG MIN ltac:(lra) B1 B2) as (Q & HC).
    destruct (HC x0) as (C & HC'). eapply (linear_vanish _ C); auto; [intros; constructor|exact Q|]. exact (drop_start _ C _ _ HC').
  Qed.
  Theorem C102_aug_dgm : exists a0, 0 < a0 /\ forall a x0, 0 < a <= a0 -> curves_vanish t n F G xs (fun e N => p2p t e N (track_init grad x0) (aug_dgm W grad a)).
  Proof.
    destruct (C90_aug_dgm_linear t n W PT CN MX w0 W0 SW) as (del & D0 & H). destruct (step_small del m L D0 ltac:(lra)) as (a0 & A0 & AB).
    exists a0. split; [exact A0|]. intros a x0 AP. destruct (AB a AP) as (B1 & B2). destruct (H F G grad m L a xs SC ltac:(lra) EG MIN ltac:(lra) B1 B2) as (Q & HC).
    destruct (HC x0) as (C & HC'). eapply (linear_vanish _ C); auto; [intros; constructor|exact Q|]. exact (drop_start _ C _ _ HC').
  Qed.
  Theorem C102_wang_elia : exists a0, 0 < a0 /\ forall a x0, 0 < a <= a0 -> curves_vanish t n F G xs (fun e N => p2p t e N (we_init x0) (wang_elia W grad a)).
  Proof.
    destruct (C90_wang_elia_linear t n W PT CN MX w0 W0 SW) as (del & D0 & H).
    assert (LL : 0 < L * L) by (apply Rmult_lt_0_compat; lra). assert (MD : 0 < m * del) by (apply Rmult_lt_0_compat; lra).
    exists (Rmin (del / 5 / L) (m * del / 24 / (L * L))). split; [apply Rmin_glb_lt; apply Rdiv_lt_0_compat; lra|]. intros a x0 (AP & AB).
    assert (A1 : a <= del / 5 / L) by (eapply Rle_trans; [exact AB|apply Rmin_l]). assert (A2 : a <= m * del / 24 / (L * L)) by (eapply Rle_trans; [exact AB|apply Rmin_r]).
    apply Rmult_le_compat_r with (r := L) in A1; [|lra]. apply Rmult_le_compat_r with (r := L * L) in A2; [|lra].
    replace (del / 5 / L * L) with (del / 5) in A1 by (field; lra). replace (m * del / 24 / (L * L) * (L * L)) with (m * del / 24) in A2 by (field; lra).
    destruct (H F G grad m L a xs SC ltac:(lra) EG MIN AP A1 A2) as (Q & HC).
    destruct (HC x0) as (C & HC'). eapply (linear_vanish _ C); auto; [intros; constructor|exact Q|]. exact (drop_start _ C _ _ HC').
  Qed.
End C102.

Theorem C102_admm t n F G m L rho al xs prox z0 x0 : p2p_topo t -> t_nodes t <> [] -> connected t -> (forall i, In i (t_nodes t) -> t_adj t i <> []) ->
  (forall i, In i (t_nodes t) -> smooth_strongly_convex n (F i) (G i) m L) -> 0 < m -> 0 < L -> 0 < rho -> ConvSpec.minimises (t_nodes t) F xs ->
  (forall k i x r, In i (t_nodes t) -> 0 < r -> is_prox n (F i) r x (prox k i x r)) -> 0 < al < 1 ->
  curves_vanish t n F G xs (fun e N => p2p t e N (admm_init t prox rho x0 z0) (admm t prox rho al)).
Proof.
  intros PT NE CN NB SC MP LP RP MIN EX AL. apply (vanish t n F G m L xs (fun _ _ x => x) prox); auto; [intros; constructor|]. intros eps EP.
  destruct (C92_admm t n F G m L rho xs prox z0 PT CN NB SC MP LP RP MIN EX) as (C & CP & H).
  set (T := C * C / (4 * al * (1 - al) * (rho * m) * (rho * m))).
  destruct (nat_above (T / (eps * eps))) as (K & HK). exists K. intros e period N w SY.
  destruct (H al x0 e period N w ltac:(lra) SY) as (X & TR & _ & B). exists X. split; [exact TR|]. intros [|k] KK KN; [lia|].
  specialize (B ltac:(lra) k ltac:(lia)). fold T in B. set (s := sq_error (t_nodes t) n (X (Datatypes.S k)) xs) in *.
  destruct (Rle_or_lt s eps) as [|LT]; auto. exfalso.
  assert (KI : INR K <= INR (Datatypes.S k)) by (apply le_INR; lia). assert (EE : 0 < eps * eps) by now apply Rmult_lt_0_compat.
  assert (SS : eps * eps <= s * s) by (apply Rmult_le_compat; lra).
  assert (T < INR (Datatypes.S k) * (eps * eps)).
  { apply Rmult_lt_reg_r with (/ (eps * eps)); [now apply Rinv_0_lt_compat|]. rewrite Rmult_assoc, Rinv_r by lra. unfold Rdiv in HK. lra. }
  assert (INR (Datatypes.S k) * (eps * eps) <= INR (Datatypes.S k) * (s * s)) by (apply Rmult_le_compat_l; [apply pos_INR|auto]). lra.
Qed.

(** The path 0 - 1 - 2 with its default weights and the costs 1/2 |x - b_i|^2. *)
Example C102_ed_case : curves_vanish path3 1 qcost qg vzero (fun e N => p2p path3 e N (ed_init qgrad (1/2) start) (ed W3 qgrad (1/2))).
Proof.
  apply (C102_ed path3 1 W3 path3_ok ltac:(discriminate) path3_connected (C90_default_weights_mix path3 path3_ok) qcost qg qgrad 1 1 vzero);
    try lra; auto using qgrad_ok, zero_minimises. intros; apply qcost_ok.
Qed.
Example C102_nids_case : curves_vanish path3 1 qcost qg vzero (fun e N => p2p path3 e N (nids_init start) (nids W3 qgrad (1/2))).
Proof.
  apply (C102_nids path3 1 W3 path3_ok ltac:(discriminate) path3_connected (C90_default_weights_mix path3 path3_ok) qcost qg qgrad 1 1 vzero);
    try lra; auto using qgrad_ok, zero_minimises. intros; apply qcost_ok.
Qed.
Example C102_extra_case : curves_vanish path3 1 qcost qg vzero (fun e N => p2p path3 e N (extra_init start) (extra W3 qgrad (1/2))).
Proof.
  apply (C102_extra path3 1 W3 path3_ok ltac:(discriminate) path3_connected (C90_default_weights_mix path3 path3_ok) qcost qg qgrad 1 1 vzero) with (w0 := /3);
    try lra; auto using qgrad_ok, zero_minimises, W3_self. intros; apply qcost_ok.
Qed.
Example C102_tracking_case : exists a0, 0 < a0 /\ forall a x0, 0 < a <= a0 ->
  curves_vanish path3 1 qcost qg vzero (fun e N => p2p path3 e N (track_init qgrad x0) (atct W3 qgrad a)).
Proof.
  apply (C102_atct path3 1 W3 path3_ok ltac:(discriminate) path3_connected (C90_default_weights_mix path3 path3_ok) qcost qg qgrad 1 1 vzero) with (w0 := /3);
    try lra; auto using qgrad_ok, zero_minimises, W3_self. intros; apply qcost_ok.
Qed.
Example C102_aug_dgm_case : exists a0, 0 < a0 /\ forall a x0, 0 < a <= a0 ->
  curves_vanish path3 1 qcost qg vzero (fun e N => p2p path3 e N (track_init qgrad x0) (aug_dgm W3 qgrad a)).
Proof.
  apply (C102_aug_dgm path3 1 W3 path3_ok ltac:(discriminate) path3_connected (C90_default_weights_mix path3 path3_ok) qcost qg qgrad 1 1 vzero) with (w0 := /3);
    try lra; auto using qgrad_ok, zero_minimises, W3_self. intros; apply qcost_ok.
Qed.
Example C102_wang_elia_case : exists a0, 0 < a0 /\ forall a x0, 0 < a <= a0 ->
  curves_vanish path3 1 qcost qg vzero (fun e N => p2p path3 e N (we_init x0) (wang_elia W3 qgrad a)).
Proof.
  apply (C102_wang_elia path3 1 W3 path3_ok ltac:(discriminate) path3_connected (C90_default_weights_mix path3 path3_ok) qcost qg qgrad 1 1 vzero) with (w0 := /3);
    try lra; auto using qgrad_ok, zero_minimises, W3_self. intros; apply qcost_ok.
Qed.
Example C102_admm_case : curves_vanish path3 1 qcost qg vzero (fun e N => p2p path3 e N (admm_init path3 qprox 2 (Some start) start) (admm path3 qprox 2 (1/2))).
Proof.
  apply (C102_admm path3 1 qcost qg 1 1 2 (1/2) vzero qprox start (Some start)); try lra; auto using path3_ok, path3_connected, zero_minimises, qprox_ok; try discriminate.
  - intros i [<-|[<-|[<-|[]]]]; discriminate.
  - intros; apply qcost_ok.
Qed.
(** and there are costs for the metrics to see *)
Example C102_costs_case : costs_are (t_nodes path3) (fun i => mkCost (qcost i) (qg i) 1) qcost qg.
Proof. intros i _. split; reflexivity. Qed.

Print Assumptions C102_metrics_of_agents.
Print Assumptions C102_snapshots_are_iterates.
Print Assumptions C102_ed.
Print Assumptions C102_nids.
Print Assumptions C102_extra.
Print Assumptions C102_atct.
Print Assumptions C102_aug_dgm.
Print Assumptions C102_wang_elia.
Print Assumptions C102_admm.
