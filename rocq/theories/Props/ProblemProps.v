(** C76-C79: the out-of-the-box problems. *)
From Coq Require Import Reals List Bool Arith ZArith Permutation FunctionalExtensionality Lia Lra Psatz.
From Verif.Model Require Import Vec Costs Batch EmpiricalRisk Solvers Partition Handlers Problems.
From Verif.Spec Require Import PartitionSpec HandlerSpec CostSpec EmpiricalSpec SolverSpec ProblemSpec.
From Verif.Proofs Require Import CostProofs VecProofs CostAnalysis CostBuiltin EmpiricalProofs SolverSolve SolverRun SolverRates SolverIter SolverProx PartitionProofs HandlerProofs ProblemProofs.
From Verif.Props Require Import PartitionProps EmpiricalProps SolverProps.
Import ListNotations.
Open Scope R_scope.

(** ** C76: quadratic problems *)
(** For every size, every number of agents, whatever is drawn (entries of the
    matrices in [0, 1], any vectors): the problem is created; it has [n_agents]
    costs; each is strongly convex with constant 1 and smooth with constant
    [2 size]; and the returned point is the unique minimiser of their sum, which
    exceeds the minimum by at least [n_agents / 2 |z - x|^2] elsewhere. *)
Theorem C76_quadratic_problem : forall lsolve lstsq emax emin uniform normal size n_agents,
  lsolve_ok size lsolve -> solves_nonsingular size lsolve ->
  (forall a i j, (i < size)%nat -> (j < size)%nat -> 0 <= uniform a i j <= 1) -> (0 < n_agents)%Z ->
  exists costs x Fs, create_quadratic_problem lsolve lstsq emax emin uniform normal size n_agents = SRet (costs, x) /\
    length costs = Z.to_nat n_agents /\
    Forall2 (fun c F => cost_meta c = ([size], 0%nat, 0%nat) /\ (forall k z s, cost_f size (fun _ => true) c k z s = Some (F z, s)) /\ well_conditioned size F 1 (2 * INR size)) costs Fs /\
    forall z, total Fs x + INR (Z.to_nat n_agents) / 2 * nrm2 size (vsub z x) <= total Fs z.
Proof.
  intros lsolve lstsq emax emin uniform normal size n_agents Hok Hns HU Hn.
  set (qs := map (fun i => (quad_matrix size (uniform i), normal i)) (seq 0 (Z.to_nat n_agents))).
  assert (Ec : quadratic_costs uniform normal size n_agents = map (qcost (np_meta size)) qs) by (unfold quadratic_costs, qs; rewrite map_map; reflexivity).
  assert (Lq : length qs = Z.to_nat n_agents) by (unfold qs; now rewrite map_length, seq_length).
  assert (Hq : forall q, In q qs -> (forall i j, fst q i j = fst q j i) /\ forall h, nrm2 size h <= dot size h (mulv size (fst q) h) <= 2 * INR size * nrm2 size h).
  { intros q I. apply in_map_iff in I as (a & <- & _). cbn [fst]. split; [intros; apply quad_matrix_sym|]. intros h. apply quad_matrix_bounds. apply HU. }
  assert (Hex : exists A b c, reduce_add (map (qcost (np_meta size)) qs) = SRet (CQuad (K:=unit) (St:=unit) (np_meta size) A b c) /\
    (forall x, quad_f size A b c x = rsum (map (fun q => quad_f size (fst q) (snd q) 0 x) qs)) /\
    (forall h, INR (Z.to_nat n_agents) * nrm2 size h <= dot size h (mulv size A h)) /\ (forall i j, A i j = A j i)).
  { rewrite <- Lq. destruct qs as [|[A0 b0] qs']; [cbn in Lq; lia|]. cbn [map reduce_add]. unfold qcost at 1. cbn [fst snd].
    destruct (add_all_quad (K:=unit) (St:=unit) (np_meta size) qs' A0 b0 0) as (A & b & c & E & Hf & Hh & Hsy). exists A, b, c. rewrite E. split; [reflexivity|]. split; [|split].
    - intros x. rewrite Hf, rsum_cons. reflexivity.
    - intros h. rewrite Hh. assert (G : forall l, (forall q, In q l -> nrm2 size h <= dot size h (mulv size (fst q) h)) -> INR (length l) * nrm2 size h <= rsum (map (fun q : mat * vec => dot size h (mulv size (fst q) h)) l)).
      { induction l as [|q l IH]; intros H; [cbn [map length]; rewrite rsum_nil; cbn; lra|]. cbn [map]. rewrite rsum_cons. cbn [length]. rewrite S_INR. pose proof (H q (or_introl eq_refl)). specialize (IH (fun q' I => H q' (or_intror I))). lra. }
      pose proof (Hq (A0, b0) (or_introl eq_refl)) as [_ B]. specialize (B h). cbn [fst] in B. specialize (G qs' (fun q I => proj1 (proj2 (Hq q (or_intror I)) h))). cbn [length]. rewrite S_INR. lra.
    - apply Hsy; [apply (Hq (A0, b0)); now left|]. intros q I. apply Hq. now right. }
  destruct Hex as (A & b & c & Er & Hf & Hh & Hsy).
  assert (Hn' : 1 <= INR (Z.to_nat n_agents)) by (change 1 with (INR 1); apply le_INR; lia).
  destruct (Hns A (vscal (-1) b)) as [x Ex].
  { intros h Hz. apply nrm2_zero_inv. assert (D0 : dot size h (mulv size A h) = 0) by (rewrite dot_sym, (dot_ext size _ vzero _ h); [apply dot_zero_l|exact Hz|auto]).
    specialize (Hh h). pose proof (nrm2_nonneg size h). nra. }
  exists (quadratic_costs uniform normal size n_agents), x, (map (fun q => quad_f size (fst q) (snd q) 0) qs).
  assert (Es : solve size (fun _ : unit => true) tt tt (fun _ => false) lsolve lstsq emax emin (CQuad (St:=unit) (np_meta size) A b c) solve_max_iter (Some solve_stop_tol) (Some solve_max_tol) tt = SRet x).
  { cbn [solve]. now rewrite Ex. }
  split; [|split; [|split]].
  - unfold create_quadratic_problem. rewrite Ec, Er. cbn [sbind]. rewrite Es. reflexivity.
  - rewrite Ec. now rewrite map_length.
  - rewrite Ec. clear - Hq. induction qs as [|q qs IH]; cbn [map]; constructor; [|apply IH; intros; apply Hq; now right].
    split; [reflexivity|]. split; [reflexivity|]. exists (quad_g size (fst q) (snd q)). intros x h. rewrite quad_taylor. destruct (Hq q (or_introl eq_refl)) as [_ B]. specialize (B h). lra.
  - intros z. destruct (C29_symmetric_quadratic_optimum _ _ size _ tt tt _ lsolve lstsq emax emin (np_meta size) A b c _ _ _ tt x Hok (fun i j _ _ => Hsy i j) Es) as [V _].
    unfold total. rewrite !map_map. rewrite <- !Hf. pose proof (quad_taylor size A b c x (vsub z x)) as T. rewrite vadd_sub in T. specialize (Hh (vsub z x)).
    assert (E0 : dot size (quad_g size A b x) (vsub z x) = 0) by (rewrite (dot_ext size _ vzero _ (vsub z x)); [apply dot_zero_l|intros i Hi; now apply V|auto]). lra.
Qed.
(** Without agents there is nothing to sum up: an exception. *)
Theorem C76_no_agents : forall lsolve lstsq emax emin uniform normal size n_agents, (n_agents <= 0)%Z ->
  create_quadratic_problem lsolve lstsq emax emin uniform normal size n_agents = SRaise SOther.
Proof. intros. unfold create_quadratic_problem, quadratic_costs. replace (Z.to_nat n_agents) with 0%nat by lia. reflexivity. Qed.
(** the hypotheses can be met: division in dimension 1 *)
Definition div_solve (M : mat) (b : vec) : option vec := if Req_EM_T (M 0%nat 0%nat) 0 then None else Some (fun _ => b 0%nat / M 0%nat 0%nat).
Lemma div_solve_ok : lsolve_ok 1 div_solve /\ solves_nonsingular 1 div_solve.
Proof.
  split.
  - intros M b x. unfold div_solve. destruct (Req_EM_T _ 0); [discriminate|]. intros [= <-] i Hi. replace i with 0%nat by lia. unfold mulv. cbn. field. exact n.
  - intros M b H. unfold div_solve. destruct (Req_EM_T (M 0%nat 0%nat) 0) as [E|]; [|eauto]. exfalso.
    specialize (H (fun _ => 1)). cut (1 = 0); [lra|]. refine (H _ 0%nat ltac:(lia)). intros i Hi. replace i with 0%nat by lia. unfold mulv, vzero. cbn. rewrite E. ring.
Qed.
Example C76_case : exists costs x, create_quadratic_problem div_solve (fun _ b => b) (fun _ => 0) (fun _ => 0) (fun _ _ _ => 1/2) (fun i _ => INR i) 1 3 = SRet (costs, x) /\ x 0%nat = - (2/3).
Proof.
  unfold create_quadratic_problem, quadratic_costs. change (Z.to_nat 3) with 3%nat. cbn [seq map reduce_add add_all add cost_meta rbind validate]. unfold validate. rewrite !meta_eqb_refl. cbn [rbind add_all sbind solve add cost_meta]. unfold validate. rewrite !meta_eqb_refl. cbn [rbind add_all sbind solve].
  unfold div_solve. unfold quad_matrix, madd, mscal, mtr, meye. cbn [Nat.eqb INR].
  match goal with |- context [Req_EM_T ?a 0] => destruct (Req_EM_T a 0) as [E|N] end; [exfalso; lra|]. eexists. eexists. split; [reflexivity|]. unfold vscal, vadd. field_simplify; lra.
Qed.

(** ** C77: regression problems *)
Section Empirical.
  Variables (seeded : Z -> nat -> list vec * list R) (unseeded : nat -> nat -> list vec * list R) (iperm : list nat -> nat -> list nat) (bperm : nat -> nat -> list nat -> list nat).
  Variables (lsolve : mat -> vec -> option vec) (lstsq : mat -> vec -> vec) (sol : mat -> vec -> vec) (emax emin : mat -> R) (prox : dataset -> vec -> R -> res vec).
  Hypothesis (Hs : forall s, gives (seeded s)) (Hu : forall k, gives (unseeded k)) (Hp : perm_ok iperm).
  (** the data a generator call in the world [w] yields *)
  Definition data (n : nat) (w : world) : dataset :=
    let d := match w_seed w with Some s => seeded s n | None => unseeded (w_draws w) n end in combine (fst d) (snd d).
  (** [Ds] is an even distribution of the training data *)
  Definition distributed (n_agents : Z) (w : world) (Ds : list dataset) : Prop :=
    length Ds = Z.to_nat n_agents /\ (forall D, In D Ds -> length D = 10%nat) /\ Permutation (concat Ds) (data (Z.to_nat (n_agents * 10)) w).
  (** [cs] are costs whose full-data value is the mean over [Ds] of the loss *)
  Definition mean_costs (d : nat) (loss : vec -> vec * R -> R) : list (cost indices sampler) -> list dataset -> Prop :=
    Forall2 (fun c D => cost_meta c = ([d], 0%nat, 0%nat) /\ forall z s, exists s', cost_f d (fun _ => false) c IxAll z s = Some (rmean (map (loss z) D), s')).

  Lemma batch_ok : forall (D : dataset) bs, length D = 10%nat -> batch_fits bs -> exists b, checked_batch D bs = SRet b /\ (0 < b <= length D)%nat.
  Proof.
    intros D bs HD Hb. unfold checked_batch, init_batch_size. destruct D as [|p D']; [discriminate|]. destruct bs as [|z|]; cbn [batch_fits] in Hb.
    - eexists. split; [reflexivity|]. cbn. lia.
    - rewrite HD. destruct ((z <=? 0)%Z || (Z.of_nat 10 <? z)%Z) eqn:E.
      + apply orb_true_iff in E as [E|E]; [apply Z.leb_le in E|apply Z.ltb_lt in E]; lia.
      + eexists. split; [reflexivity|]. lia.
    - contradiction.
  Qed.
  Lemma batch_bad : forall (D : dataset) bs, length D = 10%nat -> ~ batch_fits bs -> checked_batch D bs = SRaise SValueError.
  Proof.
    intros D bs HD Hb. unfold checked_batch, init_batch_size. destruct D as [|p D']; [discriminate|]. destruct bs as [|z|]; cbn [batch_fits] in Hb; [now contradiction Hb| |reflexivity].
    rewrite HD. destruct ((z <=? 0)%Z || (Z.of_nat 10 <? z)%Z) eqn:E; [reflexivity|]. apply orb_false_iff in E as [E1 E2]. apply Z.leb_gt in E1. apply Z.ltb_ge in E2. exfalso. apply Hb. lia.
  Qed.
  Lemma number_In : forall {A} (l : list A) i a, In (i, a) (number l) -> In a l.
  Proof. intros A l i a H. unfold number in H. now apply in_combine_r in H. Qed.
  Lemma number_snd : forall {A} (l : list A), map snd (number l) = l.
  Proof.
    intros A l. unfold number. generalize 0%nat. induction l as [|a l IH]; intros k; cbn; [reflexivity|]. now rewrite IH.
  Qed.
  Lemma Forall2_snd {A B} (Q : A -> B -> Prop) : forall (l : list (nat * A)) r, Forall2 (fun ia b => Q (snd ia) b) l r -> Forall2 (fun b a => Q a b) r (map snd l).
  Proof. intros l r H. induction H; cbn; constructor; auto. Qed.
  (** the leaves built for the agents *)
  Lemma lr_costs_ok : forall d Ds bs, (forall D, In D Ds -> length D = 10%nat) -> batch_fits bs ->
    exists ls, smap (lr_cost bperm sol emax emin d bs) (number Ds) = SRet (map (fun l => CEmp (ELeaf l)) ls) /\ length ls = length Ds /\ (forall l, In l ls -> l_meta l = np_meta d) /\
      mean_costs d (sq_loss d) (map (fun l => CEmp (ELeaf l)) ls) Ds /\ Forall2 (regression d IxAll (fun _ => true)) (map (fun l => CEmp (ELeaf l)) ls) Ds.
  Proof using Type.
    intros d Ds bs H10 Hb.
    destruct (Forall2_total (fun (iD : nat * dataset) l => lr_cost bperm sol emax emin d bs iD = SRet (CEmp (ELeaf l)) /\ l_meta l = np_meta d /\
       (forall z s, exists s', cost_f d (fun _ => false) (CEmp (ELeaf l)) IxAll z s = Some (rmean (map (sq_loss d z) (snd iD)), s')) /\ regression d IxAll (fun _ => true) (CEmp (ELeaf l)) (snd iD)) (number Ds)) as [ls Hls].
    { intros [i D] I. apply number_In in I. destruct (batch_ok D bs (H10 D I) Hb) as (b & Eb & _). eexists. cbn [snd]. unfold lr_cost. rewrite Eb. cbn [sbind]. split; [reflexivity|]. split; [reflexivity|]. split.
      - intros z s. destruct (C57_linear_regression_as_operand d (bperm i) D b sol emax emin (np_meta d) (fun _ => false) ltac:(rewrite (H10 D I); lia)) as (Hf & _ & _). apply Hf.
      - apply C29_linear_regression_cost_is_regression; [rewrite (H10 D I); lia|reflexivity]. }
    exists ls. split; [|split; [|split; [|split]]].
    - apply smap_ok. clear - Hls. induction Hls as [|iD l iDs ls (E & _) _ IH]; cbn [map]; constructor; auto.
    - etransitivity; [symmetry; exact (Forall2_len _ _ _ Hls)|]. etransitivity; [symmetry; apply (map_length snd)|]. now rewrite number_snd.
    - intros l I. clear - Hls I. induction Hls as [|iD l' iDs ls (_ & E & _) _ IH]; [contradiction|]. destruct I as [<-|I]; auto.
    - rewrite <- (number_snd Ds). unfold mean_costs. revert Hls. generalize (number Ds). clear. intros ns Hls. induction Hls as [|iD l iDs ls (_ & E & Hf & _) _ IH]; cbn [map]; constructor; [|exact IH]. split; [exact E|exact Hf].
    - rewrite <- (number_snd Ds). revert Hls. generalize (number Ds). clear. intros ns Hls. induction Hls as [|iD l iDs ls (_ & _ & _ & Hr) _ IH]; cbn [map]; constructor; [exact Hr|exact IH].
  Qed.
  Lemma reduce_leaves : forall m (ls : list (leaf indices sampler)), (2 <= length ls)%nat -> (forall l, In l ls -> l_meta l = m) ->
    reduce_add (map (fun l => CEmp (ELeaf l)) ls) = SRet (CSum (map (fun l => CEmp (ELeaf l)) ls)).
  Proof using Type.
    intros m [|l ls] H2 Hm; [cbn in H2; lia|]. cbn [map reduce_add]. rewrite (sum_cost_leaves m); [reflexivity|apply Hm; now left|intros; apply Hm; now right|]. destruct ls; [cbn in H2; lia|discriminate].
  Qed.

  (** At least two agents, any seed, any data, any admissible batch size: the
      problem is created; the agents hold ten samples each, together all the
      training data; each cost is the mean squared loss over the agent's samples;
      and the returned point minimises the sum of the agents' costs, which is
      [n_agents] times the mean loss over all the training data. *)
  Theorem C77_regression_problem : forall d n_agents bs w, lsolve_ok d lsolve -> lstsq_ok d lstsq -> (2 <= n_agents)%Z -> batch_fits bs ->
    exists costs x test Ds,
      create_regression_problem seeded unseeded iperm bperm lsolve lstsq sol emax emin d n_agents bs true w = SRet (costs, Some x, test) /\
      distributed n_agents w Ds /\ mean_costs d (sq_loss d) costs Ds /\
      is_min (fun z => rsum (map (fun D => rmean (map (sq_loss d z) D)) Ds)) x /\
      is_min (fun z => rmean (map (sq_loss d z) (data (Z.to_nat (n_agents * 10)) w))) x.
  Proof using Hs Hu Hp.
    intros d n_agents bs w Hok Hls Hn Hb.
    destruct (local_ok seeded unseeded iperm Hs Hu Hp n_agents w ltac:(lia)) as (Ds & Ed & Hl & H10 & Hperm).
    destruct (lr_costs_ok d Ds bs H10 Hb) as (ls & Els & Lls & Hm & Hmean & Hreg). change (@number (list (vec * R))) with (@number dataset) in Els.
    destruct (C29_linear_regression_optimum indices sampler d (fun _ => false) IxBatch IxAll (fun _ => true) lsolve lstsq emax emin (map (fun l => CEmp (ELeaf l)) ls) Ds solve_max_iter (Some solve_stop_tol) (Some solve_max_tol) sp_new Hok Hls Hreg)
      as (x & Ex & _ & Hmin).
    exists (map (fun l => CEmp (ELeaf l)) ls), x, (train seeded unseeded n_test (next_world w)), Ds. split; [|split; [|split; [|split]]].
    - unfold create_regression_problem. rewrite Ed. cbn [of_hout sbind]. rewrite Els. cbn [sbind]. rewrite (reduce_leaves (np_meta d) ls ltac:(apply (Nat.le_trans _ (Z.to_nat n_agents)); [lia|rewrite Lls; apply Nat.eq_le_incl; symmetry; exact Hl]) Hm). cbn [sbind]. rewrite Ex. cbn [sbind].
      rewrite (points_new seeded unseeded Hs Hu). reflexivity.
    - split; [exact Hl|]. split; [exact H10|]. exact Hperm.
    - exact Hmean.
    - exact Hmin.
    - intros z. specialize (Hmin z). cbv beta in Hmin.
      assert (N : Ds <> []) by (intros ->; cbn in Hl; lia). assert (Hpos : 0 < INR (length Ds)) by (apply lt_0_INR; rewrite Hl; lia).
      rewrite !(fun f => pooled_mean f Ds _ 10 ltac:(lia) H10 Hperm N) in Hmin. apply Rmult_le_reg_l in Hmin; [exact Hmin|exact Hpos].
  Qed.
  (** Without [compute_x_optimal] the same costs for any positive number of
      agents, and no optimum. *)
  Theorem C77_without_optimum : forall d n_agents bs w, (1 <= n_agents)%Z -> batch_fits bs -> exists costs test Ds,
    create_regression_problem seeded unseeded iperm bperm lsolve lstsq sol emax emin d n_agents bs false w = SRet (costs, None, test) /\
    distributed n_agents w Ds /\ mean_costs d (sq_loss d) costs Ds.
  Proof using Hs Hu Hp.
    intros d n_agents bs w Hn Hb. destruct (local_ok seeded unseeded iperm Hs Hu Hp n_agents w ltac:(lia)) as (Ds & Ed & Hl & H10 & Hperm).
    destruct (lr_costs_ok d Ds bs H10 Hb) as (ls & Els & Lls & Hm & Hmean & Hreg). change (@number (list (vec * R))) with (@number dataset) in Els.
    exists (map (fun l => CEmp (ELeaf l)) ls), (train seeded unseeded n_test (next_world w)), Ds. split; [|split; [split; [exact Hl|split; [exact H10|exact Hperm]]|exact Hmean]].
    unfold create_regression_problem. rewrite Ed. cbn [of_hout sbind]. rewrite Els. cbn [sbind]. rewrite (points_new seeded unseeded Hs Hu). reflexivity.
  Qed.
  (** Other requests raise ValueError. *)
  Theorem C77_refuses : forall d n_agents bs compute w, (n_agents <= 0)%Z \/ ~ batch_fits bs ->
    create_regression_problem seeded unseeded iperm bperm lsolve lstsq sol emax emin d n_agents bs compute w = SRaise SValueError.
  Proof using Hs Hu Hp.
    intros d n_agents bs compute w H. unfold create_regression_problem. destruct (Z_le_dec n_agents 0) as [Hn|Hn].
    - pose proof (local_none seeded unseeded iperm n_agents w Hn) as E. destruct (local_datasets seeded unseeded iperm n_agents w) as [[r w1] h1]. cbn in E. rewrite E. reflexivity.
    - destruct H as [H|H]; [lia|]. destruct (local_ok seeded unseeded iperm Hs Hu Hp n_agents w ltac:(lia)) as (Ds & Ed & Hl & H10 & Hperm). rewrite Ed. cbn [of_hout sbind].
      destruct Ds as [|D Ds]; [cbn in Hl; lia|]. unfold number. cbn [length seq combine smap]. unfold lr_cost at 1. rewrite (batch_bad D bs (H10 D (or_introl eq_refl)) H). reflexivity.
  Qed.

  (** ** C78: classification problems *)
  Definition pos (y : R) : bool := if Req_EM_T y 1 then true else false.
  Lemma has_label_iff : forall D y, has_label D y = true <-> exists p, In p D /\ snd p = y.
  Proof.
    intros D y. unfold has_label. rewrite existsb_exists. split; intros (p & I & H); exists p; (split; [exact I|]).
    - destruct (Req_EM_T (snd p) y); [assumption|discriminate].
    - destruct (Req_EM_T (snd p) y); [reflexivity|contradiction].
  Qed.
  Lemma lg_leaf_ok : forall d perm D b m k, (forall p, In p D -> snd p = 0 \/ snd p = 1) -> two_classes D -> (k = IxAll \/ (k = IxBatch /\ b = length D)) ->
    (forall z s, exists s', cost_f d (fun _ => false) (CEmp (ELeaf (lg_leaf d perm D b 0 1 (prox D) m))) k z s = Some (rmean (map (log_loss d pos z) D), s')) /\
    (forall z s, exists s', cost_g d (fun _ => false) (CEmp (ELeaf (lg_leaf d perm D b 0 1 (prox D) m))) k z s = Some (vmean (map (log_grad d pos z) D), s')) /\
    (forall z s, exists s', cost_h (fun _ => false) (CEmp (ELeaf (lg_leaf d perm D b 0 1 (prox D) m))) k z s = Some (mmean (map (log_hess d z) D), s')).
  Proof using Type.
    intros d perm D b m k Hlab [H0 H1] Hk.
    assert (LB : lg_labels D 0 1) by (split; [lra|]; split; [exact H0|]; split; [exact H1|exact Hlab]).
    assert (ND : D <> []) by (intros ->; destruct H0 as (p & [] & _)).
    assert (Rq : forall s, exists l s', sample_batch_indices perm (length D) b k s = (BOk l, s') /\ l <> [] /\ names D l D).
    { intros s. destruct Hk as [->|[-> ->]].
      - eexists. eexists. split; [reflexivity|]. split; [|apply names_seq]. destruct D; [congruence|discriminate].
      - eexists. eexists. unfold sample_batch_indices. rewrite Nat.ltb_irrefl. split; [reflexivity|]. split; [|apply names_seq]. destruct D; [congruence|discriminate]. }
    repeat split; intros z s; destruct (Rq s) as (l & s' & E & N & Hn); exists s';
      destruct (C28_logistic_regression_mean d perm D b 0 1 k s l s' D z LB ltac:(lra) E Hn N (or_intror (Permutation_refl D))) as (A & B & C);
      cbn [cost_f cost_g cost_h emp_f emp_g emp_h l_f l_g l_h lg_leaf]; unfold ev_of; [rewrite A|rewrite B|rewrite C]; reflexivity.
  Qed.
  (** labels are 0 or 1 *)
  Definition binary (n : nat) (w : world) : Prop := forall p, In p (data n w) -> snd p = 0 \/ snd p = 1.
  Lemma lg_cost_two : forall d bs i D l, lg_cost bperm prox d bs (i, D) = SRet l -> two_classes D.
  Proof using Type.
    intros d bs i D l E. unfold lg_cost in E. destruct (checked_batch D bs); [|discriminate]. cbn [sbind] in E. destruct (has_label D 0 && has_label D 1) eqn:H; [|discriminate].
    apply andb_true_iff in H as [A B]. split; now apply has_label_iff.
  Qed.
  Lemma lg_cost_one : forall d bs i D, length D = 10%nat -> batch_fits bs -> two_classes D -> exists b, (0 < b <= 10)%nat /\ lg_cost bperm prox d bs (i, D) = SRet (CEmp (ELeaf (lg_leaf d (bperm i) D b 0 1 (prox D) (np_meta d)))).
  Proof using Type.
    intros d bs i D H10 Hb [A B]. destruct (batch_ok D bs H10 Hb) as (b & Eb & Hb'). exists b. split; [lia|]. unfold lg_cost. rewrite Eb. cbn [sbind].
    apply has_label_iff in A, B. now rewrite A, B.
  Qed.
  (** Creation of the costs succeeds exactly if every agent received samples of
      both classes. *)
  Theorem C78_costs_created_iff : forall d n_agents bs w, (1 <= n_agents)%Z -> batch_fits bs -> binary (Z.to_nat (n_agents * 10)) w ->
    exists Ds, distributed n_agents w Ds /\
    ((forall D, In D Ds -> two_classes D) -> exists costs test,
       create_classification_problem seeded unseeded iperm bperm lsolve lstsq emax emin prox d n_agents bs false w = SRet (costs, None, test) /\ mean_costs d (log_loss d pos) costs Ds) /\
    (~ (forall D, In D Ds -> two_classes D) -> forall compute,
       create_classification_problem seeded unseeded iperm bperm lsolve lstsq emax emin prox d n_agents bs compute w = SRaise SValueError).
  Proof using Hs Hu Hp.
    intros d n_agents bs w Hn Hb Hbin. destruct (local_ok seeded unseeded iperm Hs Hu Hp n_agents w ltac:(lia)) as (Ds & Ed & Hl & H10 & Hperm).
    exists Ds. split; [split; [exact Hl|split; [exact H10|exact Hperm]]|].
    assert (HbD : forall D, In D Ds -> forall p, In p D -> snd p = 0 \/ snd p = 1).
    { intros D HD p Ip. apply Hbin. apply (Permutation_in p Hperm). apply in_concat. eauto. }
    split.
    - intros H2. destruct (Forall2_total (fun (iD : nat * dataset) c => lg_cost bperm prox d bs iD = SRet c /\ cost_meta c = np_meta d /\
        forall z s, exists s', cost_f d (fun _ => false) c IxAll z s = Some (rmean (map (log_loss d pos z) (snd iD)), s')) (number Ds)) as [cs Hcs].
      { intros [i D] I. apply number_In in I. destruct (lg_cost_one d bs i D (H10 D I) Hb (H2 D I)) as (b & _ & E). eexists. split; [exact E|]. split; [reflexivity|].
        apply (lg_leaf_ok d (bperm i) D b (np_meta d) IxAll (HbD D I) (H2 D I) (or_introl eq_refl)). }
      exists cs, (train seeded unseeded n_test (next_world w)). split.
      + unfold create_classification_problem. rewrite Ed. cbn [of_hout sbind]. replace (smap (lg_cost bperm prox d bs) (number Ds)) with (SRet cs).
        * cbn [sbind]. rewrite (points_new seeded unseeded Hs Hu). reflexivity.
        * symmetry. apply smap_ok. eapply Forall2_imp; [exact Hcs|]. intros ? ? _ (X & _). exact X.
      + rewrite <- (number_snd Ds). unfold mean_costs. clear - Hcs. induction Hcs as [|iD c iDs cs (_ & E) _ IH]; cbn [map]; constructor; auto.
    - intros H2 compute. unfold create_classification_problem. rewrite Ed. cbn [of_hout sbind].
      assert (E : smap (lg_cost bperm prox d bs) (number Ds) = SRaise SValueError); [|rewrite E; reflexivity].
      assert (G : forall l : list (nat * dataset), (forall iD, In iD l -> length (snd iD) = 10%nat) -> ~ (forall iD, In iD l -> two_classes (snd iD)) -> smap (lg_cost bperm prox d bs) l = SRaise SValueError).
      { induction l as [|[i D] l IH]; intros HL HN; [exfalso; apply HN; intros ? []|]. cbn [smap].
        pose proof (HL (i, D) (or_introl eq_refl)) as HD. cbn [snd] in HD.
        destruct (has_label D 0 && has_label D 1) eqn:Eh.
        - assert (T : two_classes D) by (apply andb_true_iff in Eh as [A B]; split; now apply has_label_iff).
          destruct (lg_cost_one d bs i D HD Hb T) as (b & _ & E). etransitivity; [exact (f_equal (fun z => sbind z _) E)|]. cbn [sbind]. rewrite IH; [reflexivity|intros; apply HL; now right|].
          intros Hall. apply HN. intros iD [<-|I]; [exact T|now apply Hall].
        - unfold lg_cost at 1. destruct (batch_ok D bs HD Hb) as (b & Eb & _). rewrite Eb. cbn [sbind]. rewrite Eh. reflexivity. }
      apply G.
      + intros [i D] I. apply number_In in I. now apply H10.
      + intros Hall. apply H2. intros D I. rewrite <- (number_snd Ds) in I. apply in_map_iff in I as ([i D'] & <- & I). exact (Hall _ I).
  Qed.
  (** When a problem with optimum is returned: the sum of the agents' costs is
      [n_agents] times the mean logistic loss over all the training data, so both
      have the same minimisers; and the returned point is an approximate
      minimiser of it: after [k] iterations, [1 <= k <= 10000], its value is
      within [2 L |z|^2 / (k+1)^2] of that of any minimiser [z], [L] being a
      quarter of the largest squared norm of the features. *)
  Theorem C78_classification_problem : forall d n_agents bs w costs x test, (0 < d)%nat -> (1 <= n_agents)%Z -> batch_fits bs -> binary (Z.to_nat (n_agents * 10)) w ->
    create_classification_problem seeded unseeded iperm bperm lsolve lstsq emax emin prox d n_agents bs true w = SRet (costs, x, test) ->
    let D := data (Z.to_nat (n_agents * 10)) w in
    let F := fun z => rmean (map (log_loss d pos z) D) in
    exists Ds x0 k L, x = Some x0 /\ distributed n_agents w Ds /\ mean_costs d (log_loss d pos) costs Ds /\
      (forall z, rsum (map (fun E => rmean (map (log_loss d pos z) E)) Ds) = INR (Z.to_nat n_agents) * F z) /\
      (1 <= k)%nat /\ (Z.of_nat k <= 10000)%Z /\ 0 < L /\ (forall p, In p D -> nrm2 d (fst p) <= 4 * L) /\ (exists p, In p D /\ nrm2 d (fst p) = 4 * L) /\
      forall z, is_min F z -> F x0 - F z <= 2 * L * nrm2 d z / (INR k + 1) ^ 2.
  Proof using Hs Hu Hp.
    intros d n_agents bs w costs x test Hd Hn Hb Hbin E D F.
    destruct (local_ok seeded unseeded iperm Hs Hu Hp n_agents w ltac:(lia)) as (Ds & Ed & Hl & H10 & Hperm).
    unfold create_classification_problem in E. rewrite Ed in E. cbn [of_hout sbind] in E.
    destruct (smap (lg_cost bperm prox d bs) (number Ds)) as [cs|] eqn:Ecs; [|discriminate]. cbn [sbind] in E.
    rewrite (points_loaded seeded unseeded Hs Hu) in E. cbn [of_hout sbind] in E.
    change (train seeded unseeded (n_train n_agents) w) with D in *.
    assert (HbD : forall E0, In E0 Ds -> forall p, In p E0 -> snd p = 0 \/ snd p = 1).
    { intros E0 HD p Ip. apply Hbin. apply (Permutation_in p Hperm). apply in_concat. eauto. }
    assert (ND : D <> []).
    { intros EN. pose proof (train_length seeded unseeded Hs Hu (n_train n_agents) w) as LT. change (train seeded unseeded (n_train n_agents) w) with D in LT. rewrite EN in LT. unfold n_train in LT. cbn in LT. lia. }
    assert (CB : checked_batch D BsAll = SRet (length D)) by (unfold checked_batch, init_batch_size; destruct D; [congruence|reflexivity]).
    unfold lg_cost in E. rewrite CB in E. cbn [sbind] in E.
    destruct (has_label D 0 && has_label D 1) eqn:Eh; [|discriminate]. cbn [sbind] in E.
    assert (T : two_classes D) by (apply andb_true_iff in Eh as [A B]; split; now apply has_label_iff).
    set (c := CEmp (ELeaf (lg_leaf d (bperm (length Ds)) D (length D) 0 1 (prox D) (np_meta d)))) in E.
    destruct (lg_leaf_ok d (bperm (length Ds)) D (length D) (np_meta d) IxBatch Hbin T (or_intror (conj eq_refl eq_refl))) as (CF & CG & CH). fold c in CF, CG, CH.
    destruct (solve d (fun _ => false) IxBatch IxAll (fun _ => false) lsolve lstsq emax emin c solve_max_iter (Some solve_stop_tol) (Some solve_max_tol) sp_new) as [x0|] eqn:Es; [|discriminate]. cbn [sbind] in E.
    rewrite (points_new seeded unseeded Hs Hu) in E. cbn [of_hout sbind] in E. injection E as <- <- _.
    set (M := fold_left Rmax (map (nrm2 d) (map fst D)) 0) in *.
    assert (El : cost_smooth emax c = Fin (M / 4)) by reflexivity. assert (Em : cost_cvx emin c = Fin 0) by reflexivity.
    rewrite C29_solver_choice in Es by reflexivity. rewrite El, Em in Es.
    destruct (Req_EM_T (M / 4) 0) as [|NZ]; [discriminate|].
    assert (FM : forall (l : list R) a, a <= fold_left Rmax l a /\ (forall y, In y l -> y <= fold_left Rmax l a) /\ (fold_left Rmax l a = a \/ In (fold_left Rmax l a) l)).
    { induction l as [|y l IH]; intros a; cbn [fold_left]; [split; [lra|]; split; [intros ? []|now left]|]. destruct (IH (Rmax a y)) as (I1 & I2 & I3).
      pose proof (Rmax_l a y). pose proof (Rmax_r a y). split; [lra|]. split.
      - intros y' [<-|I]; [lra|now apply I2].
      - destruct I3 as [E3|I3]; [|right; now right]. destruct (Rmax_case a y (fun r => r = a \/ r = y) (or_introl eq_refl) (or_intror eq_refl)) as [Q|Q]; rewrite E3, Q; [now left|right; now left]. }
    destruct (FM (map (nrm2 d) (map fst D)) 0) as (M0 & M1 & M2). fold M in M0, M1, M2.
    assert (HL : 0 < M / 4) by lra. destruct (Rlt_dec 0 (M / 4)); [|contradiction].
    assert (Er : exists s', run_agd d (fun _ => false) IxBatch emax emin c None PNone PNone solve_max_iter (Some solve_stop_tol) (Some solve_max_tol) (1/100) sp_new = SRet s' /\ x0 = s_x s').
    { destruct (run_agd d _ _ _ _ c None _ _ _ _ _ _ _) as [s'|]; [|discriminate]. injection Es as <-. eauto. }
    destruct Er as (s' & Er & ->). clear Es.
    destruct (C56_logistic_regression_constants d pos D) as [LC CC]. specialize (LC (M / 4) eq_refl). specialize (CC 0 eq_refl).
    assert (Er' : run_agd d (fun _ => false) IxBatch emax emin c None PNone PNone solve_max_iter (Some solve_stop_tol) (Some solve_max_tol) (1/100) sp_new = SRet s') by exact Er.
    unfold run_agd in Er'. cbn [solver_init sbind] in Er'. rewrite El, Em in Er'.
    destruct (run_after d _ (agd_keeps _ _ _ _ _) _ _ _ _ _ _ Er') as (k & Hk & A & _).
    exists Ds, (s_x s'), k, (M / 4).
    split; [reflexivity|]. split; [split; [exact Hl|split; [exact H10|exact Hperm]]|].
    assert (T2 : forall D0, In D0 Ds -> two_classes D0).
    { intros D0 I. rewrite <- (number_snd Ds) in I. apply in_map_iff in I as ([i D'] & <- & I). cbn [snd]. apply smap_ok in Ecs. clear - Ecs I.
      induction Ecs as [|iD c0 iDs cs E _ IH]; [contradiction|]. destruct I as [->|I]; [|now apply IH]. now apply lg_cost_two in E. }
    split.
    { apply smap_ok in Ecs. unfold mean_costs. assert (HN : forall iD, In iD (number Ds) -> In (snd iD) Ds) by (intros [i D0] I; now apply number_In in I).
      rewrite <- (number_snd Ds) at 1. revert HN. induction Ecs as [|[i D0] c0 iDs cs0 E0 _ IH]; intros HN; cbn [map]; constructor; [|apply IH; intros; apply HN; now right].
      pose proof (HN (i, D0) (or_introl eq_refl)) as I0. cbn [snd] in *. destruct (lg_cost_one d bs i D0 (H10 D0 I0) Hb (T2 D0 I0)) as (b & _ & E1). pose proof (eq_trans (eq_sym E1) E0) as E2. injection E2 as <-. split; [reflexivity|].
      apply (lg_leaf_ok d (bperm i) D0 b (np_meta d) IxAll (HbD D0 I0) (T2 D0 I0) (or_introl eq_refl)). }
    split.
    { intros z. rewrite <- Hl. apply (pooled_mean _ Ds D 10); [lia|exact H10|exact Hperm|intros ->; cbn in Hl; lia]. }
    split; [lia|]. split; [unfold solve_max_iter in Hk; lia|]. split; [exact HL|]. split.
    { intros p I. assert (nrm2 d (fst p) <= M) by (apply M1; apply in_map, in_map; exact I). lra. }
    split.
    { destruct M2 as [M2|M2]; [lra|]. apply in_map_iff in M2 as (v & E1 & M2). apply in_map_iff in M2 as (p & <- & I). exists p. split; [exact I|]. rewrite E1. lra. }
    intros z Hz.
    pose proof (fun Hx => agd_convex d _ F (fun x => vmean (map (log_grad d pos x) D)) CG (M / 4) 0 CC LC HL eq_refl _ k s' z Hx Hz A) as B. specialize (B eq_refl). destruct B as [_ B]. specialize (B ltac:(lia)). cbn [s_x] in B.
    assert (Ez : nrm2 d (vsub vzero z) = nrm2 d z) by (replace (vsub vzero z) with (vscal (-1) z) by (extensionality i; unfold vsub, vscal, vzero; ring); rewrite nrm2_scal; ring).
    rewrite Ez in B. pose proof (pos_INR k). assert (Hpk : 0 < (INR k + 1) ^ 2) by (apply pow_lt; lra).
    apply Rmult_le_reg_l with ((INR k + 1) ^ 2); [assumption|]. replace ((INR k + 1) ^ 2 * (2 * (M / 4) * nrm2 d z / (INR k + 1) ^ 2)) with (2 * (M / 4) * nrm2 d z) by (field; lra). lra.
  Qed.

  (** ** C79: the test data *)
  (** Whichever problem is created, the test data are 100 samples drawn by the
      generator in the same way as the training data: for a seed the generator's
      result for that seed, otherwise a further draw. *)
  Theorem C79_regression_test_data : forall d n_agents bs compute w costs x test,
    create_regression_problem seeded unseeded iperm bperm lsolve lstsq sol emax emin d n_agents bs compute w = SRet (costs, x, test) ->
    length test = 100%nat /\ match w_seed w with Some s => test = combine (fst (seeded s 100)) (snd (seeded s 100)) | None => test = combine (fst (unseeded (S (w_draws w)) 100)) (snd (unseeded (S (w_draws w)) 100)) end.
  Proof using Hs Hu Hp.
    intros d n_agents bs compute w costs x test E.
    assert (Hn : (0 < n_agents)%Z) by (destruct (Z_le_dec n_agents 0) as [Hn|]; [rewrite C77_refuses in E by auto; discriminate|lia]).
    destruct (local_ok seeded unseeded iperm Hs Hu Hp n_agents w Hn) as (Ds & Ed & _). unfold create_regression_problem in E. rewrite Ed in E. cbn [of_hout sbind] in E.
    destruct (smap _ _) as [cs|]; [|discriminate]. cbn [sbind] in E.
    match type of E with sbind ?a _ = _ => destruct a; [|discriminate] end. cbn [sbind] in E.
    rewrite (points_new seeded unseeded Hs Hu) in E. cbn [of_hout sbind] in E. assert (Et : test = train seeded unseeded n_test (next_world w)) by congruence. clear E.
    split; [rewrite Et; apply (train_length seeded unseeded Hs Hu)|]. rewrite Et. unfold train, generated, next_world, n_test. destruct (w_seed w); reflexivity.
  Qed.
  Theorem C79_classification_test_data : forall d n_agents bs compute w costs x test,
    create_classification_problem seeded unseeded iperm bperm lsolve lstsq emax emin prox d n_agents bs compute w = SRet (costs, x, test) ->
    length test = 100%nat /\ match w_seed w with Some s => test = combine (fst (seeded s 100)) (snd (seeded s 100)) | None => test = combine (fst (unseeded (S (w_draws w)) 100)) (snd (unseeded (S (w_draws w)) 100)) end.
  Proof using Hs Hu Hp.
    intros d n_agents bs compute w costs x test E. unfold create_classification_problem in E.
    assert (Hn : (0 < n_agents)%Z).
    { destruct (Z_le_dec n_agents 0) as [Hn|]; [|lia]. pose proof (local_none seeded unseeded iperm n_agents w Hn) as E1. destruct (local_datasets seeded unseeded iperm n_agents w) as [[r w1] h1]. cbn in E1. rewrite E1 in E. discriminate. }
    destruct (local_ok seeded unseeded iperm Hs Hu Hp n_agents w Hn) as (Ds & Ed & _). rewrite Ed in E. cbn [of_hout sbind] in E.
    destruct (smap _ _) as [cs|]; [|discriminate]. cbn [sbind] in E.
    assert (G : exists o, sbind o (fun x_optimal => let '(test0, _, _) := points seeded unseeded (next_world w) (new_synthetic n_test) in sbind (of_hout test0) (fun test1 => SRet (cs, x_optimal, test1))) = SRet (costs, x, test)).
    { destruct compute; [rewrite (points_loaded seeded unseeded Hs Hu) in E|]; eexists; exact E. }
    destruct G as ([o|] & G); [|discriminate]. cbn [sbind] in G. rewrite (points_new seeded unseeded Hs Hu) in G. cbn [of_hout sbind] in G.
    assert (Et : test = train seeded unseeded n_test (next_world w)) by congruence. clear E G.
    split; [rewrite Et; apply (train_length seeded unseeded Hs Hu)|]. rewrite Et. unfold train, generated, next_world, n_test. destruct (w_seed w); reflexivity.
  Qed.
  (** So with a seed and ten agents the test data are the training data: no
      sample is held out. *)
  Theorem C79_held_out_refuted : forall s draws d bs compute costs x test, let w := {| w_seed := Some s; w_draws := draws |} in
    create_regression_problem seeded unseeded iperm bperm lsolve lstsq sol emax emin d 10 bs compute w = SRet (costs, x, test) \/
    create_classification_problem seeded unseeded iperm bperm lsolve lstsq emax emin prox d 10 bs compute w = SRet (costs, x, test) ->
    test = data 100 w /\ exists Ds, distributed 10 w Ds /\ Permutation (concat Ds) test.
  Proof using Hs Hu Hp.
    intros s draws d bs compute costs x test w E.
    assert (Et : test = data 100 w).
    { destruct E as [E|E]; [apply C79_regression_test_data in E|apply C79_classification_test_data in E]; destruct E as [_ E]; exact E. }
    split; [exact Et|]. rewrite Et. destruct (local_ok seeded unseeded iperm Hs Hu Hp 10 w ltac:(lia)) as (Ds & _ & Hl & H10 & Hperm).
    exists Ds. split; [split; [exact Hl|split; [exact H10|exact Hperm]]|exact Hperm].
  Qed.
End Empirical.

(** *** Concrete cases *)
(** one feature, equal to 1; the targets alternate, or are 0 up to the middle *)
Definition alt_data (n : nat) : list vec * list R := (map (fun _ _ => 1) (seq 0 n), map (fun i => if Nat.even i then 0 else 1) (seq 0 n)).
Definition half_data (n : nat) : list vec * list R := (map (fun _ _ => 1) (seq 0 n), map (fun i => if (i <? 10)%nat then 0 else 1) (seq 0 n)).
Definition an_emp_perm (_ _ : nat) (l : list nat) : list nat := l.
Definition a_world : world := {| w_seed := Some 3%Z; w_draws := 0 |}.
Lemma alt_gives : gives alt_data. Proof. intros n. split; cbn; now rewrite map_length, seq_length. Qed.
Lemma half_gives : gives half_data. Proof. intros n. split; cbn; now rewrite map_length, seq_length. Qed.
Definition div_lstsq (M : mat) (b : vec) : vec := fun _ => if Req_EM_T (M 0%nat 0%nat) 0 then 0 else b 0%nat / M 0%nat 0%nat.
Lemma div_lstsq_ok : lstsq_ok 1 div_lstsq.
Proof.
  intros M b i Hi. replace i with 0%nat by lia. unfold div_lstsq, mulv, mtr. cbn. destruct (Req_EM_T (M 0%nat 0%nat) 0) as [E|N]; [rewrite E; ring|field; exact N].
Qed.
Example C77_case : exists costs x test Ds,
  create_regression_problem (fun _ => alt_data) (fun _ => alt_data) id_perm an_emp_perm div_solve div_lstsq (fun _ b => b) (fun _ => 0) (fun _ => 0) 1 3 (BsInt 4) true a_world = SRet (costs, Some x, test) /\
  length test = 100%nat /\ distributed (fun _ => alt_data) (fun _ => alt_data) 3 a_world Ds /\ mean_costs 1 (sq_loss 1) costs Ds.
Proof.
  destruct (C77_regression_problem (fun _ => alt_data) (fun _ => alt_data) id_perm an_emp_perm div_solve div_lstsq (fun _ b => b) (fun _ => 0) (fun _ => 0)
    (fun _ => alt_gives) (fun _ => alt_gives) id_perm_ok 1 3 (BsInt 4) a_world (proj1 div_solve_ok) div_lstsq_ok ltac:(lia) ltac:(cbn; lia)) as (costs & x & test & Ds & E & D & M & _).
  exists costs, x, test, Ds. split; [exact E|]. split; [|auto]. now apply (C79_regression_test_data _ _ _ _ _ _ _ _ _ (fun _ => alt_gives) (fun _ => alt_gives) id_perm_ok) in E.
Qed.

Lemma labels_binary : forall (g : nat -> bool) n, forall p, In p (combine (map (fun _ (_ : nat) => 1) (seq 0 n)) (map (fun i => if g i then 0 else 1) (seq 0 n))) -> snd p = 0 \/ snd p = 1.
Proof. intros g n [x y] I. apply in_combine_r in I. apply in_map_iff in I as (i & <- & _). cbn. destruct (g i); auto. Qed.
(** Valid arguments, labels 0 and 1 as they come from the generator, and yet:
    an agent whose ten samples are all of one class makes creation raise
    ValueError. *)
Theorem C78_always_created_refuted :
  gives half_data /\ perm_ok id_perm /\ batch_fits BsAll /\ binary (fun _ => half_data) (fun _ => half_data) 20 a_world /\
  forall bperm lsolve lstsq emax emin prox d compute,
  create_classification_problem (fun _ => half_data) (fun _ => half_data) id_perm bperm lsolve lstsq emax emin prox d 2 BsAll compute a_world = SRaise SValueError.
Proof.
  split; [exact half_gives|]. split; [exact id_perm_ok|]. split; [exact I|]. split; [intros p; apply (labels_binary (fun i => (i <? 10)%nat))|].
  intros bperm lsolve lstsq emax emin prox d compute. unfold create_classification_problem.
  set (r := local_datasets _ _ _ _ _). cbv in r. subst r. cbv beta iota zeta. cbn [of_hout sbind number length seq combine smap].
  unfold lg_cost at 1. cbn [checked_batch init_batch_size sbind length]. unfold has_label. cbn [existsb snd].
  change R0 with 0. destruct (Req_EM_T 0 1) as [E|_]; [lra|]. cbn [orb]. rewrite !andb_false_r. reflexivity.
Qed.

(** a solver that stands still succeeds *)
Lemma run_still : forall n {X St} (step : nat -> sst X St -> sres (sst X St)) (P : sst X St -> Prop) mi st t fr s, keeps_old step -> good_args mi st (Some t) fr -> P s ->
  (forall k m, P m -> exists m', step k (mark m) = SRet m' /\ P m' /\ moved n m m' = 0) -> exists s', run n step mi st (Some t) fr s = SRet s' /\ P s'.
Proof.
  intros n X St step P mi st t fr s Ho Hg Ps Hstep.
  assert (A : forall k m, after step s k m -> P m).
  { intros k m Am. induction Am as [|k m m' _ IH E]; [exact Ps|]. destruct (Hstep k m IH) as (m2 & E2 & P2 & _). congruence. }
  destruct (run_spec n step Ho mi st (Some t) fr s Hg) as [(k & m & s' & Hst & Er)|(k & m & e & _ & Am & Es & _)].
  - destruct Hst as (_ & Am & E & _). destruct (Hstep k m (A k m Am)) as (m2 & E2 & P2 & M2). assert (m2 = s') by congruence. subst m2. exists s'. split; [|exact P2].
    destruct Hg as (_ & _ & Ht & _). specialize (Ht t eq_refl). rewrite M2 in Er. destruct (Rlt_dec t 0); [lra|exact Er].
  - destruct (Hstep k m (A k m Am)) as (m2 & E2 & _). congruence.
Qed.
Lemma mean_alt : forall d z, dot d (fun _ => 1) z = 0 -> forall k, rsum (map (fun p : vec * R => log_grad d pos z p 0%nat) (combine (fst (alt_data (2 * k))) (snd (alt_data (2 * k))))) = 0.
Proof.
  intros d z Hz k. assert (G : forall a, rsum (map (fun p : vec * R => log_grad d pos z p 0%nat) (combine (map (fun _ _ => 1) (seq (2 * a) (2 * k))) (map (fun i => if Nat.even i then 0 else 1) (seq (2 * a) (2 * k))))) = 0).
  { induction k as [|k IH]; intros a; [reflexivity|]. replace (2 * S k)%nat with (S (S (2 * k))) by lia. cbn [seq map combine]. rewrite !rsum_cons.
    replace (S (S (2 * a))) with (2 * S a)%nat by lia. rewrite IH. unfold log_grad. cbn [fst snd]. rewrite Hz.
    replace (Nat.even (2 * a)) with true by (symmetry; apply Nat.even_spec; now exists a). replace (Nat.even (S (2 * a))) with false by (symmetry; rewrite Nat.even_succ; apply not_true_is_false; intros O; apply Nat.odd_spec in O as [m O]; lia).
    unfold pos. destruct (Req_EM_T 0 1); [lra|]. destruct (Req_EM_T 1 1); [|contradiction]. unfold sigma. rewrite Ropp_0, exp_0. field. }
  exact (G 0%nat).
Qed.
Lemma alt_two : two_classes (combine (fst (alt_data 10)) (snd (alt_data 10))).
Proof. split; [exists (fun _ => 1, 0)|exists (fun _ => 1, 1)]; (split; [cbn; auto|reflexivity]). Qed.
Example C78_case : exists costs x test,
  create_classification_problem (fun _ => alt_data) (fun _ => alt_data) id_perm an_emp_perm div_solve div_lstsq (fun _ => 0) (fun _ => 0) (fun _ v _ => Ok v) 1 1 BsAll true a_world = SRet (costs, Some x, test) /\
  binary (fun _ => alt_data) (fun _ => alt_data) 10 a_world /\ length test = 100%nat /\ x 0%nat = 0.
Proof.
  assert (B : binary (fun _ => alt_data) (fun _ => alt_data) 10 a_world) by (intros p; apply (labels_binary Nat.even)).
  set (sd := fun _ : Z => alt_data) in *. set (ud := fun _ : nat => alt_data) in *.
  assert (Hs : forall s, gives (sd s)) by (intros; apply alt_gives). assert (Hu : forall s, gives (ud s)) by (intros; apply alt_gives).
  cut (exists costs x test, create_classification_problem sd ud id_perm an_emp_perm div_solve div_lstsq (fun _ => 0) (fun _ => 0) (fun _ v _ => Ok v) 1 1 BsAll true a_world = SRet (costs, Some x, test) /\ x 0%nat = 0).
  { intros (costs & x & test & E & E0). exists costs, x, test. split; [exact E|]. split; [exact B|]. split; [|exact E0]. now apply (C79_classification_test_data _ _ _ _ _ _ _ _ _ Hs Hu id_perm_ok) in E. }
  destruct (local_ok sd ud id_perm Hs Hu id_perm_ok 1 a_world ltac:(lia)) as (Ds & Ed & Hl & H10 & Hperm).
  destruct Ds as [|D0 [|? ?]]; [discriminate| |discriminate]. cbn [concat] in Hperm. rewrite app_nil_r in Hperm.
  set (D := train sd ud (n_train 1) a_world) in *. assert (T : two_classes D) by exact alt_two.
  assert (T0 : two_classes D0) by (destruct T as [(p & I & E) (q & J & F)]; split; [exists p|exists q]; (split; [eapply Permutation_in; [symmetry; exact Hperm|]; assumption|assumption])).
  unfold create_classification_problem. rewrite Ed. cbn [of_hout sbind number length seq combine smap].
  destruct (lg_cost_one an_emp_perm (fun _ v _ => Ok v) 1 BsAll 0 D0 (H10 D0 (or_introl eq_refl)) I T0) as (b & _ & E0).
  set (c0 := CEmp _) in E0. 
  match goal with |- context [lg_cost ?a ?b ?c ?d (?e, D0)] => replace (lg_cost a b c d (e, D0)) with (SRet c0) by (symmetry; exact E0) end. cbn [sbind].
  rewrite (points_loaded sd ud Hs Hu). fold D. cbn [of_hout sbind].
  set (c := CEmp (ELeaf (lg_leaf 1 (an_emp_perm 1) D 10 0 1 (fun v _ => Ok v) (np_meta 1)))).
  assert (Ec : lg_cost an_emp_perm (fun _ v _ => Ok v) 1 BsAll (1%nat, D) = SRet c).
  { unfold lg_cost. destruct T as [T1 T2]. apply has_label_iff in T1, T2. cbn [checked_batch]. replace (checked_batch D BsAll) with (SRet 10%nat) by reflexivity. cbn [sbind]. rewrite T1, T2. reflexivity. }
  destruct (lg_leaf_ok (fun _ v _ => Ok v) 1 (an_emp_perm 1) D 10 (np_meta 1) IxBatch B T (or_intror (conj eq_refl eq_refl))) as (_ & CG & _). fold c in CG.
  assert (El : cost_smooth (fun _ => 0) c = Fin (1 / 4)).
  { transitivity (Fin (fold_left Rmax (map (nrm2 1) (map fst D)) 0 / 4)); [reflexivity|]. do 2 f_equal.
    assert (Hm : forall (l : list R) a, (forall y, In y l -> y = 1) -> a = 0 \/ a = 1 -> (l <> [] \/ a = 1) -> fold_left Rmax l a = 1).
    { induction l as [|y l IH]; intros a H Ha [N|N]; cbn [fold_left]; [contradiction|exact N| |]; (apply IH; [intros; apply H; now right| |right]); rewrite (H y) by (now left); destruct Ha as [-> | ->]; unfold Rmax; destruct (Rle_dec _ _); auto; lra. }
    apply Hm; [|now left|left; discriminate]. intros y Iy. apply in_map_iff in Iy as (v & <- & Iv). apply in_map_iff in Iv as ([x y'] & <- & Iv). apply in_combine_l in Iv. apply in_map_iff in Iv as (i & <- & _). cbn. ring. }
  assert (Em : cost_cvx (fun _ => 0) c = Fin 0) by reflexivity.
  assert (Es : exists x, solve 1 (fun _ => false) IxBatch IxAll (fun _ => false) div_solve div_lstsq (fun _ => 0) (fun _ => 0) c solve_max_iter (Some solve_stop_tol) (Some solve_max_tol) sp_new = SRet x /\ x 0%nat = 0).
  { rewrite C29_solver_choice by reflexivity. rewrite El, Em. destruct (Req_EM_T (1/4) 0); [lra|]. destruct (Rlt_dec 0 (1/4)); [|lra]. unfold run_agd. cbn [solver_init sbind]. rewrite El, Em.
    destruct (run_still 1 (agd_step (grad_of 1 (fun _ => false) IxBatch c) (Fin (1/4)) (Fin 0) PNone PNone) (fun s => s_x s 0%nat = 0 /\ s_aux s 0%nat = 0) solve_max_iter (Some solve_stop_tol) solve_max_tol (1/100)
      {| s_x := vzero; s_old := vzero; s_aux := vzero; s_arg := None; s_env := sp_new |} (agd_keeps _ _ _ _ _)) as (s' & Er & P1 & _).
    - unfold good_args, solve_max_iter, solve_stop_tol, solve_max_tol. split; [lia|]. split; [intros rr Hrr; assert (Err : / 10 ^ 20 = rr) by congruence; rewrite <- Err; apply Rinv_0_lt_compat, pow_lt; lra|]. split; [intros rr Hrr; assert (Err : / 10 ^ 16 = rr) by congruence; rewrite <- Err; apply Rinv_0_lt_compat, pow_lt; lra|lra].
    - split; reflexivity.
    - intros k m [P1 P2]. unfold agd_step, grad_of. cbn [mark s_aux s_env s_old s_arg]. destruct (CG (s_aux m) (s_env m)) as (e & Eg). rewrite Eg.
      assert (G0 : vmean (map (log_grad 1 pos (s_aux m)) D) 0%nat = 0).
      { unfold vmean, rmean. rewrite map_map. change D with (combine (fst (alt_data (2 * 5))) (snd (alt_data (2 * 5)))). rewrite mean_alt; [unfold Rdiv; ring|]. unfold dot. cbn. rewrite P2. ring. }
      unfold agd_size, agd_momentum. cbn [ext_inv ext_pos]. destruct (Rlt_dec 0 0); [lra|]. destruct (Req_EM_T (1/4) 0); [lra|].
      eexists. split; [reflexivity|]. cbn [s_x s_aux]. unfold moved, nrm2, dot, vsub, vadd, vscal. cbn [s_x sumn]. rewrite G0, P1, P2. repeat split; ring.
    - exists (s_x s'). rewrite Er. split; [reflexivity|exact P1]. }
  destruct Es as (x & Es & Ex). exists [c0], x, (train sd ud n_test (next_world a_world)). split; [|exact Ex].
  etransitivity; [exact (f_equal (fun z => sbind (sbind z _) _) Ec)|]. cbn [sbind]. rewrite Es. cbn [sbind]. rewrite (points_new sd ud Hs Hu). reflexivity.
Qed.
(** ten agents, a seed: the case in which nothing is held out occurs *)
Example C79_case : exists costs x test,
  create_regression_problem (fun _ => alt_data) (fun _ => alt_data) id_perm an_emp_perm div_solve div_lstsq (fun _ b => b) (fun _ => 0) (fun _ => 0) 1 10 (BsInt 4) true a_world = SRet (costs, Some x, test).
Proof.
  destruct (C77_regression_problem (fun _ => alt_data) (fun _ => alt_data) id_perm an_emp_perm div_solve div_lstsq (fun _ b => b) (fun _ => 0) (fun _ => 0)
    (fun _ => alt_gives) (fun _ => alt_gives) id_perm_ok 1 10 (BsInt 4) a_world (proj1 div_solve_ok) div_lstsq_ok ltac:(lia) ltac:(cbn; lia)) as (costs & x & test & Ds & E & _). eauto.
Qed.

Print Assumptions C76_quadratic_problem.
Print Assumptions C77_regression_problem.
Print Assumptions C78_costs_created_iff.
Print Assumptions C78_classification_problem.
Print Assumptions C79_held_out_refuted.
