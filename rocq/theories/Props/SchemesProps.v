(** C14-C18, C52: activation, selection and drop schemes. *)
From Coq Require Import List Bool Arith ZArith QArith Permutation Sorted Lia Lqa.
From Verif.Model Require Import PyDict Schemes.
From Verif.Spec Require Import SchemesSpec.
From Verif.Proofs Require Import PyDictProofs SortProofs SchemesProofs.
Import ListNotations.
Open Scope nat_scope.

Lemma pair_inv {A B} (a a' : A) (b b' : B) : Some (a, b) = Some (a', b') -> a = a' /\ b = b'.
Proof. intro H. injection H as -> ->. auto. Qed.

(** C14. Accepted arguments; for them, any window of one period holds exactly
    [active_for] active iterations, whatever the offset and the window. *)
Theorem C14_duty_cycle : forall a i off c k,
  cyclic_init a i off = Some c -> (0 <= k)%Z ->
  let j := match i with Some j => j | None => a end in
  count_active (cyclic_active c) k (Z.to_nat (a + j)) = Z.to_nat a.
Proof.
  intros a i off c k H Hk j. apply cyclic_init_inv in H. destruct H as (A & B & C & D & ->).
  destruct i; apply count_all; auto.
Qed.
Theorem C14_periodic : forall a i off c k,
  cyclic_init a i off = Some c -> (0 <= k)%Z ->
  let j := match i with Some j => j | None => a end in
  cyclic_active c (k + (a + j)) = cyclic_active c k /\ cyclic_active c k <> None.
Proof.
  intros a i off c k H Hk j. apply cyclic_init_inv in H. destruct H as (A & B & C & D & ->).
  split; [destruct i; now apply cyc_period|]. rewrite cyc_val by auto. discriminate.
Qed.
(** The active iterations of a cycle are consecutive: after every activation
    edge come exactly [active_for] active, then [inactive_for] inactive ones. *)
Theorem C14_active_iterations_consecutive : forall a i off c k,
  cyclic_init a i off = Some c -> (0 <= k)%Z ->
  cyclic_active c k = Some false -> cyclic_active c (k + 1) = Some true ->
  let j := match i with Some j => j | None => a end in
  (forall t, (1 <= t <= a)%Z -> cyclic_active c (k + t) = Some true) /\
  (forall t, (a < t <= a + j)%Z -> cyclic_active c (k + t) = Some false).
Proof.
  intros a i off c k H Hk F T j. apply cyclic_init_inv in H. destruct H as (A & B & C & D & ->).
  destruct i; apply rise; auto.
Qed.
(** The offset shifts the phase; without offset a cycle starts active. *)
Theorem C14_offset_shifts_phase : forall a i off c k,
  cyclic_init a i off = Some c -> (0 <= k)%Z ->
  (exists c0, cyclic_init a i 0 = Some c0 /\ cyclic_active c k = cyclic_active c0 (k + off)) /\
  (off = 0%Z -> (k < a)%Z -> cyclic_active c k = Some true) /\
  (off = 0%Z -> (a <= k < a + match i with Some j => j | None => a end)%Z -> cyclic_active c k = Some false).
Proof.
  intros a i off c k H Hk. pose proof H as H'. apply cyclic_init_inv in H. destruct H as (A & B & C & D & ->).
  set (j := match i with Some j => j | None => a end) in *.
  split.
  - exists (mkCyclic a j 0). split.
    + unfold cyclic_init in *. fold j in H'. fold j. destruct (Z.ltb_spec a 0), (Z.ltb_spec j 0); simpl in *; try discriminate.
      destruct (off <? 0)%Z; [discriminate|]. destruct ((a =? 0) && (j =? 0))%Z; [discriminate|]. reflexivity.
    + rewrite !cyc_val by lia. now rewrite Z.add_0_r.
  - split; intros -> R; rewrite cyc_val by auto; rewrite Z.add_0_r, Z.mod_small by lia; f_equal; [apply Z.ltb_lt|apply Z.ltb_ge]; lia.
Qed.
Theorem C14_always_active : forall a off c k,
  cyclic_init a (Some 0%Z) off = Some c -> (0 <= k)%Z -> cyclic_active c k = Some true.
Proof.
  intros a off c k H Hk. apply cyclic_init_inv in H. destruct H as (A & B & C & D & ->). rewrite cyc_val by auto.
  f_equal. apply Z.ltb_lt. pose proof (Z.mod_pos_bound (k + off) (a + 0)). lia.
Qed.
Theorem C14_rejections : forall a i off c k,
  (cyclic_init a i off = None <->
     let j := match i with Some j => j | None => a end in (a < 0 \/ j < 0 \/ off < 0 \/ (a = 0 /\ j = 0))%Z) /\
  (cyclic_active c k = None <-> (k < 0)%Z).
Proof.
  intros. split.
  - unfold cyclic_init. destruct i as [j|]; [destruct (Z.ltb_spec a 0), (Z.ltb_spec j 0), (Z.ltb_spec off 0), (Z.eqb_spec a 0), (Z.eqb_spec j 0)
    |destruct (Z.ltb_spec a 0), (Z.ltb_spec off 0), (Z.eqb_spec a 0)]; cbn; split; try congruence; lia.
  - unfold cyclic_active. destruct (Z.ltb_spec k 0); split; try congruence; lia.
Qed.
Example C14_nonvacuous :
  cyclic_init 2 (Some 3%Z) 1 = Some (mkCyclic 2 3 1) /\
  map (cyclic_active (mkCyclic 2 3 1)) [0; 1; 2; 3; 4; 5]%Z = map Some [true; false; false; false; true; true].
Proof. split; reflexivity. Qed.

(** C15. The agent is active at query [t] iff [t] is the end of the j-th drawn
    interval (intervals separated by one active query), for every draw stream. *)
Theorem C15_poisson_follows_draws : forall draws n t,
  t < n ->
  (nth t (poisson_run draws (poisson_init draws) n) false = true <-> exists j, t = j + sum_to draws j).
Proof.
  intros draws n t H. unfold poisson_init. rewrite (poisson_at draws n (draws 0) 0 0) by (simpl; auto).
  split; intros (j & A); exists j; [tauto|split; [lia|auto]].
Qed.
Example C15_poisson_nonvacuous :
  poisson_run (fun j => nth j [2; 0; 1] 0) (poisson_init (fun j => nth j [2; 0; 1] 0)) 7 = [false; false; true; true; false; true; true].
Proof. reflexivity. Qed.

(** Markov activation: starts active; each query moves along the chain given
    by the draw; degenerate probabilities are honoured. *)
Theorem C15_markov_starts_active : forall up down u0 m,
  unit_draw u0 -> markov_init up down u0 = Some m -> mk_state m = true /\ (0 <= up <= 1)%Q /\ (0 <= down <= 1)%Q.
Proof.
  unfold markov_init. intros up down u0 m (U0 & U1). destruct (prob_ok up) eqn:E1, (prob_ok down) eqn:E2; try discriminate.
  intros [= <-]. apply prob_ok_spec in E1, E2. split; [|auto]. simpl. unfold choice2. apply negb_true_iff, Qltb_false. lra.
Qed.
(** The constructors take exactly the probabilities in [0, 1]. *)
Theorem C15_probabilities_checked : forall p up down u0,
  (uniform_init p <> None <-> (0 <= p <= 1)%Q) /\ (forall q, uniform_init p = Some q -> q = p) /\
  (markov_init up down u0 <> None <-> (0 <= up <= 1)%Q /\ (0 <= down <= 1)%Q).
Proof.
  intros p up down u0. unfold uniform_init, markov_init.
  pose proof (prob_ok_spec p) as Hp. pose proof (prob_ok_spec up) as Hu. pose proof (prob_ok_spec down) as Hd.
  destruct (prob_ok p), (prob_ok up), (prob_ok down); cbn; (split; [|split]); try (intros q [= <-]; reflexivity); try discriminate; intuition (try discriminate).
Qed.
Theorem C15_markov_degenerate : forall up down u0 m us,
  unit_draw u0 -> Forall unit_draw us -> markov_init up down u0 = Some m ->
  let h := markov_run m us in
  ((down == 0)%Q -> Forall (fun b => b = true) h) /\
  ((down == 1)%Q -> nth 0 (map negb h) true = true /\ forall t, nth t h false = true -> nth (S t) h false = false) /\
  ((up == 0)%Q -> forall t s, t < s -> s < length h -> nth t h true = false -> nth s h true = false) /\
  ((up == 1)%Q -> forall t, S t < length h -> nth t h true = false -> nth (S t) h false = true).
Proof.
  intros up down u0 m us U0 US I h. pose proof (C15_markov_starts_active up down u0 m U0 I) as (S0 & PU & PD).
  assert (PR : mk_up m = up /\ mk_down m = down).
  { unfold markov_init in I. destruct (prob_ok up && prob_ok down); [injection I as <-; auto|discriminate]. }
  destruct PR as (PR1 & PR2). unfold h.
  assert (STEP : forall m u, unit_draw u -> let '(b, m') := markov_active m u in
     mk_up m' = mk_up m /\ mk_down m' = mk_down m /\ mk_state m' = b /\
     (mk_down m == 0 -> mk_state m = true -> b = true)%Q /\ (mk_down m == 1 -> mk_state m = true -> b = false)%Q /\
     (mk_up m == 0 -> mk_state m = false -> b = false)%Q /\ (mk_up m == 1 -> mk_state m = false -> b = true)%Q).
  { clear. intros m u (U0 & U1). unfold markov_active, choice2. simpl.
    repeat split; intros E S; rewrite S; [apply negb_true_iff, Qltb_false|apply negb_false_iff, Qltb_spec|apply negb_false_iff, Qltb_spec|apply negb_true_iff, Qltb_false]; lra. }
  assert (LEN : forall us m, length (markov_run m us) = length us).
  { clear. induction us as [|u us IH]; intro m; simpl; auto. }
  repeat split.
  - intro D. rewrite <- PR2 in D. clear -US S0 D STEP. revert m S0 D. induction US as [|u us U US IH]; intros m S0 D; simpl; constructor.
    + pose proof (STEP m u U) as X. simpl in X. destruct X as (_ & _ & _ & X & _). now apply X.
    + pose proof (STEP m u U) as X. simpl in X. destruct X as (X1 & X2 & X3 & X & _). apply IH; simpl; auto.
  - destruct us as [|u us]; auto. inversion US; subst. simpl. pose proof (STEP m u H2) as X. simpl in X. destruct X as (_ & _ & _ & _ & X & _).
    rewrite X; auto.
  - rewrite <- PR2 in H. clear -US H STEP. revert m H. induction US as [|u us U US IH]; intros m D t; simpl; [destruct t; auto|].
    destruct t as [|t]; simpl; [|now apply IH].
    destruct us as [|u2 us]; auto. inversion US; subst. intro B. simpl.
    pose proof (STEP (snd (markov_active m u)) u2 H1) as X. simpl in X. destruct X as (_ & _ & _ & _ & X & _). now apply X.
  - intro D. rewrite <- PR1 in D. assert (OFF : forall us m, Forall unit_draw us -> (mk_up m == 0)%Q -> mk_state m = false -> forall s, s < length us -> nth s (markov_run m us) true = false).
    { clear -STEP. intros us m US. revert m. induction US as [|u us U US IH]; intros m D S0 s Hs; simpl in *; [lia|].
      pose proof (STEP m u U) as X. simpl in X. destruct X as (X1 & X2 & X3 & _ & _ & X & _).
      destruct s; [now apply X|]. apply IH; simpl; auto. lia. }
    rewrite LEN. clear -US D STEP OFF. revert m D. induction US as [|u us U US IH]; intros m D t s Hts Hs; simpl in *; [lia|].
    destruct s as [|s]; [lia|]. destruct t as [|t]; simpl.
    + intro B. apply OFF; auto. lia.
    + apply IH; simpl; auto; lia.
  - intro D. rewrite <- PR1 in D. rewrite LEN. clear -US D STEP. revert m D. induction US as [|u us U US IH]; intros m D t Ht; simpl in *; [lia|].
    destruct us as [|u2 us]; [simpl in Ht; lia|]. destruct t as [|t].
    + intro B. inversion US; subst. pose proof (STEP (snd (markov_active m u)) u2 H1) as X. simpl in X. destruct X as (_ & _ & _ & _ & _ & _ & X). now apply X.
    + intro B. apply (IH (snd (markov_active m u)) D t); auto. simpl in *. lia.
Qed.
Theorem C15_uniform_extremes : forall p u, unit_draw u ->
  ((p == 0)%Q -> uniform_active p u = false) /\ ((p == 1)%Q -> uniform_active p u = true).
Proof. intros p u (A & B). unfold uniform_active. split; intro E; [apply Qltb_false|apply Qltb_spec]; lra. Qed.
Example C15_markov_nonvacuous : exists m, markov_init (1#2) 0 (1#3) = Some m /\ markov_run m [1#2; 0; 9#10]%Q = [true; true; true] /\
  exists m2, markov_init (1#2) 1 (1#3) = Some m2 /\ markov_run m2 [1#2; 0; 9#10]%Q = [false; false; true].
Proof. eexists. split; [reflexivity|]. split; [reflexivity|]. eexists. split; reflexivity. Qed.

(** C16. For every scheme, every valid size, every pool of distinct clients and
    every draw, [select] returns distinct members, of the documented number;
    none iff the pool is empty. *)
Theorem C16_selection_size_and_membership : forall sch num frac sz counts pool d sel counts',
  size_init num frac = Some sz -> NoDup pool -> good_draw pool (resolve sz (length pool)) sch d ->
  select sch sz counts pool d = Some (sel, counts') ->
  NoDup sel /\ incl sel pool /\ wanted sz (length pool) (length sel) /\ (sel = [] <-> pool = []).
Proof.
  intros sch num frac sz counts pool d sel counts' SI ND (GO & GT & _) H.
  assert (V : valid_size sz).
  { unfold size_init in SI. destruct num as [m|], frac as [f|]; try discriminate.
    - destruct (Z.leb_spec m 0); [discriminate|]. injection SI as <-. exact H0.
    - destruct (Qltb 0 f) eqn:E1, (Qle_bool f 1) eqn:E2; try discriminate. injection SI as <-.
      apply Qltb_spec in E1. apply Qle_bool_iff in E2. split; auto. }
  assert (W : wanted sz (length pool) (resolve sz (length pool))) by now apply resolve_wanted.
  assert (L := resolve_le sz (length pool)).
  destruct pool as [|c0 rest].
  { simpl in H. apply pair_inv in H; destruct H as (<- & <-). replace (resolve sz (length (@nil nat))) with 0 in W by (simpl in L |- *; lia).
    split; [constructor|]. split; [intros x []|]. split; [auto|tauto]. }
  assert (G : NoDup sel /\ incl sel (c0 :: rest) /\ length sel = resolve sz (length (c0 :: rest))).
  { unfold select in H. set (pool := c0 :: rest) in *. set (k := resolve sz (length pool)) in *.
    destruct sch.
    - destruct (Nat.eqb_spec k (length pool)); apply pair_inv in H; destruct H as (<- & <-); [repeat split; auto; apply incl_refl|]. exact (pick_spec pool c0 (dr_order d) k ND GO L).
    - destruct (Nat.eqb_spec k (length pool)); [apply pair_inv in H; destruct H as (<- & <-); repeat split; auto; apply incl_refl|].
      destruct (forallb _ _); [|discriminate]. destruct (_ <? _); [discriminate|]. apply pair_inv in H; destruct H as (<- & <-). exact (pick_spec pool c0 (dr_order d) k ND GO L).
    - apply pair_inv in H; destruct H as (<- & _). destruct (Nat.eqb_spec k (length pool)); [repeat split; auto; apply incl_refl|].
      set (s := sorted _ pool). assert (P : Permutation s pool) by apply sorted_perm.
      split; [apply NoDup_firstn; now apply (Permutation_NoDup (Permutation_sym P))|].
      split; [intros x Hx; apply in_firstn in Hx; now apply (Permutation_in _ P)|].
      rewrite firstn_length, (Permutation_length P). lia.
    - destruct (Nat.eqb_spec k (length pool)); apply pair_inv in H; destruct H as (<- & <-); [repeat split; auto; apply incl_refl|].
      exact (pick_spec pool c0 _ k ND (sorted_perm _ _) L). }
  destruct G as (G1 & G2 & G3). split; auto. split; auto. split; [now rewrite G3|].
  assert (0 < length sel) by (rewrite G3; apply resolve_pos; auto; simpl; lia).
  destruct sel; [simpl in H0; lia|]. split; discriminate.
Qed.
(** Selection fails only for DataSize, and only if a client has no known data
    size or too few clients hold data; when it samples, it never selects a
    client without data. *)
Theorem C16_failure_only_without_data : forall sch sz counts pool d,
  select sch sz counts pool d = None <->
  sch = DataSize /\ pool <> [] /\ resolve sz (length pool) <> length pool /\
  ((exists c, In c pool /\ dr_size d c = None) \/
   length (filter (fun c => match dr_size d c with Some (S _) => true | _ => false end) pool) < resolve sz (length pool)).
Proof.
  intros sch sz counts pool d. unfold select. destruct pool as [|c0 rest]; [split; [discriminate|intros (_ & X & _); congruence]|].
  set (pool := c0 :: rest). set (k := resolve sz (length pool)).
  destruct sch; try (split; [try destruct (k =? length pool); discriminate|intros (X & _); discriminate]).
  destruct (Nat.eqb_spec k (length pool)); [split; [discriminate|intros (_ & _ & X & _); congruence]|].
  destruct (forallb _ pool) eqn:F.
  - assert (NO : ~ exists c, In c pool /\ dr_size d c = None).
    { intros (c & I & E). rewrite forallb_forall in F. specialize (F c I). rewrite E in F. discriminate. }
    destruct (Nat.ltb_spec (length (filter (fun c => match dr_size d c with Some (S _) => true | _ => false end) pool)) k).
    + split; [intros _|auto]. repeat split; auto. discriminate.
    + split; [discriminate|]. intros (_ & _ & _ & [X|X]); [contradiction|lia].
  - split; [intros _|auto]. repeat split; auto; [discriminate|]. left.
    assert (E : exists c, In c pool /\ match dr_size d c with Some _ => true | None => false end = false).
    { clear -F. induction pool as [|x l IH]; [discriminate|]. simpl in F. apply andb_false_iff in F. destruct F as [F|F]; [exists x; split; [left|]; auto|].
      destruct (IH F) as (c & I & E). exists c. split; [right|]; auto. }
    destruct E as (c & I & E). exists c. split; auto. destruct (dr_size d c); congruence.
Qed.
Theorem C16_datasize_needs_data : forall sz counts pool d sel counts',
  good_draw pool (resolve sz (length pool)) DataSize d -> resolve sz (length pool) <> length pool ->
  select DataSize sz counts pool d = Some (sel, counts') ->
  forall c, In c sel -> exists m, dr_size d c = Some (S m).
Proof.
  intros sz counts pool d sel counts' (P & _ & G) NK H c I. unfold select in H. destruct pool as [|c0 rest]; [apply pair_inv in H; destruct H as (<- & <-); destruct I|].
  set (pool := c0 :: rest) in *. set (k := resolve sz (length pool)) in *.
  destruct (Nat.eqb_spec k (length pool)); [congruence|]. destruct (forallb _ _); [|discriminate].
  destruct (Nat.ltb_spec (length (filter (fun c => match dr_size d c with Some (S _) => true | _ => false end) pool)) k); [discriminate|]. apply pair_inv in H; destruct H as (<- & <-).
  apply in_map_iff in I. destruct I as (i & <- & I). destruct (G eq_refl H0 i I) as (m & E). exists m. rewrite <- E. f_equal. apply nth_indep.
  apply in_firstn in I. apply (Permutation_in _ P) in I. apply in_seq in I. lia.
Qed.
Example C16_nonvacuous :
  let d := mkDraw [2; 0; 3; 1] (fun c => Some (c - 10)) (fun c => inject_Z (Z.of_nat c)) [1; 0; 3; 2] in
  good_draw [11; 12; 13; 14] 2 DataSize d /\ size_init None (Some (3#5))%Q = Some (Fraction (3#5)) /\
  option_map fst (select DataSize (Fraction (3#5)) [] [11; 12; 13; 14] d) = Some [13; 11] /\
  option_map fst (select HighLoss (Fraction (3#5)) [] [11; 12; 13; 14] d) = Some [14; 13] /\
  option_map fst (select Fair (Fraction (3#5)) [(11, 1)] [11; 12; 13; 14] d) = Some [12; 13] /\
  option_map fst (select Uniform (Count 7) [] [11; 12; 13; 14] d) = Some [11; 12; 13; 14].
Proof.
  cbn -[select]. repeat split; try reflexivity; simpl.
  - apply NoDup_Permutation; [repeat constructor; simpl; intuition lia|apply (seq_NoDup 4 0)|intro x; simpl; intuition lia].
  - apply NoDup_Permutation; [repeat constructor; simpl; intuition lia|apply (seq_NoDup 4 0)|intro x; simpl; intuition lia].
  - intros _ _ i [<-|[<-|[]]]; simpl; eauto.
Qed.

(** C17. Fair selection is minimal, breaks ties in pool order, and the counts
    it keeps are exactly the numbers of past selections. *)
Theorem C17_selection_is_minimal : forall sz counts pool d sel counts' other,
  NoDup pool -> select Fair sz counts pool d = Some (sel, counts') ->
  NoDup other -> incl other pool -> length other = length sel ->
  total_count (lookup counts) sel <= total_count (lookup counts) other.
Proof.
  intros sz counts pool d sel counts' other ND H NO IO L. unfold select in H.
  destruct pool as [|c0 rest]; [apply pair_inv in H; destruct H as (<- & <-); destruct other; [auto|discriminate]|].
  set (pool := c0 :: rest) in *. set (k := resolve sz (length pool)) in *. apply pair_inv in H; destruct H as (Hs & _). subst sel.
  destruct (Nat.eqb_spec k (length pool)).
  - assert (P : Permutation pool other).
    { apply NoDup_Permutation; auto. intro x. split; [|apply IO]. apply NoDup_length_incl; auto. lia. }
    now rewrite (total_perm _ _ _ P).
  - change (fun a b => lookup counts a <=? lookup counts b) with (fle counts) in *.
    set (s := sorted (fle counts) pool) in *. assert (P : Permutation s pool) by apply sorted_perm.
    assert (E : {firstn k s = []} + {firstn k s <> []}) by (destruct (firstn k s); [left; auto|right; discriminate]).
    destruct E as [E|E]; [rewrite E; apply Nat.le_0_l|].
    destruct (max_exists (lookup counts) (firstn k s)) as (x & Ix & M); [exact E|].
    apply exchange with (lookup counts x); auto.
    + apply NoDup_firstn. now apply (Permutation_NoDup (Permutation_sym P)).
    + intros y Iy Ny. assert (In y s) by now apply (Permutation_in _ (Permutation_sym P)), IO.
      destruct (firstn_or_skipn k s y H) as [B|B]; [contradiction|].
      destruct (fair_split counts pool k x y Ix B) as [Z|(Z & _)]; lia.
Qed.
Theorem C17_ties_in_pool_order : forall sz counts pool d sel counts' a b,
  NoDup pool -> select Fair sz counts pool d = Some (sel, counts') ->
  In a sel -> In b pool -> ~ In b sel ->
  lookup counts a < lookup counts b \/ (lookup counts a = lookup counts b /\ before pool a b).
Proof.
  intros sz counts pool d sel counts' a b ND H Ia Ib Nb. unfold select in H.
  destruct pool as [|c0 rest]; [destruct Ib|].
  set (pool := c0 :: rest) in *. set (k := resolve sz (length pool)) in *. apply pair_inv in H; destruct H as (Hs & _). subst sel.
  destruct (Nat.eqb_spec k (length pool)); [contradiction|].
  change (fun a b => lookup counts a <=? lookup counts b) with (fle counts) in *.
  apply (fair_split counts pool k); auto.
  assert (I : In b (sorted (fle counts) pool)) by now apply (Permutation_in _ (Permutation_sym (sorted_perm _ pool))).
  destruct (firstn_or_skipn k _ b I); [contradiction|auto].
Qed.
Theorem C17_counts_are_selections : forall sz counts pool d sel counts',
  NoDup pool -> select Fair sz counts pool d = Some (sel, counts') ->
  forall c, (In c sel -> lookup counts' c = lookup counts c + 1) /\ (~ In c sel -> lookup counts' c = lookup counts c).
Proof.
  intros sz counts pool d sel counts' ND H c. unfold select in H.
  destruct pool as [|c0 rest]; [apply pair_inv in H; destruct H as (<- & <-); simpl; tauto|].
  set (pool := c0 :: rest) in *. set (k := resolve sz (length pool)) in *. apply pair_inv in H; destruct H as (Hs & Hc). subst counts'. rewrite Hs.
  assert (NS : NoDup sel).
  { subst sel. destruct (k =? length pool); auto. apply NoDup_firstn. apply (Permutation_NoDup (Permutation_sym (sorted_perm _ pool))). auto. }
  rewrite lookup_bump by auto. fold (inb sel c). destruct (inb sel c) eqn:E; split; intro I; try lia.
  - exfalso. apply I. now apply inb_spec.
  - exfalso. apply inb_spec in I. congruence.
Qed.
(** Long-run fairness: rounds over the same set of clients, in any order each
    round, any (valid or not) size: counts differ by at most one for ever. *)
Theorem C17_counts_never_differ_by_more_than_one : forall sz pool pools d a b,
  NoDup pool -> Forall (fun p => Permutation p pool) pools ->
  In a pool -> In b pool ->
  lookup (fair_rounds sz [] pools d) a <= lookup (fair_rounds sz [] pools d) b + 1.
Proof.
  intros sz pool pools d a b ND FP Ia Ib.
  assert (INV : forall counts, (exists m, forall c, In c pool -> lookup counts c = m \/ lookup counts c = m + 1) ->
     exists m, forall c, In c pool -> lookup (fair_rounds sz counts pools d) c = m \/ lookup (fair_rounds sz counts pools d) c = m + 1).
  { clear Ia Ib a b. induction FP as [|p ps Hp FP IH]; intros counts (m & HM); [exists m; exact HM|].
    cbn [fair_rounds]. destruct (select Fair sz counts p d) as [[sel counts']|] eqn:E; [|exists m; exact HM]. apply IH.
    assert (NP : NoDup p) by now apply (Permutation_NoDup (Permutation_sym Hp)).
    pose proof (C17_counts_are_selections sz counts p d sel counts' NP E) as CS.
    pose proof (fun a b => C17_ties_in_pool_order sz counts p d sel counts' a b NP E) as TO.
    assert (IP : forall c, In c pool <-> In c p) by (intro c; split; apply Permutation_in; [symmetry|]; auto).
    destruct (existsb (fun c => lookup counts c =? m + 1) sel) eqn:X.
    - apply existsb_exists in X. destruct X as (x & Ix & Ex). apply Nat.eqb_eq in Ex.
      exists (m + 1). intros c Hc. destruct (in_dec Nat.eq_dec c sel) as [I|I].
      + rewrite (proj1 (CS c) I). destruct (HM c Hc); lia.
      + rewrite (proj2 (CS c) I). left. destruct (TO x c Ix (proj1 (IP c) Hc) I) as [L|(L & _)]; destruct (HM c Hc); lia.
    - exists m. intros c Hc. destruct (in_dec Nat.eq_dec c sel) as [I|I].
      + rewrite (proj1 (CS c) I). destruct (HM c Hc) as [->|Y]; [auto|]. exfalso.
        assert (existsb (fun c => lookup counts c =? m + 1) sel = true); [|congruence].
        apply existsb_exists. exists c. split; auto. now apply Nat.eqb_eq.
      + rewrite (proj2 (CS c) I). auto. }
  destruct (INV []) as (m & H); [exists 0; intros; left; reflexivity|]. destruct (H a Ia), (H b Ib); lia.
Qed.
Example C17_nonvacuous :
  let d := mkDraw [] (fun _ => None) (fun _ => 0%Q) [] in
  map (lookup (fair_rounds (Count 2) [] [[5; 6; 7]; [6; 5; 7]; [7; 6; 5]; [5; 6; 7]] d)) [5; 6; 7] = [3; 3; 2].
Proof. reflexivity. Qed.

(** C18. Every selected client has a loss at least that of every client of the
    pool that is not selected, whatever the tie-break. *)
Theorem C18_highest_losses : forall sz counts pool d sel counts' a b,
  NoDup pool -> select HighLoss sz counts pool d = Some (sel, counts') ->
  In a sel -> In b pool -> ~ In b sel -> (dr_loss d b <= dr_loss d a)%Q.
Proof.
  intros sz counts pool d sel counts' a b ND H Ia Ib Nb. unfold select in H.
  destruct pool as [|c0 rest]; [destruct Ib|].
  set (pool := c0 :: rest) in *. set (k := resolve sz (length pool)) in *.
  destruct (Nat.eqb_spec k (length pool)); [apply pair_inv in H; destruct H as (<- & <-); contradiction|]. apply pair_inv in H; destruct H as (<- & _).
  set (loss := fun i => dr_loss d (nth i pool c0)) in *. set (s := sorted (rank_le loss (dr_ties d)) (seq 0 (length pool))) in *.
  assert (P : Permutation s (seq 0 (length pool))) by apply sorted_perm.
  apply in_map_iff in Ia. destruct Ia as (i & <- & Ii).
  destruct (In_nth pool b c0 Ib) as (j & Hj & <-).
  assert (Ij : In j s) by (apply (Permutation_in _ (Permutation_sym P)), in_seq; lia).
  destruct (firstn_or_skipn k s j Ij) as [B|B]; [exfalso; apply Nb, in_map_iff; eauto|].
  pose proof (ss_split k _ i j (sorted_ranked _ (rank_total loss (dr_ties d)) (rank_trans loss (dr_ties d)) _) Ii B) as (R & _).
  apply rank_spec in R. unfold loss in R. destruct R as [R|(R & _)]; lra.
Qed.

(** C52. Drop schemes. *)
Theorem C52_uniform_drop_extremes : forall p u, unit_draw u ->
  ((p == 0)%Q -> uniform_drop p u = false) /\ ((p == 1)%Q -> uniform_drop p u = true).
Proof. intros p u (A & B). unfold uniform_drop. split; intro E; [apply Qltb_false|apply Qltb_spec]; lra. Qed.
Theorem C52_probabilities_checked : forall p rate b2g g2b bad0,
  (uniform_drop_init p <> None <-> (0 <= p <= 1)%Q) /\ (forall q, uniform_drop_init p = Some q -> q = p) /\
  (gilbert_init rate b2g g2b bad0 <> None <-> (0 <= rate <= 1)%Q /\ (0 <= b2g <= 1)%Q /\ (0 <= g2b <= 1)%Q).
Proof.
  intros p rate b2g g2b bad0. unfold uniform_drop_init, gilbert_init.
  pose proof (prob_ok_spec p) as Hp. pose proof (prob_ok_spec rate) as Hr. pose proof (prob_ok_spec b2g) as Hu. pose proof (prob_ok_spec g2b) as Hd.
  destruct (prob_ok p), (prob_ok rate), (prob_ok b2g), (prob_ok g2b); cbn; (split; [|split]); try (intros q [= <-]; reflexivity); try discriminate; intuition (try discriminate).
Qed.
Example C52_probabilities_case : uniform_init (1#3) = Some (1#3)%Q /\ uniform_drop_init (4#3) = None /\ gilbert_init 1 0 (-1#2) true = None.
Proof. repeat split; reflexivity. Qed.
(** A Gilbert-Elliott link that starts good and never turns bad, or whose drop
    rate is zero, never drops; one that starts bad, cannot recover and has drop
    rate one drops everything; with recovery certain there are never two
    consecutive drops. *)
Theorem C52_gilbert_elliott : forall rate b2g g2b bad0 g us,
  gilbert_init rate b2g g2b bad0 = Some g -> Forall (fun u => unit_draw (fst u) /\ unit_draw (snd u)) us ->
  let h := gilbert_run g us in
  length h = length us /\
  (rate == 0 -> Forall (fun b => b = false) h)%Q /\
  (g2b == 0 -> bad0 = false -> Forall (fun b => b = false) h)%Q /\
  (rate == 1 -> b2g == 0 -> bad0 = true -> Forall (fun b => b = true) h)%Q /\
  ((b2g == 1)%Q -> forall t, nth t h false = true -> nth (S t) h false = false).
Proof.
  intros rate b2g g2b bad0 g us I US h.
  assert (PR : ge_rate g = rate /\ ge_b2g g = b2g /\ ge_g2b g = g2b /\ ge_bad g = bad0).
  { unfold gilbert_init in I. destruct (prob_ok rate), (prob_ok b2g && prob_ok g2b); try discriminate. injection I as <-. auto. }
  destruct PR as (<- & <- & <- & <-). unfold h. clear h I.
  split; [revert g; induction us; intro; simpl; auto; f_equal; inversion US; auto|].
  split; [|split; [|split]].
  - intro R. revert g R. induction US as [|u us (U & V) US IH]; intros g R; simpl; constructor; [|apply IH; auto].
    destruct (choice2 _ _); auto. apply Qltb_false. destruct V. lra.
  - intros R B. revert g R B. induction US as [|u us (U & V) US IH]; intros g R B; simpl.
    + constructor.
    + assert (E : choice2 (if ge_bad g then ge_b2g g else (1 - ge_g2b g)%Q) (fst u) = false).
      { rewrite B. unfold choice2. apply negb_false_iff, Qltb_spec. destruct U. lra. }
      rewrite E. constructor; auto.
  - intros R1 R2 B. revert g R1 R2 B. induction US as [|u us (U & V) US IH]; intros g R1 R2 B; simpl.
    + constructor.
    + assert (E : choice2 (if ge_bad g then ge_b2g g else (1 - ge_g2b g)%Q) (fst u) = true).
      { rewrite B. unfold choice2. apply negb_true_iff, Qltb_false. destruct U. lra. }
      rewrite E. constructor; auto. apply Qltb_spec. destruct V. lra.
  - intro R. revert g R. induction US as [|u us (U & V) US IH]; intros g R t; simpl; [destruct t; auto|].
    destruct t as [|t]; simpl; [|apply IH; auto]. intro D.
    destruct (choice2 (if ge_bad g then ge_b2g g else (1 - ge_g2b g)%Q) (fst u)) eqn:C; [|discriminate].
    destruct us as [|u2 us]; auto. inversion US; subst. destruct H1 as (U2 & V2). simpl.
    replace (choice2 (ge_b2g g) (fst u2)) with false; auto.
    symmetry. unfold choice2. apply negb_false_iff, Qltb_spec. destruct U2. lra.
Qed.
Example C52_nonvacuous : exists g, gilbert_init 1 1 (1#2) true = Some g /\
  gilbert_run g [(1#3, 1#2); (3#4, 1#2); (1#8, 0); (9#10, 9#10)]%Q = [false; true; false; true].
Proof. eexists. split; reflexivity. Qed.

Print Assumptions C14_duty_cycle.
Print Assumptions C15_markov_degenerate.
Print Assumptions C16_selection_size_and_membership.
Print Assumptions C17_counts_never_differ_by_more_than_one.
Print Assumptions C18_highest_losses.
Print Assumptions C52_gilbert_elliott.
Print Assumptions C15_probabilities_checked.
Print Assumptions C52_probabilities_checked.
