From Coq Require Import Reals List Bool Arith ZArith Permutation FunctionalExtensionality Lia Lra Psatz.
From Verif.Model Require Import Vec Costs Batch EmpiricalRisk Solvers Partition Handlers Problems.
From Verif.Spec Require Import PartitionSpec HandlerSpec CostSpec EmpiricalSpec SolverSpec.
From Verif.Proofs Require Import CostProofs VecProofs CostBuiltin EmpiricalProofs SolverSolve SolverRun SolverRates SolverIter PartitionProofs HandlerProofs.
From Verif.Props Require Import PartitionProps EmpiricalProps SolverProps.
Import ListNotations.
Open Scope R_scope.

(** *** The quadratic form of [quad_matrix] *)
Lemma sumn_const : forall n a, sumn n (fun _ => a) = INR n * a.
Proof. induction n as [|n IH]; intros a; cbn [sumn]; [cbn; ring|]. rewrite IH, S_INR. ring. Qed.
Lemma quad_form : forall n A h, dot n h (mulv n A h) = sumn n (fun i => sumn n (fun j => A i j * (h i * h j))).
Proof. intros. unfold dot, mulv. apply sumn_ext. intros i _. rewrite <- sumn_scal. apply sumn_ext. intros j _. ring. Qed.
Lemma sumn_diag : forall n (h : vec) i, (i < n)%nat -> sumn n (fun j => if Nat.eqb i j then h i * h i else 0) = h i * h i.
Proof.
  intros n h i Hi. assert (G : forall m, sumn m (fun j => if Nat.eqb i j then h i * h i else 0) = if (i <? m)%nat then h i * h i else 0).
  { induction m as [|m IH]; [reflexivity|]. cbn [sumn]. rewrite IH. destruct (Nat.eqb_spec i m) as [->|N].
    - replace (m <? m)%nat with false by (symmetry; apply Nat.ltb_ge; lia). replace (m <? S m)%nat with true by (symmetry; apply Nat.ltb_lt; lia). ring.
    - destruct (i <? m)%nat eqn:E; [apply Nat.ltb_lt in E; replace (i <? S m)%nat with true by (symmetry; apply Nat.ltb_lt; lia); ring|].
      apply Nat.ltb_ge in E. replace (i <? S m)%nat with false by (symmetry; apply Nat.ltb_ge; lia). ring. }
  rewrite G. apply Nat.ltb_lt in Hi. now rewrite Hi.
Qed.
Lemma half_squares : forall n (h : vec), sumn n (fun i => sumn n (fun j => / 2 * (h i * h i + h j * h j))) = INR n * nrm2 n h.
Proof.
  intros n h. rewrite (sumn_ext n _ (fun i => / 2 * (INR n * (h i * h i) + nrm2 n h))).
  - rewrite sumn_scal, sumn_plus, sumn_const, sumn_scal. unfold nrm2, dot. field.
  - intros i _. rewrite sumn_scal, sumn_plus, sumn_const. reflexivity.
Qed.
Lemma quad_matrix_bounds : forall n U h, (forall i j, (i < n)%nat -> (j < n)%nat -> 0 <= U i j <= 1) ->
  nrm2 n h <= dot n h (mulv n (quad_matrix n U) h) <= 2 * INR n * nrm2 n h.
Proof.
  intros n U h HU. unfold quad_matrix. rewrite mulv_add_m, dot_add_r, mulv_scal_m, mulv_scal_m, !dot_scal_r.
  assert (E : dot n h (mulv n meye h) = nrm2 n h) by (unfold nrm2; apply dot_ext; auto; intros; now apply mulv_eye). rewrite E.
  assert (F : / 2 * dot n h (mulv n (madd U (mtr U)) h) = sumn n (fun i => sumn n (fun j => / 2 * (U i j + U j i) * (h i * h j)))).
  { rewrite quad_form, <- sumn_scal. apply sumn_ext. intros i _. rewrite <- sumn_scal. apply sumn_ext. intros j _. unfold madd, mtr. ring. }
  rewrite F. clear E F.
  assert (Hu : sumn n (fun i => sumn n (fun j => / 2 * (U i j + U j i) * (h i * h j))) <= INR n * nrm2 n h).
  { rewrite <- half_squares. apply sumn_le. intros i Hi. apply sumn_le. intros j Hj. pose proof (HU i j Hi Hj). pose proof (HU j i Hj Hi).
    set (s := / 2 * (U i j + U j i)). assert (0 <= s <= 1) by (unfold s; lra). pose proof (Rle_0_sqr (h i - h j)) as Q. pose proof (Rle_0_sqr (h i + h j)) as Q'. unfold Rsqr in *. nra. }
  assert (Hl : nrm2 n h - INR n * nrm2 n h <= sumn n (fun i => sumn n (fun j => / 2 * (U i j + U j i) * (h i * h j)))).
  { rewrite <- half_squares. replace (nrm2 n h) with (sumn n (fun i => sumn n (fun j => if Nat.eqb i j then h i * h i else 0))).
    - rewrite <- sumn_minus. apply sumn_le. intros i Hi. rewrite <- sumn_minus. apply sumn_le. intros j Hj.
      pose proof (HU i j Hi Hj). pose proof (HU j i Hj Hi). set (s := / 2 * (U i j + U j i)). assert (Hs : 0 <= s <= 1) by (unfold s; lra).
      pose proof (Rle_0_sqr (h i - h j)) as Q. pose proof (Rle_0_sqr (h i + h j)) as Q'. unfold Rsqr in *.
      destruct (Nat.eqb_spec i j) as [->|N]; [nra|nra].
    - unfold nrm2, dot. apply sumn_ext. intros i Hi. now apply sumn_diag. }
  lra.
Qed.
Lemma quad_matrix_sym : forall n U i j, quad_matrix n U i j = quad_matrix n U j i.
Proof. intros. unfold quad_matrix, madd, mscal, mtr, meye. rewrite (Nat.eqb_sym j i). ring. Qed.

(** *** Sums of quadratic costs *)
Definition qcost {K St} (m : meta) (q : mat * vec) : cost K St := CQuad m (fst q) (snd q) 0.
Lemma meta_eqb_refl : forall m, meta_eqb m m = true.
Proof. intros [[s f] d]. unfold meta_eqb. destruct (list_nat_eqb s s); [|contradiction]. now rewrite !Nat.eqb_refl. Qed.
Lemma add_all_quad : forall {K St} m (qs : list (mat * vec)) A b c, exists A' b' c', add_all (K:=K) (St:=St) (CQuad m A b c) (map (qcost m) qs) = Ok (CQuad m A' b' c') /\
  (forall n x, quad_f n A' b' c' x = quad_f n A b c x + rsum (map (fun q => quad_f n (fst q) (snd q) 0 x) qs)) /\
  (forall n h, dot n h (mulv n A' h) = dot n h (mulv n A h) + rsum (map (fun q => dot n h (mulv n (fst q) h)) qs)) /\
  ((forall i j, A i j = A j i) -> (forall q, In q qs -> forall i j, fst q i j = fst q j i) -> forall i j, A' i j = A' j i).
Proof.
  intros K St m. induction qs as [|[B bb] qs IH]; intros A b c; cbn [map add_all].
  - exists A, b, c. split; [reflexivity|]. split; [intros; rewrite rsum_nil; ring|]. split; [intros; rewrite rsum_nil; ring|]. auto.
  - unfold qcost at 1. cbn [fst snd add cost_meta]. unfold validate. rewrite meta_eqb_refl. cbn [rbind].
    destruct (IH (madd A B) (vadd b bb) (c + 0)) as (A' & b' & c' & E & Hf & Hq & Hs). exists A', b', c'. split; [exact E|]. split; [|split].
    + intros n x. rewrite Hf, rsum_cons, quad_f_D. cbn [fst snd]. ring.
    + intros n h. rewrite Hq, rsum_cons, mulv_add_m, dot_add_r. cbn [fst]. ring.
    + intros HA Hqs. apply Hs; [|intros q Hin; apply Hqs; now right]. intros i j. unfold madd. rewrite (HA i j). f_equal. apply (Hqs (B, bb)). now left.
Qed.

(** *** Sums of empirical leaves *)
Lemma sum_cost_leaves : forall {K St} m (ls : list (leaf K St)) (l : leaf K St), l_meta l = m -> (forall l', In l' ls -> l_meta l' = m) -> ls <> [] ->
  add_all (CEmp (ELeaf l)) (map (fun l => CEmp (ELeaf l)) ls) = Ok (CSum (CEmp (ELeaf l) :: map (fun l => CEmp (ELeaf l)) ls)).
Proof.
  intros K St m.
  assert (V : forall ls : list (leaf K St), (forall l', In l' ls -> l_meta l' = m) -> validate_all m (map (fun l => CEmp (ELeaf l)) ls) = Ok tt).
  { induction ls as [|l ls IH]; intros H; cbn [map validate_all]; [reflexivity|]. cbn [cost_meta emp_meta]. rewrite (H l) by now left. unfold validate. rewrite meta_eqb_refl. cbn [rbind]. apply IH. intros; apply H; now right. }
  assert (FM : forall ls : list (leaf K St), flat_map flat (map (fun l => CEmp (ELeaf l)) ls) = map (fun l => CEmp (ELeaf l)) ls).
  { induction ls as [|l ls IH]; cbn; [reflexivity|]. now rewrite IH. }
  assert (G : forall (ls pre : list (leaf K St)) l, l_meta l = m -> (forall l', In l' (pre ++ ls) -> l_meta l' = m) -> 
    add_all (CSum (CEmp (ELeaf l) :: map (fun l => CEmp (ELeaf l)) pre)) (map (fun l => CEmp (ELeaf l)) ls) = Ok (CSum (CEmp (ELeaf l) :: map (fun l => CEmp (ELeaf l)) (pre ++ ls)))).
  { induction ls as [|l' ls IH]; intros pre l Hl H; cbn [map add_all]; [now rewrite app_nil_r|].
    cbn [add]. unfold sum_cost. cbn [flat_map flat]. rewrite app_nil_r. cbn [app].
    assert (E : map (fun l0 : leaf K St => CEmp (ELeaf l0)) pre ++ [CEmp (ELeaf l')] = map (fun l0 => CEmp (ELeaf l0)) (pre ++ [l'])) by now rewrite map_app.
    rewrite E. cbn [cost_meta emp_meta]. rewrite Hl, V by (intros x Hx; apply H; apply in_app_iff in Hx; apply in_app_iff; cbn in *; tauto). cbn [rbind].
    rewrite IH; [now rewrite <- app_assoc|exact Hl|]. intros x Hx. apply H. now rewrite <- app_assoc in Hx. }
  intros ls l Hl H N. destruct ls as [|l' ls]; [contradiction|]. cbn [map add_all add]. unfold validate. cbn [cost_meta emp_meta].
  rewrite Hl, (H l') by now left. rewrite meta_eqb_refl. cbn [rbind]. unfold sum_cost. cbn [flat_map flat app validate_all cost_meta emp_meta].
  rewrite (H l'), Hl by now left. unfold validate. rewrite meta_eqb_refl. cbn [rbind].
  exact (G ls [l'] l Hl H).
Qed.

(** *** Local datasets *)
Lemma smap_ok {A B} (f : A -> sres B) : forall l r, smap f l = SRet r <-> Forall2 (fun a b => f a = SRet b) l r.
Proof.
  induction l as [|a l IH]; intros r; cbn [smap].
  - split; [intros [= <-]; constructor|intros H; now inversion H].
  - destruct (f a) as [b|e] eqn:Ef; cbn [sbind]; [|split; [discriminate|intros H; inversion H; congruence]].
    destruct (smap f l) as [bs|e] eqn:El; cbn [sbind]; [|split; [discriminate|intros H; inversion H as [|? ? ? ? _ H2]; subst; apply IH in H2; discriminate]].
    split; [intros [= <-]; constructor; [exact Ef|now apply IH]|]. intros H. inversion H as [|? b' ? bs' H1 H2]; subst. apply IH in H2. congruence.
Qed.
Lemma even_exact : forall k q counts, (0 < k)%nat -> even (k * q) k counts -> counts = repeat q k.
Proof.
  intros k q counts Hk (Hl & Hsum & Hm).
  assert (M : forall i j, (i < k)%nat -> (j < k)%nat -> (nth i counts 0 <= nth j counts 0 + 1)%nat).
  { intros i j Hi Hj. destruct (lt_eq_lt_dec i j) as [[L| ->]|L]; [|lia|].
    - apply (Hm i j). lia.
    - pose proof (Hm j i ltac:(lia)). lia. }
  assert (Sl : forall (l : list nat) a, (forall x, In x l -> a <= x)%nat -> (list_sum l >= length l * a)%nat).
  { induction l as [|x l IH]; intros a H; [cbn; lia|]. change (list_sum (x :: l)) with (x + list_sum l)%nat. cbn [length].
    pose proof (H x (or_introl eq_refl)). specialize (IH a (fun y Hy => H y (or_intror Hy))). nia. }
  assert (Su : forall (l : list nat) a, (forall x, In x l -> x <= a)%nat -> (list_sum l <= length l * a)%nat).
  { induction l as [|x l IH]; intros a H; [cbn; lia|]. change (list_sum (x :: l)) with (x + list_sum l)%nat. cbn [length].
    pose proof (H x (or_introl eq_refl)). specialize (IH a (fun y Hy => H y (or_intror Hy))). nia. }
  assert (Ss : forall (l : list nat) a x0, (forall x, In x l -> a <= x)%nat -> In x0 l -> (x0 > a)%nat -> (list_sum l > length l * a)%nat).
  { induction l as [|x l IH]; intros a x0 H I G; [contradiction|]. change (list_sum (x :: l)) with (x + list_sum l)%nat. cbn [length].
    pose proof (H x (or_introl eq_refl)). destruct I as [->|I].
    - pose proof (Sl l a (fun y Hy => H y (or_intror Hy))). nia.
    - specialize (IH a x0 (fun y Hy => H y (or_intror Hy)) I G). nia. }
  assert (Sd : forall (l : list nat) a x0, (forall x, In x l -> x <= a)%nat -> In x0 l -> (x0 < a)%nat -> (list_sum l < length l * a)%nat).
  { induction l as [|x l IH]; intros a x0 H I G; [contradiction|]. change (list_sum (x :: l)) with (x + list_sum l)%nat. cbn [length].
    pose proof (H x (or_introl eq_refl)). destruct I as [->|I].
    - pose proof (Su l a (fun y Hy => H y (or_intror Hy))). nia.
    - specialize (IH a x0 (fun y Hy => H y (or_intror Hy)) I G). nia. }
  assert (A : forall x, In x counts -> x = q).
  { intros x Hx. destruct (Nat.lt_trichotomy x q) as [L|[E|L]]; [exfalso|exact E|exfalso].
    - assert (list_sum counts < length counts * q)%nat; [|rewrite Hl, Hsum in *; lia].
      apply (Sd counts q x); auto. intros y Hy. apply (In_nth _ _ 0%nat) in Hx as (i & Hi & <-). apply (In_nth _ _ 0%nat) in Hy as (j & Hj & <-). pose proof (M j i ltac:(lia) ltac:(lia)). lia.
    - assert (list_sum counts > length counts * q)%nat; [|rewrite Hl, Hsum in *; lia].
      apply (Ss counts q x); auto. intros y Hy. apply (In_nth _ _ 0%nat) in Hx as (i & Hi & <-). apply (In_nth _ _ 0%nat) in Hy as (j & Hj & <-). pose proof (M i j ltac:(lia) ltac:(lia)). lia. }
  rewrite <- Hl. clear - A. induction counts as [|x l IH]; [reflexivity|]. cbn. rewrite (A x) by now left. f_equal. apply IH. intros; apply A; now right.
Qed.
Section Local.
  Variables (seeded : Z -> nat -> list vec * list R) (unseeded : nat -> nat -> list vec * list R) (iperm : list nat -> nat -> list nat).
  Hypothesis (Hs : forall s, gives (seeded s)) (Hu : forall k, gives (unseeded k)) (Hp : perm_ok iperm).
  Definition train (n : nat) (w : world) : dataset := let d := generated seeded unseeded n w in combine (fst d) (snd d).
  Definition next_world (w : world) : world := {| w_seed := w_seed w; w_draws := match w_seed w with Some _ => w_draws w | None => S (w_draws w) end |}.
  Lemma table_point : forall d, table point d = combine (fst d) (snd d).
  Proof. intros [xs ts]. unfold table. cbn [fst snd]. rewrite <- (map_id (combine xs ts)) at 2. apply map_ext. intros [x t]. reflexivity. Qed.
  Lemma train_length : forall n w, length (train n w) = n.
  Proof using Hs Hu. intros n w. unfold train. destruct (generated_length seeded unseeded Hs Hu n w). rewrite combine_length. lia. Qed.
  Lemma points_new : forall n w, points seeded unseeded w (new_synthetic n) = (HOk (train n w), next_world w, loaded n (generated seeded unseeded n w)).
  Proof using Hs Hu.
    intros n w. destruct (generated_length seeded unseeded Hs Hu n w) as [H1 H2].
    assert (E : create_partition point (generated seeded unseeded n w) (zrange n) = HOk (train n w)).
    { destruct (partition_points point (generated seeded unseeded n w) n (zrange n) H1 H2) as (r & Er & Hr).
      { intros z Hz. apply in_map_iff in Hz as (i & <- & Hi). apply in_seq in Hi. lia. }
      rewrite Er. f_equal. rewrite table_point in Hr. fold (train n w) in Hr. apply (points_det (train n w) (zrange n)); [exact Hr|]. pose proof (range_self (train n w)) as Rs. now rewrite train_length in Rs. }
    revert E. unfold points, sy_datapoints, raw_data, loaded, next_world, generated. cbn [sy_raw new_synthetic sy_n].
    destruct w as [[s|] k]; cbn [w_seed w_draws]; intros E; rewrite E; reflexivity.
  Qed.
  Lemma points_loaded : forall n w w0, points seeded unseeded w (loaded n (generated seeded unseeded n w0)) = (HOk (train n w0), w, loaded n (generated seeded unseeded n w0)).
  Proof using Hs Hu.
    intros n w w0. destruct (generated_length seeded unseeded Hs Hu n w0) as [H1 H2].
    unfold points, sy_datapoints, raw_data, loaded. cbn [sy_raw sy_n]. repeat f_equal.
    destruct (partition_points point (generated seeded unseeded n w0) n (zrange n) H1 H2) as (r & Er & Hr).
    { intros z Hz. apply in_map_iff in Hz as (i & <- & Hi). apply in_seq in Hi. lia. }
    rewrite Er. f_equal. rewrite table_point in Hr. fold (train n w0) in Hr. apply (points_det (train n w0) (zrange n)); [exact Hr|]. pose proof (range_self (train n w0)) as Rs. now rewrite train_length in Rs.
  Qed.
  (** with at least one agent: ten samples each, all of the dataset *)
  Lemma local_ok : forall (n_agents : Z) w, (0 < n_agents)%Z -> exists Ds,
    local_datasets seeded unseeded iperm n_agents w = (HOk Ds, next_world w, loaded (n_train n_agents) (generated seeded unseeded (n_train n_agents) w)) /\
    length Ds = Z.to_nat n_agents /\ (forall D, In D Ds -> length D = 10%nat) /\ Permutation (concat Ds) (train (n_train n_agents) w).
  Proof using Hs Hu Hp.
    intros n_agents w Hn. set (n := n_train n_agents). assert (En : n = (Z.to_nat n_agents * 10)%nat) by (unfold n, n_train; lia).
    assert (Rq : exists counts, requests n n_agents SNone counts) by
      (eexists; split; [exact Hn|]; pose proof (even_counts_even n (Z.to_nat n_agents) ltac:(lia)) as E; split; [apply E|]; split; [destruct E as (_ & E & _); rewrite E; lia|exact E]).
    destruct Rq as [counts Rq]. pose proof Rq as (_ & Hl & _ & Ev). rewrite En in Ev. apply even_exact in Ev; [|lia].
    destruct (C21_iid iperm Hp n n_agents SNone) as [H _]. destruct (H counts Rq) as (ps & Eps & Hlen & [Hnd Hrng] & Hcov).
    assert (Hcov' : covers n ps) by (apply Hcov; destruct Rq as (_ & _ & _ & (_ & S & _)); exact S). clear H Hcov.
    unfold local_datasets. fold n. rewrite Eps. destruct (generated_length seeded unseeded Hs Hu n w) as [H1 H2].
    set (zss := map (map Z.of_nat) ps). assert (Ez : map (map (fun i => IxInt (Z.of_nat i))) ps = map (map IxInt) zss) by (unfold zss; rewrite map_map; apply map_ext; intros; now rewrite map_map). rewrite Ez.
    assert (Cz : concat zss = map Z.of_nat (concat ps)) by (unfold zss; now rewrite concat_map).
    assert (A : asks_for (length (table point (generated seeded unseeded n w))) (map (map IxInt) zss) zss).
    { rewrite (table_length point _ n H1 H2). split; [reflexivity|]. rewrite Cz. split; [apply FinFun.Injective_map_NoDup; [exact Nat2Z.inj|exact Hnd]|].
      intros z Hz. apply in_map_iff in Hz as (i & <- & Hi). apply Hrng in Hi. lia. }
    assert (SR : split_right (table point (generated seeded unseeded n w)) (map (map IxInt) zss)
      (hbind (of_resolved (resolve_partitions n (map (map IxInt) zss))) (hmap (create_partition point (generated seeded unseeded n w))))).
    { rewrite <- (table_length point _ n H1 H2) at 2. apply split_generic. intros zs Hz. rewrite (table_length point _ n H1 H2) in Hz. now apply (partition_points point _ n). }
    destruct SR as [SR _]. destruct (SR zss A) as (pss & E & F). exists pss. split; [|split; [|split]].
    - revert E. unfold sy_split, raw_data, loaded, next_world, generated. cbn [sy_raw new_synthetic sy_n]. destruct w as [[s|] k]; cbn [w_seed w_draws]; intros E;
        exact (f_equal (fun r => (r, _, _)) E).
    - etransitivity; [symmetry; exact (Forall2_len _ _ _ F)|]. unfold zss. rewrite map_length. rewrite <- Hl, <- Hlen. now rewrite map_length.
    - intros D HD. destruct (In_nth_error _ _ HD) as [j Hj].
      assert (Hz : exists zs, nth_error zss j = Some zs /\ points_at (table point (generated seeded unseeded n w)) zs D).
      { clear - F Hj. revert j Hj. induction F as [|zs D0 zss0 Ds0 H0 _ IH]; intros [|j] Hj; cbn in *; try discriminate; [injection Hj as <-; eauto|auto]. }
      destruct Hz as (zs & Hz & Hpt). etransitivity; [symmetry; exact (Forall2_len _ _ _ Hpt)|]. unfold zss in Hz. rewrite nth_error_map in Hz.
      destruct (nth_error ps j) as [p|] eqn:Ep; [|discriminate]. injection Hz as <-. rewrite map_length.
      assert (Ic : In (length p) counts) by (rewrite <- Hlen; apply in_map; eapply nth_error_In; eauto). rewrite Ev in Ic. now apply repeat_spec in Ic.
    - fold n. unfold train. rewrite <- table_point. apply (points_cover _ (concat zss)); [now apply points_concat|]. rewrite Cz. unfold zrange. rewrite (table_length point _ n H1 H2).
      apply Permutation_map. exact Hcov'.
  Qed.
  Lemma local_none : forall (n_agents : Z) w, (n_agents <= 0)%Z -> fst (fst (local_datasets seeded unseeded iperm n_agents w)) = HValueError.
  Proof. intros n_agents w Hn. unfold local_datasets, split_iid, partition_counts. apply Z.leb_le in Hn. now rewrite Hn. Qed.
End Local.

(** the sum of the local means is [n_agents] times the pooled mean *)
Lemma rsum_app' : forall l1 l2, rsum (l1 ++ l2) = rsum l1 + rsum l2.
Proof. induction l1 as [|a l1 IH]; intros l2; cbn [app]; [rewrite rsum_nil; ring|]. rewrite !rsum_cons, IH. ring. Qed.
Lemma pooled_mean : forall {A} (f : A -> R) (Ds : list (list A)) D q, (0 < q)%nat -> (forall E, In E Ds -> length E = q) -> Permutation (concat Ds) D -> Ds <> [] ->
  rsum (map (fun E => rmean (map f E)) Ds) = INR (length Ds) * rmean (map f D).
Proof.
  intros A f Ds D q Hq Hl Hp N.
  assert (Hn : 0 < INR (length Ds)) by (apply lt_0_INR; destruct Ds; [contradiction|cbn; lia]). assert (Hq' : 0 < INR q) by now apply lt_0_INR.
  assert (L : length D = (length Ds * q)%nat).
  { rewrite <- (Permutation_length Hp). clear - Hl. induction Ds as [|E Ds IH]; [reflexivity|]. cbn. rewrite app_length, (Hl E) by now left. rewrite IH by (intros; apply Hl; now right). reflexivity. }
  unfold rmean. rewrite map_length, L, mult_INR. rewrite <- (rsum_perm _ _ (Permutation_map f Hp)).
  assert (G : rsum (map (fun E => rsum (map f E) / INR (length (map f E))) Ds) = rsum (map f (concat Ds)) / INR q).
  { clear N Hp L Hn. induction Ds as [|E Ds IH]; [cbn [map concat]; rewrite !rsum_nil; lra|]. cbn [map concat]. rewrite rsum_cons, map_app, rsum_app', IH by (intros; apply Hl; now right).
    rewrite map_length, (Hl E) by now left. field. lra. }
  rewrite G. field. lra.
Qed.
