(** C75: dataset handlers. *)
From Coq Require Import List Bool Arith ZArith Permutation Lia.
From Verif.Model Require Import Partition Handlers.
From Verif.Spec Require Import PartitionSpec HandlerSpec.
From Verif.Proofs Require Import HandlerProofs.
From Verif.Props Require Import PartitionProps.
Import ListNotations.

(** Synthetic data.  Whatever calls are made on a handler, in whatever order,
    and however the global seed changes in between: they all see one dataset of
    [n_samples] rows.  [get_datapoints] is that dataset, each datapoint made of
    one row and its own target; [get_labels] the labels of the same targets in
    the same order; [split] returns the named datapoints, and raises exactly on
    inadmissible partitions.  The dataset is the one generated with the seed in
    force at the first call. *)
Theorem C75_synthetic : forall F T L P (mk : F -> list T -> P) (to_label : T -> L) seeded unseeded classification n ops w os w' h',
  (forall s, gives (seeded s)) -> (forall k, gives (unseeded k)) ->
  sy_run mk to_label seeded unseeded classification ops w (new_synthetic n) = (os, w', h') ->
  exists xs ts, length xs = n /\ length ts = n /\
    Forall (agrees (map (fun p => mk (fst p) [snd p]) (combine xs ts)) (map to_label ts)) os /\
    (forall op ops', ops = op :: ops' -> (forall w0, op <> OpWorld w0) ->
       (xs, ts) = match w_seed w with Some s => seeded s n | None => unseeded (w_draws w) n end).
Proof.
  intros F T L P mk to_label seeded unseeded cl n ops w os w' h' Hs Hu E.
  destruct (run_new mk to_label seeded unseeded cl Hs Hu n ops w os w' h' E) as ([xs ts] & H1 & H2 & H3 & H4).
  exists xs, ts. repeat split; auto. intros op ops' E1 Hw. apply (H4 op ops' E1). destruct op; try reflexivity. exfalso. eapply Hw. reflexivity.
Qed.
(** Two handlers of one size, first used under the same seed, hold the same
    data, whatever was drawn or generated before. *)
Theorem C75_seeded_data_repeat : forall F T P (mk : F -> list T -> P) seeded unseeded n s w1 w2, w_seed w1 = Some s -> w_seed w2 = Some s ->
  fst (fst (sy_datapoints mk seeded unseeded w1 (new_synthetic n))) = fst (fst (sy_datapoints mk seeded unseeded w2 (new_synthetic n))).
Proof. intros F T P mk seeded unseeded n s w1 w2 H1 H2. unfold sy_datapoints, raw_data. cbn [sy_raw new_synthetic]. now rewrite H1, H2. Qed.
Definition ex_gen (s : Z) (n : nat) : list Z * list nat := (map (fun i => (s + Z.of_nat i)%Z) (seq 0 n), map (fun i => i mod 2) (seq 0 n)).
Example C75_case_synthetic :
  (forall s, gives (ex_gen s)) /\
  fst (fst (sy_run (fun x t => (x, t)) Nat.even ex_gen (fun _ => ex_gen 0) true
         [OpWorld {| w_seed := Some 5%Z; w_draws := 0 |}; OpSplit [[IxInt 2; IxInt 0]]; OpWorld {| w_seed := Some 9%Z; w_draws := 0 |}; OpPoints; OpLabels; OpSplit [[IxInt 3]]]
         {| w_seed := None; w_draws := 0 |} (new_synthetic 3)))
  = [ObWorld; ObSplit [[IxInt 2; IxInt 0]] (HOk [[(7%Z, [0]); (5%Z, [0])]]); ObWorld; ObPoints (HOk [(5%Z, [0]); (6%Z, [1]); (7%Z, [0])]);
     ObLabels (HOk [true; false; true]); ObSplit [[IxInt 3]] HIndexError].
Proof. split; [intros s n; split; cbn; now rewrite map_length, seq_length|reflexivity]. Qed.

(** Kaggle.  On a rectangular data frame that has all the named columns (each
    name once): one datapoint per row in order, made of the cells of the feature
    and target columns in the order in which they were named; [split] as
    above. *)
Definition column {C V} (df : frame C V) (row : list V) (c : C) (v : V) : Prop :=
  exists i, nth_error (fr_columns df) i = Some c /\ nth_error row i = Some v.
Section Kaggle.
  Context {C V A : Type} (ceqb : C -> C -> bool) (Hc : forall a b, ceqb a b = true <-> a = b) (arr : list V -> A).
  Lemma cell_ok : forall (cols : list C) (row : list V) c v, NoDup cols -> length row = length cols ->
    (cell ceqb cols row c = HOk v <-> exists i, nth_error cols i = Some c /\ nth_error row i = Some v).
  Proof using Hc.
    induction cols as [|c' cols IH]; intros [|v' row] c v N H; cbn in *; try discriminate.
    - split; [discriminate|]. intros ([|i] & E & _); discriminate.
    - inversion N as [|? ? N1 N2]; subst. destruct (ceqb c c') eqn:Ec.
      + apply Hc in Ec as ->. split.
        * intros [= ->]. exists 0. split; reflexivity.
        * intros ([|i] & E1 & E2); cbn in *; [congruence|]. exfalso. apply N1. eapply nth_error_In; eauto.
      + rewrite IH by (auto; lia). split; intros (i & E1 & E2).
        * exists (S i). split; auto.
        * destruct i as [|i]; cbn in *; [|eauto]. injection E1 as ->. assert (ceqb c c = true) by now apply Hc. congruence.
  Qed.
  Lemma cell_has : forall (cols : list C) (row : list V) c, length row = length cols -> In c cols -> exists v, cell ceqb cols row c = HOk v.
  Proof using Hc.
    induction cols as [|c' cols IH]; intros [|v' row] c H I; cbn in *; try discriminate; [contradiction|].
    destruct (ceqb c c') eqn:Ec; [eauto|]. apply IH; [lia|]. destruct I as [->|I]; [|exact I]. assert (ceqb c c = true) by now apply Hc. congruence.
  Qed.
  Definition point_of (df : frame C V) (features targets : list C) (row : list V) (p : A * A) : Prop :=
    exists xs ys, Forall2 (column df row) features xs /\ Forall2 (column df row) targets ys /\ p = (arr xs, arr ys).
  Lemma ka_point_ok (h : kaggle C V) row : NoDup (fr_columns (ka_df h)) -> length row = length (fr_columns (ka_df h)) ->
    (forall c, In c (ka_features h ++ ka_targets h) -> In c (fr_columns (ka_df h))) ->
    exists p, ka_point ceqb arr h row = HOk p /\ point_of (ka_df h) (ka_features h) (ka_targets h) row p.
  Proof using Hc.
    intros N Hl Hcols.
    assert (G : forall cs, (forall c, In c cs -> In c (fr_columns (ka_df h))) -> exists vs,
      hmap (cell ceqb (fr_columns (ka_df h)) row) cs = HOk vs /\ Forall2 (column (ka_df h) row) cs vs).
    { intros cs Hcs. destruct (Forall2_total (fun c v => cell ceqb (fr_columns (ka_df h)) row c = HOk v) cs) as [vs Hvs].
      { intros c I. apply cell_has; auto. }
      exists vs. split; [now apply hmap_ok|]. eapply Forall2_imp; [exact Hvs|]. intros c v _ E. now apply cell_ok in E. }
    destruct (G (ka_features h)) as (xs & E1 & F1); [intros; apply Hcols, in_or_app; now left|].
    destruct (G (ka_targets h)) as (ys & E2 & F2); [intros; apply Hcols, in_or_app; now right|].
    exists (arr xs, arr ys). split; [|exists xs, ys; auto]. unfold ka_point. rewrite E1. cbn [hbind]. rewrite E2. reflexivity.
  Qed.
  Theorem C75_kaggle : forall df features targets label h,
    ka_init ceqb df features targets label = HOk h -> NoDup (fr_columns df) ->
    (forall row, In row (fr_rows df) -> length row = length (fr_columns df)) ->
    (forall c, In c (features ++ targets) -> In c (fr_columns df)) ->
    exists D, ka_datapoints ceqb arr h = HOk D /\ length D = ka_n_samples h /\ Forall2 (point_of df features targets) (fr_rows df) D /\
      forall ps, split_right D ps (ka_split ceqb arr h ps).
  Proof using Hc.
    intros df features targets label h Hi N Hrect Hcols.
    assert (Eh : ka_df h = df /\ ka_features h = features /\ ka_targets h = targets).
    { unfold ka_init in Hi. destruct label as [c|]; [destruct (existsb (ceqb c) (fr_columns df)); [|discriminate]|]; injection Hi as <-; repeat split. }
    destruct Eh as (E1 & E2 & E3). subst df features targets.
    destruct (Forall2_total (fun row p => ka_point ceqb arr h row = HOk p /\ point_of (ka_df h) (ka_features h) (ka_targets h) row p) (fr_rows (ka_df h))) as [D HD].
    { intros row Hrow. apply ka_point_ok; auto. }
    assert (HD1 : Forall2 (fun row p => ka_point ceqb arr h row = HOk p) (fr_rows (ka_df h)) D) by (eapply Forall2_imp; [exact HD|]; intros ? ? _ [X _]; exact X).
    exists D. split; [|split; [|split]].
    - unfold ka_datapoints, ka_partition. now apply hmap_ok.
    - unfold ka_n_samples. symmetry. eapply Forall2_len; eauto.
    - eapply Forall2_imp; [exact HD|]. intros ? ? _ [_ X]; exact X.
    - intros ps. assert (EL : length D = ka_n_samples h) by (unfold ka_n_samples; symmetry; eapply Forall2_len; eauto).
      unfold ka_split. rewrite <- EL. apply split_generic. intros zs Hz. destruct (points_total D zs Hz) as [r Hr]. exists r. split; [|exact Hr].
      assert (G : forall z p, (0 <= z)%Z /\ nth_error D (Z.to_nat z) = Some p -> exists row, hget (fr_rows (ka_df h)) z = HOk row /\ ka_point ceqb arr h row = HOk p).
      { intros z p [_ Ep]. clear - HD1 Ep. unfold hget. revert Ep. generalize (Z.to_nat z). induction HD1 as [|row p0 rows D0 H0 _ IH]; intros [|j] Ep; cbn in *; try discriminate.
        - injection Ep as ->. eauto.
        - now apply IH. }
      clear - Hr G. induction Hr as [|z p zs r Hp _ IH]; [reflexivity|]. destruct (G z p Hp) as (row & E1 & E2).
      cbn [hmap hbind]. rewrite E1. cbn [hbind]. destruct (hmap (hget (fr_rows (ka_df h))) zs) as [rows| | | |]; cbn [hbind] in *; try discriminate.
      unfold ka_partition in *. cbn [hmap]. rewrite E2. cbn [hbind]. rewrite IH. reflexivity.
  Qed.
  (** Its labels are the cells of the label column, or of the only target
      column -- then the target of each datapoint is made of its label. *)
  Theorem C75_kaggle_labels : forall df features targets label h c,
    ka_init ceqb df features targets label = HOk h -> NoDup (fr_columns df) ->
    (forall row, In row (fr_rows df) -> length row = length (fr_columns df)) ->
    label = Some c \/ (label = None /\ targets = [c] /\ In c (fr_columns df)) ->
    exists ls, ka_labels ceqb h = HOk ls /\ Forall2 (fun row v => column df row c v) (fr_rows df) ls /\
      (targets = [c] -> forall D, ka_datapoints ceqb arr h = HOk D -> map snd D = map (fun v => arr [v]) ls).
  Proof using Hc.
    intros df features targets label h c Hi N Hrect Hlab.
    assert (Eh : ka_df h = df /\ ka_features h = features /\ ka_targets h = targets /\ ka_label h = label /\ In c (fr_columns df)).
    { unfold ka_init in Hi. destruct label as [c'|].
      - destruct Hlab as [[= ->]|(X & _)]; [|discriminate]. destruct (existsb (ceqb c) (fr_columns df)) eqn:Ex; [|discriminate]. injection Hi as <-. repeat split.
        apply existsb_exists in Ex as (c' & I & E). apply Hc in E. now subst.
      - destruct Hlab as [X|(_ & _ & I)]; [discriminate|]. injection Hi as <-. repeat split; auto. }
    destruct Eh as (E1 & E2 & E3 & E4 & Ic). subst df features targets label.
    assert (Ex : existsb (ceqb c) (fr_columns (ka_df h)) = true) by (apply existsb_exists; exists c; split; [exact Ic|now apply Hc]).
    destruct (Forall2_total (fun row v => cell ceqb (fr_columns (ka_df h)) row c = HOk v) (fr_rows (ka_df h))) as [ls Hls].
    { intros row Hrow. apply cell_has; auto. }
    exists ls. split; [|split].
    - unfold ka_labels. replace (match ka_label h with Some c => HOk c | None => match ka_targets h with [c] => HOk c | _ => HValueError end end) with (HOk c).
      + cbn [hbind]. rewrite Ex. now apply hmap_ok.
      + destruct Hlab as [->|(-> & -> & _)]; reflexivity.
    - eapply Forall2_imp; [exact Hls|]. intros row v Hrow E. apply cell_ok in E; auto.
    - intros Et D ED. unfold ka_datapoints, ka_partition in ED. apply hmap_ok in ED.
      clear - ED Hls Et. revert ls Hls. induction ED as [|row p rows D0 E _ IH]; intros ls Hls; inversion Hls as [|? v ? ls0 Ev Hls0]; subst; [reflexivity|].
      cbn [map]. f_equal; [|now apply IH]. unfold ka_point in E. rewrite Et in E. cbn [hmap] in E. rewrite Ev in E. cbn [hbind] in E.
      destruct (hmap (cell ceqb (fr_columns (ka_df h)) row) (ka_features h)) as [xs| | | |]; cbn [hbind] in E; try discriminate. now injection E as <-.
  Qed.
  (** A missing label column, or several target columns without a label column,
      raise. *)
  Theorem C75_kaggle_refuses : forall df features targets,
    (forall c, ~ In c (fr_columns df) -> ka_init ceqb df features targets (Some c) = HValueError) /\
    (length targets <> 1 -> exists h, ka_init ceqb df features targets None = HOk h /\ ka_labels ceqb h = HValueError) /\
    (forall c row rows, fr_rows df = row :: rows -> In c features -> ~ In c (fr_columns df) -> NoDup (fr_columns df) ->
       (forall r, In r (fr_rows df) -> length r = length (fr_columns df)) ->
       forall D, ka_datapoints ceqb arr {| ka_df := df; ka_features := features; ka_targets := targets; ka_label := None |} <> HOk D).
  Proof using Hc.
    intros df features targets. split; [|split].
    - intros c Hn. unfold ka_init. destruct (existsb (ceqb c) (fr_columns df)) eqn:E; [|reflexivity].
      apply existsb_exists in E as (c' & I & E). apply Hc in E as ->. contradiction.
    - intros Hl. eexists. split; [reflexivity|]. unfold ka_labels. cbn [ka_label ka_targets]. destruct targets as [|a [|b t]]; try reflexivity. cbn in Hl. lia.
    - intros c row rows Er I Hn N Hrect D E. unfold ka_datapoints, ka_partition in E. cbn [ka_df] in E. rewrite Er in E. cbn [hmap] in E.
      unfold ka_point in E at 1. cbn [ka_df ka_features] in E.
      destruct (hmap (cell ceqb (fr_columns df) row) features) as [xs| | | |] eqn:Ex; cbn [hbind] in E; try discriminate.
      apply hmap_ok in Ex. assert (H : exists v, cell ceqb (fr_columns df) row c = HOk v).
      { clear - Ex I. induction Ex; [contradiction|]. destruct I as [->|I]; eauto. }
      destruct H as [v Hv]. apply cell_ok in Hv; [|exact N|apply Hrect; rewrite Er; now left]. destruct Hv as (i & Ei & _). apply Hn. eapply nth_error_In; eauto.
  Qed.
End Kaggle.
Example C75_case_kaggle :
  let df := {| fr_columns := [1; 2; 3]; fr_rows := [[10; 20; 0]; [11; 21; 1]] |} in
  exists h, ka_init Nat.eqb df [2; 1] [3] None = HOk h /\ ka_datapoints Nat.eqb (fun l => l) h = HOk [([20; 10], [0]); ([21; 11], [1])] /\
    ka_labels Nat.eqb h = HOk [0; 1] /\ ka_split Nat.eqb (fun l => l) h [[IxInt 1]; []] = HOk [[([21; 11], [1])]; []].
Proof. eexists. repeat split; reflexivity. Qed.

(** PyTorch.  [split] keeps the named indices; reading the [k]-th element of a
    part reads the dataset -- at that time -- at the [k]-th index of the
    partition, and past the end raises.  For a dataset whose elements do not
    change, [get_labels] is the list of the datapoints' labels, provided that the
    attribute [targets] (or else [labels]), if there is one, is that list. *)
Theorem C75_pytorch : forall P L (d : torch P L) ps,
  (forall zss, asks_for (td_len d) ps zss -> exists idx, to_split d ps = HOk idx /\
     forall j zs, nth_error zss j = Some zs -> exists is, nth_error idx j = Some is /\ length is = length zs /\
       (forall t k z, nth_error zs k = Some z -> subset_get d t is k = HOk (td_item d t (Z.to_nat z))) /\
       (forall t k, length zs <= k -> subset_get d t is k = HIndexError)) /\
  (forall idx, to_split d ps = HOk idx -> exists zss, asks_for (td_len d) ps zss /\ length idx = length zss).
Proof.
  intros P L d ps. split.
  - intros zss A. apply C24_accepted_iff_valid in A as E. unfold to_split. rewrite E. cbn [of_resolved hbind]. eexists. split; [reflexivity|].
    intros j zs Hj. exists (map Z.to_nat zs). split; [now rewrite nth_error_map, Hj|]. split; [apply map_length|]. split.
    + intros t k z Hk. unfold subset_get. now rewrite nth_error_map, Hk.
    + intros t k Hk. unfold subset_get. replace (nth_error (map Z.to_nat zs) k) with (@None nat); [reflexivity|]. symmetry. apply nth_error_None. now rewrite map_length.
  - intros idx E. unfold to_split in E. destruct (resolve_partitions (td_len d) ps) as [zss| | |] eqn:Er; try discriminate. cbn in E. injection E as <-.
    exists zss. split; [now apply C24_accepted_iff_valid|]. now rewrite map_length.
Qed.
Theorem C75_pytorch_labels : forall P L (label_of : P -> L) (d : torch P L) item, (forall t i, td_item d t i = item i) ->
  let D := map item (seq 0 (td_len d)) in
  (forall t, to_datapoints d t = D) /\
  ((forall l, td_targets d = Some l -> l = map label_of D) -> (forall l, td_targets d = None -> td_labels d = Some l -> l = map label_of D) ->
   forall t, to_labels label_of d t = map label_of D).
Proof.
  intros P L label_of d item Hi D.
  assert (E : forall t, to_datapoints d t = D).
  { unfold to_datapoints, D. generalize (seq 0 (td_len d)) as is. induction is as [|i is IH]; intros t; cbn; [reflexivity|]. now rewrite Hi, IH. }
  split; [exact E|]. intros H1 H2 t. unfold to_labels. destruct (td_targets d) as [l|] eqn:Et; [now apply H1|].
  destruct (td_labels d) as [l|] eqn:El; [now apply H2|]. now rewrite E.
Qed.
Example C75_case_pytorch :
  let d := {| td_len := 3; td_item := fun t i => (t, i); td_targets := None; td_labels := Some [4; 5; 6] |} in
  to_split d [[IxInt 2; IxInt 0]] = HOk [[2; 0]] /\ subset_get d 7 [2; 0] 1 = HOk (7, 0) /\ to_labels snd d 0 = [4; 5; 6] /\
  to_split d [[IxInt 2; IxInt 2]] = HValueError.
Proof. repeat split. Qed.

(** Every handler: if the partition covers all indices, the parts together hold
    every datapoint exactly as often as the dataset does. *)
Theorem C75_parts_cover : forall P (D : list P) zss pss ps, asks_for (length D) ps zss ->
  Permutation (concat zss) (map Z.of_nat (seq 0 (length D))) -> split_right D ps (HOk pss) -> Permutation (concat pss) D.
Proof.
  intros P D zss pss ps A Hp [H _]. destruct (H zss A) as (pss' & [= <-] & F). exact (points_cover D _ _ (points_concat D _ _ F) Hp).
Qed.
Example C75_case_cover : asks_for 2 [[IxInt 1]; [IxInt 0]] [[1]; [0]]%Z /\ split_right [8; 9] [[IxInt 1]; [IxInt 0]] (HOk [[9]; [8]]).
Proof.
  assert (A : asks_for 2 [[IxInt 1]; [IxInt 0]] [[1]; [0]]%Z).
  { split; [reflexivity|]. split; [repeat constructor; cbn; intuition lia|]. cbn. intros z [<-|[<-|[]]]; lia. }
  split; [exact A|]. split.
  - intros zss (E & _). assert (zss = [[1]; [0]]%Z) as ->.
    { assert (INJ : forall a b : list Z, map IxInt a = map IxInt b -> a = b) by (induction a; intros [|]; cbn; intro E'; inversion E'; auto; f_equal; auto).
      destruct zss as [|a [|b [|c t]]]; try discriminate. cbn in E. injection E as E1 E2. rewrite (INJ [1%Z] a E1), (INJ [0%Z] b E2). reflexivity. }
    eexists. split; [reflexivity|]. repeat constructor; cbn; lia.
  - intros pss _. exists [[1]; [0]]%Z. exact A.
Qed.
Print Assumptions C75_synthetic.
Print Assumptions C75_kaggle.
