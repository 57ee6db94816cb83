(** C21, C22, C24, C53, C54: dataset partitions. *)
From Coq Require Import List Bool Arith ZArith Permutation Sorted Lia.
From Verif.Model Require Import PyDict Schemes Partition.
From Verif.Spec Require Import PartitionSpec.
From Verif.Proofs Require Import SortProofs PartitionProofs SplitProofs.
Import ListNotations.
Open Scope nat_scope.

(** C22. Even counts: as equal as possible and summing to the total. *)
Theorem C22_even_counts : forall n k, 0 < k -> even n k (even_counts n k).
Proof. exact even_counts_even. Qed.
(** C22. Proportional counts sum to the total, respect the capacities, and
    each is its exact share rounded up or down; those rounded up have the
    larger fractional parts. *)
Theorem C22_proportional_counts : forall counts total, total <= list_sum counts -> 0 < list_sum counts ->
  let r := proportional_counts counts total in
  let av := list_sum counts in
  length r = length counts /\ list_sum r = total /\
  (forall i, nth i r 0 <= nth i counts 0) /\
  (forall i, rounded_share total (nth i counts 0) av (nth i r 0)) /\
  (forall i j, i < length counts -> j < length counts ->
     total * nth i counts 0 < av * nth i r 0 -> av * nth j r 0 < total * nth j counts 0 ->
     (total * nth j counts 0) mod av <= (total * nth i counts 0) mod av).
Proof.
  intros counts total H P r av. destruct (prop_all counts total H) as (A & B & C).
  split; [exact A|]. split; [exact B|]. split; [exact C|].
  split; [intro i; now apply prop_share|]. intros i j Hi Hj. now apply prop_largest.
Qed.
Theorem C22_nothing_available : forall counts, list_sum counts = 0 -> forall total,
  proportional_counts counts total = repeat 0 (length counts).
Proof.
  intros counts E total. unfold proportional_counts. rewrite E. simpl. clear. induction counts; simpl; auto. now f_equal.
Qed.
Example C22_example : proportional_counts [5; 3; 2] 5 = [3; 1; 1] /\ proportional_counts [1; 1; 1] 2 = [1; 1; 0] /\ even_counts 11 3 = [4; 4; 3].
Proof. repeat split. Qed.

(** The sizes used are exactly the requested ones; any other request raises. *)
Theorem C21_sizes_requested : forall n k s counts, partition_counts n k s = Some counts <-> requests n k s counts.
Proof. exact partition_counts_requests. Qed.

Section C21.
  Variables (perm : list nat -> nat -> list nat) (pick : list nat -> list nat -> nat).
  Hypothesis Hperm : perm_ok perm.
  Hypothesis Hpick : pick_ok pick.

  Lemma split_shuffled n counts path : list_sum counts <= n ->
    let ps := split_by_counts (perm path n) counts in
    map (@length nat) ps = counts /\ submset (concat ps) (seq 0 n).
  Proof.
    intros H ps. split.
    - apply split_from_lengths. simpl. rewrite (Permutation_length (Hperm path n)), seq_length. auto.
    - eapply submset_trans; [apply split_submset|]. apply submset_perm, Hperm.
  Qed.
  Lemma cover_full n counts ps : map (@length nat) ps = counts -> submset (concat ps) (seq 0 n) ->
    disjoint_in_range n ps /\ (list_sum counts = n -> covers n ps).
  Proof. intros A B. split; [now apply disjoint_of_submset|]. intro E. apply covers_of_submset; auto. now rewrite A. Qed.

  Theorem C21_iid : forall n k s,
    (forall counts, requests n k s counts -> exists ps, split_iid perm n k s = Some ps /\
       map (@length nat) ps = counts /\ disjoint_in_range n ps /\ (list_sum counts = n -> covers n ps)) /\
    (forall ps, split_iid perm n k s = Some ps -> exists counts, requests n k s counts).
  Proof.
    intros n k s. unfold split_iid. split.
    - intros counts R. pose proof R as (_ & _ & T & _). apply partition_counts_requests in R. rewrite R.
      destruct (split_shuffled n counts [] T) as [A B]. eexists. split; [reflexivity|]. split; [exact A|]. now apply cover_full.
    - intro ps. destruct (partition_counts n k s) eqn:E; [|discriminate]. intros _. apply partition_counts_requests in E. eauto.
  Qed.
  Theorem C21_size : forall n sizes,
    (forall counts, sizes <> [] -> requests n (Z.of_nat (length sizes)) (SList sizes) counts -> exists ps, split_size perm n sizes = Some ps /\
       map (@length nat) ps = counts /\ disjoint_in_range n ps /\ (list_sum counts = n -> covers n ps)) /\
    (forall ps, split_size perm n sizes = Some ps -> sizes <> [] /\ exists counts, requests n (Z.of_nat (length sizes)) (SList sizes) counts).
  Proof.
    intros n sizes. unfold split_size. split.
    - intros counts NE R. destruct (Nat.eqb_spec (length sizes) 0) as [E|_]; [apply length_zero_iff_nil in E; tauto|].
      pose proof R as (_ & _ & T & _). apply partition_counts_requests in R. rewrite R.
      destruct (split_shuffled n counts [] T) as [A B]. eexists. split; [reflexivity|]. split; [exact A|]. now apply cover_full.
    - intro ps. destruct (Nat.eqb_spec (length sizes) 0) as [E|NE]; [discriminate|].
      destruct (partition_counts n _ _) eqn:E; [|discriminate]. intros _. split; [intros ->; auto|].
      apply partition_counts_requests in E. eauto.
  Qed.

  Context {L : Type} (leqb : L -> L -> bool) (rle : L -> L -> bool).
  Hypothesis Heq : is_eq leqb.

  (** All three label-aware splits, when they return, return partitions of the
      requested sizes without repetition, covering the data if all of it was
      requested. *)
  Theorem C21_stratified : forall labels k s,
    (forall counts, requests (length labels) k s counts -> exists ps,
       split_stratified_iid perm leqb rle labels k s = Some ps /\ map (@length nat) ps = counts /\
       disjoint_in_range (length labels) ps /\ (list_sum counts = length labels -> covers (length labels) ps)) /\
    (forall ps, split_stratified_iid perm leqb rle labels k s = Some ps -> exists counts, requests (length labels) k s counts).
  Proof.
    intros labels k s. pose proof (stratified_spec perm Hperm leqb rle Heq labels k s) as H. split.
    - intros counts R. apply partition_counts_requests in R. rewrite R in H. destruct H as (ps & -> & A & B & _).
      exists ps. split; auto. split; auto. now apply cover_full.
    - intros ps E. destruct (partition_counts (length labels) k s) eqn:Q; [apply partition_counts_requests in Q; eauto|congruence].
  Qed.
  Theorem C21_dirichlet : forall labels k s min_size max_retries,
    (forall counts, requests (length labels) k s counts -> (0 <= min_size)%Z -> (0 < max_retries)%Z ->
       (forall c, In c counts -> (min_size <= Z.of_nat c)%Z) -> exists ps,
       split_dirichlet_label perm pick leqb labels k true s min_size max_retries = Some ps /\ map (@length nat) ps = counts /\
       disjoint_in_range (length labels) ps /\ (list_sum counts = length labels -> covers (length labels) ps)) /\
    (forall ps, split_dirichlet_label perm pick leqb labels k true s min_size max_retries = Some ps ->
       exists counts, requests (length labels) k s counts /\ forall c, In c counts -> (min_size <= Z.of_nat c)%Z).
  Proof.
    intros labels k s m r. pose proof (dirichlet_spec perm pick Hperm leqb rle Heq Hpick labels k s m r) as H. split.
    - intros counts R M0 R0 M. apply partition_counts_requests in R. rewrite R in H. specialize (H M0 R0).
      replace (forallb _ counts) with true in H.
      + destruct H as (ps & -> & A & B & _). exists ps. split; auto. split; auto. now apply cover_full.
      + symmetry. apply forallb_forall. intros c I. apply Z.leb_le. auto.
    - intros ps E. destruct (partition_counts (length labels) k s) as [pc|] eqn:Q; [|congruence].
      exists pc. split; [now apply partition_counts_requests|].
      assert (M0 : (0 <= m)%Z /\ (0 < r)%Z).
      { unfold split_dirichlet_label in E. simpl in E. destruct (Z.ltb_spec m 0); [discriminate|]. destruct (Z.leb_spec r 0); [discriminate|]. lia. }
      specialize (H (proj1 M0) (proj2 M0)). destruct (forallb _ pc) eqn:F; [|congruence].
      rewrite forallb_forall in F. intros c I. apply Z.leb_le. auto.
  Qed.
  (** C54. The retries of the Dirichlet split cannot help: its sizes are the
      requested ones at every attempt, so [min_partition_size] is met at the
      first attempt or never; one attempt decides as well as a hundred. *)
  Theorem C54_retries_do_not_help : forall labels k s m r1 r2, (0 < r1)%Z -> (0 < r2)%Z ->
    (split_dirichlet_label perm pick leqb labels k true s m r1 = None <->
     split_dirichlet_label perm pick leqb labels k true s m r2 = None).
  Proof.
    intros labels k s m r1 r2 R1 R2.
    pose proof (dirichlet_spec perm pick Hperm leqb rle Heq Hpick labels k s m r1) as A.
    pose proof (dirichlet_spec perm pick Hperm leqb rle Heq Hpick labels k s m r2) as B.
    destruct (Z.lt_ge_cases m 0) as [M|M].
    { unfold split_dirichlet_label. simpl. destruct (Z.ltb_spec m 0); [|lia]. tauto. }
    destruct (partition_counts (length labels) k s) as [pc|]; [|tauto].
    specialize (A M R1). specialize (B M R2). destruct (forallb _ pc); [|tauto].
    destruct A as (p1 & -> & _), B as (p2 & -> & _). split; discriminate.
  Qed.

  (** C53. Of every label the stratified and the Dirichlet split use the exact
      proportional share of its samples, rounded up or down. *)
  Theorem C53_label_shares : forall labels k s counts ps, requests (length labels) k s counts ->
    (split_stratified_iid perm leqb rle labels k s = Some ps \/
     exists m r, split_dirichlet_label perm pick leqb labels k true s m r = Some ps) ->
    forall l, In l labels ->
      rounded_share (list_sum counts) (samples_of leqb labels l) (length labels) (label_count leqb labels l (concat ps)).
  Proof.
    intros labels k s counts ps R H l I. apply partition_counts_requests in R. destruct H as [H|(m & r & H)].
    - pose proof (stratified_spec perm Hperm leqb rle Heq labels k s) as Q. rewrite R in Q. destruct Q as (ps' & E & _ & _ & S).
      rewrite H in E. apply some_inv in E. subst. auto.
    - pose proof (dirichlet_spec perm pick Hperm leqb rle Heq Hpick labels k s m r) as Q. rewrite R in Q.
      assert (M0 : (0 <= m)%Z /\ (0 < r)%Z).
      { unfold split_dirichlet_label in H. simpl in H. destruct (Z.ltb_spec m 0); [discriminate|]. destruct (Z.leb_spec r 0); [discriminate|]. lia. }
      specialize (Q (proj1 M0) (proj2 M0)). destruct (forallb _ counts); [|congruence]. destruct Q as (ps' & E & _ & _ & S).
      rewrite H in E. apply some_inv in E. subst. auto.
  Qed.

  (** C21. Shards: the samples sorted by label (stably) are cut into
      [n_partitions * shards_per] consecutive even pieces; each partition holds
      exactly [shards_per] of them and every sample is used once. *)
  Hypothesis rle_total : forall a b, rle a b = true \/ rle b a = true.
  Hypothesis rle_trans : forall a b c, rle a b = true -> rle b c = true -> rle a c = true.
  Theorem C21_shard : forall labels k m,
    let n := length labels in
    ((0 < k)%Z -> (0 < m)%Z -> (k * m <= Z.of_nat n)%Z ->
     exists ps shards order,
       split_shard perm rle labels k m = Some ps /\ covers n ps /\ length ps = Z.to_nat k /\
       StronglySorted (fun i j => forall a b, nth_error labels i = Some a -> nth_error labels j = Some b ->
                                   rle a b = true /\ (rle b a = true -> i < j)) (concat shards) /\
       even n (Z.to_nat k * Z.to_nat m) (map (@length nat) shards) /\
       Permutation order (seq 0 (Z.to_nat k * Z.to_nat m)) /\
       (forall p, p < Z.to_nat k ->
          Permutation (nth p ps []) (concat (map (fun s => nth s shards []) (firstn (Z.to_nat m) (skipn (p * Z.to_nat m) order)))))) /\
    (forall ps, split_shard perm rle labels k m = Some ps -> (0 < k)%Z /\ (0 < m)%Z /\ (k * m <= Z.of_nat n)%Z).
  Proof.
    intros labels k m n. unfold split_shard. fold n.
    destruct (Z.leb_spec k 0) as [K|K]; simpl; [split; [lia|discriminate]|].
    destruct (Z.leb_spec m 0) as [M|M]; simpl; [split; [lia|discriminate]|].
    set (np := Z.to_nat k). set (spp := Z.to_nat m).
    destruct (Nat.ltb_spec n (np * spp)) as [T|T].
    { split; [unfold np, spp in T; nia|discriminate]. }
    split; [|intros _ _; unfold np, spp in T; nia]. intros _ _ _.
    set (le := fun i j => match nth_error labels i with Some a => match nth_error labels j with Some b => rle a b | None => true end | None => true end).
    set (srt := sorted le (seq 0 n)). set (shards := split_by_counts srt (even_counts n (np * spp))).
    assert (POS : 0 < np * spp) by (unfold np, spp; nia).
    assert (LS : length srt = n) by (unfold srt; now rewrite sorted_length, seq_length).
    assert (CS : concat shards = srt).
    { unfold shards, split_by_counts. rewrite split_from_concat. simpl. rewrite even_counts_sum by auto. now rewrite <- LS, firstn_all. }
    assert (LSH : length shards = np * spp) by (unfold shards, split_by_counts; now rewrite split_from_length, even_counts_length).
    set (order := shuffled_range perm [0] (np * spp)).
    assert (PO : Permutation order (seq 0 (np * spp))) by apply Hperm.
    set (ps := map _ (seq 0 np)). exists ps, shards, order. split; [reflexivity|].
    assert (PP : forall p, p < np -> Permutation (nth p ps []) (concat (map (fun s => nth s shards []) (firstn spp (skipn (p * spp) order))))).
    { intros p Hp. unfold ps. rewrite nth_map_seq by auto. rewrite (shuffled_perm perm _ _ Hperm). now rewrite flat_map_concat_map. }
    assert (LP : length ps = np) by (unfold ps; now rewrite map_length, seq_length).
    split; [|split; [auto|split; [|split; [|split; [auto|exact PP]]]]].
    - unfold covers. transitivity (concat (map (fun p => flat_map (fun s => nth s shards []) (firstn spp (skipn (p * spp) order))) (seq 0 np))).
      + apply pointwise_perm; [now rewrite map_length, seq_length|]. intro p. destruct (Nat.lt_ge_cases p np).
        * rewrite nth_map_seq by auto. rewrite (PP p) by auto. now rewrite flat_map_concat_map.
        * rewrite !nth_overflow; auto; [now rewrite map_length, seq_length|lia].
      + rewrite concat_map_flat, chunks_concat. simpl. rewrite firstn_all2.
        * rewrite PO, <- LSH, flat_nth, CS. apply sorted_perm.
        * rewrite (Permutation_length PO), seq_length. auto.
    - rewrite CS. pose proof (sorted_ranked le) as SR.
      assert (H : StronglySorted (ranked le (seq 0 n)) srt).
      { unfold srt. 
        (* [le] is total and transitive on valid indices; extend it *)
        set (le2 := fun i j => match nth_error labels i, nth_error labels j with
                               | Some a, Some b => rle a b | None, Some _ => false | _, None => true end).
        assert (E : forall l, (forall i, In i l -> i < n) -> sorted le l = sorted le2 l).
        { assert (EI : forall x l, x < n -> (forall i, In i l -> i < n) -> insert le x l = insert le2 x l).
          { intros x l Hx. induction l as [|y l IH]; intro Hl; simpl; auto.
            assert (Q : le x y = le2 x y).
            { unfold le, le2. destruct (nth_error labels x) eqn:X; [reflexivity|]. apply nth_error_None in X. unfold n in Hx. lia. }
            rewrite Q. destruct (le2 x y); auto. f_equal. apply IH. intros; apply Hl; simpl; auto. }
          induction l as [|x l IH]; intro Hl; simpl; auto. rewrite IH by (intros; apply Hl; simpl; auto). apply EI; [apply Hl; simpl; auto|].
          intros i I. apply (Permutation_in _ (sorted_perm le2 l)) in I. apply Hl. simpl; auto. }
        rewrite E by (intros i I; apply in_seq in I; lia).
        assert (R2 : StronglySorted (ranked le2 (seq 0 n)) (sorted le2 (seq 0 n))).
        { apply sorted_ranked.
          - intros i j. unfold le2. destruct (nth_error labels i), (nth_error labels j); auto.
          - intros i j h. unfold le2. destruct (nth_error labels i), (nth_error labels j), (nth_error labels h); auto; try discriminate. apply rle_trans. }
        assert (In' : forall i, In i (sorted le2 (seq 0 n)) -> i < n).
        { intros i I. apply (Permutation_in _ (sorted_perm le2 _)), in_seq in I. lia. }
        revert R2 In'. generalize (sorted le2 (seq 0 n)) as l. induction l as [|x l IH]; intros R2 I2; constructor; inversion R2; subst.
        - apply IH; auto. intros; apply I2; simpl; auto.
        - apply Forall_forall. rewrite Forall_forall in H2. intros y Y. specialize (H2 y Y).
          assert (Q : forall a b, a < n -> le a b = le2 a b).
          { intros a b Ha. unfold le, le2. destruct (nth_error labels a) eqn:X; [reflexivity|]. apply nth_error_None in X. unfold n in Ha. lia. }
          destruct H2 as [A B]. split; [rewrite Q; auto; apply I2; simpl; auto|]. rewrite Q by (apply I2; simpl; auto). auto. }
      clear SR. revert H. generalize srt as l0. intros l0 H. induction H as [|x l SS IH F]; constructor; auto. eapply Forall_impl; [|exact F].
      intros y [A B] a b Ea Eb. unfold le in A, B. rewrite Ea, Eb in A, B. split; auto. intro C. rewrite C in B.
      destruct B as [B|(l1 & l2 & l3 & B)]; [discriminate|].
      assert (E1 : x = length l1).
      { assert (nth_error (seq 0 n) (length l1) = Some x) by (rewrite B, nth_error_app2, Nat.sub_diag by lia; reflexivity).
        apply (nth_error_nth _ _ 0) in H. assert (length l1 < n). { rewrite <- (seq_length n 0), B, app_length. simpl. lia. }
        rewrite seq_nth in H by auto. simpl in H. lia. }
      assert (E2 : y = length (l1 ++ x :: l2)).
      { assert (nth_error (seq 0 n) (length (l1 ++ x :: l2)) = Some y).
        { rewrite B. replace (l1 ++ x :: l2 ++ y :: l3) with ((l1 ++ x :: l2) ++ y :: l3) by now rewrite <- app_assoc.
          rewrite nth_error_app2, Nat.sub_diag by lia. reflexivity. }
        assert (length (l1 ++ x :: l2) < n). { rewrite <- (seq_length n 0), B. rewrite !app_length. simpl. rewrite app_length. simpl. lia. }
        apply (nth_error_nth _ _ 0) in H. rewrite seq_nth in H by auto. simpl in H. lia. }
      rewrite app_length in E2. simpl in E2. lia.
    - unfold shards. replace (map _ _) with (even_counts n (np * spp)) by (symmetry; apply split_from_lengths; rewrite even_counts_sum by auto; simpl; lia).
      now apply even_counts_even.
  Qed.
End C21.

(** Concrete cases: identity shuffles, first available partition. *)
Definition id_perm (_ : list nat) (n : nat) : list nat := seq 0 n.
Definition first_pick (_ : list nat) (l : list nat) : nat := hd 0 l.
Lemma id_perm_ok : perm_ok id_perm.
Proof. intros path n. reflexivity. Qed.
Lemma first_pick_ok : pick_ok first_pick.
Proof. intros path [|x l] H; [congruence|]. simpl. auto. Qed.
Lemma nat_is_eq : is_eq Nat.eqb.
Proof. intros a b. apply Nat.eqb_eq. Qed.
Example C21_example_splits :
  split_iid id_perm 7 3 (SInt 2) = Some [[0; 1]; [2; 3]; [4; 5]] /\
  requests 7 3 (SInt 2) [2; 2; 2] /\
  split_iid id_perm 7 3 (SInt 3) = None /\
  split_size id_perm 5 [1; 4]%Z = Some [[0]; [1; 2; 3; 4]] /\
  split_shard id_perm Nat.leb [1; 0; 1; 0; 0] 2 2 = Some [[1; 3; 4]; [0; 2]] /\
  split_stratified_iid id_perm Nat.eqb Nat.leb [1; 0; 1; 0; 0; 0] 2 SNone = Some [[1; 3; 0]; [4; 5; 2]] /\
  split_dirichlet_label id_perm first_pick Nat.eqb [1; 0; 1; 0] 2 true (SList [1; 2]%Z) 1 3 = Some [[0]; [2; 1]].
Proof. repeat split; try reflexivity; simpl; auto; try lia; repeat constructor. Qed.
Example C54_example :
  split_dirichlet_label id_perm first_pick Nat.eqb [1; 0; 1; 0] 2 true (SList [1; 2]%Z) 2 3 = None /\
  split_dirichlet_label id_perm first_pick Nat.eqb [1; 0; 1; 0] 2 true (SList [1; 2]%Z) 2 1 = None.
Proof. split; reflexivity. Qed.
Example C53_example :
  let labels := [1; 0; 1; 0; 0; 0] in
  requests 6 1 (SInt 3) [3] /\
  split_stratified_iid id_perm Nat.eqb Nat.leb labels 1 (SInt 3) = Some [[1; 3; 0]] /\
  label_count Nat.eqb labels 0 [1; 3; 0] = 2 /\ samples_of Nat.eqb labels 0 = 4.
Proof. repeat split; simpl; auto; try lia; repeat constructor. Qed.

(** C55. The documented claim that [split_stratified_iid] preserves label
    proportions "as closely as integer partition sizes allow" is false: here
    every label's count in every partition could be its exact share rounded up
    or down, but the returned first partition has none of the samples of the
    majority label (share 4*2/6 = 1.33). *)
Theorem C55_proportions_as_close_as_possible_refuted :
  exists labels k perm ps better,
    perm_ok perm /\ split_stratified_iid perm Nat.eqb Nat.leb labels k SNone = Some ps /\
    map (@length nat) better = map (@length nat) ps /\ covers (length labels) better /\
    (forall p l, p < length better -> In l labels ->
       rounded_share (length (nth p better [])) (samples_of Nat.eqb labels l) (length labels)
                     (label_count Nat.eqb labels l (nth p better []))) /\
    ~ (forall p l, p < length ps -> In l labels ->
       rounded_share (length (nth p ps [])) (samples_of Nat.eqb labels l) (length labels)
                     (label_count Nat.eqb labels l (nth p ps []))).
Proof.
  exists [0; 1; 2; 2; 2; 2], 5%Z, id_perm, [[0; 1]; [2]; [3]; [4]; [5]], [[0; 2]; [1]; [3]; [4]; [5]].
  split; [exact id_perm_ok|]. split; [reflexivity|]. split; [reflexivity|]. split; [unfold covers; simpl; constructor; apply perm_swap|].
  split.
  - intros p l Hp Hl. simpl in Hp, Hl. unfold rounded_share.
    do 5 (destruct p as [|p]; [intuition; subst; vm_compute; repeat constructor|]). lia.
  - intro H. specialize (H 0 2 ltac:(simpl; lia) ltac:(simpl; auto 10)). unfold rounded_share in H. vm_compute in H. lia.
Qed.

(** C24. A user-supplied partition is accepted exactly if all entries are
    integers in range and no index occurs twice; it is used verbatim. *)
Lemma resolve_row_spec n p : forall acc seen,
  match resolve_row n p acc seen with
  | RowOk row seen' => exists zs, p = map IxInt zs /\ row = acc ++ zs /\ seen' = rev zs ++ seen /\
                       NoDup zs /\ (forall z, In z zs -> (0 <= z < n)%Z /\ ~ In z seen)
  | RowErr e => exists zs x post, p = map IxInt zs ++ x :: post /\ NoDup zs /\ (forall z, In z zs -> (0 <= z < n)%Z /\ ~ In z seen) /\
      match e with
      | RTypeError => x = IxOther \/ exists b, x = IxBool b
      | RIndexError z => x = IxInt z /\ ~ (0 <= z < n)%Z
      | RValueError z => x = IxInt z /\ (0 <= z < n)%Z /\ (In z zs \/ In z seen)
      | ROk _ => False
      end
  end.
Proof.
  induction p as [|x p IH]; intros acc seen; simpl.
  - exists []. simpl. rewrite app_nil_r. repeat split; auto; try constructor; simpl in *; tauto.
  - destruct x as [b|z|].
    + exists [], (IxBool b), p. simpl. split; [reflexivity|split; [constructor|split; [simpl; tauto|]]]. eauto.
    + destruct (Z.ltb_spec z 0) as [A|A]; simpl.
      { exists [], (IxInt z), p. simpl. split; [reflexivity|split; [constructor|split; [simpl; tauto|]]]. split; [auto|lia]. }
      destruct (Z.leb_spec n z) as [B|B]; simpl.
      { exists [], (IxInt z), p. simpl. split; [reflexivity|split; [constructor|split; [simpl; tauto|]]]. split; [auto|lia]. }
      destruct (existsb (Z.eqb z) seen) eqn:X.
      { apply existsb_exists in X. destruct X as (y & I & E). apply Z.eqb_eq in E. subst y.
        exists [], (IxInt z), p. simpl. split; [reflexivity|split; [constructor|split; [simpl; tauto|]]]. split; [auto|split; [lia|auto]]. }
      assert (NI : ~ In z seen).
      { intro I. assert (existsb (Z.eqb z) seen = true) by (apply existsb_exists; exists z; split; auto; apply Z.eqb_refl). congruence. }
      specialize (IH (acc ++ [z]) (z :: seen)). destruct (resolve_row n p (acc ++ [z]) (z :: seen)) as [row seen'|e].
      * destruct IH as (zs & -> & -> & -> & N & R). exists (z :: zs). simpl. rewrite <- !app_assoc. simpl. repeat split; auto.
        -- constructor; auto. intro I. apply R in I. simpl in I. tauto.
        -- destruct H as [->|I]; [lia|]. apply R in I. lia.
        -- destruct H as [->|I]; [lia|]. apply R in I. lia.
        -- destruct H as [->|I]; [auto|]. apply R in I. simpl in I. tauto.
      * destruct IH as (zs & x & post & -> & N & R & Q). exists (z :: zs), x, post. simpl. repeat split; auto.
        -- constructor; auto. intro I. apply R in I. simpl in I. tauto.
        -- destruct H as [->|I]; [lia|]. apply R in I. lia.
        -- destruct H as [->|I]; [lia|]. apply R in I. lia.
        -- destruct H as [->|I]; [auto|]. apply R in I. simpl in I. tauto.
        -- destruct e; auto. destruct Q as (Q1 & Q2 & [Q3|Q3]); repeat split; auto; try lia.
           simpl in Q3. destruct Q3 as [->|Q3]; auto.
    + exists [], IxOther, p. simpl. split; [reflexivity|split; [constructor|split; [simpl; tauto|]]]. auto.
Qed.
Lemma resolve_rows_spec n ps : forall acc seen,
  match resolve_rows n ps acc seen with
  | ROk out => exists zs, ps = map (map IxInt) zs /\ out = acc ++ zs /\ NoDup (concat zs) /\
                (forall z, In z (concat zs) -> (0 <= z < n)%Z /\ ~ In z seen)
  | e => exists zs x post, concat ps = map IxInt zs ++ x :: post /\ NoDup zs /\ (forall z, In z zs -> (0 <= z < n)%Z /\ ~ In z seen) /\
      match e with
      | RTypeError => x = IxOther \/ exists b, x = IxBool b
      | RIndexError z => x = IxInt z /\ ~ (0 <= z < n)%Z
      | RValueError z => x = IxInt z /\ (0 <= z < n)%Z /\ (In z zs \/ In z seen)
      | ROk _ => False
      end
  end.
Proof.
  assert (ND : forall (a b : list Z), NoDup a -> NoDup b -> (forall z, In z b -> ~ In z a) -> NoDup (a ++ b)).
  { induction a as [|x a IH]; simpl; auto. intros b A B D. inversion A; subst. constructor.
    - intro I. apply in_app_or in I. destruct I as [I|I]; auto. apply (D x I). auto.
    - apply IH; auto. intros z I J. apply (D z I). auto. }
  induction ps as [|p ps IH]; intros acc seen; simpl.
  - exists []. simpl. rewrite app_nil_r. repeat split; auto; try constructor; simpl in *; tauto.
  - pose proof (resolve_row_spec n p [] seen) as RR. destruct (resolve_row n p [] seen) as [row seen'|e].
    + destruct RR as (zs & -> & -> & -> & N & R). simpl. specialize (IH (acc ++ [zs]) (rev zs ++ seen)).
      destruct (resolve_rows n ps (acc ++ [zs]) (rev zs ++ seen)) as [out| |z|z].
      * destruct IH as (zss & -> & -> & N2 & R2). exists (zs :: zss). simpl. rewrite <- app_assoc. repeat split; auto.
        -- apply ND; auto. intros z I J. apply R2 in I. destruct I as [_ I]. apply I. apply in_or_app. left. now apply in_rev in J.
        -- apply in_app_or in H. destruct H as [H|H]; [apply R in H|apply R2 in H]; tauto.
        -- apply in_app_or in H. destruct H as [H|H]; [apply R in H|apply R2 in H]; tauto.
        -- apply in_app_or in H. destruct H as [H|H]; [apply R in H; tauto|apply R2 in H]. intro. apply H. apply in_or_app. auto.
      * destruct IH as (z2 & x & post & -> & N2 & R2 & Q). exists (zs ++ z2), x, post. rewrite map_app, <- app_assoc. repeat split; auto.
        -- apply ND; auto. intros z I J. apply R2 in I. destruct I as [_ I]. apply I. apply in_or_app. left. now apply in_rev in J.
        -- apply in_app_or in H. destruct H as [H|H]; [apply R in H|apply R2 in H]; tauto.
        -- apply in_app_or in H. destruct H as [H|H]; [apply R in H|apply R2 in H]; tauto.
        -- apply in_app_or in H. destruct H as [H|H]; [apply R in H; tauto|apply R2 in H]. intro. apply H. apply in_or_app. auto.
      * destruct IH as (z2 & x & post & -> & N2 & R2 & Q). exists (zs ++ z2), x, post. rewrite map_app, <- app_assoc. repeat split; try tauto.
        -- apply ND; auto. intros y I J. apply R2 in I. destruct I as [_ I]. apply I. apply in_or_app. left. now apply in_rev in J.
        -- apply in_app_or in H. destruct H as [H|H]; [apply R in H|apply R2 in H]; tauto.
        -- apply in_app_or in H. destruct H as [H|H]; [apply R in H|apply R2 in H]; tauto.
        -- apply in_app_or in H. destruct H as [H|H]; [apply R in H; tauto|apply R2 in H]. intro. apply H. apply in_or_app. auto.
      * destruct IH as (z2 & x & post & -> & N2 & R2 & Q). exists (zs ++ z2), x, post. rewrite map_app, <- app_assoc. repeat split; try tauto.
        -- apply ND; auto. intros y I J. apply R2 in I. destruct I as [_ I]. apply I. apply in_or_app. left. now apply in_rev in J.
        -- apply in_app_or in H. destruct H as [H|H]; [apply R in H|apply R2 in H]; tauto.
        -- apply in_app_or in H. destruct H as [H|H]; [apply R in H|apply R2 in H]; tauto.
        -- apply in_app_or in H. destruct H as [H|H]; [apply R in H; tauto|apply R2 in H]. intro. apply H. apply in_or_app. auto.
        -- destruct Q as (_ & _ & [Q|Q]); [left; apply in_or_app; auto|]. apply in_app_or in Q. destruct Q as [Q|Q]; auto.
           left. apply in_or_app. left. now apply in_rev.
    + destruct RR as (zs & x & post & -> & N & R & Q).
      assert (G : exists zs0 x0 post0, concat ((map IxInt zs ++ x :: post) :: ps) = map IxInt zs0 ++ x0 :: post0 /\ NoDup zs0 /\
         (forall z, In z zs0 -> (0 <= z < n)%Z /\ ~ In z seen) /\
         match e with
         | RTypeError => x0 = IxOther \/ exists b, x0 = IxBool b
         | RIndexError z => x0 = IxInt z /\ ~ (0 <= z < n)%Z
         | RValueError z => x0 = IxInt z /\ (0 <= z < n)%Z /\ (In z zs0 \/ In z seen)
         | ROk _ => False end).
      { exists zs, x, (post ++ concat ps). simpl. rewrite <- app_assoc. simpl. auto. }
      destruct e; auto. destruct Q.
Qed.
Theorem C24_accepted_iff_valid : forall n ps zs,
  resolve_partitions n ps = ROk zs <->
  ps = map (map IxInt) zs /\ NoDup (concat zs) /\ (forall z, In z (concat zs) -> (0 <= z < Z.of_nat n)%Z).
Proof.
  intros n ps zs. unfold resolve_partitions. pose proof (resolve_rows_spec (Z.of_nat n) ps [] []) as H. split.
  - intro E. rewrite E in H. destruct H as (w & -> & Ew & N & R). simpl in Ew. subst w. repeat split; auto; apply R in H; lia.
  - intros (-> & N & R).
    assert (INJ : forall a b : list Z, map IxInt a = map IxInt b -> a = b).
    { induction a; intros [|]; simpl; intro E; inversion E; auto. f_equal. auto. }
    assert (BAD : forall z2 x post, concat (map (map IxInt) zs) = map IxInt z2 ++ x :: post ->
              exists z post', x = IxInt z /\ concat zs = z2 ++ z :: post').
    { intros z2 x post E. rewrite <- concat_map in E. 
      apply map_eq_app in E. destruct E as (a & b & E1 & E2 & E3). apply INJ in E2. subst a.
      destruct b as [|z b]; [discriminate|]. simpl in E3. injection E3 as E3 _. exists z, b. auto. }
    destruct (resolve_rows (Z.of_nat n) (map (map IxInt) zs) [] []) as [out| |z|z].
    + destruct H as (w & E & -> & _). simpl. f_equal. clear N R BAD. revert w E. induction zs as [|z zs IH]; intros [|y w]; simpl; intro E; inversion E; auto.
      f_equal; auto.
    + destruct H as (z2 & x & post & E & _ & _ & Q). apply BAD in E. destruct E as (z & _ & -> & _). destruct Q as [Q|[b Q]]; discriminate.
    + destruct H as (z2 & x & post & E & _ & _ & -> & Q). apply BAD in E. destruct E as (y & b & E1 & E2). injection E1 as ->.
      exfalso. apply Q. apply R. rewrite E2. apply in_or_app. simpl. auto.
    + destruct H as (z2 & x & post & E & _ & _ & -> & _ & Q). apply BAD in E. destruct E as (y & b & E1 & E2). injection E1 as ->.
      exfalso. rewrite E2 in N. destruct Q as [Q|[]]. apply NoDup_remove_2 in N. apply N. apply in_or_app. auto.
Qed.
(** ... and the exception raised is that of the first offending entry. *)
Theorem C24_error_names_first_offender : forall n ps e, resolve_partitions n ps = e ->
  match e with
  | ROk _ => True
  | _ => exists zs x post, concat ps = map IxInt zs ++ x :: post /\ NoDup zs /\ (forall z, In z zs -> (0 <= z < Z.of_nat n)%Z) /\
      match e with
      | RTypeError => x = IxOther \/ exists b, x = IxBool b
      | RIndexError z => x = IxInt z /\ ~ (0 <= z < Z.of_nat n)%Z
      | RValueError z => x = IxInt z /\ (0 <= z < Z.of_nat n)%Z /\ In z zs
      | ROk _ => False
      end
  end.
Proof.
  intros n ps e E. unfold resolve_partitions in E. pose proof (resolve_rows_spec (Z.of_nat n) ps [] []) as H. rewrite E in H.
  destruct e; auto; destruct H as (zs & x & post & A & B & C & D); exists zs, x, post; repeat split; auto; try (apply C in H; lia); try tauto.
  destruct D as (_ & _ & [D|[]]). auto.
Qed.
Example C24_example :
  resolve_partitions 4 [[IxInt 2; IxInt 0]; [IxInt 3]] = ROk [[2; 0]; [3]]%Z /\
  resolve_partitions 4 [[IxInt 2; IxInt 0]; [IxInt 2]] = RValueError 2 /\
  resolve_partitions 4 [[IxInt 2; IxInt 4]] = RIndexError 4 /\
  resolve_partitions 4 [[IxInt 2; IxBool true]] = RTypeError.
Proof. repeat split. Qed.
Print Assumptions C21_shard.
Print Assumptions C24_accepted_iff_valid.
Print Assumptions C53_label_shares.
