(** C23: the label-quantity partitioner (pathological non-IID splits). *)
From Coq Require Import List Bool Arith ZArith Permutation Lia.
From Verif.Model Require Import PyDict Schemes Partition LabelFlow.
From Verif.Spec Require Import PartitionSpec.
From Verif.Proofs Require Import SortProofs PartitionProofs SplitProofs LabelFlowProofs LabelQuantityProofs.
From Verif.Props Require Import PartitionProps.
Import ListNotations.
Open Scope nat_scope.

(** [order] lists the distinct labels, each once *)
Definition lists_labels {L} (order labels : list L) : Prop := NoDup order /\ forall l, In l order <-> In l labels.

Section C23.
  Context {L : Type} (leqb : L -> L -> bool) (rle : L -> L -> bool).
  Variable perm : list nat -> nat -> list nat.
  Variable imax : Z.
  Hypothesis Hperm : perm_ok perm.
  Hypothesis Heq : is_eq leqb.
  Hypothesis Hmax : (0 < imax)%Z.

  Lemma groups_spec (order : list L) np cpp p l : In l (nth p (label_groups order np cpp) []) <-> p < np /\ dealt order cpp p l.
  Proof.
    unfold label_groups, dealt. destruct (Nat.lt_ge_cases p np) as [H|H].
    - rewrite nth_map_seq by auto. rewrite in_flat_map. split.
      + intros (o & I & J). apply in_seq in I. split; auto. exists o. split; [lia|]. destruct (nth_error _ _); simpl in J; [|tauto].
        destruct J as [->|[]]. reflexivity.
      + intros (_ & o & I & E). exists o. split; [apply in_seq; lia|]. rewrite E. simpl. auto.
    - rewrite nth_overflow by (rewrite map_length, seq_length; auto). simpl. split; [tauto|lia].
  Qed.
  Lemma groups_ex (order : list L) np cpp l : (exists g, In g (label_groups order np cpp) /\ In l g) <-> exists p, p < np /\ dealt order cpp p l.
  Proof.
    split.
    - intros (g & A & B). apply (In_nth _ _ []) in A. destruct A as (p & Hp & <-). exists p. now apply groups_spec in B.
    - intros (p & Hp & D). exists (nth p (label_groups order np cpp) []). split; [|now apply groups_spec].
      apply nth_In. unfold label_groups. now rewrite map_length, seq_length.
  Qed.
  Lemma respects_groups labels (order : list L) np cpp counts ps : length counts = np ->
    respects labels (fun p l => In l (nth p (label_groups order np cpp) [])) counts ps <-> respects labels (dealt order cpp) counts ps.
  Proof.
    intros HL. unfold respects. split; intros (A & B & C); (split; [exact A|]); (split; [exact B|]); intros p i l I N.
    - pose proof (C p i l I N) as G. now apply groups_spec in G.
    - apply groups_spec. split; [|eapply C; eauto].
      destruct (Nat.lt_ge_cases p np) as [|G]; auto. rewrite nth_overflow in I; [destruct I|]. rewrite <- HL, <- A, map_length in G. exact G.
  Qed.
  Lemma usable_spec labels (order : list L) np cpp :
    is_usable labels (dealt order cpp) np
      (list_sum (map (fun it => if existsb (memb leqb (fst it)) (label_groups order np cpp) then length (snd it) else 0) (indices_by_label leqb labels))).
  Proof.
    set (d := indices_by_label leqb labels). set (gs := label_groups order np cpp).
    exists (concat (map snd (filter (fun it => existsb (memb leqb (fst it)) gs) d))). split; [|split].
    - eapply submset_NoDup; [|apply (seq_NoDup (length labels) 0)].
      eapply submset_trans; [apply submset_concat_filter|]. apply submset_perm, ibl_perm.
    - generalize d. clear. induction d as [|x d IH]; simpl; auto.
      destruct (existsb (memb leqb (fst x)) gs); simpl; auto. now rewrite app_length, IH.
    - intro i. rewrite in_concat. split.
      + intros (is & A & B). apply in_map_iff in A. destruct A as ([l is'] & E & A). cbn [snd] in E. subst is'.
        apply filter_In in A. destruct A as [A X]. apply (ibl_in leqb rle Heq) in A. destruct A as [-> A]. cbn [fst] in X.
        apply existsb_exists in X. destruct X as (g & G1 & G2). apply (memb_spec leqb Heq) in G2.
        apply filter_In in B. destruct B as [_ B]. unfold has_label in B. destruct (nth_error labels i) as [b|] eqn:N; [|discriminate].
        apply Heq in B. subst b. destruct (proj1 (groups_ex order np cpp l) (ex_intro _ g (conj G1 G2))) as (p & Hp & D).
        exists l, p. auto.
      + intros (l & p & Hp & N & D). exists (idx leqb labels l). split.
        * apply in_map_iff. exists (l, idx leqb labels l). split; auto. apply filter_In. split; [apply (ibl_total leqb Heq); eapply nth_error_In; eauto|].
          cbn [fst]. apply existsb_exists. destruct (proj2 (groups_ex order np cpp l) (ex_intro _ p (conj Hp D))) as (g & G1 & G2).
          exists g. split; auto. now apply (memb_spec leqb Heq).
        * apply filter_In. split; [apply in_seq; split; [lia|]; apply nth_error_Some; congruence|]. unfold has_label. rewrite N. now apply Heq.
  Qed.
  Lemma keys_labels labels : lists_labels (map fst (indices_by_label leqb labels)) labels.
  Proof.
    split; [apply (ibl_keys leqb rle Heq)|]. intro l. split.
    - intro I. apply in_map_iff in I. destruct I as ([k is] & <- & I). apply (ibl_in leqb rle Heq) in I. tauto.
    - intro I. apply (ibl_total leqb Heq) in I. apply in_map_iff. eexists. split; [|exact I]. reflexivity.
  Qed.
  Lemma lists_perm (a b labels : list L) : Permutation a b -> lists_labels a labels -> lists_labels b labels.
  Proof.
    intros P [N E]. split; [eapply Permutation_NoDup; eauto|]. intro l. rewrite <- E. split; apply Permutation_in; auto. now symmetry.
  Qed.
  Lemma lists_len (a b labels : list L) : lists_labels a labels -> lists_labels b labels -> length a = length b.
  Proof. intros [N E] [N' E']. apply Permutation_length, NoDup_Permutation; auto. intro. rewrite E, E'. tauto. Qed.

  (** Invalid arguments raise. *)
  Theorem C23_invalid_raises : forall labels np cpp s,
    (np <= 0)%Z \/ (cpp <= 0)%Z \/ (exists order, lists_labels order labels /\ (Z.of_nat (length order) < cpp)%Z) ->
    split_label_quantity leqb rle perm imax labels np cpp s = None.
  Proof.
    intros labels np cpp s H. unfold split_label_quantity.
    destruct (np <=? 0)%Z eqn:A; [reflexivity|]. destruct (cpp <=? 0)%Z eqn:B; [reflexivity|]. cbn [orb].
    apply Z.leb_gt in A. apply Z.leb_gt in B.
    destruct H as [H|[H|(order & LL & H)]]; try lia.
    replace (length (sorted rle (map fst (indices_by_label leqb labels))) <? Z.to_nat cpp) with true; auto.
    symmetry. apply Nat.ltb_lt.
    rewrite (lists_len _ order labels); auto; [lia|].
    eapply lists_perm; [symmetry; apply sorted_perm|apply keys_labels].
  Qed.

  (** Valid arguments: the distinct labels are put in some order (drawn from
      the seed, the same for every size request) and dealt out cyclically,
      [cpp] per partition.  A size request is judged against the samples whose
      label was dealt to somebody.  If it is admissible, the result has the
      requested sizes, uses no sample twice and gives each partition only
      labels dealt to it; and an error is raised only if no such partition of
      the dataset exists.  An inadmissible request raises. *)
  Theorem C23_label_quantity : forall labels np cpp,
    (0 < np)%Z -> (0 < cpp)%Z -> (forall order, lists_labels order labels -> (cpp <= Z.of_nat (length order))%Z) ->
    exists order m,
      lists_labels order labels /\
      is_usable labels (dealt order (Z.to_nat cpp)) (Z.to_nat np) m /\
      forall s,
        (forall counts, requests m np s counts ->
           match split_label_quantity leqb rle perm imax labels np cpp s with
           | Some ps => respects labels (dealt order (Z.to_nat cpp)) counts ps
           | None => ~ exists ps, respects labels (dealt order (Z.to_nat cpp)) counts ps
           end) /\
        ((forall counts, ~ requests m np s counts) -> split_label_quantity leqb rle perm imax labels np cpp s = None).
  Proof.
    intros labels np cpp Hn Hc HL.
    set (d := indices_by_label leqb labels). set (order := shuffled perm [0] (sorted rle (map fst d))).
    assert (LO : lists_labels order labels).
    { eapply lists_perm; [symmetry; apply shuffled_perm; auto|]. eapply lists_perm; [symmetry; apply sorted_perm|apply keys_labels]. }
    set (groups := label_groups order (Z.to_nat np) (Z.to_nat cpp)).
    set (m := list_sum (map (fun it => if existsb (memb leqb (fst it)) groups then length (snd it) else 0) d)).
    exists order, m. split; [exact LO|]. split; [apply usable_spec|]. intro s.
    assert (E : split_label_quantity leqb rle perm imax labels np cpp s =
      match partition_counts m np s with Some pc => fill_allowed leqb rle perm imax d groups pc | None => None end).
    { unfold split_label_quantity. fold d.
      replace (np <=? 0)%Z with false by (symmetry; apply Z.leb_gt; lia). replace (cpp <=? 0)%Z with false by (symmetry; apply Z.leb_gt; lia).
      cbn [orb]. fold order. replace (length (sorted rle (map fst d)) <? Z.to_nat cpp) with false.
      2:{ symmetry. apply Nat.ltb_ge. rewrite (Permutation_length (sorted_perm rle (map fst d))).
          specialize (HL _ (keys_labels labels)). fold d in HL. lia. }
      fold groups. fold m. destruct s; auto.
      destruct (partition_counts m np SNone) as [pc|] eqn:P.
      - apply partition_counts_requests in P. destruct P as (_ & _ & _ & EV). f_equal.
        apply (even_unique m (Z.to_nat np)); auto. apply even_counts_even. lia.
      - exfalso. assert (R : requests m np SNone (even_counts m (Z.to_nat np))).
        { split; [lia|]. split; [apply even_counts_length|]. split; [rewrite even_counts_sum by lia; lia|]. apply even_counts_even. lia. }
        apply partition_counts_requests in R. congruence. }
    rewrite E. split.
    - intros counts R. pose proof R as R'. apply partition_counts_requests in R. rewrite R. destruct R' as (_ & LC & _).
      assert (GL : length groups = length counts) by (unfold groups, label_groups; rewrite map_length, seq_length; auto).
      pose proof (fill_allowed_spec leqb rle perm Hperm Heq labels groups counts imax Hmax GL) as S. fold d in S.
      destruct (fill_allowed leqb rle perm imax d groups counts).
      + now apply (respects_groups labels order (Z.to_nat np) (Z.to_nat cpp)).
      + intros (ps & R'). apply S. exists ps. now apply respects_groups.
    - intro N. destruct (partition_counts m np s) as [pc|] eqn:P; auto. apply partition_counts_requests in P. destruct (N _ P).
  Qed.

  (** Dealing gives each partition at most [cpp] labels, ... *)
  Theorem C23_at_most_cpp_labels : forall (order : list L) cpp p, exists ls, length ls <= cpp /\ forall l, dealt order cpp p l -> In l ls.
  Proof.
    intros order cpp p. exists (flat_map (fun o => match nth_error order ((p * cpp + o) mod length order) with Some l => [l] | None => [] end) (seq 0 cpp)).
    split.
    - assert (H : forall s n, length (flat_map (fun o => match nth_error order ((p * cpp + o) mod length order) with Some l => [l] | None => [] end) (seq s n)) <= n).
      { intros s n. revert s. induction n; intro s; simpl; auto. rewrite app_length. specialize (IHn (S s)). destruct (nth_error _ _); simpl; lia. }
      apply H.
    - intros l (o & H & E). apply in_flat_map. exists o. split; [apply in_seq; lia|]. rewrite E. simpl. auto.
  Qed.
  (** ... exactly [cpp] distinct ones when there are that many, ... *)
  Theorem C23_exactly_cpp_labels : forall (order : list L) cpp p, NoDup order -> 0 < cpp <= length order ->
    exists ls, NoDup ls /\ length ls = cpp /\ forall l, dealt order cpp p l <-> In l ls.
  Proof.
    intros order cpp p N H. set (k := length order).
    assert (GET : forall o, exists l, nth_error order ((p * cpp + o) mod k) = Some l).
    { intro o. destruct (nth_error order ((p * cpp + o) mod k)) eqn:E; [eauto|]. apply nth_error_None in E.
      pose proof (Nat.mod_upper_bound (p * cpp + o) k ltac:(unfold k; lia)). unfold k in *. lia. }
    assert (INJ : forall o o', o < cpp -> o' < cpp -> (p * cpp + o) mod k = (p * cpp + o') mod k -> o = o').
    { intros o o' Ho Ho' E. pose proof (Nat.div_mod_eq (p * cpp + o) k) as D1. pose proof (Nat.div_mod_eq (p * cpp + o') k) as D2. rewrite E in D1.
      assert (cpp <= k) by (unfold k; lia).
      assert ((p * cpp + o) / k = (p * cpp + o') / k); [|nia].
      destruct (Nat.lt_trichotomy ((p * cpp + o) / k) ((p * cpp + o') / k)) as [X|[X|X]]; auto; nia. }
    exists (flat_map (fun o => match nth_error order ((p * cpp + o) mod k) with Some l => [l] | None => [] end) (seq 0 cpp)).
    assert (G : forall s n, s + n <= cpp -> let f := flat_map (fun o => match nth_error order ((p * cpp + o) mod k) with Some l => [l] | None => [] end) (seq s n) in
        NoDup f /\ length f = n /\ forall l, In l f -> exists o, s <= o < s + n /\ nth_error order ((p * cpp + o) mod k) = Some l).
    { intros s n. revert s. induction n; intros s Hs; simpl.
      - repeat split; try constructor. intros l [].
      - destruct (IHn (S s) ltac:(lia)) as (A & B & C). destruct (GET s) as (l & E). rewrite E. simpl.
        split; [|split].
        + constructor; auto. intro I. apply C in I. destruct I as (o & Ho & E').
          assert (s = o); [|lia]. apply INJ; try lia. rewrite (NoDup_nth_error order) in N. apply N; [|congruence].
          pose proof (Nat.mod_upper_bound (p * cpp + s) k ltac:(unfold k; lia)). unfold k in *. lia.
        + now rewrite B.
        + intros l' [<-|I]; [exists s; split; auto; lia|]. apply C in I. destruct I as (o & Ho & E'). exists o. split; auto. lia. }
    destruct (G 0 cpp ltac:(lia)) as (A & B & C). split; auto. split; auto. intro l. split.
    - intros (o & Ho & E). apply in_flat_map. exists o. split; [apply in_seq; lia|]. fold k in E. rewrite E. simpl. auto.
    - intro I. apply C in I. destruct I as (o & Ho & E). exists o. split; auto. lia.
  Qed.
  (** ... and every label to somebody when the deal goes all the way round. *)
  Theorem C23_every_label_dealt : forall (order : list L) cpp np, 0 < cpp -> length order <= np * cpp ->
    forall l, In l order -> exists p, p < np /\ dealt order cpp p l.
  Proof.
    intros order cpp np Hc H l I. apply In_nth_error in I. destruct I as (j & E).
    assert (J : j < length order) by (apply nth_error_Some; congruence).
    exists (j / cpp). split; [apply Nat.div_lt_upper_bound; nia|].
    exists (j mod cpp). split; [apply Nat.mod_upper_bound; lia|].
    replace (j / cpp * cpp + j mod cpp) with j by (pose proof (Nat.div_mod_eq j cpp); lia).
    rewrite Nat.mod_small; auto.
  Qed.
End C23.

(** Concrete cases.  The first succeeds; in the second the default sizes
    [6; 5] cannot be met with one label each, although both arguments are
    valid, so the call raises. *)
Definition lq labels np cpp s := split_label_quantity Nat.eqb Nat.leb id_perm 9223372036854775807 labels np cpp s.
Example C23_example_ok : lq [0; 1; 2; 0; 1; 2; 0] 2 2 (SInt 3) = Some [[0; 3; 1]; [6; 2; 5]].
Proof. vm_compute. reflexivity. Qed.
Example C23_example_infeasible : lq [0; 0; 0; 0; 0; 0; 0; 0; 0; 0; 1] 2 1 SNone = None.
Proof. vm_compute. reflexivity. Qed.
Example C23_example_hypotheses : lists_labels [0; 1; 2] [0; 1; 2; 0; 1; 2; 0] /\ perm_ok id_perm /\ is_eq Nat.eqb.
Proof.
  split; [|split; [apply id_perm_ok|apply nat_is_eq]]. split; [repeat constructor; simpl; intuition discriminate|].
  intro l. simpl. intuition.
Qed.

Print Assumptions C23_invalid_raises.
Print Assumptions C23_label_quantity.
Print Assumptions C23_at_most_cpp_labels.
Print Assumptions C23_exactly_cpp_labels.
Print Assumptions C23_every_label_dealt.
