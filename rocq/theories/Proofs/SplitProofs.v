From Coq Require Import List Bool Arith ZArith Permutation Sorted Lia.
From Verif.Model Require Import PyDict Schemes Partition.
From Verif.Spec Require Import PartitionSpec.
From Verif.Proofs Require Import SortProofs PartitionProofs.
Import ListNotations.
Open Scope nat_scope.

Lemma prop_all counts total : total <= list_sum counts ->
  length (proportional_counts counts total) = length counts /\
  list_sum (proportional_counts counts total) = total /\
  (forall i, nth i (proportional_counts counts total) 0 <= nth i counts 0).
Proof.
  intro H. destruct (Nat.eq_dec (list_sum counts) 0) as [E|E].
  - unfold proportional_counts. rewrite E. simpl. split; [apply map_length|].
    assert (Z : list_sum (map (fun _ : nat => 0) counts) = 0) by (clear; induction counts; simpl; auto).
    split; [lia|]. intro i. pose proof (nth_le_sum (map (fun _ : nat => 0) counts) i). lia.
  - split; [apply prop_length; lia|]. split; [apply prop_sum; lia|]. apply prop_cap; lia.
Qed.

(** ** shuffles *)
Lemma pick_seq {A} (xs : list A) : flat_map (fun i => match nth_error xs i with Some x => [x] | None => [] end) (seq 0 (length xs)) = xs.
Proof.
  induction xs as [|x xs IH]; simpl; auto. f_equal. rewrite <- seq_shift, flat_map_concat_map, map_map.
  rewrite flat_map_concat_map in IH. simpl. exact IH.
Qed.
Lemma shuffled_perm perm {A} path (xs : list A) : perm_ok perm -> Permutation (shuffled perm path xs) xs.
Proof. intro P. unfold shuffled. rewrite (P path (length xs)). now rewrite pick_seq. Qed.
Lemma shuffle_each_spec perm {A} path (ps : list (list A)) : perm_ok perm ->
  length (shuffle_each perm path ps) = length ps /\
  (forall p, Permutation (nth p (shuffle_each perm path ps) []) (nth p ps [])).
Proof.
  intro P. unfold shuffle_each. generalize 0 as s.
  induction ps as [|x ps IH]; intro s; simpl.
  - split; auto. 
  - destruct (IH (S s)) as [A1 B]. split; [now rewrite A1|]. intros [|p]; simpl; auto. now apply shuffled_perm.
Qed.
Lemma pointwise_perm {A} (ps qs : list (list A)) : length ps = length qs ->
  (forall p, Permutation (nth p ps []) (nth p qs [])) ->
  Permutation (concat ps) (concat qs) /\ map (@length A) ps = map (@length A) qs.
Proof.
  revert qs. induction ps as [|x ps IH]; intros [|y qs] E H; simpl in *; try lia; auto.
  destruct (IH qs ltac:(lia) (fun p => H (S p))) as [I J]. pose proof (H 0) as H0. simpl in H0. split.
  - now apply Permutation_app.
  - f_equal; auto. now apply Permutation_length.
Qed.
Lemma shuffle_each_concat perm {A} path (ps : list (list A)) : perm_ok perm ->
  Permutation (concat (shuffle_each perm path ps)) (concat ps) /\
  map (@length A) (shuffle_each perm path ps) = map (@length A) ps.
Proof. intro P. destruct (shuffle_each_spec perm path ps P). now apply pointwise_perm. Qed.

(** ** extend / minus *)
Lemma extend_all_length ps qs : length (extend_all ps qs) = length ps.
Proof. revert qs; induction ps; intros [|]; simpl; auto. Qed.
Lemma extend_all_nth ps qs p : length ps = length qs -> nth p (extend_all ps qs) [] = nth p ps [] ++ nth p qs [].
Proof. revert qs p; induction ps; intros [|] [|p] H; simpl in *; auto; try lia. Qed.
Lemma extend_all_concat ps qs : length ps = length qs -> Permutation (concat (extend_all ps qs)) (concat ps ++ concat qs).
Proof.
  revert qs; induction ps as [|x ps IH]; intros [|y qs] H; simpl in *; auto; try lia.
  rewrite IH by lia. rewrite <- !app_assoc. apply Permutation_app_head. rewrite !app_assoc.
  apply Permutation_app_tail, Permutation_app_comm.
Qed.
Lemma minus_all_length xs ys : length (minus_all xs ys) = length xs.
Proof. revert ys; induction xs; intros [|]; simpl; auto. Qed.
Lemma minus_all_nth xs ys p : length xs = length ys -> nth p (minus_all xs ys) 0 = nth p xs 0 - nth p ys 0.
Proof. revert ys p; induction xs; intros [|] [|p] H; simpl in *; auto; try lia. Qed.
Lemma minus_all_sum xs ys : length xs = length ys -> (forall i, nth i ys 0 <= nth i xs 0) ->
  list_sum (minus_all xs ys) + list_sum ys = list_sum xs.
Proof.
  revert ys; induction xs as [|x xs IH]; intros [|y ys] H B; simpl in *; auto; try lia.
  specialize (IH ys ltac:(lia) (fun i => B (S i))). pose proof (B 0). simpl in *. lia.
Qed.
Lemma lengths_nth {A} (ps : list (list A)) p : nth p (map (@length A) ps) 0 = length (nth p ps []).
Proof. revert p; induction ps; intros [|p]; simpl; auto. Qed.

Section WithOracles.
  Variables (perm : list nat -> nat -> list nat) (pick : list nat -> list nat -> nat).
  Hypothesis Hperm : perm_ok perm.
  Context {L : Type} (leqb : L -> L -> bool) (rle : L -> L -> bool).
  Hypothesis Heq : is_eq leqb.

  (** the samples selected from the label groups *)
  Fixpoint chosen (sel : nat -> list nat -> list nat) (j : nat) (items : list ((L * list nat) * nat)) : list nat :=
    match items with [] => [] | ((_, is), c) :: t => firstn c (sel j is) ++ chosen sel (S j) t end.
  Definition lc_sum (items : list ((L * list nat) * nat)) := list_sum (map snd items).
  Definition within (items : list ((L * list nat) * nat)) := Forall (fun it => snd it <= length (snd (fst it))) items.

  (** ** stratified *)
  Lemma stratify_spec items : forall j parts rem parts' rem',
    within items -> lc_sum items <= list_sum rem -> length parts = length rem ->
    stratify perm j items (parts, rem) = (parts', rem') ->
    Permutation (concat parts') (concat parts ++ chosen (fun j is => shuffled perm [0; j] is) j items) /\
    length parts' = length parts /\ length rem' = length rem /\
    list_sum rem' + lc_sum items = list_sum rem /\
    (forall p, length (nth p parts' []) + nth p rem' 0 = length (nth p parts []) + nth p rem 0).
  Proof.
    induction items as [|[[l is] c] items IH]; intros j parts rem parts' rem' W S Len E; simpl in E.
    - injection E as <- <-. simpl. rewrite app_nil_r. unfold lc_sum. simpl. repeat split; auto. 
    - inversion W as [|? ? W1 W2]; subst. unfold lc_sum in S. simpl in S, W1.
      destruct (prop_all rem c) as (PL & PS & PC); [lia|]. set (cs := proportional_counts rem c) in *.
      assert (SL : length (firstn c (shuffled perm [0; j] is)) = c).
      { rewrite firstn_length, (Permutation_length (shuffled_perm perm [0; j] is Hperm)). lia. }
      set (sel := firstn c (shuffled perm [0; j] is)) in *.
      assert (QL : map (@length nat) (split_by_counts sel cs) = cs) by (apply split_from_lengths; simpl; lia).
      assert (QN : length (split_by_counts sel cs) = length rem) by (unfold split_by_counts; now rewrite split_from_length).
      pose proof (minus_all_sum rem cs ltac:(lia) PC) as MS.
      apply IH in E; auto.
      + destruct E as (A & B & C & D & F). rewrite extend_all_length in B. rewrite minus_all_length in C.
        repeat split; auto.
        * rewrite A, extend_all_concat by lia. simpl. rewrite <- app_assoc. apply Permutation_app_head.
          apply Permutation_app_tail. unfold split_by_counts. rewrite split_from_concat. simpl.
          rewrite firstn_all2 by lia. reflexivity.
        * unfold lc_sum in *. simpl. lia.
        * intro p. rewrite F, extend_all_nth, minus_all_nth, app_length by lia.
          rewrite <- (lengths_nth (split_by_counts sel cs)), QL. specialize (PC p). lia.
      + unfold lc_sum in *. lia.
      + rewrite extend_all_length, minus_all_length. lia.
  Qed.

  (** ** Dirichlet *)
  Hypothesis Hpick : pick_ok pick.
  Lemma concat_upd (parts : list (list nat)) p x : p < length parts ->
    Permutation (concat (upd parts p (nth p parts [] ++ [x]))) (x :: concat parts).
  Proof.
    revert p. induction parts as [|y ps IH]; intros [|p] H; simpl in *; try lia.
    - rewrite <- app_assoc. simpl. symmetry. apply Permutation_middle.
    - rewrite IH by lia. symmetry. apply Permutation_middle.
  Qed.
  Lemma extend_weighted_spec path xs : forall j parts rem parts' rem',
    length xs <= list_sum rem -> length parts = length rem ->
    extend_weighted pick path j xs (parts, rem) = (parts', rem') ->
    Permutation (concat parts') (concat parts ++ xs) /\
    length parts' = length parts /\ length rem' = length rem /\
    list_sum rem' + length xs = list_sum rem /\
    (forall p, length (nth p parts' []) + nth p rem' 0 = length (nth p parts []) + nth p rem 0).
  Proof.
    induction xs as [|x xs IH]; intros j parts rem parts' rem' S Len E; simpl in E.
    - injection E as <- <-. rewrite app_nil_r. simpl. repeat split; auto.
    - set (av := filter (fun p => 0 <? nth p rem 0) (seq 0 (length rem))) in *.
      assert (NE : av <> []).
      { intro Z. simpl in S. destruct (list_sum rem) eqn:R; [lia|].
        assert (Q : exists i, i < length rem /\ 0 < nth i rem 0).
        { clear -R. revert n R. induction rem as [|r rem IH]; simpl; intros n R; [discriminate|].
          destruct r; simpl in *. destruct (IH n R) as (i & A & B). exists (Datatypes.S i). split; [lia|auto].
          exists 0. split; lia. }
        destruct Q as (i & A & B). assert (In i av) by (apply filter_In; split; [apply in_seq; lia|now apply Nat.ltb_lt]).
        rewrite Z in H. inversion H. }
      assert (E' : extend_weighted pick path (Datatypes.S j) xs
                (upd parts (pick (path ++ [j]) av) (nth (pick (path ++ [j]) av) parts [] ++ [x]),
                 upd rem (pick (path ++ [j]) av) (nth (pick (path ++ [j]) av) rem 0 - 1)) = (parts', rem')) by (destruct av; [congruence|exact E]).
      clear E. pose proof (Hpick (path ++ [j]) av NE) as I. set (p := pick (path ++ [j]) av) in *.
      apply filter_In in I. destruct I as [I1 I2]. apply in_seq in I1. apply Nat.ltb_lt in I2.
      pose proof (sum_upd rem p (nth p rem 0 - 1) ltac:(lia)) as SU. simpl in S.
      apply IH in E'.
      + destruct E' as (A & B & C & D & F). rewrite upd_length in B. rewrite upd_length in C. repeat split; auto.
        * rewrite A, concat_upd by lia. simpl. apply Permutation_middle.
        * simpl. lia.
        * intro q. rewrite F, !nth_upd by lia. destruct (Nat.eqb_spec q p) as [->|]; auto. rewrite app_length. simpl. lia.
      + lia.
      + now rewrite !upd_length.
  Qed.
  Lemma dirichlet_assign_spec t items : forall j parts rem parts' rem',
    within items -> lc_sum items <= list_sum rem -> length parts = length rem ->
    dirichlet_assign perm pick t j items (parts, rem) = (parts', rem') ->
    Permutation (concat parts') (concat parts ++ chosen (fun j is => shuffled perm [t; 1; j] is) j items) /\
    length parts' = length parts /\ length rem' = length rem /\
    list_sum rem' + lc_sum items = list_sum rem /\
    (forall p, length (nth p parts' []) + nth p rem' 0 = length (nth p parts []) + nth p rem 0).
  Proof.
    induction items as [|[[l is] c] items IH]; intros j parts rem parts' rem' W S Len E; simpl in E.
    - injection E as <- <-. simpl. rewrite app_nil_r. unfold lc_sum. simpl. repeat split; auto.
    - inversion W as [|? ? W1 W2]; subst. unfold lc_sum in S. simpl in S, W1.
      assert (SL : length (firstn c (shuffled perm [t; 1; j] is)) = c).
      { rewrite firstn_length, (Permutation_length (shuffled_perm perm [t; 1; j] is Hperm)). lia. }
      set (sel := firstn c (shuffled perm [t; 1; j] is)) in *.
      destruct (extend_weighted pick [t; 2; j] 0 sel (parts, rem)) as [p1 r1] eqn:EW.
      apply extend_weighted_spec in EW; [|lia|auto]. destruct EW as (A1 & B1 & C1 & D1 & F1).
      apply IH in E; auto; [|unfold lc_sum; lia|lia].
      destruct E as (A & B & C & D & F). repeat split; try lia.
      + rewrite A, A1. simpl. now rewrite <- app_assoc.
      + unfold lc_sum in *. simpl. lia.
      + intro p. now rewrite F.
  Qed.

  Lemma chosen_sub sel items : (forall j is, Permutation (sel j is) is) -> forall j,
    submset (chosen sel j items) (concat (map (fun it => snd (fst it)) items)).
  Proof.
    intros P. induction items as [|[[l is] c] items IH]; intro j; simpl; [apply submset_refl|].
    apply submset_app; auto. eapply submset_trans; [apply submset_firstn|]. now apply submset_perm.
  Qed.

  (** ** indices by label *)
  Definition has_label (labels : list L) (l : L) (i : nat) : bool :=
    match nth_error labels i with Some b => leqb l b | None => false end.
  Definition idx (labels : list L) (l : L) : list nat := filter (has_label labels l) (seq 0 (length labels)).
  Lemma leqb_refl l : leqb l l = true.
  Proof. now apply Heq. Qed.
  Lemma add_index_perm d l i : Permutation (concat (map snd (add_index leqb d l i))) (i :: concat (map snd d)).
  Proof.
    induction d as [|[l' is] d IH]; simpl; auto. destruct (leqb l l'); simpl.
    - rewrite <- app_assoc. symmetry. apply Permutation_middle.
    - rewrite IH. symmetry. apply Permutation_middle.
  Qed.
  Lemma add_index_get d l i k : dget leqb (add_index leqb d l i) k =
    if leqb k l then Some (match dget leqb d l with Some is => is | None => [] end ++ [i]) else dget leqb d k.
  Proof.
    induction d as [|[l' is] d IH]; simpl.
    - destruct (leqb k l); auto.
    - destruct (leqb l l') eqn:E; simpl.
      + apply Heq in E. subst l'. destruct (leqb k l); auto.
      + destruct (leqb k l') eqn:K.
        * apply Heq in K. subst l'. destruct (leqb k l) eqn:Q; auto. apply Heq in Q. subst. now rewrite leqb_refl in E.
        * rewrite IH. destruct (leqb k l); auto.
  Qed.
  Lemma add_index_keys d l i : NoDup (map fst d) -> NoDup (map fst (add_index leqb d l i)).
  Proof.
    intro N.
    assert (K : forall d k, In k (map fst (add_index leqb d l i)) -> In k (map fst d) \/ k = l).
    { clear N d. induction d as [|[l' is] d IH]; simpl; intros k; [intuition|].
      destruct (leqb l l'); simpl; intuition. apply IH in H0. tauto. }
    induction d as [|[l' is] d IH]; simpl in *; [repeat constructor; auto|].
    inversion N; subst. destruct (leqb l l') eqn:E; simpl; constructor; auto.
    intro I. apply K in I. destruct I as [I|I]; auto. subst. now rewrite leqb_refl in E.
  Qed.
  Lemma has_label_snoc labels x l i : i < length labels -> has_label (labels ++ [x]) l i = has_label labels l i.
  Proof. intro H. unfold has_label. now rewrite nth_error_app1. Qed.
  Lemma idx_snoc labels x l : idx (labels ++ [x]) l = idx labels l ++ if leqb l x then [length labels] else [].
  Proof.
    unfold idx. rewrite app_length, seq_app, filter_app. simpl. f_equal.
    - apply filter_ext_in. intros i I. apply in_seq in I. apply has_label_snoc. lia.
    - unfold has_label. rewrite nth_error_app2, Nat.sub_diag by lia. simpl. reflexivity.
  Qed.
  Lemma combine_seq_snoc {A} (xs : list A) x s : combine (seq s (length (xs ++ [x]))) (xs ++ [x]) =
    combine (seq s (length xs)) xs ++ [(s + length xs, x)].
  Proof.
    revert s. induction xs as [|y xs IH]; intro s; simpl; [f_equal; f_equal; lia|]. f_equal. rewrite IH. do 3 f_equal. lia.
  Qed.
  Lemma ibl_snoc labels x : indices_by_label leqb (labels ++ [x]) = add_index leqb (indices_by_label leqb labels) x (length labels).
  Proof. unfold indices_by_label. rewrite combine_seq_snoc, fold_left_app. reflexivity. Qed.
  Lemma ibl_perm labels : Permutation (concat (map snd (indices_by_label leqb labels))) (seq 0 (length labels)).
  Proof.
    induction labels as [|x labels IH] using rev_ind; [constructor|].
    rewrite ibl_snoc, add_index_perm, IH, app_length, seq_app. simpl. apply Permutation_cons_append.
  Qed.
  Lemma ibl_keys labels : NoDup (map fst (indices_by_label leqb labels)).
  Proof.
    induction labels as [|x labels IH] using rev_ind; [constructor|]. rewrite ibl_snoc. now apply add_index_keys.
  Qed.
  Lemma ibl_get labels l : dget leqb (indices_by_label leqb labels) l =
    if existsb (leqb l) labels then Some (idx labels l) else None.
  Proof.
    revert l. induction labels as [|x labels IH] using rev_ind; intro l; [reflexivity|].
    rewrite ibl_snoc, add_index_get, !IH, existsb_app, idx_snoc. simpl. rewrite orb_false_r.
    destruct (leqb l x) eqn:E.
    - apply Heq in E. subst. rewrite orb_true_r. destruct (existsb (leqb x) labels) eqn:X; auto.
      f_equal. replace (idx labels x) with (@nil nat); auto. symmetry.
      unfold idx. clear IH. destruct (filter _ _) as [|i t] eqn:F; auto. exfalso.
      assert (I : In i (filter (has_label labels x) (seq 0 (length labels)))) by (rewrite F; simpl; auto).
      apply filter_In in I. destruct I as [_ I]. unfold has_label in I. destruct (nth_error labels i) eqn:N; [|discriminate].
      apply nth_error_In in N. assert (existsb (leqb x) labels = true) by (apply existsb_exists; eauto). congruence.
    - rewrite orb_false_r. destruct (existsb (leqb l) labels); auto. now rewrite app_nil_r.
  Qed.
  Lemma dget_in {V} (d : list (L * V)) l v : NoDup (map fst d) -> In (l, v) d -> dget leqb d l = Some v.
  Proof.
    induction d as [|[k w] d IH]; simpl; [tauto|]. intros N [E|I]; inversion N; subst.
    - injection E as -> ->. now rewrite leqb_refl.
    - destruct (leqb l k) eqn:Q; auto. apply Heq in Q. subst. exfalso. apply H1. apply in_map_iff. exists (k, v). auto.
  Qed.
  Lemma ibl_in labels l is : In (l, is) (indices_by_label leqb labels) -> is = idx labels l /\ In l labels.
  Proof.
    intro I. apply dget_in in I; [|apply ibl_keys]. rewrite ibl_get in I. destruct (existsb (leqb l) labels) eqn:X; [|discriminate].
    split; [congruence|]. apply existsb_exists in X. destruct X as (y & A & B). apply Heq in B. now subst.
  Qed.
  Lemma ibl_total labels l : In l labels -> In (l, idx labels l) (indices_by_label leqb labels).
  Proof.
    intro I. assert (X : existsb (leqb l) labels = true) by (apply existsb_exists; exists l; split; auto; apply leqb_refl).
    pose proof (ibl_get labels l) as G. rewrite X in G. clear X I.
    induction (indices_by_label leqb labels) as [|[k w] d IH]; simpl in *; [discriminate|].
    destruct (leqb l k) eqn:Q; auto. apply Heq in Q. left. congruence.
  Qed.
  Lemma idx_length labels l : length (idx labels l) = samples_of leqb labels l.
  Proof.
    unfold samples_of. induction labels as [|x labels IH] using rev_ind; [reflexivity|].
    rewrite idx_snoc, filter_app, !app_length, IH. simpl. destruct (leqb l x); auto.
  Qed.
  Lemma label_count_app labels l a b : label_count leqb labels l (a ++ b) = label_count leqb labels l a + label_count leqb labels l b.
  Proof. unfold label_count. now rewrite filter_app, app_length. Qed.
  Lemma label_count_perm labels l a b : Permutation a b -> label_count leqb labels l a = label_count leqb labels l b.
  Proof.
    intro P. unfold label_count. induction P; simpl; auto; try congruence.
    - destruct (match nth_error labels x with Some b => leqb l b | None => false end); simpl; congruence.
    - destruct (match nth_error labels x with Some b => leqb l b | None => false end), (match nth_error labels y with Some b => leqb l b | None => false end); simpl; congruence.
  Qed.
  Lemma label_count_idx labels l k p : (forall i, In i p -> In i (idx labels k)) ->
    label_count leqb labels l p = if leqb l k then length p else 0.
  Proof.
    intro H. unfold label_count. induction p as [|i p IH]; simpl; [now destruct (leqb l k)|].
    pose proof (H i (or_introl eq_refl)) as I. apply filter_In in I. destruct I as [_ I]. unfold has_label in I.
    destruct (nth_error labels i) as [b|]; [|discriminate]. apply Heq in I. subst b.
    specialize (IH (fun j J => H j (or_intror J))). destruct (leqb l k); simpl; auto.
  Qed.
  (** only the group of [l] contributes samples with label [l] *)
  Lemma chosen_label labels l c sel items : (forall j is, Permutation (sel j is) is) ->
    within items -> NoDup (map (fun it => fst (fst it)) items) ->
    (forall k is m, In ((k, is), m) items -> is = idx labels k) ->
    In ((l, idx labels l), c) items -> forall j, label_count leqb labels l (chosen sel j items) = c.
  Proof.
    intros P. induction items as [|[[k is] m] items IH]; simpl; [tauto|]. intros W N I H j.
    inversion W as [|? ? W1 W2]; subst. inversion N as [|? ? N1 N2]; subst. simpl in W1, N1.
    assert (Z : forall items j, (forall k is m, In ((k, is), m) items -> is = idx labels k) ->
       ~ In l (map (fun it => fst (fst it)) items) -> label_count leqb labels l (chosen sel j items) = 0).
    { clear -P Heq. induction items as [|[[k is] m] items IH]; intros j I N; simpl; auto.
      rewrite label_count_app, (IH (S j)).
      - rewrite (label_count_idx labels l k); [|].
        + destruct (leqb l k) eqn:E; auto. apply Heq in E. subst. simpl in N. tauto.
        + intros i J. apply in_firstn, (Permutation_in _ (P j is)) in J. now rewrite (I k is m) in J by (simpl; auto).
      - intros; eapply I; simpl; eauto.
      - simpl in N. tauto. }
    rewrite label_count_app, (label_count_idx labels l k).
    2: { intros i J. apply in_firstn, (Permutation_in _ (P j is)) in J. now rewrite (I k is m) in J by auto. }
    destruct H as [H|H].
    - injection H as -> E ->. rewrite leqb_refl, (Z items (S j)); auto; [|intros; eapply I; eauto].
      rewrite firstn_length, (Permutation_length (P j is)). lia.
    - destruct (leqb l k) eqn:E.
      + apply Heq in E. subst k. exfalso. apply N1. apply in_map_iff. exists ((l, idx labels l), c). auto.
      + simpl. apply IH; auto. intros; eapply I; eauto.
  Qed.

  (** ** the selection table *)
  Definition table_ok (labels : list L) (T : nat) (cmb : list ((L * list nat) * nat)) : Prop :=
    within cmb /\ lc_sum cmb = T /\
    Permutation (concat (map (fun it => snd (fst it)) cmb)) (seq 0 (length labels)) /\
    NoDup (map (fun it => fst (fst it)) cmb) /\
    (forall k is m, In ((k, is), m) cmb -> is = idx labels k) /\
    (forall l, In l labels -> exists c, In ((l, idx labels l), c) cmb /\ rounded_share T (samples_of leqb labels l) (length labels) c).
  Lemma map_fst_combine {A B} (xs : list A) (ys : list B) : length xs = length ys -> map fst (combine xs ys) = xs.
  Proof. revert ys; induction xs; intros [|] H; simpl in *; auto; try lia. f_equal. apply IHxs. lia. Qed.
  Lemma map_snd_combine {A B} (xs : list A) (ys : list B) : length xs = length ys -> map snd (combine xs ys) = ys.
  Proof. revert ys; induction xs; intros [|] H; simpl in *; auto; try lia. f_equal. apply IHxs. lia. Qed.
  Lemma table_make labels items T : Permutation items (indices_by_label leqb labels) -> T <= length labels ->
    table_ok labels T (combine items (proportional_counts (map (fun it => length (snd it)) items) T)).
  Proof.
    intros P HT. set (sz := map (fun it : L * list nat => length (snd it)) items).
    assert (SS : list_sum sz = length labels).
    { pose proof (Permutation_length (ibl_perm labels)) as E. rewrite length_concat, seq_length, map_map in E.
      rewrite <- E. apply list_sum_perm. apply Permutation_map. exact P. }
    destruct (prop_all sz T) as (PL & PS & PC); [lia|]. set (lc := proportional_counts sz T) in *.
    assert (LL : length items = length lc) by (rewrite PL; unfold sz; now rewrite map_length).
    assert (MF : map (fun it : (L * list nat) * nat => snd (fst it)) (combine items lc) = map snd items).
    { rewrite <- (map_map fst snd). now rewrite map_fst_combine. }
    assert (MK : map (fun it : (L * list nat) * nat => fst (fst it)) (combine items lc) = map fst items).
    { rewrite <- (map_map fst fst). now rewrite map_fst_combine. }
    repeat split.
    - apply Forall_forall. intros it I. 
      apply (In_nth _ _ it) in I. destruct I as (i & B & E). rewrite combine_length in B.
      destruct it as [it m]. rewrite combine_nth in E by auto. injection E as E1 E2. simpl.
      specialize (PC i). unfold sz in PC. rewrite (nth_map_in _ _ _ it) in PC by lia. rewrite E1 in PC.
      rewrite (nth_indep _ m 0) in E2 by lia. lia.
    - unfold lc_sum. now rewrite map_snd_combine.
    - rewrite MF. rewrite <- (ibl_perm labels). rewrite <- !flat_map_concat_map. now rewrite P.
    - rewrite MK. eapply Permutation_NoDup; [symmetry; apply Permutation_map, P|]. apply ibl_keys.
    - intros k is m I. apply in_combine_l in I. apply (Permutation_in _ P), ibl_in in I. tauto.
    - intros l I. apply ibl_total in I. apply (Permutation_in _ (Permutation_sym P)) in I.
      apply (In_nth _ _ (l, idx labels l)) in I. destruct I as (i & B & E). exists (nth i lc 0). split.
      + rewrite <- E. rewrite <- combine_nth by auto. apply nth_In. rewrite combine_length. lia.
      + assert (N : nth i sz 0 = samples_of leqb labels l).
        { unfold sz. rewrite (nth_map_in _ _ _ (l, idx labels l)), E by auto. simpl. apply idx_length. }
        rewrite <- N, <- SS. apply prop_share; [|lia].
        assert (0 < length labels); [|lia]. destruct labels; [|simpl; lia].
        pose proof (Permutation_length P) as Q. unfold indices_by_label in Q. simpl in Q. lia.
  Qed.
  Lemma table_perm labels T a b : Permutation a b -> table_ok labels T a -> table_ok labels T b.
  Proof.
    intros P (A & B & C & D & E & F). repeat split.
    - unfold within. eapply Permutation_Forall; eauto.
    - rewrite <- B. apply list_sum_perm, Permutation_map. now symmetry.
    - rewrite <- C. rewrite <- !flat_map_concat_map. now rewrite P.
    - eapply Permutation_NoDup; [apply Permutation_map, P|auto].
    - intros k is m I. eapply E. eapply Permutation_in; [symmetry; exact P|exact I].
    - intros l I. destruct (F l I) as (c & X & Y). exists c. split; auto. eapply Permutation_in; eauto.
  Qed.

  (** result of the two label-aware splits *)
  Definition split_ok (labels : list L) (pcounts : list nat) (ps : list (list nat)) : Prop :=
    map (@length nat) ps = pcounts /\ submset (concat ps) (seq 0 (length labels)) /\
    (forall l, In l labels -> rounded_share (list_sum pcounts) (samples_of leqb labels l) (length labels) (label_count leqb labels l (concat ps))).
  Lemma nth_repeat_nil p k : nth p (repeat (@nil nat) k) [] = [].
  Proof. revert p; induction k; intros [|p]; simpl; auto. Qed.
  Lemma split_finish labels pcounts cmb sel path parts rem :
    (forall j is, Permutation (sel j is) is) ->
    table_ok labels (list_sum pcounts) cmb ->
    Permutation (concat parts) (concat (repeat (@nil nat) (length pcounts)) ++ chosen sel 0 cmb) ->
    length parts = length pcounts -> length rem = length pcounts ->
    list_sum rem + lc_sum cmb = list_sum pcounts ->
    (forall p, length (nth p parts []) + nth p rem 0 = length (nth p (repeat (@nil nat) (length pcounts)) []) + nth p pcounts 0) ->
    existsb (fun r => 0 <? r) rem = false /\ split_ok labels pcounts (shuffle_each perm path parts).
  Proof.
    intros P (A & B & C & D & E & F) Q Lp Lr S X.
    assert (Z : list_sum rem = 0) by lia.
    assert (ZN : forall i, nth i rem 0 = 0) by (intro i; pose proof (nth_le_sum rem i); lia).
    destruct (shuffle_each_concat perm path parts Hperm) as [SP SL]. split.
    - destruct (existsb _ rem) eqn:Y; auto. apply existsb_exists in Y. destruct Y as (r & I & G).
      apply (In_nth _ _ 0) in I. destruct I as (i & _ & <-). rewrite ZN in G. discriminate.
    - assert (Q' : Permutation (concat parts) (chosen sel 0 cmb)).
      { rewrite Q. replace (concat (repeat [] (length pcounts))) with (@nil nat); auto.
        clear. induction (length pcounts); simpl; auto. }
      repeat split.
      + rewrite SL. apply nth_ext0; [now rewrite map_length|]. intros i _. rewrite lengths_nth. specialize (X i).
        rewrite ZN, nth_repeat_nil in X. simpl in X. lia.
      + eapply submset_trans; [apply submset_perm; rewrite SP; exact Q'|]. eapply submset_trans; [apply chosen_sub; auto|].
        now apply submset_perm.
      + rewrite (label_count_perm labels l _ _ SP), (label_count_perm labels l _ _ Q').
        destruct (F l H) as (c & I & R). rewrite (chosen_label labels l c sel cmb P A D E I). apply R.
      + rewrite (label_count_perm labels l _ _ SP), (label_count_perm labels l _ _ Q').
        destruct (F l H) as (c & I & R). rewrite (chosen_label labels l c sel cmb P A D E I). apply R.
  Qed.
  Lemma stratified_spec labels k s : 
    match partition_counts (length labels) k s with
    | None => split_stratified_iid perm leqb rle labels k s = None
    | Some pcounts => exists ps, split_stratified_iid perm leqb rle labels k s = Some ps /\ split_ok labels pcounts ps
    end.
  Proof.
    unfold split_stratified_iid. destruct (partition_counts (length labels) k s) as [pc|] eqn:E; auto.
    apply partition_counts_requests in E. destruct E as (K & Lk & T & _). rewrite <- Lk.
    set (items := sorted _ (indices_by_label leqb labels)).
    assert (TB := table_make labels items (list_sum pc) (sorted_perm _ _) T).
    set (cmb := combine items _) in *.
    destruct (stratify perm 0 cmb (repeat [] (length pc), pc)) as [parts rem] eqn:ST.
    apply stratify_spec in ST; [|apply TB|destruct TB as (_ & -> & _); auto|now rewrite repeat_length].
    destruct ST as (P1 & P2 & P3 & P4 & P5). rewrite repeat_length in P2.
    destruct (split_finish labels pc cmb _ [1] parts rem (fun j is => shuffled_perm perm [0; j] is Hperm) TB P1 P2 P3 P4 P5) as [-> OK].
    eauto.
  Qed.
  Lemma dirichlet_once_spec t labels pc : list_sum pc <= length labels ->
    exists ps, dirichlet_once perm pick leqb t labels pc = Some ps /\ split_ok labels pc ps.
  Proof.
    intro T. unfold dirichlet_once. set (items := indices_by_label leqb labels).
    assert (TB := table_make labels items (list_sum pc) (Permutation_refl _) T).
    set (cmb0 := combine items _) in *.
    apply (table_perm _ _ _ (shuffled perm [t; 0] cmb0)) in TB; [|symmetry; now apply shuffled_perm].
    set (cmb := shuffled perm [t; 0] cmb0) in *.
    destruct (dirichlet_assign perm pick t 0 cmb (repeat [] (length pc), pc)) as [parts rem] eqn:ST.
    apply dirichlet_assign_spec in ST; [|apply TB|destruct TB as (_ & -> & _); auto|now rewrite repeat_length].
    destruct ST as (P1 & P2 & P3 & P4 & P5). rewrite repeat_length in P2.
    destruct (split_finish labels pc cmb _ [t; 3] parts rem (fun j is => shuffled_perm perm [t; 1; j] is Hperm) TB P1 P2 P3 P4 P5) as [-> OK].
    eauto.
  Qed.
  (** [min_size] is met at the first attempt or never *)
  Lemma dirichlet_retry_spec labels pc m : list_sum pc <= length labels -> forall fuel t,
    0 < fuel ->
    if forallb (fun c => (m <=? Z.of_nat c)%Z) pc
    then exists ps, dirichlet_retry perm pick leqb fuel t labels pc m = Some ps /\ split_ok labels pc ps
    else dirichlet_retry perm pick leqb fuel t labels pc m = None.
  Proof.
    intros T. induction fuel as [|fuel IH]; intros t H; [lia|]. simpl.
    destruct (dirichlet_once_spec t labels pc T) as (ps & -> & OK).
    assert (E : forallb (fun p => (m <=? Z.of_nat (length p))%Z) ps = forallb (fun c => (m <=? Z.of_nat c)%Z) pc).
    { destruct OK as [<- _]. clear. induction ps; simpl; auto. now rewrite IHps. }
    rewrite E. destruct (forallb _ pc) eqn:F; [eauto|]. destruct fuel; [reflexivity|]. specialize (IH (S t) ltac:(lia)).
    exact IH.
  Qed.
  Lemma dirichlet_spec labels k s m r : 
    match partition_counts (length labels) k s with
    | None => split_dirichlet_label perm pick leqb labels k true s m r = None
    | Some pc => (0 <= m)%Z -> (0 < r)%Z ->
        if forallb (fun c => (m <=? Z.of_nat c)%Z) pc
        then exists ps, split_dirichlet_label perm pick leqb labels k true s m r = Some ps /\ split_ok labels pc ps
        else split_dirichlet_label perm pick leqb labels k true s m r = None
    end.
  Proof.
    unfold split_dirichlet_label. simpl. destruct (partition_counts (length labels) k s) as [pc|] eqn:E.
    - intros M R. destruct (Z.ltb_spec m 0); [lia|]. destruct (Z.leb_spec r 0); [lia|].
      apply dirichlet_retry_spec; [|lia]. apply partition_counts_requests in E. apply E.
    - destruct (m <? 0)%Z; auto. destruct (r <=? 0)%Z; auto.
  Qed.

  (** ** shards *)
  Lemma chunks_concat {A} (xs : list A) m np s : concat (map (fun p => firstn m (skipn (p * m) xs)) (seq s np)) = firstn (np * m) (skipn (s * m) xs).
  Proof.
    revert s. induction np as [|np IH]; intro s; simpl; auto.
    rewrite IH, firstn_add, skipn_add. do 3 f_equal. simpl. lia.
  Qed.
  Lemma concat_map_flat {A B C} (f : A -> list B) (g : B -> list C) l :
    concat (map (fun a => flat_map g (f a)) l) = flat_map g (concat (map f l)).
  Proof. induction l; simpl; auto. rewrite flat_map_app. now f_equal. Qed.
  Lemma flat_nth (shards : list (list nat)) : flat_map (fun s => nth s shards []) (seq 0 (length shards)) = concat shards.
  Proof.
    induction shards as [|x xs IH]; simpl; auto. f_equal. rewrite <- seq_shift, flat_map_concat_map, map_map.
    rewrite <- IH, flat_map_concat_map. reflexivity.
  Qed.
End WithOracles.
