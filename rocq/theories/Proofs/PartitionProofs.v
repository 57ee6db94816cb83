From Coq Require Import List Bool Arith ZArith Permutation Sorted Lia.
From Verif.Model Require Import PyDict Schemes Partition.
From Verif.Spec Require Import PartitionSpec.
From Verif.Proofs Require Import SortProofs.
Import ListNotations.
Open Scope nat_scope.

Lemma some_inv {A} (a b : A) : Some a = Some b -> a = b.
Proof. now intros [= ->]. Qed.

(** ** lists *)
Lemma upd_length {A} (xs : list A) i v : length (upd xs i v) = length xs.
Proof. revert i; induction xs; destruct i; simpl; auto. Qed.
Lemma nth_upd {A} (xs : list A) i j v d : j < length xs -> nth i (upd xs j v) d = if i =? j then v else nth i xs d.
Proof.
  revert i j. induction xs as [|x xs IH]; intros i j H; simpl in *; [lia|].
  destruct j; destruct i; simpl; auto. apply IH. lia.
Qed.
Lemma sum_upd xs j v : j < length xs -> list_sum (upd xs j v) + nth j xs 0 = list_sum xs + v.
Proof.
  revert j. induction xs as [|x xs IH]; intros [|j] H; simpl in *; try lia.
  specialize (IH j ltac:(lia)). lia.
Qed.
Lemma list_sum_app' a b : list_sum (a ++ b) = list_sum a + list_sum b.
Proof. induction a; simpl; lia. Qed.
Lemma list_sum_perm a b : Permutation a b -> list_sum a = list_sum b.
Proof. induction 1; simpl; lia. Qed.
Lemma length_concat {A} (ps : list (list A)) : length (concat ps) = list_sum (map (@length A) ps).
Proof. induction ps; simpl; auto. rewrite app_length. lia. Qed.
Lemma list_sum_le_nth (xs ys : list nat) : length xs = length ys ->
  (forall i, i < length xs -> nth i xs 0 <= nth i ys 0) -> list_sum xs <= list_sum ys.
Proof.
  revert ys. induction xs as [|x xs IH]; intros [|y ys] E H; simpl in *; try lia.
  pose proof (H 0 ltac:(lia)). simpl in *. specialize (IH ys ltac:(lia)).
  enough (list_sum xs <= list_sum ys) by lia. apply IH. intros i Hi. apply (H (S i)). lia.
Qed.
Lemma nth_ext0 (xs ys : list nat) : length xs = length ys -> (forall i, i < length xs -> nth i xs 0 = nth i ys 0) -> xs = ys.
Proof. intros E H. apply (nth_ext xs ys 0 0); auto. Qed.
Lemma list_sum_map_mul {A} (f : A -> nat) a xs : list_sum (map (fun x => a * f x) xs) = a * list_sum (map f xs).
Proof. induction xs; simpl; lia. Qed.
Lemma nth_le_sum xs i : nth i xs 0 <= list_sum xs.
Proof. revert i; induction xs; destruct i; simpl; try lia. specialize (IHxs i). lia. Qed.

Lemma NoDup_app_l {A} (a b : list A) : NoDup (a ++ b) -> NoDup a.
Proof.
  induction a as [|x a IH]; simpl; intro H; [constructor|]. inversion H; subst. constructor; auto.
  intro I. apply H2. apply in_or_app. auto.
Qed.
(** ** sub-multisets *)
Definition submset {A} (xs ys : list A) : Prop := exists zs, Permutation (xs ++ zs) ys.
Lemma submset_refl {A} (xs : list A) : submset xs xs.
Proof. exists []. rewrite app_nil_r. auto. Qed.
Lemma submset_perm {A} (xs ys : list A) : Permutation xs ys -> submset xs ys.
Proof. exists []. now rewrite app_nil_r. Qed.
Lemma submset_trans {A} (xs ys zs : list A) : submset xs ys -> submset ys zs -> submset xs zs.
Proof. intros [a H] [b K]. exists (a ++ b). now rewrite app_assoc, H. Qed.
Lemma submset_firstn {A} k (xs : list A) : submset (firstn k xs) xs.
Proof. exists (skipn k xs). now rewrite firstn_skipn. Qed.
Lemma submset_app {A} (a b c d : list A) : submset a b -> submset c d -> submset (a ++ c) (b ++ d).
Proof.
  intros [x H] [y K]. exists (x ++ y). rewrite <- H, <- K. rewrite <- !app_assoc. apply Permutation_app_head.
  rewrite !app_assoc. apply Permutation_app_tail. apply Permutation_app_comm.
Qed.
Lemma submset_NoDup {A} (xs ys : list A) : submset xs ys -> NoDup ys -> NoDup xs.
Proof.
  intros [z H] N. apply (Permutation_NoDup (Permutation_sym H)) in N. now apply NoDup_app_l in N.
Qed.
Lemma submset_in {A} (xs ys : list A) x : submset xs ys -> In x xs -> In x ys.
Proof. intros [z H] I. apply (Permutation_in x H). apply in_or_app. auto. Qed.
Lemma submset_full {A} (xs ys : list A) : submset xs ys -> length xs = length ys -> Permutation xs ys.
Proof.
  intros [z H] E. apply Permutation_length in H as L. rewrite app_length in L. destruct z; simpl in L; [|lia].
  now rewrite app_nil_r in H.
Qed.
Lemma disjoint_of_submset n ps : submset (concat ps) (seq 0 n) -> disjoint_in_range n ps.
Proof.
  intro H. split; [eapply submset_NoDup; eauto using seq_NoDup|]. intros i I. apply (submset_in _ _ _ H), in_seq in I. lia.
Qed.
Lemma covers_of_submset n ps : submset (concat ps) (seq 0 n) -> list_sum (map (@length nat) ps) = n -> covers n ps.
Proof. intros H E. apply submset_full; auto. now rewrite length_concat, seq_length. Qed.

(** ** splitting *)
Lemma skipn_add {A} a b (xs : list A) : skipn a (skipn b xs) = skipn (b + a) xs.
Proof. revert xs. induction b; intros [|x xs]; simpl; auto. now rewrite skipn_nil. Qed.
Lemma firstn_add {A} a b (xs : list A) : firstn (a + b) xs = firstn a xs ++ firstn b (skipn a xs).
Proof. revert xs. induction a; intros [|x xs]; simpl; auto. now rewrite firstn_nil. now f_equal. Qed.
Lemma split_from_concat {A} (xs : list A) s counts : concat (split_from xs s counts) = firstn (list_sum counts) (skipn s xs).
Proof.
  revert s. induction counts as [|c cs IH]; intro s; simpl; auto.
  rewrite IH, firstn_add, skipn_add. reflexivity.
Qed.
Lemma split_from_lengths {A} (xs : list A) s counts : s + list_sum counts <= length xs ->
  map (@length A) (split_from xs s counts) = counts.
Proof.
  revert s. induction counts as [|c cs IH]; intros s H; simpl in *; auto. f_equal; [|apply IH; lia].
  rewrite firstn_length, skipn_length. lia.
Qed.
Lemma split_from_length {A} (xs : list A) s counts : length (split_from xs s counts) = length counts.
Proof. revert s. induction counts; intro s; simpl; auto. Qed.
Lemma split_submset {A} (xs : list A) counts : submset (concat (split_by_counts xs counts)) xs.
Proof. unfold split_by_counts. rewrite split_from_concat. simpl. apply submset_firstn. Qed.

Lemma nth_map_in {A B} (f : A -> B) l i d d' : i < length l -> nth i (map f l) d' = f (nth i l d).
Proof. revert i; induction l; intros [|i] H; simpl in *; auto; try lia. apply IHl. lia. Qed.
Lemma nth_map_seq {B} (f : nat -> B) k i d : i < k -> nth i (map f (seq 0 k)) d = f i.
Proof. intro H. rewrite (nth_map_in f _ _ 0) by now rewrite seq_length. now rewrite seq_nth. Qed.
(** ** even counts *)
Lemma even_counts_length n k : length (even_counts n k) = k.
Proof. unfold even_counts. now rewrite map_length, seq_length. Qed.
Lemma even_sum_aux q r k s : list_sum (map (fun i => q + (if i <? r then 1 else 0)) (seq s k)) = q * k + (min (s + k) r - min s r).
Proof.
  revert s. induction k; intro s; simpl; [lia|]. rewrite IHk. destruct (Nat.ltb_spec s r); lia.
Qed.
Lemma even_counts_sum n k : 0 < k -> list_sum (even_counts n k) = n.
Proof.
  intro H. unfold even_counts. rewrite even_sum_aux. pose proof (Nat.mod_upper_bound n k ltac:(lia)).
  rewrite Nat.min_r by lia. simpl. rewrite (Nat.div_mod n k) at 3 by lia. lia.
Qed.
Lemma even_counts_nth n k i : i < k -> nth i (even_counts n k) 0 = n / k + (if i <? n mod k then 1 else 0).
Proof.
  intro H. unfold even_counts. now rewrite nth_map_seq.
Qed.
Lemma even_counts_even n k : 0 < k -> even n k (even_counts n k).
Proof.
  intro H. split; [apply even_counts_length|]. split; [now apply even_counts_sum|].
  intros i j [A B]. rewrite !even_counts_nth by lia.
  destruct (Nat.ltb_spec i (n mod k)), (Nat.ltb_spec j (n mod k)); lia.
Qed.
(** the even counts are determined *)
Lemma head_bounds c l : (forall i, i < length l -> nth i l 0 <= c <= nth i l 0 + 1) ->
  list_sum l <= length l * c <= list_sum l + length l.
Proof.
  induction l as [|x l IHl]; intro B; simpl in *; [lia|]. pose proof (B 0 ltac:(lia)) as B0. simpl in B0.
  enough (list_sum l <= length l * c <= list_sum l + length l) by lia. apply IHl. intros i Hi. apply (B (S i)). lia.
Qed.
Lemma even_unique n k c1 c2 : even n k c1 -> even n k c2 -> c1 = c2.
Proof.
  revert n c1 c2. induction k as [|k IH]; intros n c1 c2 (L1 & S1 & E1) (L2 & S2 & E2).
  { destruct c1, c2; simpl in *; try lia; auto. }
  destruct c1 as [|a c1], c2 as [|b c2]; simpl in L1, L2; try lia. injection L1 as L1. injection L2 as L2.
  pose proof (head_bounds a c1 ltac:(intros i Hi; apply (E1 0 (S i)); lia)) as A.
  pose proof (head_bounds b c2 ltac:(intros i Hi; apply (E2 0 (S i)); lia)) as B.
  simpl in S1, S2. assert (a = b) by nia. subst b. f_equal.
  apply (IH (n - a)); (split; [auto|split; [lia|]]); intros i j Hij.
  - apply (E1 (S i) (S j)). lia.
  - apply (E2 (S i) (S j)). lia.
Qed.

(** ** the requested sizes *)
Lemma repeat_of_nat z k counts : length counts = k -> Forall (fun c => Z.of_nat c = z) counts -> counts = repeat (Z.to_nat z) k.
Proof.
  intros <- H. induction H; simpl; auto. f_equal; auto. lia.
Qed.
Lemma partition_counts_requests n k s counts : partition_counts n k s = Some counts <-> requests n k s counts.
Proof.
  unfold partition_counts, requests. destruct (Z.leb_spec k 0) as [K|K].
  { split; [discriminate|]. intros [H _]. lia. }
  split.
  - destruct (raw_counts n (Z.to_nat k) s) as [c|] eqn:R; [|discriminate].
    destruct (Nat.ltb_spec n (list_sum c)); [discriminate|]. intro E. apply some_inv in E. subst c. split; [lia|].
    destruct s; simpl in R.
    + apply some_inv in R. subst counts. rewrite even_counts_length. repeat split; auto; try apply even_counts_even; lia.
    + destruct (Z.ltb_spec z 0); [discriminate|]. apply some_inv in R. subst counts. rewrite repeat_length.
      repeat split; auto. apply Forall_forall. intros c I. apply repeat_spec in I. subst. lia.
    + destruct (Nat.eqb_spec (length l) (Z.to_nat k)) as [E|E]; simpl in R; [|discriminate].
      destruct (existsb (fun z => (z <? 0)%Z) l) eqn:X; [discriminate|]. apply some_inv in R. subst counts.
      rewrite map_length. repeat split; auto. rewrite map_map. rewrite <- (map_id l) at 2. apply map_ext_in.
      intros z I. destruct (Z.ltb_spec z 0) as [Q|Q]; [|lia]. apply Z.ltb_lt in Q.
      assert (existsb (fun z => (z <? 0)%Z) l = true) by (apply existsb_exists; eauto). congruence.
  - intros (_ & L & T & H).
    assert (R : raw_counts n (Z.to_nat k) s = Some counts).
    { destruct s; simpl.
      - f_equal. eapply even_unique; eauto. apply even_counts_even. lia.
      - destruct (Z.ltb_spec z 0) as [Q|Q].
        + destruct counts as [|c cs]; simpl in L; [lia|]. inversion H; subst. lia.
        + f_equal. symmetry. now apply repeat_of_nat.
      - subst l. rewrite map_length, L, Nat.eqb_refl. simpl.
        destruct (existsb _ _) eqn:X.
        + apply existsb_exists in X. destruct X as (z & I & Q). apply in_map_iff in I. destruct I as (c & <- & _).
          apply Z.ltb_lt in Q. lia.
        + f_equal. rewrite map_map. rewrite <- (map_id counts) at 2. apply map_ext. intro. lia. }
    rewrite R. destruct (Nat.ltb_spec n (list_sum counts)); auto. lia.
Qed.

(** ** proportional counts *)
Definition good (counts props order : list nat) : list nat := filter (fun i => nth i props 0 <? nth i counts 0) order.
Lemma filter_ext_in' {A} (f g : A -> bool) l : (forall x, In x l -> f x = g x) -> filter f l = filter g l.
Proof. apply filter_ext_in. Qed.
Lemma distribute_length counts order props r : length (distribute counts order props r) = length props.
Proof.
  revert props r. induction order as [|i o IH]; intros props r; simpl; auto.
  destruct (r =? 0); auto. destruct (_ <? _); rewrite IH; auto. apply upd_length.
Qed.
Lemma distribute_nth counts order props r i :
  NoDup order -> (forall j, In j order -> j < length props) ->
  nth i (distribute counts order props r) 0 =
  nth i props 0 + (if existsb (Nat.eqb i) (firstn r (good counts props order)) then 1 else 0).
Proof.
  revert props r. induction order as [|j o IH]; intros props r N B; simpl.
  - rewrite firstn_nil. simpl. lia.
  - inversion N; subst. destruct r as [|r]; simpl; [lia|].
    assert (Bj : j < length props) by (apply B; simpl; auto).
    destruct (Nat.ltb_spec (nth j props 0) (nth j counts 0)) as [Q|Q].
    + rewrite IH; auto; [|intros k I; rewrite upd_length; apply B; simpl; auto].
      assert (G : good counts (upd props j (S (nth j props 0))) o = good counts props o).
      { apply filter_ext_in. intros k I. rewrite nth_upd by auto. destruct (Nat.eqb_spec k j); auto. subst. tauto. }
      rewrite G, Nat.sub_0_r. simpl. rewrite nth_upd by auto.
      destruct (Nat.eqb_spec i j) as [->|D]; simpl; auto.
      destruct (existsb (Nat.eqb j) (firstn r (good counts props o))) eqn:X; [|lia].
      apply existsb_exists in X. destruct X as (x & I & E). apply Nat.eqb_eq in E. subst x.
      apply in_firstn in I. apply filter_In in I. tauto.
    + apply IH; auto. intros k I. apply B. simpl. auto.
Qed.
Lemma sum_indicator props (S0 : list nat) : NoDup S0 -> (forall i, In i S0 -> i < props) ->
  list_sum (map (fun i => if existsb (Nat.eqb i) S0 then 1 else 0) (seq 0 props)) = length S0.
Proof.
  intros N B.
  assert (E : forall l, list_sum (map (fun i => if existsb (Nat.eqb i) S0 then 1 else 0) l)
              = length (filter (fun i => existsb (Nat.eqb i) S0) l)).
  { induction l; simpl; auto. destruct (existsb _ S0); simpl; lia. }
  rewrite E. apply Permutation_length. apply NoDup_Permutation; auto.
  - apply NoDup_filter, seq_NoDup.
  - intro x. rewrite filter_In, in_seq, existsb_exists. split.
    + intros (_ & y & I & Q). apply Nat.eqb_eq in Q. now subst.
    + intro I. split; [specialize (B x I); lia|]. exists x. split; auto. apply Nat.eqb_refl.
Qed.
Lemma list_as_map xs : map (fun i => nth i xs 0) (seq 0 (length xs)) = xs.
Proof.
  apply nth_ext0; rewrite map_length, seq_length; auto. intros i H.
  now rewrite nth_map_seq.
Qed.
Lemma list_sum_map_add {A} (f g : A -> nat) l : list_sum (map (fun x => f x + g x) l) = list_sum (map f l) + list_sum (map g l).
Proof. induction l; simpl; lia. Qed.
Lemma distribute_sum counts order props r :
  NoDup order -> (forall j, In j order -> j < length props) ->
  list_sum (distribute counts order props r) = list_sum props + min r (length (good counts props order)).
Proof.
  intros N B. rewrite <- (list_as_map (distribute _ _ _ _)), distribute_length.
  rewrite (map_ext _ _ (fun i => distribute_nth counts order props r i N B)).
  rewrite list_sum_map_add, list_as_map. f_equal. rewrite sum_indicator, firstn_length; auto.
  - apply NoDup_firstn. now apply NoDup_filter.
  - intros i I. apply in_firstn in I. apply filter_In in I. apply B. tauto.
Qed.

Lemma sum_count_le {A} (f : A -> nat) m l : (forall x, In x l -> f x < S m) ->
  list_sum (map f l) <= m * length (filter (fun x => 0 <? f x) l).
Proof.
  induction l as [|x l IH]; intro H; simpl; [lia|].
  pose proof (H x (or_introl eq_refl)). specialize (IH (fun y I => H y (or_intror I))).
  destruct (Nat.ltb_spec 0 (f x)); simpl; lia.
Qed.
Lemma filter_length_le {A} (f g : A -> bool) l : (forall x, In x l -> f x = true -> g x = true) ->
  length (filter f l) <= length (filter g l).
Proof.
  induction l as [|x l IH]; intro H; simpl; [lia|]. specialize (IH (fun y I => H y (or_intror I))).
  pose proof (H x (or_introl eq_refl)). destruct (f x); [rewrite H0 by auto; simpl; lia|]. destruct (g x); simpl; lia.
Qed.
Lemma NoDup_incl_len {A} (l l' : list A) : NoDup l -> (forall x, In x l -> In x l') -> length l <= length l'.
Proof. intros. now apply NoDup_incl_length. Qed.

Section Apportion.
  Variables (counts : list nat) (total : nat).
  Let av := list_sum counts.
  Hypothesis Hav : 0 < av.
  Hypothesis Hle : total <= av.
  Let fl i := total * nth i counts 0 / av.
  Let fr i := (total * nth i counts 0) mod av.
  Let n := length counts.
  Let floors := map (fun c => total * c / av) counts.
  Let order := sorted (fun i j => fr j <=? fr i) (seq 0 n).
  Let r := total - list_sum floors.
  Let res := proportional_counts counts total.

  Lemma floors_nth i : nth i floors 0 = fl i.
  Proof.
    unfold floors, fl. destruct (Nat.lt_ge_cases i n).
    - now rewrite (nth_map_in _ _ _ 0).
    - rewrite !nth_overflow; auto; [|now rewrite map_length]. rewrite Nat.mul_0_r, Nat.div_0_l; auto. lia.
  Qed.
  Lemma share i : total * nth i counts 0 = av * fl i + fr i /\ fr i < av.
  Proof. split; [apply Nat.div_mod; lia|]. apply Nat.mod_upper_bound. lia. Qed.
  Lemma order_perm : Permutation order (seq 0 n).
  Proof. apply sorted_perm. Qed.
  Lemma order_nd : NoDup order.
  Proof. eapply Permutation_NoDup; [symmetry; apply order_perm|apply seq_NoDup]. Qed.
  Lemma order_in i : In i order <-> i < n.
  Proof. split; intro I; [apply (Permutation_in _ order_perm) in I; apply in_seq in I; lia|apply (Permutation_in _ (Permutation_sym order_perm)), in_seq; lia]. Qed.
  Lemma sum_share : av * list_sum floors + list_sum (map fr (seq 0 n)) = total * av.
  Proof.
    assert (A : total * av = list_sum (map (fun i => total * nth i counts 0) (seq 0 n))).
    { rewrite list_sum_map_mul. unfold n. rewrite list_as_map. reflexivity. }
    assert (B : av * list_sum floors = list_sum (map (fun i => av * nth i floors 0) (seq 0 n))).
    { rewrite list_sum_map_mul. replace n with (length floors) by apply map_length. now rewrite list_as_map. }
    rewrite A, B, <- list_sum_map_add. f_equal. apply map_ext. intro i. rewrite floors_nth.
    symmetry. apply share.
  Qed.
  Lemma floors_le : list_sum floors <= total.
  Proof. pose proof sum_share. nia. Qed.
  Lemma rem_share : list_sum (map fr (seq 0 n)) = r * av.
  Proof. pose proof sum_share. pose proof floors_le. unfold r. nia. Qed.
  Lemma pos_ge : r <= length (filter (fun i => 0 <? fr i) order).
  Proof.
    assert (E : list_sum (map fr order) = r * av).
    { rewrite <- rem_share. apply list_sum_perm, Permutation_map, order_perm. }
    pose proof (sum_count_le fr (av - 1) order) as H. rewrite E in H.
    assert (Q : r * av <= (av - 1) * length (filter (fun i => 0 <? fr i) order)).
    { apply H. intros i _. pose proof (proj2 (share i)). lia. }
    nia.
  Qed.
  Lemma pos_good i : 0 < fr i -> fl i < nth i counts 0.
  Proof. intro H. destruct (share i) as [E B]. nia. Qed.
  Let G := good counts floors order.
  Lemma G_nd : NoDup G.
  Proof. apply NoDup_filter, order_nd. Qed.
  Lemma pos_in_G i : i < n -> 0 < fr i -> In i G.
  Proof.
    intros I H. apply filter_In. split; [now apply order_in|]. rewrite floors_nth. apply Nat.ltb_lt. now apply pos_good.
  Qed.
  Lemma G_sorted : StronglySorted (fun i j => fr j <= fr i) G.
  Proof.
    assert (S : StronglySorted (fun i j => fr j <= fr i) order).
    { assert (H : StronglySorted (ranked (fun i j => fr j <=? fr i) (seq 0 n)) order).
      { apply sorted_ranked.
        - intros a b. destruct (Nat.leb_spec (fr b) (fr a)); auto. right. apply Nat.leb_le. lia.
        - intros a b c. rewrite !Nat.leb_le. lia. }
      induction H as [|x l S' IH F]; constructor; auto. eapply Forall_impl; [|exact F].
      intros y [Q _]. now apply Nat.leb_le. }
    unfold G, good. induction S as [|x l S' IH F]; simpl; [constructor|].
    destruct (_ <? _); auto. constructor; auto. rewrite Forall_forall in *. intros y I. apply filter_In in I. apply F. tauto.
  Qed.
  Let up := firstn r G.
  Lemma r_le_G : r <= length G.
  Proof.
    etransitivity; [apply pos_ge|]. apply filter_length_le. intros i _ H. apply Nat.ltb_lt in H.
    rewrite floors_nth. apply Nat.ltb_lt. now apply pos_good.
  Qed.
  Lemma up_pos i : In i up -> 0 < fr i.
  Proof.
    intro I. destruct (Nat.eq_dec (fr i) 0) as [Z|]; [|lia]. exfalso.
    assert (K : forall j, In j (filter (fun i => 0 <? fr i) order) -> In j up /\ j <> i).
    { intros j J. apply filter_In in J. destruct J as [J P]. apply Nat.ltb_lt in P. apply order_in in J.
      split; [|intros ->; lia]. pose proof (pos_in_G j J P) as JG.
      apply (firstn_or_skipn r) in JG. destruct JG as [?|JG]; auto.
      pose proof (ss_split r G i j G_sorted I JG). simpl in H. lia. }
    assert (N : NoDup up) by (apply NoDup_firstn, G_nd).
    pose proof pos_ge as P.
    apply in_split in I. destruct I as (l1 & l2 & E).
    assert (length (filter (fun i => 0 <? fr i) order) <= length (l1 ++ l2)).
    { apply NoDup_incl_len; [apply NoDup_filter, order_nd|]. intros x X. apply K in X. destruct X as [X Xi].
      rewrite E in X. apply in_app_or in X. apply in_or_app. destruct X as [X|[X|X]]; auto. now subst. }
    assert (length up <= r) by (unfold up; rewrite firstn_length; lia).
    rewrite E in H0. rewrite app_length in *. simpl in H0. lia.
  Qed.
  Lemma res_eq : res = distribute counts order floors r.
  Proof. unfold res, proportional_counts. fold av. destruct (Nat.eqb_spec av 0); [lia|]. reflexivity. Qed.
  Lemma order_lt j : In j order -> j < length floors.
  Proof. intro I. apply order_in in I. unfold floors. now rewrite map_length. Qed.
  Lemma res_nth i : nth i res 0 = fl i + (if existsb (Nat.eqb i) up then 1 else 0).
  Proof. rewrite res_eq, distribute_nth by (auto using order_nd, order_lt). now rewrite floors_nth. Qed.
  Lemma prop_length : length res = n.
  Proof. rewrite res_eq, distribute_length. unfold floors. apply map_length. Qed.
  Lemma prop_sum : list_sum res = total.
  Proof.
    rewrite res_eq, distribute_sum by (auto using order_nd, order_lt). pose proof r_le_G. fold G.
    rewrite Nat.min_l by auto. pose proof floors_le. unfold r. lia.
  Qed.
  Lemma prop_share i : rounded_share total (nth i counts 0) av (nth i res 0).
  Proof.
    rewrite res_nth. destruct (share i) as [E B]. unfold rounded_share.
    destruct (existsb (Nat.eqb i) up) eqn:X; [|nia].
    apply existsb_exists in X. destruct X as (j & I & Q). apply Nat.eqb_eq in Q. subst j. apply up_pos in I. nia.
  Qed.
  Lemma prop_cap i : nth i res 0 <= nth i counts 0.
  Proof. pose proof (prop_share i) as [A _]. nia. Qed.
  Lemma prop_largest i j : i < n -> j < n -> total * nth i counts 0 < av * nth i res 0 -> av * nth j res 0 < total * nth j counts 0 ->
    fr j <= fr i.
  Proof.
    intros Hi Hj. rewrite !res_nth. destruct (share i) as [Ei Bi], (share j) as [Ej Bj].
    destruct (existsb (Nat.eqb i) up) eqn:X; [|nia]. destruct (existsb (Nat.eqb j) up) eqn:Y; [nia|]. intros _ D.
    apply existsb_exists in X. destruct X as (x & I & Q). apply Nat.eqb_eq in Q. subst x.
    pose proof (pos_in_G j Hj ltac:(nia)) as JG. apply (firstn_or_skipn r) in JG. destruct JG as [JG|JG].
    - assert (existsb (Nat.eqb j) up = true) by (apply existsb_exists; exists j; split; auto; apply Nat.eqb_refl). congruence.
    - apply (ss_split r G i j G_sorted I JG).
  Qed.
End Apportion.
